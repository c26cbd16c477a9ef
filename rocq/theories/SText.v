(** Vocabulary for the statements about files. *)
From Coq Require Import String Ascii ZArith Bool List.
From Verif Require Import Num Py MText MModels.
Import ListNotations.

(** The text of a float is a non-empty sequence of the characters of a float
    literal, is not an integer literal, and is read back as the same float. *)
Definition writable {K} `{Text K} (x : K) : Prop :=
  show x <> EmptyString /\ (forall c, In c (s2t (show x)) -> In c (s2t "0123456789.e+-")) /\
  read_int (s2t (show x)) = None /\ read (show x) = Some x.

(** All floats in a value. *)
Fixpoint writable_val {K} `{Text K} (v : pyv K) : Prop :=
  match v with
  | PFlt x => writable x
  | PList l => fold_right (fun v a => writable_val v /\ a) True l
  | _ => True
  end.

(** A name that fits on one line. *)
Definition one_line (s : string) : Prop := ~ In NL (s2t s) /\ ~ In CR (s2t s).

(** A text without line ends. *)
Definition plain (t : text) : Prop := forall c, In c t -> c <> NL /\ c <> CR.

Definition writable_vec {K} `{Text K} (l : list K) : Prop := forall x, In x l -> writable x.
Definition writable_mat {K} `{Text K} (m : list (list K)) : Prop := forall r, In r m -> writable_vec r.
Definition writable_ten {K} `{Text K} (m : list (list (list K))) : Prop := forall r, In r m -> writable_mat r.

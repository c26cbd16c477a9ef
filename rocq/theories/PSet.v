(** Theorems C08-C14: jajapy/base/Set.py *)
From Coq Require Import String ZArith List Bool Permutation Lia.
From Verif Require Import Py MSet SSet LSet.
Import ListNotations.

(** C08: [Set(l)] stores the distinct sequences in order of first occurrence with
    their number of occurrences. *)
Theorem C08_setFromList_is_multiset : forall (A : Type) (eqb : A -> A -> bool) (l : list A),
  decides_eq eqb ->
  setFromList eqb l = (first_occ eqb l, map (fun x => Z.of_nat (occ eqb x l)) (first_occ eqb l))
  /\ zsum (snd (setFromList eqb l)) = Z.of_nat (length l)
  /\ NoDup (first_occ eqb l) /\ (forall x, In x (first_occ eqb l) <-> In x l).
Proof.
  intros A eqb l H. split; [exact (setFromList_spec eqb H l)|]. split; [exact (zsum_setFromList eqb H l)|].
  split; [exact (first_occ_NoDup eqb H l)|exact (first_occ_In eqb H l)].
Qed.
Print Assumptions C08_setFromList_is_multiset.

Example C08_instance : setFromList Nat.eqb [3; 1; 3; 2; 1; 3] = ([3; 1; 2], [3; 2; 1]%Z).
Proof. reflexivity. Qed.

(** C09 *)
Theorem C09_to_list_inverts_set : forall (A : Type) (eqb : A -> A -> bool) (l : list A) t,
  decides_eq eqb ->
  Permutation (to_list (mkset (fst (setFromList eqb l)) (snd (setFromList eqb l)) t)) l.
Proof. intros A eqb l t H. exact (to_list_setFromList eqb H l t). Qed.
Print Assumptions C09_to_list_inverts_set.

Theorem C09_to_list_multiplicities : forall (A : Type) (eqb : A -> A -> bool) (s : tset A) x,
  decides_eq eqb -> length (times s) = length (seqs s) -> pos_set s ->
  Z.of_nat (occ eqb x (to_list s)) = mult eqb s x.
Proof. intros A eqb s x H. exact (to_list_occ eqb s x). Qed.
Print Assumptions C09_to_list_multiplicities.

(** The lower bound 1 on the times is needed: a sequence with times 0 is listed
    once. *)
Theorem C09_to_list_zero_times_refuted :
  exists s : tset nat, wf_set s /\ mult Nat.eqb s 7 = 0%Z /\ occ Nat.eqb 7 (to_list s) = 1.
Proof.
  exists (mkset [7] [0%Z] None). split; [split; [reflexivity|repeat constructor; intros []]|split; reflexivity].
Qed.
Print Assumptions C09_to_list_zero_times_refuted.

Example C09_instance : to_list (mkset [5; 6] [3; 2]%Z None) = [5; 6; 5; 5; 6]
  /\ pos_set (mkset [5; 6] [3; 2]%Z None).
Proof. split; [reflexivity|]. intros t [<-|[<-|[]]]; lia. Qed.

(** C10 *)
Theorem C10_addSet_adds_multiplicities : forall (A : Type) (eqb : A -> A -> bool) (s1 s2 : tset A),
  decides_eq eqb -> wf_set s1 -> length (times s2) = length (seqs s2) -> ty s1 = ty s2 ->
  exists s, addSet eqb s1 s2 = Ok s /\ wf_set s /\ ty s = ty s1 /\
    (exists tl, seqs s = seqs s1 ++ tl) /\
    (forall x, In x (seqs s) <-> In x (seqs s1) \/ In x (seqs s2)) /\
    (forall x, mult eqb s x = (mult eqb s1 x + mult eqb s2 x)%Z).
Proof. intros A eqb s1 s2 H. exact (addSet_spec eqb H s1 s2). Qed.
Print Assumptions C10_addSet_adds_multiplicities.

Theorem C10_addSet_type_error : forall (A : Type) (eqb : A -> A -> bool) (s1 s2 : tset A),
  ty s1 <> ty s2 -> addSet eqb s1 s2 = Err TypeError.
Proof. intros A eqb. exact (addSet_type_error eqb). Qed.
Print Assumptions C10_addSet_type_error.

Example C10_instance : addSet Nat.eqb (mkset [5; 6] [3; 2]%Z (Some 0%Z)) (mkset [7; 5] [1; 4]%Z (Some 0%Z))
  = Ok (mkset [5; 6; 7] [7; 2; 1]%Z (Some 0%Z)).
Proof. reflexivity. Qed.

(** C11 *)
Theorem C11_isEqual_is_multiset_equality : forall (A : Type) (eqb : A -> A -> bool) (s1 s2 : tset A),
  decides_eq eqb -> wf_set s1 -> wf_set s2 ->
  (exists b, isEqual eqb s1 s2 = Ok b) /\
  (isEqual eqb s1 s2 = Ok true <->
   ty s1 = ty s2 /\ (forall x, In x (seqs s1) <-> In x (seqs s2)) /\
   (forall x, mult eqb s1 x = mult eqb s2 x)).
Proof. intros A eqb s1 s2 H. exact (isEqual_spec eqb H s1 s2). Qed.
Print Assumptions C11_isEqual_is_multiset_equality.

(** With positive times, equality of multiplicities is enough. *)
Theorem C11_isEqual_positive_times : forall (A : Type) (eqb : A -> A -> bool) (s1 s2 : tset A),
  decides_eq eqb -> wf_set s1 -> wf_set s2 -> pos_set s1 -> pos_set s2 ->
  (isEqual eqb s1 s2 = Ok true <-> ty s1 = ty s2 /\ forall x, mult eqb s1 x = mult eqb s2 x).
Proof. intros A eqb s1 s2 H. exact (isEqual_pos eqb H s1 s2). Qed.
Print Assumptions C11_isEqual_positive_times.

Example C11_instance : isEqual Nat.eqb (mkset [5; 6] [3; 2]%Z (Some 0%Z)) (mkset [6; 5] [2; 3]%Z (Some 0%Z)) = Ok true
  /\ isEqual Nat.eqb (mkset [5; 6] [3; 2]%Z (Some 0%Z)) (mkset [6; 5] [3; 2]%Z (Some 0%Z)) = Ok false.
Proof. split; reflexivity. Qed.

(** Distinctness is needed: with repeated stored sequences isEqual is not even
    symmetric. *)
Theorem C11_isEqual_duplicates_refuted :
  exists s1 s2 : tset nat, isEqual Nat.eqb s1 s2 = Ok true /\ isEqual Nat.eqb s2 s1 = Ok false.
Proof. exists (mkset [5; 5] [1; 1]%Z None), (mkset [5; 6] [1; 1]%Z None). split; reflexivity. Qed.
Print Assumptions C11_isEqual_duplicates_refuted.

(** C12 *)
Theorem C12_getAlphabet_timed : forall (E : Type) (eqb : E -> E -> bool) (s : tset (list E)),
  decides_eq eqb -> ty s = Some 4%Z ->
  exists al, getAlphabet eqb s = Ok al /\ NoDup al /\ forall x, In x al <-> at_even (seqs s) x.
Proof. intros E eqb s H. exact (getAlphabet_timed eqb H s). Qed.
Print Assumptions C12_getAlphabet_timed.
Theorem C12_getAlphabet_untimed : forall (E : Type) (eqb : E -> E -> bool) (s : tset (list E)),
  decides_eq eqb -> ty s = Some 0%Z ->
  exists al, getAlphabet eqb s = Ok al /\ NoDup al /\ forall x, In x al <-> exists t, In t (seqs s) /\ In x t.
Proof. intros E eqb s H. exact (getAlphabet_untimed eqb H s). Qed.
Print Assumptions C12_getAlphabet_untimed.
Theorem C12_getAlphabet_mdp : forall (E : Type) (eqb : E -> E -> bool) (s : tset (list E)),
  decides_eq eqb -> ty s = Some 1%Z -> (forall t, In t (seqs s) -> Nat.odd (length t) = true) ->
  exists al, getAlphabet eqb s = Ok al /\ NoDup al /\ forall x, In x al <-> at_even (seqs s) x.
Proof. intros E eqb s H. exact (getAlphabet_mdp eqb H s). Qed.
Print Assumptions C12_getAlphabet_mdp.
Theorem C12_actions_observations : forall (E : Type) (eqb : E -> E -> bool) (ss : list (list E)),
  decides_eq eqb -> (forall s, In s ss -> Nat.odd (length s) = true) ->
  exists acts obs, actions_observations eqb ss = Ok (acts, obs) /\ NoDup acts /\ NoDup obs /\
    (forall x, In x acts <-> at_odd ss x) /\ (forall x, In x obs <-> at_even ss x).
Proof. intros E eqb ss H. exact (actions_observations_exact eqb H ss). Qed.
Print Assumptions C12_actions_observations.

Example C12_instance : actions_observations String.eqb [["init"; "m"; "a"]; ["init"; "s"; "b"; "m"; "a"]]%string
  = Ok (["m"; "s"], ["init"; "a"; "b"])%string.
Proof. reflexivity. Qed.

(** C13 *)
Theorem C13_sort_reorders : forall (s : tset (list string)),
  length (times s) = length (seqs s) ->
  let s' := sort trace_eqb trace_leb s in
  ty s' = ty s /\ length (times s') = length (seqs s') /\
  sorted_by trace_leb (seqs s') /\
  Permutation (combine (seqs s) (times s)) (combine (seqs s') (times s')) /\
  Permutation (seqs s) (seqs s') /\
  (forall x, mult trace_eqb s' x = mult trace_eqb s x).
Proof.
  intros s L.
  apply (sort_spec trace_eqb (lex_eqb_decides String.eqb string_eqb_decides) trace_leb); [| | |exact L].
  - apply (lex_total String.eqb String.leb string_eqb_decides string_leb_total).
  - apply (lex_trans String.eqb String.leb string_eqb_decides string_leb_trans string_leb_antisym).
  - apply (lex_antisym String.eqb String.leb string_eqb_decides string_leb_antisym).
Qed.
Print Assumptions C13_sort_reorders.

Example C13_instance :
  sort trace_eqb trace_leb (mkset [["b"]; ["a"; "c"]; ["a"]]%string [1; 2; 3]%Z (Some 0%Z))
  = mkset [["a"]; ["a"; "c"]; ["b"]]%string [3; 2; 1]%Z (Some 0%Z).
Proof. reflexivity. Qed.

(** C14: traces of length at least 2 *)
Theorem C14_type_inference_partial : forall (F : Type) (eqb : list (pv F) -> list (pv F) -> bool) (v0 v1 : pv F) rest ss tms,
  exists s, newSet eqb ((v0 :: v1 :: rest) :: ss) tms None = Ok s /\
  ty s = Some (match v0, v1 with VStr _, VFlt _ => 4 | VVec _, _ => 3 | _, _ => 0 end)%Z.
Proof.
  intros F eqb v0 v1 rest ss tms. unfold newSet. rewrite infer_type_ok. cbn [bind].
  destruct tms; [eexists; split; reflexivity|]. destruct (setFromList eqb _); eexists; split; reflexivity.
Qed.
Print Assumptions C14_type_inference_partial.

(** C14 is false for traces of one observation: the constructor raises. *)
Theorem C14_single_observation_refuted :
  forall (F : Type) (eqb : list (pv F) -> list (pv F) -> bool) o ss tms,
  newSet eqb ([VStr o] :: ss) tms None = Err IndexError.
Proof. reflexivity. Qed.
Print Assumptions C14_single_observation_refuted.

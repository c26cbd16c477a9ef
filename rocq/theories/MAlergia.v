(** Alergia: jajapy/mc/Alergia.py.  Tree nodes are Python objects compared by
    identity; a heap gives to each of them an id, its position in a list. *)
From Coq Require Import String ZArith Bool List.
From Verif Require Import Num Py MTools MSet MModels MCtor.
Import ListNotations.
Local Open Scope num_scope.

(** jajapy/mc/Alergia.py:6-11 [PTA_node] *)
Record pnode := mkNode { nd_label : string; nd_count : Z; nd_kids : list (nat * Z); nd_parent : option nat }.
Definition pheap := list pnode.
Definition no_node : pnode := mkNode EmptyString 0 [] None.
Definition nd (h : pheap) (n : nat) : pnode := nth n h no_node.
Definition kids (h : pheap) (n : nat) : list (nat * Z) := nd_kids (nd h n).
Definition label (h : pheap) (n : nat) : string := nd_label (nd h n).
Definition set_kids (h : pheap) (n : nat) (ks : list (nat * Z)) : pheap :=
  upd h n (mkNode (nd_label (nd h n)) (nd_count (nd h n)) ks (nd_parent (nd h n))).
Definition set_parent (h : pheap) (n : nat) (p : option nat) : pheap :=
  upd h n (mkNode (nd_label (nd h n)) (nd_count (nd h n)) (nd_kids (nd h n)) p).
Definition set_count (h : pheap) (n : nat) (c : Z) : pheap :=
  upd h n (mkNode (nd_label (nd h n)) c (nd_kids (nd h n)) (nd_parent (nd h n))).
Definition set_label (h : pheap) (n : nat) (l : string) : pheap :=
  upd h n (mkNode l (nd_count (nd h n)) (nd_kids (nd h n)) (nd_parent (nd h n))).

(** 13-16 [addKid]: inserted at the position of its label among the sorted
    labels. *)
Definition addKid (h : pheap) (n k : nat) (c : Z) : pheap :=
  let lbls := isort_list String.leb (map (fun kc => label h (fst kc)) (kids h n) ++ [label h k]) in
  let i := match index_of String.eqb (label h k) lbls with Some i => i | None => O end in
  set_kids h n (firstn i (kids h n) ++ (k, c) :: skipn i (kids h n)).

(** 18-22 [findKid] *)
Fixpoint findKid_in (h : pheap) (ks : list (nat * Z)) (l : string) : option nat :=
  match ks with
  | [] => None
  | (k, _) :: ks' => if String.eqb (label h k) l then Some k else findKid_in h ks' l
  end.
Definition findKid (h : pheap) (n : nat) (l : string) : option nat := findKid_in h (kids h n) l.

(** 24-35 [incKid]: the first kid satisfying the test gets c more. *)
Fixpoint inc_in (test : nat -> bool) (ks : list (nat * Z)) (c : Z) : option (list (nat * Z) * nat) :=
  match ks with
  | [] => None
  | (k, w) :: ks' =>
    if test k then Some ((k, (w + c)%Z) :: ks', k)
    else match inc_in test ks' c with None => None | Some (r, j) => Some ((k, w) :: r, j) end
  end.
Definition incKid (h : pheap) (n : nat) (test : nat -> bool) (c : Z) : option (pheap * nat) :=
  match inc_in test (kids h n) c with None => None | Some (ks, k) => Some (set_kids h n ks, k) end.
Definition incKid_label (h : pheap) (n : nat) (l : string) (c : Z) := incKid h n (fun k => String.eqb (label h k) l) c.
Definition incKid_node (h : pheap) (n k : nat) (c : Z) := incKid h n (Nat.eqb k) c.

(** 37-42 [replaceKid] *)
Fixpoint replace_in (ks : list (nat * Z)) (s1 s2 : nat) : list (nat * Z) :=
  match ks with
  | [] => []
  | (k, c) :: ks' => if (k =? s1)%nat then (s2, c) :: ks' else (k, c) :: replace_in ks' s1 s2
  end.
Definition replaceKid (h : pheap) (n s1 s2 : nat) : pheap := set_kids h n (replace_in (kids h n) s1 s2).

(** ** The prefix tree *)

(** 66-72 [addKids]: [PTA_node(l,n)] is a new object; [n.kids[-1][0]]. *)
Fixpoint addKids (h : pheap) (n : nat) (tr : list string) (c : Z) : pheap * nat :=
  match tr with
  | [] => (h, n)
  | l :: tr' =>
    let h' := addKid (h ++ [mkNode l 0 [] (Some n)]) n (length h) c in
    addKids h' (fst (last (kids h' n) (O, 0%Z))) tr' c
  end.

(** 50-64: one trace.  Once addKids is used the rest of the trace is not read
    any more: its symbols are not added to the alphabet. *)
Fixpoint pta_trace (h : pheap) (alphabet : list string) (node : nat) (tr : list string) (time : Z) : pheap * list string :=
  match tr with
  | [] => (set_count h node time, alphabet)
  | ch :: tr' =>
    let alphabet := if memb String.eqb ch alphabet then alphabet else alphabet ++ [ch] in
    match incKid_label h node ch time with
    | Some (h', k) => pta_trace h' alphabet k tr' time
    | None => let (h', n) := addKids h node tr time in (set_count h' n time, alphabet)
    end
  end.

(** 45-64 [PTA.__init__] on the sorted traces; the root is node 0. *)
Definition pta_root : pheap := [mkNode EmptyString 0 [] None].
Definition pta_build (traces : list (list string * Z)) : pheap * list string :=
  fold_left (fun ha t => pta_trace (fst ha) (snd ha) 0 (fst t) (snd t)) traces (pta_root, []).

(** 241-246 [createPTA] and 48: the training set is sorted in place, twice.  The
    result is the training set afterwards. *)
Definition alergia_sort (eqb leb : list string -> list string -> bool) (s : tset (list string)) : tset (list string) :=
  let ss := isort_list leb (seqs s) in
  let ts := map (fun x => match index_of eqb x (seqs s) with Some i => nth i (times s) 0%Z | None => 0%Z end) ss in
  sort eqb leb (mkset ss ts (ty s)).

Section Alergia.
  Context {K : Type} `{Num K} `{Trans K}.

  (** 74-104 [compatible]; [None] when the fuel is used up. *)
  Fixpoint all_opt (l : list (option bool)) : option bool :=
    match l with
    | [] => Some true
    | None :: _ => None
    | Some false :: _ => Some false
    | Some true :: l' => all_opt l'
    end.
  Definition leaving (h : pheap) (n : nat) : Z := fold_right (fun kc a => (snd kc + a)%Z) 0%Z (kids h n).
  (** [leaving1[k.label] = f] in order: the last one counts. *)
  Definition freq (h : pheap) (n : nat) (o : string) : Z :=
    fold_left (fun a kc => if String.eqb (label h (fst kc)) o then snd kc else a) (kids h n) 0%Z.
  Definition local_ok (h : pheap) (n m : nat) (alpha : K) : bool :=
    forallb (fun o => hoeffdingBound (nofZ (freq h n o)) (nofZ (leaving h n)) (nofZ (freq h m o)) (nofZ (leaving h m)) alpha)
            (map (fun kc => label h (fst kc)) (kids h n) ++ map (fun kc => label h (fst kc)) (kids h m)).
  Fixpoint compatible (fuel : nat) (h : pheap) (alphabet : list string) (alpha : K) (s1 s2 : option nat) : option bool :=
    match fuel with
    | O => None
    | S fuel' =>
      match s1, s2 with
      | Some n, Some m =>
        if negb (String.eqb (label h n) (label h m)) then Some false
        else if (leaving h n * leaving h m =? 0)%Z then Some true
        else if negb (local_ok h n m alpha) then Some false
        else all_opt (map (fun ch => compatible fuel' h alphabet alpha (findKid h n ch) (findKid h m ch)) alphabet)
      | _, _ => Some true
      end
    end.

  (** 111-120 [fold]: the kids of s2 (which does not change during the loop: s1
      is not in its subtree). *)
  Fixpoint pfold (fuel : nat) (h : pheap) (s1 s2 : nat) : option pheap :=
    match fuel with
    | O => None
    | S fuel' =>
      fold_left (fun (oh : option pheap) (kc : nat * Z) =>
        match oh with
        | None => None
        | Some h =>
          let (k2, c) := kc in
          match findKid h s1 (label h k2) with
          | None => Some (set_parent (addKid h s1 k2 c) k2 (Some s1))
          | Some k1 =>
            let h1 := set_count h k1 (nd_count (nd h k1) + nd_count (nd h k2))%Z in
            let h2 := match incKid_node h1 s1 k1 c with Some (h2, _) => h2 | None => h1 end in
            pfold fuel' h2 k1 k2
          end
        end) (kids h s2) (Some h)
    end.

  (** 106-109 [merge].  The root has no parent: AttributeError; it is never
      merged into another node. *)
  Definition pmerge (fuel : nat) (h : pheap) (s1 s2 : nat) : option pheap :=
    let h1 := set_count h s1 (nd_count (nd h s1) + nd_count (nd h s2))%Z in
    match nd_parent (nd h1 s2) with
    | None => None
    | Some p => pfold fuel (replaceKid h1 p s2 s1) s1 s2
    end.

  (** 196-200: the first compatible red node. *)
  Fixpoint first_compatible (fuel : nat) (h : pheap) (alphabet : list string) (alpha : K) (s1 : nat) (red : list nat) : option (option nat) :=
    match red with
    | [] => Some None
    | s2 :: red' =>
      match compatible fuel h alphabet alpha (Some s1) (Some s2) with
      | None => None
      | Some true => Some (Some s2)
      | Some false => first_compatible fuel h alphabet alpha s1 red'
      end
    end.

  (** 203-205 *)
  Definition blue_of (h : pheap) (red : list nat) : list nat :=
    fold_left (fun blue s => blue ++ filter (fun k => negb (memb Nat.eqb k red || memb Nat.eqb k blue)) (map fst (kids h s))) red [].

  (** 193-205 *)
  Fixpoint alergia_loop (fuel : nat) (h : pheap) (alphabet : list string) (alpha : K) (red blue : list nat) : option pheap :=
    match blue with
    | [] => Some h
    | s1 :: _ =>
      match fuel with
      | O => None
      | S fuel' =>
        match first_compatible fuel h alphabet alpha s1 red with
        | None => None
        | Some (Some s2) =>
          match pmerge fuel h s2 s1 with
          | None => None
          | Some h' => alergia_loop fuel' h' alphabet alpha red (blue_of h' red)
          end
        | Some None => let red' := red ++ [s1] in alergia_loop fuel' h alphabet alpha red' (blue_of h red')
        end
      end
    end.

  (** 136-144: breadth-first search. *)
  Fixpoint bfs (fuel : nat) (h : pheap) (states temp : list nat) : option (list nat) :=
    match temp with
    | [] => Some states
    | n :: temp' =>
      match fuel with
      | O => None
      | S fuel' =>
        let st := fold_left (fun st kc => if memb Nat.eqb (fst kc) (fst st) then st
                                          else (fst st ++ [fst kc], snd st ++ [fst kc])) (kids h n) (states, temp') in
        bfs fuel' h (fst st) (snd st)
      end
    end.

  (** 146-151: one row. *)
  Definition mc_row (h : pheap) (states : list nat) (s : nat) : list K :=
    let row := fold_left (fun row kc => match index_of Nat.eqb (fst kc) states with
                                        | Some j => upd row j (nofZ (snd kc)) | None => row end)
                         (kids h s) (vzeros (length states)) in
    if existsb (fun x => n0 <? x) row then map (fun x => x / nsum row) row else row.

  (** 125-153 [toMC]; the default name is not modelled. *)
  Definition toMC (fuel : nat) (h : pheap) (alphabet : list string) (name : string) : option (res (mc K)) :=
    let start :=
      if memb String.eqb "init"%string alphabet then
        match kids h 0 with
        | [(k, _)] => if String.eqb (label h k) "init" then Ok (h, k) else Err SyntaxError
        | _ => Err SyntaxError
        end
      else Ok (set_label h 0 "init"%string, O) in
    match start with
    | Err e => Some (Err e)
    | Ok (h', root) =>
      match bfs fuel h' [root] [root] with
      | None => None
      | Some states => Some (MC_new (map (mc_row h' states) states) (map (label h') states) name)
      end
    end.

  (** 165-223 [fit] with stormpy_output=False: the model, and the training set
      after the call.  [prism] says that output_file_prism is given: then
      [self.h.savePrism] raises AttributeError, since [self.h] does not exist. *)
  Definition alergia_fit (eqb leb : list string -> list string -> bool) (fuel : nat) (s : tset (list string)) (alpha : K)
      (prism : bool) (name : string) : option (res (mc K)) * tset (list string) :=
    let s' := alergia_sort eqb leb s in
    let (h, alphabet) := pta_build (combine (seqs s') (times s')) in
    (match alergia_loop fuel h alphabet alpha [O] (map fst (kids h 0)) with
     | None => None
     | Some h' =>
       match toMC fuel h' alphabet name with
       | None => None
       | Some (Err e) => Some (Err e)
       | Some (Ok m) => Some (if prism then Err AttributeError else Ok m)
       end
     end, s').
End Alergia.

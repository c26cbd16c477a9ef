(** Lemmas on the composition of parametric CTMCs. *)
From Coq Require Import String Ascii NArith Nnat ZArith Bool Reals Lra Lia Arith Permutation List.
From Verif Require Import Num Py MTools MSet MModels MCtor MPctmc MCompose MPCompose SNum SSet SCtor SPctmc SCompose SPCompose LSum LSet LCtor LBW LPctmc LText LAlergia LCompose.
Import ListNotations.
Local Open Scope R_scope.

Definition small (t : nat) : Prop := (Z.of_nat t <= 65536)%Z.
Lemma mod16 t : (Z.of_nat t < 65536)%Z -> N.to_nat (N.of_nat t mod 65536)%N = t.
Proof. intros L. rewrite N.mod_small; [apply Nat2N.id|]. lia. Qed.

Lemma find_or_add_ok (te : list (expr R)) e te' t : nth O te (EConst 0) = EConst 0 -> (0 < length te)%nat ->
  (forall k, (0 < k < length te)%nat -> nth k te (EConst 0) <> EConst 0) ->
  find_or_add te e = (te', t) ->
  (t < length te')%nat /\ nth t te' (EConst 0) = e /\ (length te <= length te' <= S (length te))%nat /\
  (forall k, (k < length te)%nat -> nth k te' (EConst 0) = nth k te (EConst 0)) /\
  (forall k, (0 < k < length te')%nat -> nth k te' (EConst 0) <> EConst 0).
Proof.
  intros Z0 LT NZ. unfold find_or_add. destruct (index_of expr_eqb e te) as [k|] eqn:IX; intros [= <- <-].
  - assert (IX2 := LSet.index_of_first expr_eqb expr_eqb_eq _ _ _ IX). apply (LCtor.index_of_Some expr_eqb expr_eqb_eq) in IX. split; [apply nth_error_Some; congruence|]. split; [apply (nth_error_nth _ _ _ IX)|]. repeat split; auto; lia.
  - rewrite app_length. cbn [length]. split; [lia|]. split; [rewrite app_nth2, Nat.sub_diag by lia; reflexivity|]. split; [lia|]. split; [intros k Lk; apply app_nth1; exact Lk|].
    intros k Lk. destruct (Nat.eq_dec k (length te)) as [->|NE]; [|rewrite app_nth1 by lia; apply NZ; lia]. rewrite app_nth2, Nat.sub_diag by lia. cbn. intros ->.
    assert (I : In (EConst 0) te) by (rewrite <- Z0; apply nth_In; exact LT). destruct (LCtor.index_of_In expr_eqb expr_eqb_eq _ _ I). congruence.
Qed.

(** ** The invariant *)
Definition pinv (N : nat) (ps : list string) (b : build R) (W : nat -> nat -> expr R) (P : string -> nat * nat -> Prop) : Prop :=
  length (b_mat b) = N /\ (forall x, (x < N)%nat -> length (nth x (b_mat b) []) = N) /\
  (forall x y, (x < N)%nat -> (y < N)%nat -> (nth y (nth x (b_mat b) []) O < length (b_te b))%nat /\ nth (nth y (nth x (b_mat b) []) O) (b_te b) (EConst 0) = W x y) /\
  length (b_pi b) = length ps /\ b_ps b = ps /\
  (forall q, (q < length ps)%nat -> forall c, In c (nth q (b_pi b) []) <-> (fst c < N)%nat /\ (snd c < N)%nat /\ P (nth q ps EmptyString) c) /\
  nth O (b_te b) (EConst 0) = EConst 0 /\ (0 < length (b_te b))%nat /\
  (forall k, (0 < k < length (b_te b))%nat -> nth k (b_te b) (EConst 0) <> EConst 0).
Lemma pinv_ext N ps b W P W' P' : (forall x y, (x < N)%nat -> (y < N)%nat -> W' x y = W x y) -> (forall k c, (fst c < N)%nat -> (snd c < N)%nat -> P' k c <-> P k c) ->
  pinv N ps b W P -> pinv N ps b W' P'.
Proof.
  intros EW EP (L & LR & EN & LP & PS & PI & R). split; [exact L|]. split; [exact LR|]. split; [intros x y Lx Ly; rewrite EW by assumption; apply EN; assumption|]. split; [exact LP|]. split; [exact PS|]. split; [|exact R].
  intros q Lq c. rewrite (PI q Lq c). split; intros (A & B & C); (split; [exact A|split; [exact B|]]); apply EP; assumption.
Qed.

Lemma add_pi_ok (x y : nat) inds : forall pi : list (list (nat * nat)), (forall i, In i inds -> (i < length pi)%nat) ->
  exists pi', mfold (fun pi ind => if (ind <? length pi)%nat then Ok (upd pi ind (nth ind pi [] ++ [(x, y)])) else Err IndexError) inds pi = Ok pi' /\ length pi' = length pi /\
    forall q c, (q < length pi)%nat -> In c (nth q pi' []) <-> In c (nth q pi []) \/ (c = (x, y) /\ In q inds).
Proof.
  induction inds as [|i inds IH]; intros pi R; [exists pi; split; [reflexivity|]; split; [reflexivity|]; intros q c _; cbn; tauto|].
  cbn [mfold]. assert (Li := R i (or_introl eq_refl)). rewrite (proj2 (Nat.ltb_lt _ _) Li). cbn [bind]. destruct (IH (upd pi i (nth i pi [] ++ [(x, y)]))) as (pi' & E & L & S); [intros k I; rewrite LCtor.upd_length; apply R; right; exact I|].
  exists pi'. split; [exact E|]. split; [rewrite L; apply LCtor.upd_length|]. intros q c Lq. rewrite S by (rewrite LCtor.upd_length; exact Lq). rewrite LCtor.upd_nth by exact Li. destruct (Nat.eqb_spec i q) as [->|NE].
  - rewrite in_app_iff. cbn [In]. split; [intros [[I|[<-|[]]]|[-> I]]; auto|]. intros [I|[-> _]]; auto.
  - cbn [In]. split; [intros [I|[-> I]]; auto|]. intros [I|[-> [E2|I]]]; auto. congruence.
Qed.
Lemma put_cells16_ok t inds cells N : forall b : build R, (Z.of_nat t < 65536)%Z -> length (b_mat b) = N -> (forall x, (x < N)%nat -> length (nth x (b_mat b) []) = N) ->
  (forall c, In c cells -> (fst c < N)%nat /\ (snd c < N)%nat) -> (forall i, In i inds -> (i < length (b_pi b))%nat) ->
  exists b', mfold (fun b c => put_cell16 t inds b (fst c) (snd c)) cells b = Ok b' /\
  b_te b' = b_te b /\ b_ps b' = b_ps b /\ length (b_mat b') = N /\ (forall x, (x < N)%nat -> length (nth x (b_mat b') []) = N) /\
  (forall x y, nth y (nth x (b_mat b') []) O = if memb cell_eqb (x, y) cells then t else nth y (nth x (b_mat b) []) O) /\
  length (b_pi b') = length (b_pi b) /\ (forall q c, (q < length (b_pi b))%nat -> In c (nth q (b_pi b') []) <-> In c (nth q (b_pi b) []) \/ (In c cells /\ In q inds)).
Proof.
  induction cells as [|c cells IH]; intros b T L LR CI RI.
  - exists b. cbn. repeat split; auto. intros [I|[[] _]]; exact I.
  - destruct (CI c (or_introl eq_refl)) as [C1 C2]. cbn [mfold]. unfold put_cell16 at 1. destruct (add_pi_ok (fst c) (snd c) inds (b_pi b) RI) as (pi' & EP & LP & SP). rewrite EP. cbn [bind].
    set (b1 := mkB (put16 (b_mat b) (fst c) (snd c) t) (b_te b) (b_ps b) (b_pv b) pi'). assert (M1 : b_mat b1 = mat_set (b_mat b) (fst c) (snd c) t) by (cbn [b1 b_mat]; unfold put16; rewrite mod16 by exact T; reflexivity).
    destruct (mat_set_shape (b_mat b) N (fst c) (snd c) t L LR C1 C2) as [S1 S2].
    destruct (IH b1 T) as (b' & E & E1 & E2 & E4 & E5 & E6 & E7 & E8).
    + rewrite M1. exact S1.
    + intros x Lx. rewrite M1. apply S2, Lx.
    + intros d I. apply CI. right. exact I.
    + intros i I. cbn [b1 b_pi]. rewrite LP. apply RI, I.
    + exists b'. split; [exact E|]. split; [exact E1|]. split; [exact E2|]. split; [exact E4|]. split; [exact E5|]. split; [|split].
      * intros x y. rewrite E6, M1, (mat_set_nth _ N) by assumption. unfold memb. cbn [existsb]. destruct (existsb (cell_eqb (x, y)) cells); [rewrite orb_true_r; reflexivity|]. rewrite orb_false_r.
        unfold cell_eqb. cbn [fst snd]. rewrite (Nat.eqb_sym x), (Nat.eqb_sym y). reflexivity.
      * rewrite E7. cbn [b1 b_pi]. exact LP.
      * intros q d Lq. rewrite E8 by (cbn [b1 b_pi]; lia). cbn [b1 b_pi]. rewrite SP by exact Lq. cbn [In]. assert (X : d = (fst c, snd c) <-> c = d) by (destruct c; cbn; split; congruence). rewrite X. tauto.
Qed.

(** ** Declared names *)
Lemma add_names_ok ps names : NoDup ps -> (forall k, In k names -> In k ps) ->
  exists inds, add_names ps names = (ps, inds) /\ (forall i, In i inds -> (i < length ps)%nat) /\ (forall q, (q < length ps)%nat -> In q inds <-> In (nth q ps EmptyString) names).
Proof.
  intros ND. unfold add_names. assert (G : forall l acc, (forall k, In k l -> In k ps) -> exists inds, fold_left (fun (st : list string * list nat) p => let (ps, inds) := st in
                 match index_of String.eqb p ps with Some k => (ps, inds ++ [k]) | None => (ps ++ [p], inds ++ [length ps]) end) l (ps, acc) = (ps, acc ++ inds) /\
      (forall i, In i inds -> (i < length ps)%nat) /\ (forall q, (q < length ps)%nat -> In q inds <-> In (nth q ps EmptyString) l)).
  { induction l as [|k l IH]; intros acc D; [exists []; rewrite app_nil_r; split; [reflexivity|]; split; [intros i []|]; intros q _; cbn; tauto|].
    cbn [fold_left]. destruct (LCtor.index_of_In String.eqb String.eqb_eq k ps) as [i Ei]; [apply D; left; reflexivity|]. rewrite Ei. destruct (IH (acc ++ [i])) as (inds & E & A & B); [intros x I; apply D; right; exact I|].
    exists (i :: inds). rewrite E, <- app_assoc. apply (LCtor.index_of_Some String.eqb String.eqb_eq) in Ei. assert (Li : (i < length ps)%nat) by (apply nth_error_Some; congruence). apply (nth_error_nth _ _ EmptyString) in Ei.
    split; [reflexivity|]. split; [intros x [<-|I]; [exact Li|apply A, I]|]. intros q Lq. cbn [In]. rewrite (B q Lq). split; [intros [<-|I]; auto|]. intros [Ek|I]; [left|auto]. apply (proj1 (NoDup_nth ps EmptyString) ND); [exact Li|exact Lq|congruence]. }
  intros D. destruct (G names [] D) as (inds & E & A & B). exists inds. auto.
Qed.
Lemma involved_occurs (m : pctmc R) i j k : In k (involvedParameters m i (Some j)) <-> occurs k (transition m i j).
Proof.
  unfold involvedParameters. rewrite (proj2 (LSet.dedup_exact String.eqb string_eqb_decides _)). cbn [flat_map]. rewrite app_nil_r. apply symbols_occurs.
Qed.

Section Phases.
  Variables n1 n2 : nat.
  Hypothesis P2 : (0 < n2)%nat.
  Notation N := (n1 * n2)%nat.
  Variable ps : list string.
  Hypothesis ND : NoDup ps.
  Lemma add_in_matrix16_eq t first i j inds (b : build R) : (i < size n1 n2 first)%nat -> (j < size n1 n2 first)%nat ->
    add_in_matrix16 (seq 0 n1) (seq 0 n2) t i j first inds b = mfold (fun b c => put_cell16 t inds b (fst c) (snd c)) (cells n1 n2 first i j) b.
  Proof.
    unfold size, add_in_matrix16, cells.
    assert (G : forall (f : build R -> nat -> res (build R)) (g : nat -> nat * nat) l b, (forall b k, In k l -> f b k = put_cell16 t inds b (fst (g k)) (snd (g k))) -> mfold f l b = mfold (fun b c => put_cell16 t inds b (fst c) (snd c)) (map g l) b).
    { intros f g l. induction l as [|k l IH]; intros b' E; [reflexivity|]. cbn [mfold map]. rewrite E by (left; reflexivity). destruct (put_cell16 t inds b' (fst (g k)) (snd (g k))); [|reflexivity]. cbn [bind]. apply IH. intros b2 k' I. apply E. right. exact I. }
    destruct first; intros Li Lj; apply G; intros b' k I; apply in_seq in I; rewrite !state_index_ok by lia; reflexivity.
  Qed.
  Section Component.
    Variable first : bool.
    Variable m : pctmc R.
    Hypothesis DEC : forall x y k, (x < size n1 n2 first)%nat -> (y < size n1 n2 first)%nat -> occurs k (transition m x y) -> In k ps.
    Lemma add_transition_ok b W P i j : (i < size n1 n2 first)%nat -> (j < size n1 n2 first)%nat -> pinv N ps b W P -> (Z.of_nat (length (b_te b)) < 65536)%Z ->
      exists b', add_transition (seq 0 n1) (seq 0 n2) m first b (i, j) = Ok b' /\
        pinv N ps b' (with_cells (cells n1 n2 first i j) (transition m i j) W) (fun k c => P k c \/ (In c (cells n1 n2 first i j) /\ occurs k (transition m i j))) /\
        (length (b_te b') <= S (length (b_te b)))%nat.
    Proof.
      intros Li Lj (L & LR & EN & LP & PS & PI & Z0 & LT & NZ) T. unfold add_transition. rewrite transition_eq. destruct (find_or_add (b_te b) (transition m i j)) as [te t] eqn:FA. apply find_or_add_ok in FA as (T1 & T2 & T3 & T4 & T5); [|assumption..].
      rewrite PS. destruct (add_names_ok ps (involvedParameters m i (Some j)) ND) as (inds & EI & I1 & I2). { intros k I. apply involved_occurs in I. apply (DEC i j k Li Lj I). } rewrite EI. rewrite add_in_matrix16_eq by assumption.
      destruct (put_cells16_ok t inds (cells n1 n2 first i j) N (mkB (b_mat b) te ps (b_pv b) (b_pi b))) as (b' & E & E1 & E2 & E4 & E5 & E6 & E7 & E8); cbn [b_mat b_te b_pi b_ps]; [lia|exact L|exact LR| |intros k I; rewrite LP; apply I1, I|].
      { intros [x y] I. apply (cells_In n1 n2 P2) in I; [|assumption|assumption]. cbn. tauto. }
      cbn [b_mat b_te b_pi b_ps] in *. exists b'. split; [exact E|]. split; [|rewrite E1; lia].
      split; [exact E4|]. split; [exact E5|]. split; [|split; [lia|split; [exact E2|split; [|rewrite E1; split; [rewrite T4 by lia; exact Z0|split; [lia|exact T5]]]]]].
      - intros x y Lx Ly. rewrite E6, E1. unfold with_cells. destruct (memb cell_eqb (x, y) (cells n1 n2 first i j)); [auto|]. destruct (EN x y Lx Ly) as [A B]. split; [lia|]. rewrite T4 by exact A. exact B.
      - intros q Lq c. rewrite E8 by lia. rewrite (PI q Lq c). rewrite (I2 q Lq), involved_occurs. split; [|tauto]. intros [(A & B & C)|[I O]]; [tauto|]. destruct c as [x y]. pose proof I as I'. apply (cells_In n1 n2 P2) in I'; [|assumption|assumption]. cbn. tauto.
    Qed.
    Definition Wq (l : list (nat * nat)) (W : nat -> nat -> expr R) : nat -> nat -> expr R := fun x y =>
      if (Nat.eqb (oth n2 first x) (oth n2 first y) && memb cell_eqb (own n2 first x, own n2 first y) l)%bool then transition m (own n2 first x) (own n2 first y) else W x y.
    Definition Pq (l : list (nat * nat)) (P : string -> nat * nat -> Prop) : string -> nat * nat -> Prop := fun k c =>
      P k c \/ (oth n2 first (fst c) = oth n2 first (snd c) /\ In (own n2 first (fst c), own n2 first (snd c)) l /\ occurs k (transition m (own n2 first (fst c)) (own n2 first (snd c)))).
    Lemma transitions_ok l : forall b W P, (forall i j, In (i, j) l -> (i < size n1 n2 first)%nat /\ (j < size n1 n2 first)%nat) ->
      pinv N ps b W P -> (Z.of_nat (length (b_te b) + length l) <= 65536)%Z ->
      exists b', mfold (add_transition (seq 0 n1) (seq 0 n2) m first) l b = Ok b' /\ pinv N ps b' (Wq l W) (Pq l P) /\ (length (b_te b') <= length (b_te b) + length l)%nat.
    Proof.
      induction l as [|[i j] l IH]; intros b W P RG BI BD.
      - exists b. split; [reflexivity|]. split; [|cbn; lia]. apply (pinv_ext N ps b W P); [|intros k c _ _; unfold Pq; cbn; tauto|exact BI]. intros x y _ _. unfold Wq. cbn. rewrite andb_false_r. reflexivity.
      - destruct (RG i j (or_introl eq_refl)) as [Li Lj]. cbn [length] in BD. destruct (add_transition_ok b W P i j Li Lj BI) as (b1 & E1 & B1 & T1); [lia|]. cbn [mfold]. rewrite E1. cbn [bind].
        destruct (IH b1 (with_cells (cells n1 n2 first i j) (transition m i j) W) (fun k c => P k c \/ (In c (cells n1 n2 first i j) /\ occurs k (transition m i j)))) as (b' & E' & B' & T').
        + intros a c I. apply RG. right. exact I.
        + exact B1.
        + lia.
        + exists b'. split; [exact E'|]. split; [|cbn [length]; lia]. apply (pinv_ext N ps b') with (3 := B').
          * intros x y Lx Ly. unfold Wq, with_cells. unfold memb at 1. cbn [existsb]. fold (memb cell_eqb (own n2 first x, own n2 first y) l).
            destruct (memb cell_eqb (x, y) (cells n1 n2 first i j)) eqn:M.
            -- apply (LCtor.memb_In _ cell_eqb_eq), (cells_In n1 n2 P2) in M as (_ & _ & F0 & F1 & F2); [|assumption|assumption]. rewrite F1, F2, F0, Nat.eqb_refl. rewrite (proj2 (cell_eqb_eq (i, j) (i, j)) eq_refl). cbn [andb orb]. destruct (memb cell_eqb (i, j) l); reflexivity.
            -- destruct (Nat.eqb_spec (oth n2 first x) (oth n2 first y)) as [F0|]; cbn [andb]; [|reflexivity]. destruct (cell_eqb (own n2 first x, own n2 first y) (i, j)) eqn:C; [|reflexivity].
               apply cell_eqb_eq in C. injection C as F1 F2. exfalso. assert (I : In (x, y) (cells n1 n2 first i j)) by (apply (cells_In n1 n2 P2); auto). apply (LCtor.memb_In _ cell_eqb_eq) in I. congruence.
          * intros k [x y] Lx Ly. unfold Pq. cbn [fst snd In] in *. rewrite (cells_In n1 n2 P2) by assumption. split.
            -- intros [H|(F0 & [F|F] & O)]; [auto| |tauto]. injection F as F1 F2. left. right. rewrite F1, F2. repeat split; auto.
            -- intros [[H|((_ & _ & F0 & F1 & F2) & O)]|H]; [auto| |tauto]. right. rewrite F1, F2. auto.
    Qed.
  End Component.

  (** ** Pairs of self loops *)
  Section Loops.
    Variables m1 m2 : pctmc R.
    Definition both (ij : nat * nat) : bool := negb ((ref m1 (fst ij) (fst ij) =? 0)%nat || (ref m2 (snd ij) (snd ij) =? 0)%nat).
    Definition Wl (l : list (nat * nat)) (W : nat -> nat -> expr R) : nat -> nat -> expr R := fun x y =>
      if (Nat.eqb x y && memb cell_eqb (dm n2 x) l && both (dm n2 x))%bool then EAdd (transition m1 (x / n2)%nat (x / n2)%nat) (transition m2 (x mod n2)%nat (x mod n2)%nat) else W x y.
    Lemma loops_ok l : forall b W P, (forall i j, In (i, j) l -> (i < n1)%nat /\ (j < n2)%nat) ->
      pinv N ps b W P -> (Z.of_nat (length (b_te b) + length l) <= 65536)%Z ->
      exists b', mfold (add_loop16 (seq 0 n1) (seq 0 n2) m1 m2) l b = Ok b' /\ pinv N ps b' (Wl l W) P /\ (length (b_te b') <= length (b_te b) + length l)%nat.
    Proof.
      induction l as [|[i j] l IH]; intros b W P RG BI BD.
      - exists b. split; [reflexivity|]. split; [|cbn; lia]. apply (pinv_ext N ps b W P); [|tauto|exact BI]. intros x y _ _. unfold Wl. cbn [memb existsb]. rewrite andb_false_r. reflexivity.
      - destruct (RG i j (or_introl eq_refl)) as [Li Lj]. cbn [length mfold] in BD |- *. unfold add_loop16 at 1.
        assert (BO : ((ref m1 i i =? 0)%nat || (ref m2 j j =? 0)%nat)%bool = negb (both (i, j))) by (unfold both; rewrite negb_involutive; reflexivity). rewrite BO. destruct (both (i, j)) eqn:BT; cbn [negb].
        + pose proof BI as (L & LR & EN & LP & PS & PI & Z0 & LT & NZ). rewrite (transition_eq m1 i i), (transition_eq m2 j j). destruct (find_or_add (b_te b) (EAdd (transition m1 i i) (transition m2 j j))) as [te t] eqn:FA. apply find_or_add_ok in FA as (T1 & T2 & T3 & T4 & T5); [|assumption..].
          rewrite state_index_ok by assumption. cbn [bind]. set (x0 := (i * n2 + j)%nat). assert (Lx0 : (x0 < N)%nat) by (apply idx_lt; assumption). destruct (divmod n2 P2 i j Lj) as [D1 D2]. fold x0 in D1, D2.
          destruct (mat_set_shape (b_mat b) N x0 x0 t L LR Lx0 Lx0) as [S1 S2].
          set (b1 := mkB (put16 (b_mat b) x0 x0 t) te (b_ps b) (b_pv b) (b_pi b)). assert (M1 : b_mat b1 = mat_set (b_mat b) x0 x0 t) by (cbn [b1 b_mat]; unfold put16; rewrite mod16 by lia; reflexivity).
          assert (B1 : pinv N ps b1 (with_cells [(x0, x0)] (EAdd (transition m1 i i) (transition m2 j j)) W) P).
          { split; [rewrite M1; exact S1|]. split; [intros x Lx; rewrite M1; apply S2, Lx|]. split; [|split; [exact LP|split; [exact PS|split; [exact PI|cbn [b1 b_te]; split; [rewrite T4 by lia; exact Z0|split; [lia|exact T5]]]]]].
            intros x y Lx Ly. rewrite M1, (mat_set_nth _ N) by assumption. cbn [b1 b_te]. unfold with_cells, memb. cbn [existsb]. rewrite orb_false_r. unfold cell_eqb. cbn [fst snd]. rewrite (Nat.eqb_sym x), (Nat.eqb_sym y).
            destruct (Nat.eqb x0 x && Nat.eqb x0 y)%bool; [auto|]. destruct (EN x y Lx Ly) as [A B]. split; [lia|]. rewrite T4 by exact A. exact B. }
          destruct (IH b1 _ P (fun a c I => RG a c (or_intror I)) B1) as (b' & E' & B' & T'); [cbn [b1 b_te]; lia|].
          exists b'. split; [exact E'|]. split; [|cbn [b1 b_te] in T'; lia]. apply (pinv_ext N ps b') with (3 := B'); [|tauto].
          intros x y Lx Ly. unfold Wl, with_cells. unfold memb at 1 3. cbn [existsb]. fold (memb cell_eqb (dm n2 x) l). rewrite orb_false_r.
          destruct (cell_eqb (x, y) (x0, x0)) eqn:C.
          * apply cell_eqb_eq in C. injection C as -> ->. unfold dm. rewrite D1, D2, Nat.eqb_refl, BT, (proj2 (cell_eqb_eq _ _) eq_refl). cbn [andb orb]. destruct (memb cell_eqb (i, j) l); reflexivity.
          * destruct (Nat.eqb_spec x y) as [<-|]; cbn [andb]; [|reflexivity]. destruct (cell_eqb (dm n2 x) (i, j)) eqn:C2; [|reflexivity]. apply cell_eqb_eq in C2. unfold dm in C2. injection C2 as F1 F2.
            exfalso. assert (x = x0) by (unfold x0; rewrite <- F1, <- F2; symmetry; apply idx_dm; exact P2). subst x. rewrite (proj2 (cell_eqb_eq _ _) eq_refl) in C. discriminate.
        + cbn [bind]. destruct (IH b W P (fun a c I => RG a c (or_intror I)) BI) as (b' & E' & B' & T'); [lia|]. exists b'. split; [exact E'|]. split; [|lia]. apply (pinv_ext N ps b') with (3 := B'); [|tauto].
          intros x y Lx Ly. unfold Wl. unfold memb at 1. cbn [existsb]. fold (memb cell_eqb (dm n2 x) l). destruct (cell_eqb (dm n2 x) (i, j)) eqn:C2; [|reflexivity]. apply cell_eqb_eq in C2. rewrite C2, BT, !andb_false_r. reflexivity.
    Qed.
  End Loops.

  (** ** The initial state *)
  Lemma extend16_ok b W P : pinv N ps b W P -> (forall k c, P k c -> (fst c < N)%nat /\ (snd c < N)%nat) ->
    pinv (S N) ps (mkB (map (fun r => r ++ [O]) (b_mat b ++ [repeat O N])) (b_te b) (b_ps b) (b_pv b) (b_pi b)) (Wext N W) P.
  Proof.
    intros (L & LR & EN & LP & PS & PI & Z0 & LT & NZ) PR.
    assert (NT : forall x, (x < S N)%nat -> nth x (map (fun r => r ++ [O]) (b_mat b ++ [repeat O N])) [] = (if Nat.ltb x N then nth x (b_mat b) [] else repeat O N) ++ [O]).
    { intros x Lx. rewrite (nth_indep _ [] ([] ++ [O])) by (rewrite map_length, app_length; cbn; lia). rewrite (map_nth (fun r => r ++ [O]) (b_mat b ++ [repeat O N]) []). f_equal. destruct (Nat.ltb_spec x N); [apply app_nth1; lia|]. replace x with (length (b_mat b)) by lia. rewrite app_nth2, Nat.sub_diag by lia. reflexivity. }
    split; cbn [b_mat b_te b_ps b_pv b_pi]; [rewrite map_length, app_length; cbn; lia|]. split; [|split; [|split; [exact LP|split; [exact PS|split; [|auto]]]]].
    - intros x Lx. rewrite NT, app_length by exact Lx. destruct (Nat.ltb_spec x N); [rewrite LR by lia|rewrite repeat_length]; cbn; lia.
    - intros x y Lx Ly. rewrite NT by exact Lx. unfold Wext. destruct (Nat.ltb_spec x N) as [Hx|Hx]; cbn [andb].
      * destruct (Nat.ltb_spec y N) as [Hy|Hy]; [rewrite app_nth1 by (rewrite LR; lia); apply EN; lia|]. replace y with (length (nth x (b_mat b) [])) by (rewrite LR; lia). rewrite app_nth2, Nat.sub_diag by lia. cbn [nth]. auto.
      * assert (E : nth y (repeat O N ++ [O]) O = O). { destruct (Nat.lt_ge_cases y N); [rewrite app_nth1 by (rewrite repeat_length; lia); apply nth_repeat|]. replace y with (length (repeat O N)) by (rewrite repeat_length; lia). rewrite app_nth2, Nat.sub_diag by lia. reflexivity. }
        rewrite E. auto.
    - intros q Lq c. rewrite (PI q Lq c). split; [intros (A & B & C); split; [lia|split; [lia|exact C]]|]. intros (A & B & C). destruct (PR _ _ C). auto.
  Qed.
  Section Init.
    Variables v1 v2 : list R.
    Definition posq (ij : nat * nat) : bool := negb (Reqb (nth (fst ij) v1 0 * nth (snd ij) v2 0) 0).
    Definition Wi (l : list (nat * nat)) (W : nat -> nat -> expr R) : nat -> nat -> expr R := fun x y =>
      if (Nat.eqb x N && Nat.ltb y N && memb cell_eqb (dm n2 y) l && posq (dm n2 y))%bool then EConst (nth (y / n2) v1 0 * nth (y mod n2) v2 0) else W x y.
    Lemma init16_ok l : forall b W P, NoDup l -> (forall i j, In (i, j) l -> (i < n1)%nat /\ (j < n2)%nat) -> pinv (S N) ps b W P ->
      (forall i j, In (i, j) l -> W N (i * n2 + j)%nat = EConst 0) -> (Z.of_nat (length (b_te b) + length l) <= 65536)%Z ->
      exists b', mfold (add_init16 (seq 0 n1) (seq 0 n2) v1 v2) l b = Ok b' /\ pinv (S N) ps b' (Wi l W) P /\ (length (b_te b') <= length (b_te b) + length l)%nat.
    Proof.
      induction l as [|[i j] l IH]; intros b W P NDl RG BI ZW BD.
      - exists b. split; [reflexivity|]. split; [|cbn; lia]. apply (pinv_ext (S N) ps b W P); [|tauto|exact BI]. intros x y _ _. unfold Wi. cbn [memb existsb]. rewrite andb_false_r. reflexivity.
      - inversion_clear NDl as [|? ? NI NDl']. destruct (RG i j (or_introl eq_refl)) as [Li Lj]. cbn [length mfold] in BD |- *. unfold add_init16 at 1. rewrite state_index_ok by assumption. cbn [bind].
        assert (Ly := idx_lt n1 n2 P2 i j Li Lj). set (y := (i * n2 + j)%nat) in *.
        pose proof BI as (L & LR & EN & LP & PS & PI & Z0 & LT & NZ). rewrite L. cbn [minus]. rewrite Nat.sub_0_r.
        assert (ZY : W N y = EConst 0) by (apply ZW; left; reflexivity).
        change (nth i v1 n0 * nth j v2 n0 =? n0)%num with (Reqb (nth i v1 0 * nth j v2 0) 0). assert (Q : Reqb (nth i v1 0 * nth j v2 0) 0 = negb (posq (i, j))) by (unfold posq; rewrite negb_involutive; reflexivity). rewrite Q.
        destruct (divmod n2 P2 i j Lj) as [D1 D2]. fold y in D1, D2.
        assert (GEN : forall t te, (Z.of_nat t < 65536)%Z -> (t < length te)%nat -> (forall k, (k < length (b_te b))%nat -> nth k te (EConst 0) = nth k (b_te b) (EConst 0)) -> (length (b_te b) <= length te)%nat ->
            (forall k, (0 < k < length te)%nat -> nth k te (EConst 0) <> EConst 0) ->
            pinv (S N) ps (mkB (put16 (b_mat b) N y t) te (b_ps b) (b_pv b) (b_pi b)) (with_cells [(N, y)] (nth t te (EConst 0)) W) P).
        { intros t te Tt Lt T4 T3 T5. unfold put16. rewrite mod16 by exact Tt. destruct (mat_set_shape (b_mat b) (S N) N y t L LR) as [S1 S2]; [lia|lia|].
          split; [exact S1|]. split; [exact S2|]. split; [|split; [exact LP|split; [exact PS|split; [exact PI|cbn [b_te]; split; [rewrite T4 by lia; exact Z0|split; [lia|exact T5]]]]]].
          intros x z Lx Lz. cbn [b_mat b_te]. rewrite (mat_set_nth _ (S N)) by (assumption || lia). unfold with_cells, memb. cbn [existsb]. rewrite orb_false_r. unfold cell_eqb. cbn [fst snd]. rewrite (Nat.eqb_sym x), (Nat.eqb_sym z).
          destruct (Nat.eqb N x && Nat.eqb y z)%bool; [auto|]. destruct (EN x z Lx Lz) as [A B]. split; [lia|]. rewrite T4 by exact A. exact B. }
        assert (ZW' : forall e a c, In (a, c) l -> with_cells [(N, y)] e W N (a * n2 + c)%nat = EConst 0).
        { intros e a c I. unfold with_cells. destruct (memb cell_eqb (N, (a * n2 + c)%nat) [(N, y)]) eqn:M; [|apply ZW; right; exact I]. exfalso. apply (LCtor.memb_In _ cell_eqb_eq) in M as [M|[]]. injection M as M.
          destruct (RG a c (or_intror I)) as [_ Lc]. destruct (divmod n2 P2 a c Lc) as [F1 F2]. rewrite <- M in F1, F2. apply NI. rewrite <- D1, <- D2, F1, F2. exact I. }
        assert (FIN : forall e b', pinv (S N) ps b' (Wi l (with_cells [(N, y)] e W)) P -> e = (if posq (i, j) then EConst (nth i v1 0 * nth j v2 0) else EConst 0) -> pinv (S N) ps b' (Wi ((i, j) :: l) W) P).
        { intros e b' B' Ee. apply (pinv_ext (S N) ps b') with (3 := B'); [|tauto]. intros x z Lx Lz. unfold Wi, with_cells. unfold memb at 1 3. cbn [existsb]. fold (memb cell_eqb (dm n2 z) l). rewrite orb_false_r.
          destruct (cell_eqb (x, z) (N, y)) eqn:C.
          - apply cell_eqb_eq in C. injection C as -> ->. unfold dm. rewrite D1, D2, Nat.eqb_refl, (proj2 (Nat.ltb_lt _ _) Ly), (proj2 (cell_eqb_eq _ _) eq_refl). cbn [andb orb]. rewrite Ee. destruct (posq (i, j)); [rewrite andb_true_r; destruct (memb cell_eqb (i, j) l); reflexivity|]. rewrite andb_false_r. exact ZY.
          - destruct (cell_eqb (dm n2 z) (i, j)) eqn:C2; [|reflexivity]. apply cell_eqb_eq in C2. unfold dm in C2. injection C2 as C2 C3. destruct (Nat.eqb_spec x N) as [->|]; [|reflexivity].
            exfalso. assert (z = y) by (unfold y; rewrite <- C2, <- C3; symmetry; apply idx_dm; exact P2). subst z. rewrite (proj2 (cell_eqb_eq _ _) eq_refl) in C. discriminate. }
        destruct (posq (i, j)) eqn:PO; cbn [negb bind].
        + set (e := EConst (nth i v1 0 * nth j v2 0)) in *. set (b1 := mkB (put16 (b_mat b) N y (length (b_te b))) (b_te b ++ [e]) (b_ps b) (b_pv b) (b_pi b)).
          assert (B1 : pinv (S N) ps b1 (with_cells [(N, y)] (nth (length (b_te b)) (b_te b ++ [e]) (EConst 0)) W) P).
          { apply GEN; [lia|rewrite app_length; cbn; lia|intros k Lk; apply app_nth1; exact Lk|rewrite app_length; lia|]. intros k Lk. rewrite app_length in Lk. cbn in Lk. destruct (Nat.eq_dec k (length (b_te b))) as [->|]; [|rewrite app_nth1 by lia; apply NZ; lia].
            rewrite app_nth2, Nat.sub_diag by lia. cbn. unfold e. intros [= E]. unfold posq in PO. cbn [fst snd] in PO. rewrite E in PO. unfold Reqb in PO. destruct (Req_EM_T 0 0); [discriminate|lra]. }
          replace (nth (length (b_te b)) (b_te b ++ [e]) (EConst 0)) with e in B1 by (rewrite app_nth2, Nat.sub_diag by lia; reflexivity).
          destruct (IH b1 _ P NDl' (fun a c I => RG a c (or_intror I)) B1 (ZW' e)) as (b' & E' & B' & T').
          * cbn [b1 b_te]. rewrite app_length. cbn. lia.
          * exists b'. split; [exact E'|]. split; [apply (FIN _ _ B'); reflexivity|]. cbn [b1 b_te] in T'. rewrite app_length in T'. cbn in T'. lia.
        + set (b1 := mkB (put16 (b_mat b) N y 0) (b_te b) (b_ps b) (b_pv b) (b_pi b)).
          assert (B1 : pinv (S N) ps b1 (with_cells [(N, y)] (EConst 0) W) P) by (rewrite <- Z0 at 1; apply GEN; auto; lia).
          destruct (IH b1 _ P NDl' (fun a c I => RG a c (or_intror I)) B1 (ZW' (EConst 0))) as (b' & E' & B' & T').
          * cbn [b1 b_te]. lia.
          * exists b'. split; [exact E'|]. split; [apply (FIN _ _ B'); reflexivity|]. cbn [b1 b_te] in T'. lia.
    Qed.
  End Init.
End Phases.

(** ** Synchronous transitions *)
Section SyncTrans.
  Variables n1 n2 : nat.
  Hypothesis P2 : (0 < n2)%nat.
  Definition st_of (t : sync * sync) : list sync :=
    if String.eqb (s_act (fst t)) (s_act (snd t)) then [((s_src (fst t) * n2 + s_src (snd t))%nat, s_act (fst t), (s_dst (fst t) * n2 + s_dst (snd t))%nat, s_rate (fst t) * s_rate (snd t))] else [].
  Lemma sync_trans_ok (sync1 sync2 : list sync) : (forall t, In t (list_prod sync1 sync2) -> (s_src (fst t) < n1 /\ s_dst (fst t) < n1 /\ s_src (snd t) < n2 /\ s_dst (snd t) < n2)%nat) ->
    sync_trans (seq 0 n1) (seq 0 n2) sync1 sync2 = Ok (flat_map st_of (list_prod sync1 sync2)).
  Proof.
    unfold sync_trans. generalize (list_prod sync1 sync2). intros l RG.
    assert (G : forall l acc, (forall t, In t l -> (s_src (fst t) < n1 /\ s_dst (fst t) < n1 /\ s_src (snd t) < n2 /\ s_dst (snd t) < n2)%nat) ->
      mfold (fun (acc : list sync) (t : sync * sync) => let '(si, ai, di, pi, (sj, aj, dj, pj)) := t in
        if String.eqb ai aj then do x <- state_index (seq 0 n1) (seq 0 n2) si sj; do y <- state_index (seq 0 n1) (seq 0 n2) di dj; Ok (acc ++ [(x, ai, y, (pi * pj)%num)]) else Ok acc) l acc = Ok (acc ++ flat_map st_of l)).
    { clear l RG. induction l as [|t l IH]; intros acc RG; [cbn; rewrite app_nil_r; reflexivity|]. cbn [mfold flat_map]. destruct (RG t (or_introl eq_refl)) as (A1 & A2 & A3 & A4). assert (RG' := fun u I => RG u (or_intror I)).
      destruct t as [[[[si ai] di] pi] [[[sj aj] dj] pj]]. unfold st_of at 1. unfold s_src, s_act, s_dst, s_rate in A1, A2, A3, A4 |- *. cbn [fst snd] in *. destruct (String.eqb ai aj); [|cbn [bind app]; apply IH; exact RG'].
      rewrite !state_index_ok by assumption. cbn [bind]. rewrite IH by exact RG'. rewrite <- app_assoc. reflexivity. }
    apply (G l [] RG).
  Qed.
  Definition st_rate (x y : nat) (t : sync) : R := if cell_eqb (x, y) (s_src t, s_dst t) then s_rate t else 0.
  Lemma st_sum l x y : (forall t, In t l -> (s_src (snd t) < n2 /\ s_dst (snd t) < n2)%nat) -> sumL (flat_map st_of l) (st_rate x y) = sumL l (sync_rate (dm n2 x) (dm n2 y)).
  Proof.
    induction l as [|t l IH]; intros RG; [reflexivity|]. unfold sumL in *. cbn [flat_map map]. change (rsum (sync_rate (dm n2 x) (dm n2 y) t :: map (sync_rate (dm n2 x) (dm n2 y)) l)) with (sync_rate (dm n2 x) (dm n2 y) t + rsum (map (sync_rate (dm n2 x) (dm n2 y)) l)).
    rewrite <- IH by (intros u I; apply RG; right; exact I). destruct (RG t (or_introl eq_refl)) as [R1 R2]. unfold st_of, sync_rate, dm. cbn [fst snd].
    destruct (String.eqb (s_act (fst t)) (s_act (snd t))); cbn [andb app map]; [|rewrite Rplus_0_l; reflexivity].
    match goal with |- rsum (?a :: ?l) = _ => change (rsum (a :: l)) with (a + rsum l) end. f_equal. match goal with |- st_rate x y (?a, ?b, ?c, ?d) = _ => change (st_rate x y (a, b, c, d)) with (if cell_eqb (x, y) (a, c) then d else 0) end.
    assert (Q : cell_eqb (x, y) (s_src (fst t) * n2 + s_src (snd t), s_dst (fst t) * n2 + s_dst (snd t))%nat =
      (Nat.eqb (s_src (fst t)) (x / n2) && Nat.eqb (s_src (snd t)) (x mod n2) && Nat.eqb (s_dst (fst t)) (y / n2) && Nat.eqb (s_dst (snd t)) (y mod n2))%bool).
    { apply eq_true_iff_eq. rewrite cell_eqb_eq, !andb_true_iff, !Nat.eqb_eq. split.
      - intros [= -> ->]. destruct (divmod n2 P2 (s_src (fst t)) _ R1) as [-> ->]. destruct (divmod n2 P2 (s_dst (fst t)) _ R2) as [-> ->]. auto.
      - intros [[[-> ->] ->] ->]. rewrite !(idx_dm n2 P2). reflexivity. }
    rewrite Q. reflexivity.
  Qed.
  Lemma st_in l t : (forall t, In t l -> (s_src (fst t) < n1 /\ s_dst (fst t) < n1 /\ s_src (snd t) < n2 /\ s_dst (snd t) < n2)%nat) -> In t (flat_map st_of l) -> (s_src t < n1 * n2 /\ s_dst t < n1 * n2)%nat.
  Proof.
    intros RG I. apply in_flat_map in I as (u & Iu & I). destruct (RG u Iu) as (A1 & A2 & A3 & A4). unfold st_of in I. destruct (String.eqb _ _); [|destruct I]. destruct I as [<-|[]]. match goal with |- (s_src (?a, ?b, ?c, ?d) < _)%nat /\ _ => change (a < n1 * n2 /\ c < n1 * n2)%nat end. split; apply idx_lt; assumption.
  Qed.
  Lemma st_len l : (length (flat_map st_of l) <= length l)%nat.
  Proof. induction l as [|t l IH]; cbn [flat_map length]; [lia|]. rewrite app_length. unfold st_of at 1. destruct (String.eqb _ _); cbn [length]; lia. Qed.
End SyncTrans.

(** The model as a state of the construction *)
Definition bof (m : pctmc R) (pi : list (list (nat * nat))) : build R := mkB (pc_mat m) (pc_expr m) (pc_par m) [] pi.
Lemma sync16_ok N ps pi l : forall m W P, pinv N ps (bof m pi) W P -> (forall t, In t l -> (s_src t < N /\ s_dst t < N)%nat) -> (forall t k, In t l -> ~ occurs k (W (s_src t) (s_dst t))) -> (Z.of_nat (length (pc_expr m) + length l) <= 65536)%Z ->
  exists m' W', mfold add_sync16 l m = Ok m' /\ pinv N ps (bof m' pi) W' P /\ pc_lab m' = pc_lab m /\ pc_val m' = pc_val m /\ pc_ind m' = pc_ind m /\ pc_par m' = pc_par m /\ pc_ini m' = pc_ini m /\ pc_name m' = pc_name m /\
    (forall rho x y, (x < N)%nat -> (y < N)%nat -> denote rho (W' x y) = denote rho (W x y) + sumL l (st_rate x y)) /\
    (forall k x y, (x < N)%nat -> (y < N)%nat -> occurs k (W' x y) <-> occurs k (W x y)) /\
    (forall x y, (forall t, In t l -> (s_src t, s_dst t) <> (x, y)) -> W' x y = W x y).
Proof.
  induction l as [|t l IH]; intros m W P PV RG NO BD.
  - exists m, W. cbn [mfold]. split; [reflexivity|]. split; [exact PV|]. repeat (split; [reflexivity|]). split; [intros; unfold sumL; cbn; lra|]. split; [tauto|reflexivity].
  - destruct (RG t (or_introl eq_refl)) as [Lx0 Ly0]. cbn [mfold length] in BD |- *. pose proof (NO t) as NO0. set (x0 := s_src t) in *. set (y0 := s_dst t) in *. set (r := s_rate t).
    pose proof PV as (L & LR & EN & LP & PS & PI & Z0 & LT & NZ). cbn [bof b_mat b_te b_ps b_pi] in *. destruct (EN x0 y0 Lx0 Ly0) as [RB RW].
    set (e := if (ref m x0 y0 =? 0)%nat then EConst r else EAdd (EConst r) (W x0 y0)).
    assert (ED : forall rho, denote rho e = denote rho (W x0 y0) + r). { intros rho. unfold e. destruct (Nat.eqb_spec (ref m x0 y0) 0) as [E|_]; [|cbn [denote]; lra]. unfold ref in E. rewrite E in RW. rewrite <- RW, Z0. cbn [denote]. lra. }
    assert (EO : forall k, occurs k e <-> occurs k (W x0 y0)). { intros k. unfold e. destruct (Nat.eqb_spec (ref m x0 y0) 0) as [E|_]; [|cbn [occurs]; tauto]. unfold ref in E. rewrite E in RW. rewrite <- RW, Z0. cbn [occurs]. tauto. }
    assert (AE : add_sync16 m t = let (te, k) := find_or_add (pc_expr m) e in Ok (mkPC (put16 (pc_mat m) x0 y0 k) (pc_lab m) te (pc_val m) (pc_ind m) (pc_par m) (pc_ini m) (pc_name m))).
    { assert (SE : symbols e = []) by (destruct (symbols e) as [|k q] eqn:SQ; [reflexivity|]; exfalso; apply (NO0 k (or_introl eq_refl)), EO, symbols_occurs; rewrite SQ; left; reflexivity).
      revert SE. destruct t as [[[i a] d] r0]. unfold add_sync16, e, x0, y0, r, s_src, s_dst, s_rate. cbn [fst snd]. rewrite transition_eq. unfold transition, ref. unfold x0, y0, s_src, s_dst in RW. cbn [fst snd] in RW. rewrite RW. intros SE. destruct (find_or_add _ _). rewrite SE. reflexivity. }
    destruct (find_or_add (pc_expr m) e) as [te k] eqn:FA. apply find_or_add_ok in FA as (T1 & T2 & T3 & T4 & T5); [|assumption..].
    set (m1 := mkPC (put16 (pc_mat m) x0 y0 k) (pc_lab m) te (pc_val m) (pc_ind m) (pc_par m) (pc_ini m) (pc_name m)) in AE.
    assert (B1 : pinv N ps (bof m1 pi) (with_cells [(x0, y0)] e W) P).
    { destruct (mat_set_shape (pc_mat m) N x0 y0 k L LR Lx0 Ly0) as [S1 S2]. unfold m1, bof. cbn [pc_mat pc_expr pc_par]. unfold put16. rewrite mod16 by lia.
      split; [exact S1|]. split; [exact S2|]. split; [|split; [exact LP|split; [exact PS|split; [exact PI|cbn [b_te]; split; [rewrite T4 by lia; exact Z0|split; [lia|exact T5]]]]]].
      intros x z Lx Lz. cbn [b_mat b_te]. rewrite (mat_set_nth _ N) by assumption. unfold with_cells, memb. cbn [existsb]. rewrite orb_false_r. unfold cell_eqb. cbn [fst snd]. rewrite (Nat.eqb_sym x), (Nat.eqb_sym z).
      destruct (Nat.eqb x0 x && Nat.eqb y0 z)%bool; [auto|]. destruct (EN x z Lx Lz) as [A B]. split; [lia|]. rewrite T4 by exact A. exact B. }
    assert (NO1 : forall u k, In u l -> ~ occurs k (with_cells [(x0, y0)] e W (s_src u) (s_dst u))). { intros u q I. unfold with_cells, memb. cbn [existsb]. rewrite orb_false_r. destruct (cell_eqb _ (x0, y0)); [rewrite EO; apply NO0; left; reflexivity|apply NO; right; exact I]. }
    destruct (IH m1 _ P B1 (fun u I => RG u (or_intror I)) NO1) as (m' & W' & E' & I1 & I2 & I3 & I4 & I5 & I6 & I7 & I8 & I9 & I10); [cbn [m1 pc_expr]; lia|]. exists m', W'. rewrite AE. cbn [bind].
    repeat (split; [assumption|]). split; [|split].
    + intros rho x y Lx Ly. rewrite I8 by assumption. unfold with_cells, memb, sumL. cbn [existsb map]. rewrite orb_false_r. match goal with |- _ = _ + rsum (?a :: ?l) => change (rsum (a :: l)) with (a + rsum l) end. unfold st_rate at 2. fold x0 y0 r.
      destruct (cell_eqb (x, y) (x0, y0)) eqn:C; [|lra]. apply cell_eqb_eq in C. injection C as -> ->. rewrite ED. lra.
    + intros q x y Lx Ly. rewrite I9 by assumption. unfold with_cells, memb. cbn [existsb]. rewrite orb_false_r. destruct (cell_eqb (x, y) (x0, y0)) eqn:C; [|tauto]. apply cell_eqb_eq in C. injection C as -> ->. apply EO.
    + intros x y NE. rewrite I10 by (intros u I; apply NE; right; exact I). unfold with_cells, memb. cbn [existsb]. rewrite orb_false_r. destruct (cell_eqb (x, y) (x0, y0)) eqn:C; [|reflexivity]. apply cell_eqb_eq in C. exfalso. apply (NE t (or_introl eq_refl)). symmetry. exact C.
Qed.

(** ** Cleaning *)
Lemma shift2_good : good_shift (@shift2).
Proof.
  intros i l c. induction l as [|d l IH]; [reflexivity|]. cbn [shift2]. destruct (Nat.eqb_spec (fst d) i) as [E|E]; [|destruct (Nat.eqb_spec (snd d) i) as [E'|E']]; cbn [orb In].
  - rewrite IH. split; [auto|]. intros [->|I]; [|exact I]. exfalso. cbn [fst] in E. revert E. apply skip_neq.
  - rewrite IH. split; [auto|]. intros [->|I]; [|exact I]. exfalso. cbn [snd] in E'. revert E'. apply skip_neq.
  - rewrite IH. split; (intros [D|I]; [left|right; exact I]).
    + rewrite <- D. cbn [fst snd]. rewrite !skip_dec by assumption. destruct d; reflexivity.
    + rewrite D. cbn [fst snd]. rewrite !dec_skip. destruct c; reflexivity.
Qed.
Lemma remove16_eq (f : string -> R) fuel : forall mat lab pi mat' lab' pi', @remove_unreachable (@shift2) fuel mat lab pi = (mat', lab', pi') -> 
  remove_unreachable16 fuel mat lab pi (map f lab) = (mat', lab', pi', map f lab').
Proof.
  induction fuel as [|fuel IH]; intros mat lab pi mat' lab' pi' E; cbn [remove_unreachable remove_unreachable16] in *; [injection E as <- <- <-; reflexivity|].
  destruct (find _ _) as [i|]; [|injection E as <- <- <-; reflexivity]. rewrite <- del_map. apply IH, E.
Qed.
Lemma dec_neq i a b : a <> i -> b <> i -> dec i a = dec i b -> a = b.
Proof. intros A B E. rewrite <- (skip_dec i a A), <- (skip_dec i b B), E. reflexivity. Qed.
Lemma remove_unused_ok fuel : forall l (te : list (expr R)) mat, NoDup l -> (forall k, In k l -> (k < length te)%nat /\ ~ In k (concat mat)) -> (forall k, In k (concat mat) -> (k < length te)%nat) ->
  exists f, let (te', mat') := remove_unused fuel l te mat in mat' = map (map f) mat /\ f O = O /\ (forall k, In k (concat mat) -> (f k < length te')%nat /\ nth (f k) te' (EConst 0) = nth k te (EConst 0)).
Proof.
  induction fuel as [|fuel IH]; intros l te mat ND UN RG.
  - exists (fun k => k). cbn. split; [symmetry; apply map_id_in; intros r _; apply map_id|]. auto.
  - destruct l as [|i l]; [exists (fun k => k); cbn; split; [symmetry; apply map_id_in; intros r _; apply map_id|]; auto|]. cbn [remove_unused].
    inversion_clear ND as [|? ? NI ND']. destruct (UN i (or_introl eq_refl)) as [Li Ni].
    assert (CM : concat (map (map (dec i)) mat) = map (dec i) (concat mat)) by (rewrite concat_map; reflexivity).
    destruct (IH (map (dec i) l) (del i te) (map (map (dec i)) mat)) as (f & H).
    + clear -NI ND'. induction l as [|x l IHl]; [constructor|]. inversion_clear ND' as [|? ? NX ND2]. cbn [map]. constructor; [|apply IHl; [intros I; apply NI; right; exact I|exact ND2]].
      intros I. apply in_map_iff in I as (y & E & I). apply dec_neq in E; [subst; contradiction| |]; intros ->; apply NI; [right; exact I|left; reflexivity].
    + intros k I. apply in_map_iff in I as (k0 & <- & I). destruct (UN k0 (or_intror I)) as [A B]. assert (k0 <> i) by (intros ->; contradiction). split; [rewrite del_length by exact Li; unfold dec; destruct (Nat.ltb_spec i k0); lia|].
      rewrite CM. intros J. apply in_map_iff in J as (k1 & E & J). apply dec_neq in E; [subst; contradiction| |assumption]. intros ->; contradiction.
    + rewrite CM. intros k I. apply in_map_iff in I as (k0 & <- & I). assert (k0 <> i) by (intros ->; contradiction). specialize (RG _ I). rewrite del_length by exact Li. unfold dec; destruct (Nat.ltb_spec i k0); lia.
    + destruct (remove_unused fuel (map (dec i) l) (del i te) (map (map (dec i)) mat)) as [te' mat']. destruct H as (E & F0 & HH). exists (fun k => f (dec i k)). split; [|split].
      * rewrite E, map_map. apply map_ext. intros r. apply map_map.
      * cbn. rewrite F0. reflexivity.
      * intros k I. assert (NK : k <> i) by (intros ->; contradiction). destruct (HH (dec i k)) as [A B]; [rewrite CM; apply in_map, I|]. split; [exact A|]. rewrite B, del_nth by exact Li. rewrite skip_dec by exact NK. reflexivity.
Qed.
Lemma unused_ok (te : list (expr R)) mat : (forall k, In k (concat mat) -> (k < length te)%nat) -> let l := unused te mat in
  exists f, let (te', mat') := remove_unused (length l) l te mat in mat' = map (map f) mat /\ f O = O /\ (forall k, In k (concat mat) -> (f k < length te')%nat /\ nth (f k) te' (EConst 0) = nth k te (EConst 0)).
Proof.
  intros RG l. apply remove_unused_ok; [apply NoDup_filter, seq_NoDup| |exact RG]. intros k I. apply filter_In in I as [I M]. apply in_seq in I. split; [lia|]. apply negb_true_iff in M. intros J. apply (LCtor.memb_In Nat.eqb Nat.eqb_eq) in J. congruence.
Qed.
Lemma init_trans16_one (m : pctmc R) n start : (forall s, (s < n)%nat -> has_rate m (current m) n s (start s)) -> init_trans16 m [n] (seq 0 n) = Ok (map start (seq 0 n)).
Proof.
  intros HR. unfold init_trans16. cbn [mfold].
  assert (E : mmap (fun j => match evaluateTransition m n j None with Some x => Ok x | None => Err TypeError end) (seq 0 n) = Ok (map start (seq 0 n))).
  { assert (G : forall l, (forall s, In s l -> (s < n)%nat) -> mmap (fun j => match evaluateTransition m n j None with Some x => Ok x | None => Err TypeError end) l = Ok (map start l)).
    { induction l as [|s l IH]; intros I; [reflexivity|]. cbn [mmap map]. rewrite (proj2 (evaluate_rate m n s (start s)) (HR s (I s (or_introl eq_refl)))). cbn [bind]. rewrite IH by (intros x J; apply I; right; exact J). reflexivity. }
    apply G. intros s I. apply in_seq in I. lia. }
  rewrite E. cbn [bind]. f_equal. rewrite <- (map_length start (seq 0 n)), zero_row. rewrite <- (map_id (map start (seq 0 n))) at 2. apply map_ext. intros x. nR. rewrite Rmult_0_l, Rplus_0_l. destruct (@nltb R RNum 0 0) eqn:B; [|reflexivity]. apply Rltb_true in B. lra.
Qed.

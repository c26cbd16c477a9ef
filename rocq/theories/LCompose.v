(** Lemmas on the composition of CTMCs. *)
From Coq Require Import String Ascii ZArith Bool Reals Lra Lia Arith DecimalString DecimalNat Permutation List Sorting.
From Verif Require Import Num Py MTools MSet MModels MCtor MPctmc MText MCompose SNum SSet SCtor SPctmc SCompose LSum LSet LCtor LBW LPctmc LText LAlergia.
Import ListNotations.
Local Open Scope R_scope.

(** ** Names *)
Lemma string_app_inv p x y : (p ++ x)%string = (p ++ y)%string -> x = y.
Proof. induction p as [|c p IH]; cbn; [auto|]. intros [= E]. apply IH, E. Qed.
Lemma l_app x y : list_ascii_of_string (x ++ y) = list_ascii_of_string x ++ list_ascii_of_string y.
Proof. induction x as [|c x IH]; cbn; [reflexivity|]. rewrite IH. reflexivity. Qed.
Lemma l_inj x y : list_ascii_of_string x = list_ascii_of_string y -> x = y.
Proof. intros E. rewrite <- (string_of_list_ascii_of_string x), E. apply string_of_list_ascii_of_string. Qed.
Lemma str_nat_chars n c : In c (list_ascii_of_string (str_nat n)) -> numchar c = true.
Proof. intros I. apply digit_num, (uintz_digits (Nat.to_uint n)), I. Qed.
Lemma str_nat_inj n m : str_nat n = str_nat m -> n = m.
Proof.
  unfold str_nat. intros E. assert (A : forall n, NilZero.uint_of_string (NilZero.string_of_uint (Nat.to_uint n)) = Some (Nat.to_uint n)).
  { intros k. apply NilZero.usu. destruct k; cbn; [discriminate|]. intros X. pose proof (DecimalNat.Unsigned.of_to (S k)) as O. cbn in O. unfold Nat.to_uint in O, X. cbn in X. rewrite X in O. discriminate. }
  pose proof (A n) as An. rewrite E, A in An. injection An as An. rewrite <- (DecimalNat.Unsigned.of_to n), <- An. apply DecimalNat.Unsigned.of_to.
Qed.
Lemma split_unique (sep : ascii) a a' b b' : ~ In sep a -> ~ In sep a' -> a ++ sep :: b = a' ++ sep :: b' -> a = a' /\ b = b'.
Proof.
  revert a'; induction a as [|x a IH]; intros [|y a'] N N' E; cbn in *; injection E; intros.
  - auto.
  - subst. exfalso. apply N'. left. reflexivity.
  - subst. exfalso. apply N. left. reflexivity.
  - subst. destruct (IH a') as [-> ->]; auto.
Qed.
Lemma name2_inj p i j i' j' : name2 p i j = name2 p i' j' -> i = i' /\ j = j'.
Proof.
  unfold name2. intros E. apply string_app_inv in E. apply (f_equal list_ascii_of_string) in E. rewrite !l_app in E. cbn in E.
  assert (N : forall n, ~ In "_"%char (list_ascii_of_string (str_nat n))). { intros n I. apply str_nat_chars in I. discriminate. }
  apply split_unique in E as [E1 E2]; [|apply N|apply N]. apply l_inj, str_nat_inj in E1. apply l_inj, str_nat_inj in E2. auto.
Qed.

(** ** State ids *)
Lemma count_init_none l : ~ In "init"%string l -> countb String.eqb "init"%string l = O.
Proof.
  induction l as [|x l IH]; [reflexivity|]. cbn [countb In]. intros N. destruct (String.eqb_spec "init" x); [subst; tauto|]. rewrite IH by tauto. reflexivity.
Qed.
Lemma filter_seq_init l : ~ In "init"%string l ->
  filter (fun i => negb (is_init (nth i (l ++ ["init"%string]) EmptyString))) (seq 0 (length (l ++ ["init"%string]))) = seq 0 (length l) /\
  filter (fun i => is_init (nth i (l ++ ["init"%string]) EmptyString)) (seq 0 (length (l ++ ["init"%string]))) = [length l].
Proof.
  intros N. rewrite app_length, seq_app. cbn [length seq plus]. rewrite !filter_app. cbn [filter]. rewrite app_nth2, Nat.sub_diag by lia. cbn.
  assert (G : forall i, (i < length l)%nat -> is_init (nth i (l ++ ["init"%string]) EmptyString) = false).
  { intros i L. rewrite app_nth1 by exact L. unfold is_init. apply String.eqb_neq. intros E. apply N. rewrite <- E. apply nth_In, L. }
  split.
  - rewrite app_nil_r. rewrite (filter_ext_in _ (fun _ => true)); [|intros i I; apply in_seq in I; rewrite G by lia; reflexivity]. clear. induction (seq 0 (length l)) as [|x s IH]; cbn; [reflexivity|]. rewrite IH. reflexivity.
  - rewrite (filter_ext_in _ (fun _ => false)); [|intros i I; apply in_seq in I; rewrite G by lia; reflexivity]. clear; induction (seq 0 (length l)) as [|x s IH]; cbn; auto.
Qed.
Lemma map_id_in {A} (f : A -> A) l : (forall x, In x l -> f x = x) -> map f l = l.
Proof. intros E. rewrite <- (map_id l) at 2. apply map_ext_in, E. Qed.
Lemma sids_ok n1 l1 n2 l2 : length l1 = n1 -> length l2 = n2 -> ~ In "init"%string l1 -> ~ In "init"%string l2 -> (n2 <= n1 + 1)%nat ->
  sids (l1 ++ ["init"%string]) (l2 ++ ["init"%string]) = seq 0 n2.
Proof.
  intros L1 L2 N1 N2 L. unfold sids. rewrite (proj1 (filter_seq_init l2 N2)), L2. apply map_id_in. intros i I. apply in_seq in I.
  rewrite firstn_app. replace (i - length l1)%nat with O by lia. rewrite firstn_O, app_nil_r. rewrite count_init_none; [lia|]. intros X. apply N1. rewrite <- (firstn_skipn i l1). apply in_or_app. left. exact X.
Qed.
Lemma index_of_seq n i : (i < n)%nat -> index_of Nat.eqb i (seq 0 n) = Some i.
Proof.
  intros L. replace i with (nth i (seq 0 n) O) at 1 by (rewrite seq_nth by exact L; reflexivity). apply (index_of_nth Nat.eqb Nat.eqb_eq); [apply seq_NoDup|rewrite seq_length; exact L].
Qed.
Lemma state_index_ok n1 n2 i j : (i < n1)%nat -> (j < n2)%nat -> state_index (seq 0 n1) (seq 0 n2) i j = Ok (i * n2 + j)%nat.
Proof. intros Li Lj. unfold state_index, index_err. rewrite !index_of_seq by assumption. cbn [bind]. rewrite seq_length. reflexivity. Qed.

(** ** The matrix of references *)
Definition minv (N : nat) (te : list (expr R)) (ps : list string) (mat : list (list nat)) (pi : list (list (nat * nat))) (W : nat -> nat -> expr R) : Prop :=
  length mat = N /\ (forall x, (x < N)%nat -> length (nth x mat []) = N) /\
  (forall x y, (x < N)%nat -> (y < N)%nat -> (nth y (nth x mat []) O < length te)%nat /\ nth (nth y (nth x mat []) O) te (EConst 0) = W x y) /\
  length pi = length ps /\
  (forall q, (q < length ps)%nat -> forall c, In c (nth q pi []) <-> (fst c < N)%nat /\ (snd c < N)%nat /\ occurs (nth q ps EmptyString) (W (fst c) (snd c))).
Definition binv (N : nat) (b : build R) (W : nat -> nat -> expr R) (V : string -> option R) : Prop :=
  minv N (b_te b) (b_ps b) (b_mat b) (b_pi b) W /\
  nth O (b_te b) (EConst 0) = EConst 0 /\ (0 < length (b_te b))%nat /\
  (forall k, (0 < k < length (b_te b))%nat -> nth k (b_te b) (EConst 0) <> EConst 0) /\
  NoDup (b_ps b) /\ (forall k, dget (b_pv b) k = V k) /\ (forall k, V k <> None <-> In k (b_ps b)) /\
  (forall x y k, (x < N)%nat -> (y < N)%nat -> occurs k (W x y) -> In k (b_ps b)).

Lemma binv_ext N b W V W' V' : (forall x y, (x < N)%nat -> (y < N)%nat -> W' x y = W x y) -> (forall k, V' k = V k) -> binv N b W V -> binv N b W' V'.
Proof.
  intros EW EV ((L & LR & EN & LP & PI) & Z0 & LT & NZ & ND & PV & KS & OC). split; [|split; [exact Z0|split; [exact LT|split; [exact NZ|split; [exact ND|split; [|split]]]]]].
  - split; [exact L|]. split; [exact LR|]. split; [intros x y Lx Ly; rewrite EW by assumption; apply EN; assumption|]. split; [exact LP|].
    intros q Lq c. rewrite (PI q Lq c). split; intros (A & B & C); (split; [exact A|split; [exact B|]]); [rewrite EW by assumption|rewrite <- EW by assumption]; exact C.
  - intros k. rewrite EV. apply PV.
  - intros k. rewrite EV. apply KS.
  - intros x y k Lx Ly O. rewrite EW in O by assumption. apply (OC x y k Lx Ly O).
Qed.

Lemma mat_set_nth (m : list (list nat)) N i j t x y : length m = N -> (forall x, (x < N)%nat -> length (nth x m []) = N) -> (i < N)%nat -> (j < N)%nat ->
  nth y (nth x (mat_set m i j t) []) O = if (Nat.eqb i x && Nat.eqb j y)%bool then t else nth y (nth x m []) O.
Proof.
  intros L LR Li Lj. unfold mat_set. rewrite LCtor.upd_nth by lia. destruct (Nat.eqb_spec i x); cbn [andb]; [|reflexivity]. subst x. rewrite LCtor.upd_nth by (rewrite LR; lia). reflexivity.
Qed.
Lemma mat_set_shape (m : list (list nat)) N i j t : length m = N -> (forall x, (x < N)%nat -> length (nth x m []) = N) -> (i < N)%nat -> (j < N)%nat ->
  length (mat_set m i j t) = N /\ forall x, (x < N)%nat -> length (nth x (mat_set m i j t) []) = N.
Proof.
  intros L LR Li Lj. unfold mat_set. split; [rewrite LCtor.upd_length; exact L|]. intros x Lx. rewrite LCtor.upd_nth by lia. destruct (Nat.eqb_spec i x); [rewrite LCtor.upd_length|]; apply LR; lia.
Qed.
Lemma cell_eqb_eq c d : cell_eqb c d = true <-> c = d.
Proof. destruct c as [a b], d as [a' b']. unfold cell_eqb. cbn [fst snd]. rewrite andb_true_iff, !Nat.eqb_eq. split; [intros [-> ->]; reflexivity|intros [= -> ->]; auto]. Qed.

(** Writing a reference in a list of cells. *)
Definition put_cells (t ind : nat) (cells : list (nat * nat)) (b : build R) : build R := fold_left (fun b c => put_cell t ind b (fst c) (snd c)) cells b.
Lemma put_cells_spec t ind cells N : forall b, (t < 256)%nat -> length (b_mat b) = N -> (forall x, (x < N)%nat -> length (nth x (b_mat b) []) = N) ->
  (forall c, In c cells -> (fst c < N)%nat /\ (snd c < N)%nat) -> (ind < length (b_pi b))%nat ->
  let b' := put_cells t ind cells b in
  b_te b' = b_te b /\ b_ps b' = b_ps b /\ b_pv b' = b_pv b /\ length (b_mat b') = N /\ (forall x, (x < N)%nat -> length (nth x (b_mat b') []) = N) /\
  (forall x y, nth y (nth x (b_mat b') []) O = if memb cell_eqb (x, y) cells then t else nth y (nth x (b_mat b) []) O) /\
  length (b_pi b') = length (b_pi b) /\ (forall q, nth q (b_pi b') [] = if Nat.eqb q ind then nth q (b_pi b) [] ++ cells else nth q (b_pi b) []).
Proof.
  induction cells as [|c cells IH]; intros b T L LR CI LI b'.
  - subst b'. cbn. repeat split; auto. intros q. destruct (q =? ind)%nat; rewrite ?app_nil_r; reflexivity.
  - destruct (CI c (or_introl eq_refl)) as [C1 C2]. set (b1 := put_cell t ind b (fst c) (snd c)).
    assert (M1 : b_mat b1 = mat_set (b_mat b) (fst c) (snd c) t) by (unfold b1, put_cell, put; cbn [b_mat]; rewrite Nat.mod_small by exact T; reflexivity).
    destruct (mat_set_shape (b_mat b) N (fst c) (snd c) t L LR C1 C2) as [S1 S2].
    destruct (IH b1 T) as (E1 & E2 & E3 & E4 & E5 & E6 & E7 & E8).
    + rewrite M1. exact S1.
    + intros x Lx. rewrite M1. apply S2, Lx.
    + intros d I. apply CI. right. exact I.
    + unfold b1, put_cell. cbn [b_pi]. rewrite LCtor.upd_length. exact LI.
    + change b' with (put_cells t ind cells b1). split; [exact E1|]. split; [exact E2|]. split; [exact E3|]. split; [exact E4|]. split; [exact E5|]. split; [|split].
      * intros x y. rewrite E6, M1, (mat_set_nth _ N) by assumption. unfold memb. cbn [existsb]. destruct (existsb (cell_eqb (x, y)) cells); [rewrite orb_true_r; reflexivity|]. rewrite orb_false_r.
        unfold cell_eqb. cbn [fst snd]. rewrite (Nat.eqb_sym x), (Nat.eqb_sym y). reflexivity.
      * rewrite E7. unfold b1, put_cell. cbn [b_pi]. apply LCtor.upd_length.
      * intros q. rewrite E8. unfold b1, put_cell. cbn [b_pi]. rewrite LCtor.upd_nth by exact LI. rewrite (Nat.eqb_sym ind q). destruct (Nat.eqb_spec q ind) as [->|]; [rewrite <- app_assoc; destruct c; reflexivity|reflexivity].
Qed.

(** A new parameter used in a list of cells that were 0. *)
Definition with_cells (cells : list (nat * nat)) (e : expr R) (W : nat -> nat -> expr R) : nat -> nat -> expr R :=
  fun x y => if memb cell_eqb (x, y) cells then e else W x y.
Definition with_value (k : string) (v : R) (V : string -> option R) : string -> option R := fun x => if String.eqb x k then Some v else V x.
Lemma new_param N b W V nm v cells : binv N b W V -> (length (b_te b) < 256)%nat -> V nm = None ->
  (forall c, In c cells -> (fst c < N)%nat /\ (snd c < N)%nat /\ W (fst c) (snd c) = EConst 0) ->
  let b' := put_cells (length (b_te b)) (length (b_pi b)) cells (mkB (b_mat b) (b_te b ++ [EVar nm]) (b_ps b ++ [nm]) (dset (b_pv b) nm v) (b_pi b ++ [[]])) in
  binv N b' (with_cells cells (EVar nm) W) (with_value nm v V) /\ length (b_te b') = S (length (b_te b)).
Proof.
  intros ((L & LR & EN & LP & PI) & Z0 & LT & NZ & ND & PV & KS & OC) T NV CI b'.
  assert (NP : ~ In nm (b_ps b)) by (intros X; apply KS in X; congruence).
  destruct (put_cells_spec (length (b_te b)) (length (b_pi b)) cells N (mkB (b_mat b) (b_te b ++ [EVar nm]) (b_ps b ++ [nm]) (dset (b_pv b) nm v) (b_pi b ++ [[]])) T L LR) as (E1 & E2 & E3 & E4 & E5 & E6 & E7 & E8).
  { intros c I. destruct (CI c I) as (A & B & _). auto. }
  { cbn. rewrite app_length. cbn. lia. }
  fold b' in E1, E2, E3, E4, E5, E6, E7, E8. cbn [b_te b_ps b_pv b_pi b_mat] in *.
  assert (TE : length (b_te b') = S (length (b_te b))) by (rewrite E1, app_length; cbn; lia).
  split; [|exact TE]. split; [|split; [|split; [|split; [|split; [|split; [|split]]]]]].
  - split; [exact E4|]. split; [exact E5|]. split.
    + intros x y Lx Ly. rewrite E6, E1, app_length. cbn [length]. unfold with_cells. destruct (memb cell_eqb (x, y) cells); [split; [lia|rewrite app_nth2, Nat.sub_diag by lia; reflexivity]|].
      destruct (EN x y Lx Ly) as [A B]. split; [lia|]. rewrite app_nth1 by exact A. exact B.
    + rewrite E7, E2, !app_length. split; [cbn; lia|]. cbn [length]. intros q Lq c. rewrite E8. destruct (Nat.eqb_spec q (length (b_pi b))) as [->|NQ].
      * rewrite app_nth2, Nat.sub_diag by lia. cbn [nth app]. rewrite LP, app_nth2, Nat.sub_diag by lia. cbn [nth]. unfold with_cells. split.
        -- intros I. destruct (CI c I) as (A & B & _). split; [exact A|split; [exact B|]]. rewrite (proj2 (LCtor.memb_In _ cell_eqb_eq _ _)); [reflexivity|]. destruct c; exact I.
        -- intros (A & B & O). destruct (memb cell_eqb (fst c, snd c) cells) eqn:M; [apply (LCtor.memb_In _ cell_eqb_eq) in M; destruct c; exact M|]. exfalso. apply NP, (OC _ _ _ A B O).
      * rewrite !app_nth1 by lia. rewrite PI by lia. unfold with_cells. split; intros (A & B & O); (split; [exact A|split; [exact B|]]); destruct (memb cell_eqb (fst c, snd c) cells) eqn:M; try exact O.
        -- apply (LCtor.memb_In _ cell_eqb_eq) in M. exfalso. destruct (CI (fst c, snd c) M) as (_ & _ & X). cbn [fst snd] in X. rewrite X in O. exact O.
        -- exfalso. cbn in O. apply NP. rewrite <- O. apply nth_In. lia.
  - rewrite E1, app_nth1 by lia. exact Z0.
  - lia.
  - intros k Lk. rewrite E1. destruct (Nat.eq_dec k (length (b_te b))) as [->|N1]; [rewrite app_nth2, Nat.sub_diag by lia; discriminate|]. rewrite app_nth1 by lia. apply NZ. lia.
  - rewrite E2. apply (NoDup_app_intro _ [nm] ND); [constructor; [cbn; tauto|constructor]|]. intros k I [<-|[]]. exact (NP I).
  - intros k. rewrite E3, dget_dset. unfold with_value. destruct (String.eqb k nm); [reflexivity|apply PV].
  - intros k. rewrite E2, in_app_iff. cbn [In]. unfold with_value. destruct (String.eqb_spec k nm) as [->|NE]; [split; [auto|discriminate]|]. rewrite KS. split; [auto|]. intros [X|[X|[]]]; [exact X|congruence].
  - intros x y k Lx Ly O. rewrite E2. apply in_or_app. unfold with_cells in O. destruct (memb cell_eqb (x, y) cells); [right; left; symmetry; exact O|left; apply (OC x y k Lx Ly O)].
Qed.

(** ** Transitions of one component *)
Lemma mfold_ok {A B} (f : A -> B -> res A) (g : A -> B -> A) l : forall a, (forall a b, In b l -> f a b = Ok (g a b)) -> mfold f l a = Ok (fold_left g l a).
Proof.
  induction l as [|x l IH]; intros a E; [reflexivity|]. cbn [mfold fold_left]. rewrite E by (left; reflexivity). cbn [bind]. apply IH. intros a' b I. apply E. right. exact I.
Qed.
Lemma fold_left_map {A B C} (f : A -> C -> A) (g : B -> C) l : forall a, fold_left f (map g l) a = fold_left (fun a b => f a (g b)) l a.
Proof. induction l as [|x l IH]; intros a; [reflexivity|]. cbn. apply IH. Qed.

Section Phases.
  Variables n1 n2 : nat.
  Hypothesis P2 : (0 < n2)%nat.
  Notation N := (n1 * n2)%nat.
  Definition own (first : bool) (x : nat) : nat := if first then (x / n2)%nat else (x mod n2)%nat.
  Definition oth (first : bool) (x : nat) : nat := if first then (x mod n2)%nat else (x / n2)%nat.
  Definition size (first : bool) : nat := if first then n1 else n2.
  Definition cells (first : bool) (i j : nat) : list (nat * nat) :=
    if first then map (fun k => (i * n2 + k, j * n2 + k)%nat) (seq 0 n2) else map (fun k => (k * n2 + i, k * n2 + j)%nat) (seq 0 n1).

  Lemma divmod a b : (b < n2)%nat -> ((a * n2 + b) / n2 = a /\ (a * n2 + b) mod n2 = b)%nat.
  Proof.
    intros L. split; symmetry; [apply (Nat.div_unique _ n2 a b)|apply (Nat.mod_unique _ n2 a b)]; lia.
  Qed.
  Lemma own_lt first x : (x < N)%nat -> (own first x < size first)%nat.
  Proof.
    intros L. unfold own, size. destruct first; [apply Nat.div_lt_upper_bound; lia|apply Nat.mod_upper_bound; lia].
  Qed.
  Lemma idx_lt a b : (a < n1)%nat -> (b < n2)%nat -> (a * n2 + b < N)%nat.
  Proof. intros. nia. Qed.
  Lemma idx_dm x : (x / n2 * n2 + x mod n2 = x)%nat.
  Proof. pose proof (Nat.div_mod x n2). lia. Qed.
  Lemma cells_In first i j x y : (i < size first)%nat -> (j < size first)%nat ->
    In (x, y) (cells first i j) <-> (x < N)%nat /\ (y < N)%nat /\ oth first x = oth first y /\ own first x = i /\ own first y = j.
  Proof.
    unfold cells, size, own, oth. destruct first; intros Li Lj; rewrite in_map_iff; split.
    - intros (k & [= <- <-] & I). apply in_seq in I. destruct (divmod i k) as [A B]; [lia|]. destruct (divmod j k) as [C D]; [lia|]. rewrite A, B, C, D. repeat split; auto; apply idx_lt; lia.
    - intros (Lx & Ly & E & E1 & E2). exists (x mod n2)%nat. split; [|apply in_seq; split; [lia|apply Nat.mod_upper_bound; lia]]. rewrite <- E1, <- E2, idx_dm. rewrite E, idx_dm. reflexivity.
    - intros (k & [= <- <-] & I). apply in_seq in I. destruct (divmod k i) as [A B]; [lia|]. destruct (divmod k j) as [C D]; [lia|]. rewrite A, B, C, D. repeat split; auto; apply idx_lt; lia.
    - intros (Lx & Ly & E & E1 & E2). exists (x / n2)%nat. split; [|apply in_seq; split; [lia|apply (own_lt true); exact Lx]]. rewrite <- E1, <- E2, idx_dm. rewrite E, idx_dm. reflexivity.
  Qed.
  Lemma add_in_matrix_ok t first i j ind (b : build R) : (i < size first)%nat -> (j < size first)%nat ->
    add_in_matrix (seq 0 n1) (seq 0 n2) t i j first ind b = Ok (put_cells t ind (cells first i j) b).
  Proof.
    unfold size, add_in_matrix, put_cells, cells. destruct first; intros Li Lj; rewrite fold_left_map; apply mfold_ok; intros b' k I; apply in_seq in I; rewrite !state_index_ok by lia; reflexivity.
  Qed.

  Section Component.
    Variable first : bool.
    Variable mat : list (list R).
    Notation pre := (if first then "p_" else "q_")%string.
    Definition nz (ij : nat * nat) : bool := negb (Reqb (mget mat (fst ij) (snd ij)) 0).
    Definition Wph (l : list (nat * nat)) (W : nat -> nat -> expr R) : nat -> nat -> expr R := fun x y =>
      if (Nat.eqb (oth first x) (oth first y) && memb cell_eqb (own first x, own first y) l && nz (own first x, own first y))%bool
      then EVar (name2 pre (own first x) (own first y)) else W x y.
    Definition Vph (l : list (nat * nat)) (V : string -> option R) : string -> option R :=
      fold_left (fun V ij => if nz ij then with_value (name2 pre (fst ij) (snd ij)) (mget mat (fst ij) (snd ij)) V else V) l V.
    Lemma phase_ok l : forall b W V, NoDup l -> (forall i j, In (i, j) l -> (i < size first)%nat /\ (j < size first)%nat) ->
      binv N b W V ->
      (forall i j x y, In (i, j) l -> nz (i, j) = true -> (x < N)%nat -> (y < N)%nat -> oth first x = oth first y -> own first x = i -> own first y = j -> W x y = EConst 0) ->
      (forall i j, In (i, j) l -> V (name2 pre i j) = None) ->
      (length (b_te b) + length (filter nz l) <= 256)%nat ->
      exists b', mfold (add_trans (seq 0 n1) (seq 0 n2) mat first) l b = Ok b' /\ binv N b' (Wph l W) (Vph l V) /\ (length (b_te b') = length (b_te b) + length (filter nz l))%nat.
    Proof.
      induction l as [|[i j] l IH]; intros b W V ND RG BI ZW ZV BD.
      - exists b. split; [reflexivity|]. split; [|cbn; lia]. apply (binv_ext N b W V); [|reflexivity|exact BI]. intros x y _ _. unfold Wph. cbn. rewrite andb_false_r. reflexivity.
      - inversion_clear ND as [|? ? NI ND']. destruct (RG i j (or_introl eq_refl)) as [Li Lj]. cbn [mfold]. unfold add_trans at 1. cbn [filter] in BD |- *.
        change (mget mat i j =? n0)%num with (Reqb (mget mat i j) 0). assert (Z : Reqb (mget mat i j) 0 = negb (nz (i, j))) by (unfold nz; rewrite negb_involutive; reflexivity). rewrite Z.
        destruct (nz (i, j)) eqn:NZ; cbn [negb].
        + cbn [length] in BD. rewrite add_in_matrix_ok by assumption. cbn [bind].
          destruct (new_param N b W V (name2 pre i j) (mget mat i j) (cells first i j) BI) as [B1 T1]; [lia|apply ZV; left; reflexivity| |].
          { intros [x y] I. apply cells_In in I as (Lx & Ly & E & E1 & E2); [|assumption|assumption]. cbn [fst snd]. split; [exact Lx|]. split; [exact Ly|]. apply (ZW i j); auto. left. reflexivity. }
          match type of B1 with binv _ ?b1 ?W1 ?V1 => destruct (IH b1 W1 V1 ND') as (b' & E' & B' & T') end.
          * intros a c I. apply RG. right. exact I.
          * exact B1.
          * intros a c x y I NZ' Lx Ly EO E1 E2. unfold with_cells. destruct (memb cell_eqb (x, y) (cells first i j)) eqn:M.
            -- apply (LCtor.memb_In _ cell_eqb_eq), cells_In in M as (_ & _ & _ & F1 & F2); [|assumption|assumption]. exfalso. apply NI. rewrite <- F1, <- F2, E1, E2. exact I.
            -- apply (ZW a c); auto. right. exact I.
          * intros a c I. unfold with_value. destruct (String.eqb_spec (name2 pre a c) (name2 pre i j)) as [E|NE]; [|apply ZV; right; exact I]. apply name2_inj in E as [-> ->]. contradiction.
          * rewrite T1. lia.
          * exists b'. split; [exact E'|]. split; [|rewrite T', T1; cbn; lia]. apply (binv_ext N b' _ _ _ _) with (3 := B'); [|intros k; unfold Vph; cbn [fold_left]; rewrite NZ; reflexivity].
            intros x y Lx Ly. unfold Wph, with_cells. unfold memb at 1. cbn [existsb]. fold (memb cell_eqb (own first x, own first y) l).
            destruct (memb cell_eqb (x, y) (cells first i j)) eqn:M.
            -- apply (LCtor.memb_In _ cell_eqb_eq), cells_In in M as (_ & _ & F0 & F1 & F2); [|assumption|assumption]. rewrite F1, F2, F0, Nat.eqb_refl, NZ. rewrite (proj2 (cell_eqb_eq (i, j) (i, j)) eq_refl). cbn [andb orb]. destruct (memb cell_eqb (i, j) l); reflexivity.
            -- destruct (Nat.eqb_spec (oth first x) (oth first y)) as [F0|]; cbn [andb]; [|reflexivity]. destruct (cell_eqb (own first x, own first y) (i, j)) eqn:C; [|reflexivity].
               apply cell_eqb_eq in C. injection C as F1 F2. exfalso. assert (I : In (x, y) (cells first i j)) by (apply cells_In; auto). apply (LCtor.memb_In _ cell_eqb_eq) in I. congruence.
        + cbn [bind]. destruct (IH b W V ND') as (b' & E' & B' & T').
          * intros a c I. apply RG. right. exact I.
          * exact BI.
          * intros a c x y I. apply ZW. right. exact I.
          * intros a c I. apply ZV. right. exact I.
          * exact BD.
          * exists b'. split; [exact E'|]. split; [|exact T']. apply (binv_ext N b' (Wph l W) (Vph l V)) with (3 := B').
            -- intros x y Lx Ly. unfold Wph. unfold memb at 1. cbn [existsb]. fold (memb cell_eqb (own first x, own first y) l). destruct (cell_eqb (own first x, own first y) (i, j)) eqn:C; [|reflexivity].
               apply cell_eqb_eq in C. rewrite C, NZ, !andb_false_r. reflexivity.
            -- intros k. unfold Vph. cbn [fold_left]. rewrite NZ. reflexivity.
    Qed.
    Lemma Vph_other l k : forall V, (forall i j, k <> name2 pre i j) -> Vph l V k = V k.
    Proof.
      induction l as [|[i j] l IH]; intros V NE; [reflexivity|]. unfold Vph. cbn [fold_left fst snd]. fold (Vph l (if nz (i, j) then with_value (name2 pre i j) (mget mat i j) V else V)). rewrite IH by exact NE.
      destruct (nz (i, j)); [|reflexivity]. unfold with_value. destruct (String.eqb_spec k (name2 pre i j)) as [->|]; [exfalso; apply (NE i j); reflexivity|reflexivity].
    Qed.
    Lemma Vph_in l : forall V i j, nz (i, j) = true -> In (i, j) l -> Vph l V (name2 pre i j) = Some (mget mat i j).
    Proof.
      induction l as [|[a c] l IH]; intros V i j NZ I; [destruct I|]. unfold Vph. cbn [fold_left fst snd]. fold (Vph l (if nz (a, c) then with_value (name2 pre a c) (mget mat a c) V else V)).
      destruct (LCtor.memb_In _ cell_eqb_eq (i, j) l) as [M1 M2]. destruct (memb cell_eqb (i, j) l) eqn:M; [apply IH; auto|].
      destruct I as [[= -> ->]|I]; [|apply M2 in I; congruence].
      rewrite NZ. clear IH M1. assert (NI : ~ In (i, j) l) by (intros I; apply M2 in I; discriminate). clear M M2.
      assert (G : forall V, Vph l V (name2 pre i j) = V (name2 pre i j)).
      { induction l as [|[a c] l IH]; intros V'; [reflexivity|]. unfold Vph. cbn [fold_left fst snd]. fold (Vph l (if nz (a, c) then with_value (name2 pre a c) (mget mat a c) V' else V')). rewrite IH by (intros I; apply NI; right; exact I).
        destruct (nz (a, c)); [|reflexivity]. unfold with_value. destruct (String.eqb_spec (name2 pre i j) (name2 pre a c)) as [E|]; [|reflexivity]. apply name2_inj in E as [-> ->]. exfalso. apply NI. left. reflexivity. }
      rewrite G. unfold with_value. rewrite String.eqb_refl. reflexivity.
    Qed.
  End Component.
End Phases.

(** ** One new expression in one cell *)
Lemma put_expr N b W V x y e pi' : binv N b W V -> (length (b_te b) < 256)%nat -> (x < N)%nat -> (y < N)%nat -> e <> EConst 0 ->
  (forall k, occurs k e -> In k (b_ps b)) -> length pi' = length (b_ps b) ->
  (forall q, (q < length (b_ps b))%nat -> forall c, In c (nth q pi' []) <-> (c = (x, y) /\ occurs (nth q (b_ps b) EmptyString) e) \/ (c <> (x, y) /\ In c (nth q (b_pi b) []))) ->
  binv N (mkB (put (b_mat b) x y (length (b_te b))) (b_te b ++ [e]) (b_ps b) (b_pv b) pi') (with_cells [(x, y)] e W) V.
Proof.
  intros ((L & LR & EN & LP & PI) & Z0 & LT & NZ & ND & PV & KS & OC) T Lx Ly NE OE LP' PI'. unfold put. rewrite Nat.mod_small by exact T.
  destruct (mat_set_shape (b_mat b) N x y (length (b_te b)) L LR Lx Ly) as [S1 S2].
  split; [|split; [|split; [|split; [|split; [|split; [|split]]]]]]; cbn [b_mat b_te b_ps b_pv b_pi].
  - split; [exact S1|]. split; [exact S2|]. split.
    + intros a c La Lc. rewrite (mat_set_nth _ N) by assumption. rewrite app_length. cbn [length]. unfold with_cells, memb. cbn [existsb]. rewrite orb_false_r. unfold cell_eqb. cbn [fst snd]. rewrite (Nat.eqb_sym a), (Nat.eqb_sym c).
      destruct (Nat.eqb x a && Nat.eqb y c)%bool; [split; [lia|rewrite app_nth2, Nat.sub_diag by lia; reflexivity]|]. destruct (EN a c La Lc) as [A B]. split; [lia|]. rewrite app_nth1 by exact A. exact B.
    + split; [exact LP'|]. intros q Lq c. rewrite (PI' q Lq c), (PI q Lq c). unfold with_cells, memb. cbn [existsb]. rewrite orb_false_r. destruct (cell_eqb (fst c, snd c) (x, y)) eqn:C.
      * apply cell_eqb_eq in C. destruct c as [a d]. cbn [fst snd] in *. injection C as -> ->. split; [intros [[_ X]|[X _]]; [auto|congruence]|intros (_ & _ & X); left; auto].
      * assert (NC : c <> (x, y)) by (intros ->; cbn [fst snd] in C; rewrite (proj2 (cell_eqb_eq _ _) eq_refl) in C; discriminate). split; [intros [[X _]|[_ X]]; [congruence|exact X]|intros X; right; auto].
  - rewrite app_nth1 by lia. exact Z0.
  - rewrite app_length. cbn. lia.
  - intros k Lk. rewrite app_length in Lk. cbn in Lk. destruct (Nat.eq_dec k (length (b_te b))) as [->|N1]; [rewrite app_nth2, Nat.sub_diag by lia; exact NE|]. rewrite app_nth1 by lia. apply NZ. lia.
  - exact ND.
  - exact PV.
  - exact KS.
  - intros a c k La Lc O. unfold with_cells in O. destruct (memb cell_eqb (a, c) [(x, y)]); [apply OE, O|apply (OC a c k La Lc O)].
Qed.

(** ** Synchronous transitions *)
Section Sync.
  Variables n1 n2 : nat.
  Hypothesis P2 : (0 < n2)%nat.
  Notation N := (n1 * n2)%nat.
  Definition Wsync1 (t : sync * sync) (W : nat -> nat -> expr R) : nat -> nat -> expr R := fun x y =>
    if (String.eqb (s_act (fst t)) (s_act (snd t)) && cell_eqb (x, y) (s_src (fst t) * n2 + s_src (snd t), s_dst (fst t) * n2 + s_dst (snd t))%nat)%bool
    then EAdd (W x y) (EConst (s_rate (fst t) * s_rate (snd t))) else W x y.
  Definition Wsync (l : list (sync * sync)) (W : nat -> nat -> expr R) := fold_left (fun W t => Wsync1 t W) l W.
  Lemma sync_ok l : forall b W V, (forall t, In t l -> (s_src (fst t) < n1 /\ s_dst (fst t) < n1 /\ s_src (snd t) < n2 /\ s_dst (snd t) < n2)%nat) ->
    binv N b W V -> (length (b_te b) + length (filter (fun t => String.eqb (s_act (fst t)) (s_act (snd t))) l) <= 256)%nat ->
    exists b', mfold (add_sync (seq 0 n1) (seq 0 n2)) l b = Ok b' /\ binv N b' (Wsync l W) V /\
      (length (b_te b') = length (b_te b) + length (filter (fun t => String.eqb (s_act (fst t)) (s_act (snd t))) l))%nat.
  Proof.
    induction l as [|t l IH]; intros b W V RG BI BD.
    - exists b. split; [reflexivity|]. split; [exact BI|cbn; lia].
    - destruct (RG t (or_introl eq_refl)) as (A1 & A2 & A3 & A4). cbn [mfold Wsync fold_left filter] in BD |- *. fold (Wsync l (Wsync1 t W)).
      assert (E : add_sync (seq 0 n1) (seq 0 n2) b t = if String.eqb (s_act (fst t)) (s_act (snd t)) then
         let x := (s_src (fst t) * n2 + s_src (snd t))%nat in let y := (s_dst (fst t) * n2 + s_dst (snd t))%nat in
         Ok (mkB (put (b_mat b) x y (length (b_te b))) (b_te b ++ [EAdd (nth (nth y (nth x (b_mat b) []) O) (b_te b) (EConst 0)) (EConst (s_rate (fst t) * s_rate (snd t)))]) (b_ps b) (b_pv b) (b_pi b)) else Ok b).
      { destruct t as [[[[si ai] di] pi] [[[sj aj] dj] pj]]. unfold add_sync, s_src, s_act, s_dst, s_rate in *. cbn [fst snd] in *. destruct (String.eqb ai aj); [|reflexivity]. rewrite !state_index_ok by assumption. cbn [bind].
        rewrite app_length. cbn [length]. rewrite Nat.add_sub. reflexivity. }
      rewrite E. clear E. destruct (String.eqb (s_act (fst t)) (s_act (snd t))) eqn:EA.
      + cbn [bind length] in BD |- *. cbv zeta. set (x := (s_src (fst t) * n2 + s_src (snd t))%nat). set (y := (s_dst (fst t) * n2 + s_dst (snd t))%nat).
        assert (Lx : (x < N)%nat) by (apply idx_lt; assumption). assert (Ly : (y < N)%nat) by (apply idx_lt; assumption).
        pose proof BI as ((_ & _ & EN & LP & PI) & _ & _ & _ & _ & _ & _ & OC). destruct (EN x y Lx Ly) as [_ EW]. rewrite EW.
        assert (B1 := put_expr N b W V x y (EAdd (W x y) (EConst (s_rate (fst t) * s_rate (snd t)))) (b_pi b) BI).
        match type of B1 with _ -> _ -> _ -> _ -> _ -> _ -> _ -> binv _ ?b1 _ _ => destruct (IH b1 (Wsync1 t W) V) as (b' & E' & B' & T') end.
        * intros u I. apply RG. right. exact I.
        * apply (binv_ext N _ (with_cells [(x, y)] (EAdd (W x y) (EConst (s_rate (fst t) * s_rate (snd t)))) W) V); [|reflexivity|apply B1].
          -- intros a c _ _. unfold Wsync1, with_cells, memb. cbn [existsb]. rewrite EA, orb_false_r. cbn [andb]. fold x y. destruct (cell_eqb (a, c) (x, y)) eqn:C; [|reflexivity]. apply cell_eqb_eq in C. injection C as -> ->. reflexivity.
          -- lia.
          -- exact Lx.
          -- exact Ly.
          -- discriminate.
          -- intros k [O|[]]. apply (OC x y k Lx Ly O).
          -- exact LP.
          -- intros q Lq c. cbn [occurs]. split.
             ++ intros I. destruct (cell_eqb c (x, y)) eqn:C; [apply cell_eqb_eq in C; left; split; [exact C|]|right; split; [|exact I]].
                ** apply (PI q Lq) in I as (_ & _ & O). rewrite C in O. left. exact O.
                ** intros ->. rewrite (proj2 (cell_eqb_eq _ _) eq_refl) in C. discriminate.
             ++ intros [[-> [O|[]]]|[_ I]]; [|exact I]. apply (PI q Lq). cbn [fst snd]. auto.
        * cbn [b_te]. rewrite app_length. cbn [length]. lia.
        * exists b'. split; [exact E'|]. split; [exact B'|]. rewrite T'. cbn [b_te]. rewrite app_length. cbn. lia.
      + cbn [bind]. destruct (IH b W V) as (b' & E' & B' & T'); [intros u I; apply RG; right; exact I|exact BI|exact BD|]. exists b'. split; [exact E'|]. split; [|exact T'].
        replace (Wsync l (Wsync1 t W)) with (Wsync l W); [exact B'|]. unfold Wsync1. rewrite EA. reflexivity.
  Qed.
  Definition dm (x : nat) : nat * nat := (x / n2, x mod n2)%nat.
  Lemma Wsync_value V l : forall W x y v, (forall t, In t l -> (s_src (snd t) < n2 /\ s_dst (snd t) < n2)%nat) ->
    has_value V (W x y) v -> has_value V (Wsync l W x y) (v + sumL l (sync_rate (dm x) (dm y))).
  Proof.
    induction l as [|t l IH]; intros W x y v RG HV; [cbn; rewrite Rplus_0_r; exact HV|]. cbn [Wsync fold_left]. fold (Wsync l (Wsync1 t W)). unfold sumL in *. cbn [map]. change (rsum (sync_rate (dm x) (dm y) t :: map (sync_rate (dm x) (dm y)) l)) with (sync_rate (dm x) (dm y) t + rsum (map (sync_rate (dm x) (dm y)) l)).
    replace (v + (sync_rate (dm x) (dm y) t + rsum (map (sync_rate (dm x) (dm y)) l)))
      with ((v + sync_rate (dm x) (dm y) t) + rsum (map (sync_rate (dm x) (dm y)) l)) by lra.
    apply IH; [intros u I; apply RG; right; exact I|]. destruct (RG t (or_introl eq_refl)) as [R1 R2]. unfold Wsync1, sync_rate, dm. cbn [fst snd].
    destruct (String.eqb (s_act (fst t)) (s_act (snd t))); cbn [andb]; [|rewrite Rplus_0_r; exact HV].
    assert (Q : cell_eqb (x, y) (s_src (fst t) * n2 + s_src (snd t), s_dst (fst t) * n2 + s_dst (snd t))%nat =
      (Nat.eqb (s_src (fst t)) (x / n2) && Nat.eqb (s_src (snd t)) (x mod n2) && Nat.eqb (s_dst (fst t)) (y / n2) && Nat.eqb (s_dst (snd t)) (y mod n2))%bool).
    { apply eq_true_iff_eq. rewrite cell_eqb_eq, !andb_true_iff, !Nat.eqb_eq. split.
      - intros [= -> ->]. destruct (divmod n2 P2 (s_src (fst t)) _ R1) as [-> ->]. destruct (divmod n2 P2 (s_dst (fst t)) _ R2) as [-> ->]. auto.
      - intros [[[-> ->] ->] ->]. rewrite !(idx_dm n2 P2). reflexivity. }
    rewrite Q. destruct (_ && _ && _ && _)%bool; [|rewrite Rplus_0_r; exact HV].
    destruct HV as (rho & O & ->). exists rho. split; [intros k [X|[]]; apply O, X|]. reflexivity.
  Qed.
End Sync.

(** ** The initial state *)
Definition Wext (N : nat) (W : nat -> nat -> expr R) : nat -> nat -> expr R := fun x y => if (Nat.ltb x N && Nat.ltb y N)%bool then W x y else EConst 0.
Lemma extend_ok N b W V : binv N b W V -> binv (S N) (mkB (map (fun r => r ++ [O]) (b_mat b ++ [repeat O N])) (b_te b) (b_ps b) (b_pv b) (b_pi b)) (Wext N W) V.
Proof.
  intros ((L & LR & EN & LP & PI) & Z0 & LT & NZ & ND & PV & KS & OC).
  assert (NT : forall x, (x < S N)%nat -> nth x (map (fun r => r ++ [O]) (b_mat b ++ [repeat O N])) [] = (if Nat.ltb x N then nth x (b_mat b) [] else repeat O N) ++ [O]).
  { intros x Lx. rewrite (nth_indep _ [] ([] ++ [O])) by (rewrite map_length, app_length; cbn; lia). rewrite (map_nth (fun r => r ++ [O]) (b_mat b ++ [repeat O N]) []). f_equal. destruct (Nat.ltb_spec x N); [apply app_nth1; lia|]. replace x with (length (b_mat b)) by lia. rewrite app_nth2, Nat.sub_diag by lia. reflexivity. }
  split; [|split; [exact Z0|split; [exact LT|split; [exact NZ|split; [exact ND|split; [exact PV|split; [exact KS|]]]]]]]; cbn [b_mat b_te b_ps b_pv b_pi].
  - split; [rewrite map_length, app_length; cbn; lia|]. split; [|split; [|split; [exact LP|]]].
    + intros x Lx. rewrite NT, app_length by exact Lx. destruct (Nat.ltb_spec x N); [rewrite LR by lia|rewrite repeat_length]; cbn; lia.
    + intros x y Lx Ly. rewrite NT by exact Lx. unfold Wext. destruct (Nat.ltb_spec x N) as [Hx|Hx]; cbn [andb].
      * destruct (Nat.ltb_spec y N) as [Hy|Hy]; [rewrite app_nth1 by (rewrite LR; lia); apply EN; lia|]. replace y with (length (nth x (b_mat b) [])) by (rewrite LR; lia). rewrite app_nth2, Nat.sub_diag by lia. cbn [nth]. auto.
      * assert (E : nth y (repeat O N ++ [O]) O = O). { destruct (Nat.lt_ge_cases y N); [rewrite app_nth1 by (rewrite repeat_length; lia); apply nth_repeat|]. replace y with (length (repeat O N)) by (rewrite repeat_length; lia). rewrite app_nth2, Nat.sub_diag by lia. reflexivity. }
        rewrite E. auto.
    + intros q Lq c. rewrite (PI q Lq c). unfold Wext. split.
      * intros (A & B & C). split; [lia|split; [lia|]]. rewrite (proj2 (Nat.ltb_lt _ _) A), (proj2 (Nat.ltb_lt _ _) B). exact C.
      * intros (A & B & C). destruct (Nat.ltb_spec (fst c) N); [|destruct C]. destruct (Nat.ltb_spec (snd c) N); [|destruct C]. auto.
  - intros x y k Lx Ly O. unfold Wext in O. destruct (Nat.ltb_spec x N); [|destruct O]. destruct (Nat.ltb_spec y N); [|destruct O]. apply (OC x y k); assumption.
Qed.
Lemma zero_row {A} (f : R -> A -> R) (l : list A) : zipwith f (vzeros (length l)) l = map (f 0) l.
Proof. induction l as [|x l IH]; [reflexivity|]. unfold vzeros in *. cbn [length repeat zipwith map]. rewrite IH. reflexivity. Qed.
Lemma init_trans_one (mat : list (list R)) n ids : init_trans mat [n] ids = map (fun j => mget mat n j) ids.
Proof.
  unfold init_trans. cbn [fold_left]. rewrite <- (map_length (fun j => mget mat n j) ids), zero_row, map_map. apply map_ext. intros j. nR. rewrite Rmult_0_l, Rplus_0_l. rewrite (proj2 (Rltb_false 0 0)) by lra. reflexivity.
Qed.

Lemma add_param N b W V nm v : binv N b W V -> V nm = None ->
  binv N (mkB (b_mat b) (b_te b) (b_ps b ++ [nm]) (dset (b_pv b) nm v) (b_pi b ++ [[]])) W (with_value nm v V).
Proof.
  intros ((L & LR & EN & LP & PI) & Z0 & LT & NZ & ND & PV & KS & OC) NV.
  assert (NP : ~ In nm (b_ps b)) by (intros X; apply KS in X; congruence).
  split; [|split; [exact Z0|split; [exact LT|split; [exact NZ|split; [|split; [|split]]]]]]; cbn [b_mat b_te b_ps b_pv b_pi].
  - split; [exact L|]. split; [exact LR|]. split; [exact EN|]. rewrite !app_length. cbn [length]. split; [lia|]. intros q Lq c. destruct (Nat.eq_dec q (length (b_ps b))) as [->|NQ].
    + rewrite <- LP at 1. rewrite !app_nth2, !Nat.sub_diag by lia. cbn [nth In]. split; [intros []|]. intros (A & B & O). exact (NP (OC _ _ _ A B O)).
    + rewrite !app_nth1 by lia. apply PI. lia.
  - apply (NoDup_app_intro _ [nm] ND); [constructor; [cbn; tauto|constructor]|]. intros k I [<-|[]]. exact (NP I).
  - intros k. rewrite dget_dset. unfold with_value. destruct (String.eqb k nm); [reflexivity|apply PV].
  - intros k. rewrite in_app_iff. cbn [In]. unfold with_value. destruct (String.eqb_spec k nm) as [->|NE]; [split; [auto|discriminate]|]. rewrite KS. split; [auto|]. intros [X|[X|[]]]; [exact X|congruence].
  - intros x y k Lx Ly O. apply in_or_app. left. apply (OC x y k Lx Ly O).
Qed.
Definition Vini (p : string) (l : list (nat * R)) (V : string -> option R) : string -> option R :=
  fold_left (fun V iv => if @nltb R RNum 0 (snd iv) then with_value (p ++ str_nat (fst iv)) (snd iv) V else V) l V.
Lemma init_params_ok N p l : forall b W V, NoDup (map fst l) -> binv N b W V -> (forall i v, In (i, v) l -> V (p ++ str_nat i)%string = None) ->
  let b' := fold_left (add_init_params p) l b in binv N b' W (Vini p l V) /\ b_te b' = b_te b /\ b_mat b' = b_mat b.
Proof.
  induction l as [|[i v] l IH]; intros b W V ND BI ZV; [cbn; auto|]. cbn [map fst] in ND. inversion_clear ND as [|? ? NI ND']. cbn [fold_left Vini fst snd]. fold (Vini p l (if @nltb R RNum 0 v then with_value (p ++ str_nat i) v V else V)).
  assert (E : add_init_params p b (i, v) = if @nltb R RNum 0 v then mkB (b_mat b) (b_te b) (b_ps b ++ [(p ++ str_nat i)%string]) (dset (b_pv b) (p ++ str_nat i)%string v) (b_pi b ++ [[]]) else b) by reflexivity. rewrite E. clear E. destruct (@nltb R RNum 0 v).
  - destruct (IH (mkB (b_mat b) (b_te b) (b_ps b ++ [(p ++ str_nat i)%string]) (dset (b_pv b) (p ++ str_nat i)%string v) (b_pi b ++ [[]])) W (with_value (p ++ str_nat i) v V) ND') as (B & T & M).
    + apply add_param; [exact BI|]. apply (ZV i v). left. reflexivity.
    + intros j w I. unfold with_value. destruct (String.eqb_spec (p ++ str_nat j) (p ++ str_nat i)) as [E|]; [|apply (ZV j w); right; exact I]. apply string_app_inv, str_nat_inj in E. subst j. exfalso. apply NI, (in_map fst _ _ I).
    + split; [exact B|]. split; [exact T|exact M].
  - apply (IH b W V ND' BI). intros j w I. apply (ZV j w). right. exact I.
Qed.
Lemma Vini_other p l k : forall V, (forall i, k <> (p ++ str_nat i)%string) -> Vini p l V k = V k.
Proof.
  induction l as [|[i v] l IH]; intros V NE; [reflexivity|]. cbn [Vini fold_left fst snd]. fold (Vini p l (if @nltb R RNum 0 v then with_value (p ++ str_nat i) v V else V)). rewrite IH by exact NE.
  destruct (@nltb R RNum 0 v); [|reflexivity]. unfold with_value. destruct (String.eqb_spec k (p ++ str_nat i)) as [->|]; [exfalso; apply (NE i); reflexivity|reflexivity].
Qed.
Lemma Vini_in p l : forall V i v, NoDup (map fst l) -> In (i, v) l -> 0 < v -> Vini p l V (p ++ str_nat i)%string = Some v.
Proof.
  induction l as [|[j w] l IH]; intros V i v ND I P; [destruct I|]. cbn [map fst] in ND. inversion_clear ND as [|? ? NI ND']. cbn [Vini fold_left fst snd]. fold (Vini p l (if @nltb R RNum 0 w then with_value (p ++ str_nat j) w V else V)).
  destruct I as [[= -> ->]|I]; [|apply IH; assumption]. rewrite (proj2 (Rltb_true 0 v) P). clear IH ND'.
  assert (G : forall V, Vini p l V (p ++ str_nat i)%string = V (p ++ str_nat i)%string).
  { induction l as [|[a c] l IH]; intros V'; [reflexivity|]. cbn [Vini fold_left fst snd]. fold (Vini p l (if @nltb R RNum 0 c then with_value (p ++ str_nat a) c V' else V')). rewrite IH by (intros I; apply NI; right; exact I).
    destruct (@nltb R RNum 0 c); [|reflexivity]. unfold with_value. destruct (String.eqb_spec (p ++ str_nat i) (p ++ str_nat a)) as [E|]; [|reflexivity]. apply string_app_inv, str_nat_inj in E. subst a. exfalso. apply NI. left. reflexivity. }
  rewrite G. unfold with_value. rewrite String.eqb_refl. reflexivity.
Qed.

Section Init.
  Variables n1 n2 : nat.
  Hypothesis P2 : (0 < n2)%nat.
  Notation nb := (n1 * n2)%nat.
  Variables v1 v2 : list R.
  Definition initE (i j : nat) : expr R := EMul (EVar ("initp_" ++ str_nat i)) (EVar ("initq_" ++ str_nat j)).
  Definition pos (ij : nat * nat) : bool := negb (Rleb (nth (fst ij) v1 0 * nth (snd ij) v2 0) 0).
  Definition Winit (l : list (nat * nat)) (W : nat -> nat -> expr R) : nat -> nat -> expr R := fun x y =>
    if (Nat.eqb x nb && Nat.ltb y nb && memb cell_eqb (y / n2, y mod n2)%nat l && pos (y / n2, y mod n2)%nat)%bool then initE (y / n2)%nat (y mod n2)%nat else W x y.
  Lemma add_index_ok (b : build R) p c : In p (b_ps b) -> exists k, nth k (b_ps b) EmptyString = p /\ (k < length (b_ps b))%nat /\
    add_index b p c = Ok (mkB (b_mat b) (b_te b) (b_ps b) (b_pv b) (upd (b_pi b) k (nth k (b_pi b) [] ++ [c]))).
  Proof.
    intros I. destruct (In_nth _ _ EmptyString I) as (k0 & _ & _). unfold add_index, index_err. destruct (index_of String.eqb p (b_ps b)) as [k|] eqn:E.
    - apply (LCtor.index_of_Some String.eqb String.eqb_eq) in E as E1. exists k. cbn [bind]. split; [apply (nth_error_nth _ _ _ E1)|]. split; [apply nth_error_Some; congruence|reflexivity].
    - exfalso. destruct (LCtor.index_of_In String.eqb String.eqb_eq _ _ I) as [k Ek]. congruence.
  Qed.
  Lemma init_ok l : forall b W V, NoDup l -> (forall i j, In (i, j) l -> (i < n1)%nat /\ (j < n2)%nat) -> binv (S nb) b W V ->
    (forall i j, In (i, j) l -> W nb (i * n2 + j)%nat = EConst 0) ->
    (forall i j, In (i, j) l -> pos (i, j) = true -> V ("initp_" ++ str_nat i)%string <> None /\ V ("initq_" ++ str_nat j)%string <> None) ->
    (length (b_te b) + length (filter pos l) <= 256)%nat ->
    exists b', mfold (add_init (seq 0 n1) (seq 0 n2) v1 v2) l b = Ok b' /\ binv (S nb) b' (Winit l W) V.
  Proof.
    induction l as [|[i j] l IH]; intros b W V ND RG BI ZW VV BD.
    - exists b. split; [reflexivity|]. apply (binv_ext _ b W V); [|reflexivity|exact BI]. intros x y _ _. unfold Winit. cbn [memb existsb]. rewrite andb_false_r. reflexivity.
    - inversion_clear ND as [|? ? NI ND']. destruct (RG i j (or_introl eq_refl)) as [Li Lj]. cbn [mfold]. unfold add_init at 1. rewrite state_index_ok by assumption. cbn [bind].
      assert (Ly := idx_lt n1 n2 P2 i j Li Lj). set (y := (i * n2 + j)%nat) in *.
      pose proof BI as ((L & LR & EN & LP & PI) & Z0 & LT & NZ & KD & PV & KS & OC). rewrite L. cbn [minus]. rewrite Nat.sub_0_r.
      assert (ZY : W nb y = EConst 0) by (apply ZW; left; reflexivity).
      change (nth i v1 n0 * nth j v2 n0 <=? n0)%num with (Rleb (nth i v1 0 * nth j v2 0) 0). assert (Q : Rleb (nth i v1 0 * nth j v2 0) 0 = negb (pos (i, j))) by (unfold pos; rewrite negb_involutive; reflexivity). rewrite Q.
      cbn [filter] in BD. destruct (divmod n2 P2 i j Lj) as [D1 D2]. fold y in D1, D2.
      destruct (pos (i, j)) eqn:PO; cbn [negb length] in BD |- *.
      + destruct (VV i j (or_introl eq_refl) PO) as [V1 V2]. apply KS in V1. apply KS in V2.
        match goal with |- exists b', bind (bind (add_index ?bb _ _) _) _ = _ /\ _ => set (b1 := bb) end.
        destruct (add_index_ok b1 ("initp_" ++ str_nat i)%string (nb, y)) as (k & K1 & K2 & E1); [exact V1|]. unfold bind at 2. rewrite E1.
        match goal with |- exists b', bind (add_index ?bb _ _) _ = _ /\ _ => set (b2 := bb) end.
        destruct (add_index_ok b2 ("initq_" ++ str_nat j)%string (nb, y)) as (k' & K1' & K2' & E2); [exact V2|]. rewrite E2. cbn [bind].
        cbn [b1 b2 b_ps b_pi b_mat b_te b_pv] in *.
        assert (NK : k <> k') by (intros ->; rewrite K1 in K1'; discriminate).
        assert (B1 := put_expr (S nb) b W V nb y (initE i j) (b_pi (mkB (b_mat b2) (b_te b2) (b_ps b2) (b_pv b2) (upd (b_pi b2) k' (nth k' (b_pi b2) [] ++ [(nb, y)])))) BI).
        cbn [b1 b2 b_ps b_pi b_mat b_te b_pv] in B1.
        match type of B1 with _ -> _ -> _ -> _ -> _ -> _ -> _ -> binv _ ?b3 ?W3 _ => destruct (IH b3 W3 V ND') as (b' & E' & B') end.
        * intros a c I. apply RG. right. exact I.
        * apply B1; [lia|lia|lia|discriminate| |rewrite !LCtor.upd_length; exact LP|].
          -- intros q [O|O]; cbn in O; subst q; assumption.
          -- intros q Lq c. rewrite LCtor.upd_nth by (rewrite LCtor.upd_length; lia). rewrite !LCtor.upd_nth by lia.
             assert (NC : ~ In (nb, y) (nth q (b_pi b) [])). { intros I. apply (PI q Lq) in I as (_ & _ & O). cbn [fst snd] in O. rewrite ZY in O. exact O. }
             assert (OO : occurs (nth q (b_ps b) EmptyString) (initE i j) <-> q = k \/ q = k').
             { unfold initE. cbn [occurs]. rewrite <- K1, <- K1'. split; intros [E|E].
               - left. apply (proj1 (NoDup_nth (b_ps b) EmptyString) KD); assumption.
               - right. apply (proj1 (NoDup_nth (b_ps b) EmptyString) KD); assumption.
               - left. rewrite E. reflexivity.
               - right. rewrite E. reflexivity. }
             rewrite OO. destruct (Nat.eqb_spec k' q) as [<-|N1].
             { destruct (Nat.eqb_spec k k'); [contradiction|]. rewrite in_app_iff. cbn [In]. split.
               - intros [I|[<-|[]]]; [right; split; [intros ->; contradiction|exact I]|left; auto].
               - intros [[-> _]|[_ I]]; auto. }
             destruct (Nat.eqb_spec k q) as [<-|N2].
             { rewrite in_app_iff. cbn [In]. split.
               - intros [I|[<-|[]]]; [right; split; [intros ->; contradiction|exact I]|left; auto].
               - intros [[-> _]|[_ I]]; auto. }
             split; [intros I; right; split; [intros ->; contradiction|exact I]|]. intros [[_ [E|E]]|[_ I]]; [congruence|congruence|exact I].
        * intros a c I. unfold with_cells. destruct (memb cell_eqb (nb, (a * n2 + c)%nat) [(nb, y)]) eqn:M; [|apply ZW; right; exact I]. exfalso. apply (LCtor.memb_In _ cell_eqb_eq) in M as [M|[]]. injection M as M.
          destruct (RG a c (or_intror I)) as [_ Lc]. destruct (divmod n2 P2 a c Lc) as [F1 F2]. rewrite <- M in F1, F2. apply NI. rewrite <- D1, <- D2, F1, F2. exact I.
        * intros a c I PA. apply VV; [right; exact I|exact PA].
        * cbn [b_te]. rewrite app_length. cbn. lia.
        * exists b'. split; [exact E'|]. apply (binv_ext _ b' _ V _ V) with (3 := B'); [|reflexivity]. intros x z Lx Lz. unfold Winit, with_cells. unfold memb at 1 3. cbn [existsb]. fold (memb cell_eqb (z / n2, z mod n2)%nat l). rewrite orb_false_r.
          destruct (cell_eqb (x, z) (nb, y)) eqn:C.
          -- apply cell_eqb_eq in C. injection C as -> ->. rewrite D1, D2, PO, Nat.eqb_refl, (proj2 (Nat.ltb_lt _ _) Ly), (proj2 (cell_eqb_eq _ _) eq_refl). cbn [andb orb]. destruct (memb cell_eqb (i, j) l); reflexivity.
          -- destruct (cell_eqb (z / n2, z mod n2)%nat (i, j)) eqn:C2; [|reflexivity]. apply cell_eqb_eq in C2. injection C2 as C2 C3. destruct (Nat.eqb_spec x nb) as [->|]; [|reflexivity].
             exfalso. assert (z = y) by (unfold y; rewrite <- C2, <- C3; symmetry; apply idx_dm; exact P2). subst z. rewrite (proj2 (cell_eqb_eq _ _) eq_refl) in C. discriminate.
      + cbn [bind].
        assert (B1 : binv (S nb) (mkB (put (b_mat b) nb y 0) (b_te b) (b_ps b) (b_pv b) (b_pi b)) W V).
        { unfold put. rewrite Nat.mod_small by lia. destruct (mat_set_shape (b_mat b) (S nb) nb y 0 L LR) as [S1 S2]; [lia|lia|]. split; [|repeat split; auto; apply KS]. cbn [b_mat b_te b_ps b_pv b_pi]. split; [exact S1|]. split; [exact S2|]. split; [|split; [exact LP|exact PI]].
          intros x z Lx Lz. rewrite (mat_set_nth _ (S nb)) by (assumption || lia). destruct (Nat.eqb_spec nb x) as [<-|]; cbn [andb]; [|apply EN; assumption]. destruct (Nat.eqb_spec y z) as [<-|]; [|apply EN; assumption]. rewrite ZY. auto. }
        destruct (IH (mkB (put (b_mat b) nb y 0) (b_te b) (b_ps b) (b_pv b) (b_pi b)) W V ND') as (b' & E' & B').
        * intros a c I. apply RG. right. exact I.
        * exact B1.
        * intros a c I. apply ZW. right. exact I.
        * intros a c I. apply VV. right. exact I.
        * cbn [b_te]. exact BD.
        * exists b'. split; [exact E'|]. apply (binv_ext _ b' _ V _ V) with (3 := B'); [|reflexivity]. intros x z Lx Lz. unfold Winit. unfold memb at 1. cbn [existsb]. fold (memb cell_eqb (z / n2, z mod n2)%nat l).
          destruct (cell_eqb (z / n2, z mod n2)%nat (i, j)) eqn:C2; [|reflexivity]. apply cell_eqb_eq in C2. rewrite C2, PO, !andb_false_r. reflexivity.
  Qed.
End Init.

(** ** Removal of the unreachable states *)
Definition skip (i x : nat) : nat := if Nat.ltb x i then x else S x.
Lemma del_length {A} i (l : list A) : (i < length l)%nat -> length (del i l) = (length l - 1)%nat.
Proof. intros L. unfold del. rewrite app_length, firstn_length, skipn_length. lia. Qed.
Lemma del_nth {A} i (l : list A) d x : (i < length l)%nat -> nth x (del i l) d = nth (skip i x) l d.
Proof.
  unfold del, skip. revert i x; induction l as [|a l IH]; intros i x L; [cbn in L; lia|]. destruct i as [|i]; [reflexivity|]. destruct x as [|x]; [reflexivity|].
  change (firstn (S i) (a :: l)) with (a :: firstn i l). change (skipn (S (S i)) (a :: l)) with (skipn (S i) l). cbn [app nth]. rewrite IH by (cbn in L; lia). change (S x <? S i)%nat with (x <? i)%nat. destruct (x <? i)%nat; reflexivity.
Qed.
Lemma del_map {A B} (f : A -> B) i l : map f (del i l) = del i (map f l).
Proof. unfold del. rewrite map_app, firstn_map, skipn_map. reflexivity. Qed.
Lemma del_app {A} i (l1 l2 : list A) : (i < length l1)%nat -> del i (l1 ++ l2) = del i l1 ++ l2.
Proof.
  intros L. unfold del. rewrite firstn_app, skipn_app. replace (i - length l1)%nat with O by lia. replace (S i - length l1)%nat with O by lia. rewrite firstn_O, app_nil_r. cbn [skipn]. rewrite app_assoc. reflexivity.
Qed.
Lemma del_filter i : forall l, NoDup l -> (i < length l)%nat -> del i l = filter (fun x => negb (Nat.eqb x (nth i l O))) l.
Proof.
  induction i as [|i IH]; intros [|a l] ND L; cbn in L; try lia; inversion_clear ND as [|? ? NI ND'].
  - cbn [nth filter]. rewrite Nat.eqb_refl. cbn [negb]. change (del 0 (a :: l)) with l. symmetry. rewrite (filter_ext_in _ (fun _ => true)).
    + clear. induction l as [|x l IH]; cbn; [reflexivity|]. rewrite IH. reflexivity.
    + intros x I. destruct (Nat.eqb_spec x a); [subst; contradiction|reflexivity].
  - change (del (S i) (a :: l)) with (a :: del i l). cbn [nth filter]. assert (In (nth i l O) l) by (apply nth_In; lia). destruct (Nat.eqb_spec a (nth i l O)) as [->|NE]; [contradiction|]. cbn [negb]. rewrite IH by (assumption || lia). reflexivity.
Qed.
Lemma filter_filter {A} (f g : A -> bool) l : filter g (filter f l) = filter (fun x => (f x && g x)%bool) l.
Proof. induction l as [|x l IH]; [reflexivity|]. cbn. destruct (f x); cbn; [destruct (g x)|]; rewrite IH; reflexivity. Qed.

Lemma remove1_perm c l : In c l -> Permutation l (c :: remove1 c l).
Proof.
  induction l as [|d l IH]; [intros []|]. cbn [remove1]. intros I. destruct (cell_eqb c d) eqn:E; [apply cell_eqb_eq in E; subst; reflexivity|].
  destruct I as [->|I]; [rewrite (proj2 (cell_eqb_eq _ _) eq_refl) in E; discriminate|]. rewrite (IH I) at 1. apply perm_swap.
Qed.
Definition keep2 (i : nat) (c : nat * nat) : bool := negb (Nat.eqb (fst c) i || Nat.eqb (snd c) i).
Lemma shift_perm i todo : forall done, Permutation (shift i done todo) (done ++ map (fun c => (dec i (fst c), dec i (snd c))) (filter (keep2 i) todo)).
Proof.
  induction todo as [|c todo IH]; intros done; [cbn; rewrite app_nil_r; reflexivity|]. cbn [shift filter]. unfold keep2 at 1. destruct (Nat.eqb (fst c) i || Nat.eqb (snd c) i)%bool; cbn [negb].
  - rewrite IH. apply Permutation_app_tail. apply (Permutation_cons_inv (a := c)). rewrite <- remove1_perm by (apply in_or_app; right; left; reflexivity). apply Permutation_sym, Permutation_cons_append.
  - rewrite IH. cbn [map]. rewrite <- app_assoc. reflexivity.
Qed.
Lemma skip_dec i x : x <> i -> skip i (dec i x) = x.
Proof. unfold skip, dec. intros N. destruct (Nat.ltb_spec i x); [destruct (Nat.ltb_spec (x - 1) i); lia|destruct (Nat.ltb_spec x i); lia]. Qed.
Lemma dec_skip i x : dec i (skip i x) = x.
Proof. unfold skip, dec. destruct (Nat.ltb_spec x i); [destruct (Nat.ltb_spec i x); lia|destruct (Nat.ltb_spec i (S x)); lia]. Qed.
Lemma skip_neq i x : skip i x <> i.
Proof. unfold skip. destruct (Nat.ltb_spec x i); lia. Qed.
Lemma skip_lt i x n : (i < n)%nat -> (x < n - 1)%nat -> (skip i x < n)%nat.
Proof. unfold skip. destruct (Nat.ltb_spec x i); lia. Qed.
Lemma skip_lt' i x n : (i < n)%nat -> (skip i x < n)%nat -> (x < n - 1)%nat.
Proof. unfold skip. destruct (Nat.ltb_spec x i); lia. Qed.
Lemma shift_In i l c : In c (shift i [] l) <-> In (skip i (fst c), skip i (snd c)) l.
Proof.
  split.
  - intros I. apply (Permutation_in _ (shift_perm i l [])) in I. cbn [app] in I. apply in_map_iff in I as ([a b] & <- & I). apply filter_In in I as [I K]. unfold keep2 in K. cbn [fst snd] in *. apply negb_true_iff, orb_false_iff in K as [K1 K2]. apply Nat.eqb_neq in K1, K2. rewrite !skip_dec by assumption. exact I.
  - intros I. apply (Permutation_in _ (Permutation_sym (shift_perm i l []))). cbn [app]. apply in_map_iff. exists (skip i (fst c), skip i (snd c)). cbn [fst snd]. rewrite !dec_skip. split; [destruct c; reflexivity|]. apply filter_In. split; [exact I|]. unfold keep2. cbn [fst snd]. rewrite (proj2 (Nat.eqb_neq _ _) (skip_neq i (fst c))), (proj2 (Nat.eqb_neq _ _) (skip_neq i (snd c))). reflexivity.
Qed.
Definition good_shift (sh : nat -> list (nat * nat) -> list (nat * nat)) : Prop := forall i l c, In c (sh i l) <-> In (skip i (fst c), skip i (snd c)) l.
Lemma minv_del sh n te ps mat pi W i : good_shift sh -> (i < n)%nat -> minv n te ps mat pi W ->
  minv (n - 1) te ps (map (del i) (del i mat)) (map (sh i) pi) (fun x y => W (skip i x) (skip i y)).
Proof.
  intros SH Li (L & LR & EN & LP & PI).
  assert (NT : forall x, nth x (map (del i) (del i mat)) [] = del i (nth (skip i x) mat [])).
  { intros x. rewrite <- (del_nth i mat) by lia. assert (D : del i ([] : list nat) = []) by (unfold del; rewrite firstn_nil, skipn_nil; reflexivity). rewrite <- D at 1. apply map_nth. }
  split; [rewrite map_length, del_length; lia|]. split; [intros x Lx; rewrite NT, del_length; rewrite LR by (apply skip_lt; assumption); lia|]. split; [|split].
  - intros x y Lx Ly. rewrite NT, del_nth by (rewrite LR by (apply skip_lt; assumption); exact Li). apply EN; apply skip_lt; assumption.
  - rewrite map_length. exact LP.
  - intros q Lq c. assert (D : nth q (map (sh i) pi) [] = sh i (nth q pi [])) by (rewrite <- (map_nth (sh i)); apply nth_indep; rewrite map_length; lia). rewrite D, (SH i). rewrite (PI q Lq). cbn [fst snd]. split.
    + intros (A & B & C). split; [apply (skip_lt' i); assumption|]. split; [apply (skip_lt' i); assumption|exact C].
    + intros (A & B & C). split; [apply skip_lt; assumption|]. split; [apply skip_lt; assumption|exact C].
Qed.
Lemma minv_ext n te ps mat pi W W' : (forall x y, (x < n)%nat -> (y < n)%nat -> W' x y = W x y) -> minv n te ps mat pi W -> minv n te ps mat pi W'.
Proof.
  intros EW (L & LR & EN & LP & PI). split; [exact L|]. split; [exact LR|]. split; [intros x y Lx Ly; rewrite EW by assumption; apply EN; assumption|]. split; [exact LP|].
  intros q Lq c. rewrite (PI q Lq c). split; intros (A & B & C); (split; [exact A|split; [exact B|]]); [rewrite EW by assumption|rewrite <- EW by assumption]; exact C.
Qed.
Lemma minv_filter_all nb : seq 0 nb = filter (fun _ => true) (seq 0 nb).
Proof. induction (seq 0 nb) as [|x l IH]; cbn; [reflexivity|]. rewrite <- IH. reflexivity. Qed.

Section Removal.
  Variable nb : nat.
  Variable te : list (expr R).
  Variable ps : list string.
  Variable W : nat -> nat -> expr R.
  Variable lab : nat -> string.
  Hypothesis Z0 : nth O te (EConst 0) = EConst 0.
  Hypothesis NZ : forall k, (0 < k < length te)%nat -> nth k te (EConst 0) <> EConst 0.
  Hypothesis LI : forall x, (x < nb)%nat -> lab x <> "init"%string.
  Variable sh : nat -> list (nat * nat) -> list (nat * nat).
  Hypothesis SH : good_shift sh.
  Notation ker f := (filter f (seq 0 nb) ++ [nb]).
  Definition Wk (f : nat -> bool) : nat -> nat -> expr R := fun x y => W (nth x (ker f) O) (nth y (ker f) O).
  Definition closed (f : nat -> bool) : Prop := forall x y, In x (ker f) -> (y < nb)%nat -> W x y <> EConst 0 -> In y (ker f).
  Lemma removal_ok fuel : forall f mat pi, (length (ker f) <= fuel)%nat -> closed f -> minv (length (ker f)) te ps mat pi (Wk f) ->
    exists g mat' pi', remove_unreachable sh fuel mat (map lab (filter f (seq 0 nb)) ++ ["init"%string]) pi = (mat', map lab (filter g (seq 0 nb)) ++ ["init"%string], pi') /\
      closed g /\ minv (length (ker g)) te ps mat' pi' (Wk g) /\ (forall y, In y (filter g (seq 0 nb)) -> exists x, In x (ker g) /\ W x y <> EConst 0).
  Proof.
    induction fuel as [|fuel IH]; intros f mat pi LF CL MI; [rewrite app_length in LF; cbn in LF; lia|]. cbn [remove_unreachable].
    pose proof MI as (L & LR & EN & LP & PI). set (k0 := filter f (seq 0 nb)) in *. set (lb := map lab k0 ++ ["init"%string]).
    assert (LK : length (k0 ++ [nb]) = S (length k0)) by (rewrite app_length; cbn; lia).
    assert (K0 : forall i, (i < length k0)%nat -> (nth i k0 O < nb)%nat /\ nth i lb EmptyString = lab (nth i k0 O)).
    { intros i Li. split.
      - assert (I : In (nth i k0 O) k0) by (apply nth_In; exact Li). apply filter_In in I as [I _]. apply in_seq in I. lia.
      - unfold lb. rewrite app_nth1 by (rewrite map_length; exact Li). rewrite (nth_indep _ EmptyString (lab O)) by (rewrite map_length; exact Li). apply map_nth. }
    assert (ND : NoDup k0) by (apply NoDup_filter, seq_NoDup).
    destruct (find (unreached mat lb) (seq 0 (length mat))) as [i|] eqn:F.
    - apply find_some in F as [I U]. apply in_seq in I. unfold unreached in U. apply andb_true_iff in U as [U1 U2]. rewrite forallb_forall in U1. apply negb_true_iff in U2.
      assert (Li : (i < length k0)%nat). { destruct (Nat.lt_ge_cases i (length k0)); [assumption|]. exfalso. assert (E : i = length (map lab k0)) by (rewrite map_length; lia). unfold lb in U2. rewrite E, app_nth2, Nat.sub_diag in U2 by lia. discriminate. }
      destruct (K0 i Li) as [KI _].
      set (g := fun x => (f x && negb (Nat.eqb x (nth i k0 O)))%bool).
      assert (EG : filter g (seq 0 nb) = del i k0) by (rewrite (del_filter i k0 ND Li); unfold k0 at 2; rewrite filter_filter; reflexivity).
      assert (EK : ker g = del i (k0 ++ [nb])) by (rewrite EG, del_app by exact Li; reflexivity).
      destruct (IH g (map (del i) (del i mat)) (map (sh i) pi)) as (h & mat' & pi' & E & R).
      + rewrite EK, del_length; lia.
      + intros x y Ix Ly WN. rewrite EG in Ix |- *. assert (Ix' : In x (k0 ++ [nb])). { apply in_app_iff in Ix as [Ix|Ix]; apply in_app_iff; [left|right; exact Ix]. rewrite (del_filter i k0 ND Li) in Ix. apply filter_In in Ix. tauto. }
        assert (Iy := CL x y Ix' Ly WN). fold k0 in Iy. apply in_app_iff in Iy as [Iy|Iy]; apply in_app_iff; [left|right; exact Iy].
        rewrite (del_filter i k0 ND Li). apply filter_In. split; [exact Iy|]. apply negb_true_iff, Nat.eqb_neq. intros ->. apply WN.
        destruct (In_nth _ _ O Ix') as (x' & Lx' & Ex). destruct (EN x' i Lx') as [_ EW]; [lia|]. unfold Wk in EW. fold k0 in EW. rewrite Ex, app_nth1 in EW by exact Li. rewrite <- EW.
        assert (U : In (nth x' mat []) mat) by (apply nth_In; lia). apply U1, Nat.eqb_eq in U. rewrite U. exact Z0.
      + rewrite EK, del_length by lia. apply (minv_ext _ _ _ _ _ (fun x y => Wk f (skip i x) (skip i y))); [|apply minv_del; [exact SH|lia|exact MI]].
        intros x y Lx Ly. unfold Wk. fold k0. rewrite EK, !del_nth by lia. reflexivity.
      + exists h, mat', pi'. split; [|exact R]. rewrite <- E. f_equal. unfold lb. rewrite EG, del_map, del_app by (rewrite map_length; exact Li). reflexivity.
    - exists f, mat, pi. split; [reflexivity|]. split; [exact CL|]. split; [exact MI|]. intros y Iy. fold k0 in Iy |- *. destruct (In_nth _ _ O Iy) as (i & Li & Ei).
      assert (U := find_none _ _ F i). assert (Ii : In i (seq 0 (length mat))) by (apply in_seq; lia). specialize (U Ii). destruct (K0 i Li) as [KI KL].
      unfold unreached in U. rewrite KL in U. unfold is_init in U. rewrite (proj2 (String.eqb_neq _ _) (LI _ KI)) in U. cbn [negb] in U. rewrite andb_true_r in U.
      assert (EX : exists r, In r mat /\ nth i r O <> O).
      { clear -U. induction mat as [|r mat IH]; [discriminate|]. cbn [forallb] in U. apply andb_false_iff in U as [U|U]; [exists r; split; [left; reflexivity|apply Nat.eqb_neq, U]|]. destruct (IH U) as (r' & I & N). exists r'. split; [right; exact I|exact N]. }
      destruct EX as (r & Ir & Nr). destruct (In_nth _ _ [] Ir) as (x & Lx & Ex). destruct (EN x i) as [B EW]; [lia|lia|]. rewrite Ex in B, EW. unfold Wk in EW. fold k0 in EW. rewrite (app_nth1 k0 [nb] (n:=i) O) in EW by exact Li.
      exists (nth x (k0 ++ [nb]) O). split; [apply nth_In; lia|]. rewrite <- Ei, <- EW. apply NZ. lia.
  Qed.
End Removal.

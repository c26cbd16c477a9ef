(** Reduction of the model by fit_parameters. *)
From Coq Require Import String ZArith Bool Reals List Lia Lra.
From Verif Require Import Num Py SNum SPath LSum MSet MModels MCtor MPctmc SPctmc LPctmc LCtor MPLearn SPLearn SPPrune.
Import ListNotations.
Local Open Scope R_scope.

Definition skip (s i : nat) : nat := if (i <? s)%nat then i else S i.
Lemma skip_spec s i : ((i < s)%nat /\ skip s i = i) \/ ((s <= i)%nat /\ skip s i = S i).
Proof. unfold skip. destruct (Nat.ltb_spec i s); [left|right]; auto. Qed.
Lemma nth_remove {A} s (l : list A) i d : (s < length l)%nat -> nth i (remove_nth s l) d = nth (skip s i) l d.
Proof.
  intros L. unfold remove_nth. destruct (skip_spec s i) as [[H ->]|[H ->]].
  - rewrite app_nth1 by (rewrite firstn_length; lia). rewrite <- (firstn_skipn s l) at 2. rewrite app_nth1 by (rewrite firstn_length; lia). reflexivity.
  - rewrite app_nth2 by (rewrite firstn_length; lia). rewrite firstn_length, Nat.min_l by lia.
    rewrite <- (firstn_skipn (S s) l) at 2. rewrite app_nth2 by (rewrite firstn_length; lia). rewrite firstn_length, Nat.min_l by lia. reflexivity.
Qed.
Lemma length_remove {A} s (l : list A) : (s < length l)%nat -> length (remove_nth s l) = (length l - 1)%nat.
Proof. intros L. unfold remove_nth. rewrite app_length, firstn_length, skipn_length. lia. Qed.
Lemma In_remove {A} s (l : list A) x : In x (remove_nth s l) -> In x l.
Proof. unfold remove_nth. intros I. apply in_app_or in I. destruct I as [I|I]; [rewrite <- (firstn_skipn s l); apply in_or_app; left; exact I|]. rewrite <- (firstn_skipn (S s) l). apply in_or_app. right. exact I. Qed.
Lemma map_nth_in {A B} (f : A -> B) l d d' i : (i < length l)%nat -> nth i (map f l) d' = f (nth i l d).
Proof. intros L. rewrite (nth_indep _ d' (f d)) by (rewrite map_length; exact L). apply map_nth. Qed.
Lemma remove_seq s n : (s < n)%nat -> remove_nth s (seq 0 n) = map (skip s) (seq 0 (n - 1)).
Proof.
  intros L. apply (nth_ext _ _ 0%nat 0%nat).
  - rewrite length_remove, map_length, !seq_length by (rewrite seq_length; exact L). reflexivity.
  - intros i Hi. rewrite length_remove, seq_length in Hi by (rewrite seq_length; exact L). rewrite nth_remove by (rewrite seq_length; exact L).
    rewrite (map_nth_in (skip s) _ 0%nat) by (rewrite seq_length; exact Hi).
    rewrite (seq_nth _ _ Hi). destruct (skip_spec s i) as [[H E]|[H E]]; cbn [plus]; rewrite E; rewrite seq_nth by lia; reflexivity.
Qed.

(** One state. *)
Section One.
  Variables (m : pctmc R) (s : nat).
  Hypothesis Hwf : wf_pctmc m.
  Hypothesis Hs : (s < pc_n m)%nat.
  Let m1 := remove_state m s.
  Lemma rs_n : pc_n m1 = (pc_n m - 1)%nat.
  Proof. unfold m1, pc_n, remove_state. cbn [pc_mat]. rewrite map_length. apply length_remove. exact Hs. Qed.
  Lemma rs_skip i : (i < pc_n m1)%nat -> (skip s i < pc_n m)%nat.
  Proof. rewrite rs_n. destruct (skip_spec s i) as [[H ->]|[H ->]]; lia. Qed.
  Lemma rs_entry i j : (i < pc_n m1)%nat -> nth j (nth i (pc_mat m1) []) 0%nat = nth (skip s j) (nth (skip s i) (pc_mat m) []) 0%nat.
  Proof.
    intros Hi. unfold m1, remove_state. cbn [pc_mat]. rewrite (map_nth_in _ _ []) by (unfold m1, pc_n, remove_state in Hi; cbn [pc_mat] in Hi; rewrite map_length in Hi; exact Hi).
    rewrite nth_remove.
    - rewrite nth_remove by exact Hs. reflexivity.
    - destruct Hwf as [W _]. rewrite nth_remove by exact Hs. rewrite (proj1 (W _ (nth_In _ _ (rs_skip i Hi)))). exact Hs.
  Qed.
  Lemma rs_transition i j : (i < pc_n m1)%nat -> transition m1 i j = transition m (skip s i) (skip s j).
  Proof. intros Hi. unfold transition. rewrite rs_entry by exact Hi. reflexivity. Qed.
  Lemma rs_lab i : nth i (pc_lab m1) EmptyString = nth (skip s i) (pc_lab m) EmptyString.
  Proof. apply nth_remove. destruct Hwf as (_ & L & _). rewrite L. exact Hs. Qed.
  Lemma rs_ini i : vecR (pc_ini m1) i = vecR (pc_ini m) (skip s i).
  Proof. apply nth_remove. destruct Hwf as (_ & _ & L & _). rewrite L. exact Hs. Qed.
  Lemma rs_wf : wf_pctmc m1.
  Proof.
    destruct Hwf as (W & L & I & E0 & N). split; [|split; [|split; [|split]]].
    - intros r Ir. rewrite rs_n. unfold m1, remove_state in Ir. cbn [pc_mat] in Ir. apply in_map_iff in Ir. destruct Ir as (r0 & <- & Ir). apply In_remove in Ir. destruct (W _ Ir) as [Lr Kr].
      split; [rewrite length_remove by (rewrite Lr; exact Hs); rewrite Lr; reflexivity|]. intros k Ik. apply Kr. apply In_remove in Ik. exact Ik.
    - rewrite rs_n. unfold m1, remove_state. cbn [pc_lab]. rewrite length_remove by (rewrite L; exact Hs). rewrite L. reflexivity.
    - rewrite rs_n. unfold m1, remove_state. cbn [pc_ini]. rewrite length_remove by (rewrite I; exact Hs). rewrite I. reflexivity.
    - exact E0.
    - intros x Ix. apply N. apply (In_remove s). exact Ix.
  Qed.
  Definition zskip (i : Z) : Z := if (i <? Z.of_nat s)%Z then i else (i + 1)%Z.
  Lemma zskip_dec a : a <> Z.of_nat s -> zskip (dec (Z.of_nat s) a) = a.
  Proof. intros N. unfold zskip, dec. destruct (Z.ltb_spec (Z.of_nat s) a); [destruct (Z.ltb_spec (a - 1) (Z.of_nat s))|destruct (Z.ltb_spec a (Z.of_nat s))]; lia. Qed.
  Lemma dec_zskip i : dec (Z.of_nat s) (zskip i) = i /\ zskip i <> Z.of_nat s.
  Proof. unfold zskip, dec. destruct (Z.ltb_spec i (Z.of_nat s)); [destruct (Z.ltb_spec (Z.of_nat s) i)|destruct (Z.ltb_spec (Z.of_nat s) (i + 1))]; lia. Qed.
  Lemma zskip_nat i : zskip (Z.of_nat i) = Z.of_nat (skip s i).
  Proof. unfold zskip. destruct (skip_spec s i) as [[H ->]|[H ->]]; destruct (Z.ltb_spec (Z.of_nat i) (Z.of_nat s)); lia. Qed.
  Lemma In_remove_indexes l i j : In (i, j) (remove_indexes (Z.of_nat s) l) <-> In (zskip i, zskip j) l.
  Proof.
    unfold remove_indexes. rewrite in_map_iff. split.
    - intros ([a b] & E & I). injection E as <- <-. apply filter_In in I. destruct I as [I F]. cbn [fst snd] in *. apply negb_true_iff, orb_false_iff in F. destruct F as [Fa Fb]. apply Z.eqb_neq in Fa, Fb.
      rewrite !zskip_dec by assumption. exact I.
    - intros I. exists (zskip i, zskip j). cbn [fst snd]. destruct (dec_zskip i) as [-> Ni]. destruct (dec_zskip j) as [-> Nj]. split; [reflexivity|]. apply filter_In. split; [exact I|]. cbn [fst snd].
      apply Z.eqb_neq in Ni, Nj. rewrite Ni, Nj. reflexivity.
  Qed.
  Lemma rs_places p : parameterIndexes m1 p = remove_indexes (Z.of_nat s) (parameterIndexes m p).
  Proof.
    unfold parameterIndexes, m1, remove_state. cbn [pc_par pc_ind]. destruct (index_of String.eqb p (pc_par m)) as [k|]; [|reflexivity].
    change (@nil (Z * Z)) with (remove_indexes (Z.of_nat s) []) at 1. rewrite map_nth. reflexivity.
  Qed.
  Lemma rs_NoDup l : NoDup l -> NoDup (remove_indexes (Z.of_nat s) l).
  Proof.
    intros N. unfold remove_indexes. induction l as [|[a b] l IH]; [constructor|]. inversion N as [|? ? Na Nl]; subst. specialize (IH Nl). cbn [filter fst snd].
    destruct (negb _) eqn:F; [|exact IH]. cbn [map fst snd]. constructor; [|exact IH]. apply negb_true_iff, orb_false_iff in F. destruct F as [Fa Fb]. apply Z.eqb_neq in Fa, Fb.
    intros I. apply (In_remove_indexes l) in I. rewrite !zskip_dec in I by assumption. apply Na. exact I.
  Qed.
  Lemma zskip_range i : (0 <= zskip i < Z.of_nat (pc_n m))%Z <-> (0 <= i < Z.of_nat (pc_n m1))%Z.
  Proof. rewrite rs_n. unfold zskip. destruct (Z.ltb_spec i (Z.of_nat s)); lia. Qed.
  Lemma zskip_to_nat i : (0 <= i)%Z -> Z.to_nat (zskip i) = skip s (Z.to_nat i).
  Proof. intros H. rewrite <- (Z2Nat.id i H) at 1. rewrite zskip_nat. apply Nat2Z.id. Qed.
  Lemma rs_indexed : indexed m -> indexed m1.
  Proof.
    intros (N & O & P). split; [exact N|]. split.
    - intros i j x Hi Hj Ox. rewrite rs_transition in Ox by exact Hi. apply (O (skip s i) (skip s j)); auto using rs_skip.
    - intros p Ip. destruct (P p Ip) as [Np Q]. split; [rewrite rs_places; apply rs_NoDup; exact Np|]. intros i j. rewrite rs_places, In_remove_indexes, Q, !zskip_range.
      split; intros (Hi & Hj & Ox); (split; [exact Hi|split; [exact Hj|]]); rewrite rs_transition in * by lia; rewrite !zskip_to_nat in * by lia; exact Ox.
  Qed.
  Lemma rs_kept alphabet : ~ In (nth s (pc_lab m) EmptyString) alphabet -> kept alphabet m = map (skip s) (kept alphabet m1).
  Proof.
    intros Ns. unfold kept. set (P := fun k => if in_dec string_dec (nth k (pc_lab m) EmptyString) alphabet then true else false).
    transitivity (filter P (remove_nth s (seq 0 (pc_n m)))).
    - unfold remove_nth. rewrite <- (firstn_skipn s (seq 0 (pc_n m))) at 1. rewrite !filter_app. f_equal.
      assert (E : skipn s (seq 0 (pc_n m)) = s :: skipn (S s) (seq 0 (pc_n m))).
      { clear - Hs. revert Hs. generalize (pc_n m). intros n Hs.
        assert (L : length (skipn s (seq 0 n)) = (n - s)%nat) by (rewrite skipn_length, seq_length; reflexivity).
        apply (nth_ext _ _ 0%nat 0%nat); [cbn [length]; rewrite !skipn_length, seq_length; lia|]. intros i Hi. rewrite L in Hi.
        assert (G : forall k i, nth i (skipn k (seq 0 n)) 0%nat = nth (k + i) (seq 0 n) 0%nat).
        { clear. intros k i. destruct (Nat.le_gt_cases n (k + i)) as [H|H]; [rewrite !nth_overflow; rewrite ?skipn_length, ?seq_length; lia|].
          rewrite <- (firstn_skipn k (seq 0 n)) at 2. rewrite app_nth2 by (rewrite firstn_length; lia). rewrite firstn_length, seq_length. f_equal. lia. }
        rewrite G, seq_nth by lia. destruct i as [|i]; cbn [nth]; [lia|]. rewrite G, seq_nth by lia. lia. }
      rewrite E. cbn [filter]. unfold P at 1. destruct (in_dec _ _ _); [contradiction|reflexivity].
    - rewrite remove_seq by exact Hs. rewrite rs_n. generalize (seq 0 (pc_n m - 1)). intros l. induction l as [|i l IH]; [reflexivity|]. cbn [map filter]. unfold P at 1. rewrite rs_lab.
      destruct (in_dec _ _ _); cbn [map]; rewrite IH; reflexivity.
  Qed.
End One.

(** All the states without a label of the traces. *)
Lemma first_unused_spec alphabet labels k : match first_unused alphabet labels k with
  | Some s => (k <= s < k + length labels)%nat /\ ~ In (nth (s - k) labels EmptyString) alphabet
  | None => forall l, In l labels -> In l alphabet
  end.
Proof.
  revert k. induction labels as [|l ls IH]; intros k; cbn [first_unused]; [intros l []|]. destruct (memb String.eqb l alphabet) eqn:M.
  - specialize (IH (S k)). destruct (first_unused alphabet ls (S k)) as [s|].
    + destruct IH as [H N]. cbn [length]. split; [lia|]. replace (s - k)%nat with (S (s - S k)) by lia. exact N.
    + intros l' [<-|I]; [apply (memb_In _ String.eqb_eq); exact M|apply IH; exact I].
  - cbn [length]. split; [lia|]. rewrite Nat.sub_diag. cbn [nth]. intros I. apply (memb_In _ String.eqb_eq) in I. congruence.
Qed.
Lemma kept_all alphabet (m : pctmc R) : wf_pctmc m -> (forall l, In l (pc_lab m) -> In l alphabet) -> kept alphabet m = seq 0 (pc_n m).
Proof.
  intros (_ & L & _) A. unfold kept. rewrite <- L. assert (G : forall l, (forall i, In i l -> (i < length (pc_lab m))%nat) -> filter (fun s => if in_dec string_dec (nth s (pc_lab m) EmptyString) alphabet then true else false) l = l).
  { induction l as [|i l IH]; intros H; [reflexivity|]. cbn [filter]. destruct (in_dec _ _ _) as [|N]; [rewrite IH; [reflexivity|intros; apply H; right; assumption]|]. exfalso. apply N, A, nth_In, H. left. reflexivity. }
  apply G. intros i I. apply in_seq in I. lia.
Qed.
Lemma restricted_refl m : restricted (seq 0 (pc_n m)) m m.
Proof.
  split; [rewrite seq_length; reflexivity|]. split; [reflexivity|]. split; [reflexivity|]. split; [reflexivity|]. intros i Hi. rewrite seq_length in Hi. rewrite seq_nth by exact Hi. split; [reflexivity|]. split; [reflexivity|].
  intros j Hj. rewrite seq_length in Hj. rewrite seq_nth by exact Hj. split; [reflexivity|]. intros p. reflexivity.
Qed.
Lemma kept_lt alphabet m i : In i (kept alphabet m) -> (i < pc_n m)%nat.
Proof. intros I. apply filter_In in I. destruct I as [I _]. apply in_seq in I. lia. Qed.
Lemma restricted_step m s ks m' : wf_pctmc m -> (s < pc_n m)%nat -> (forall i, In i ks -> (i < pc_n (remove_state m s))%nat) -> restricted ks (remove_state m s) m' -> restricted (map (skip s) ks) m m'.
Proof.
  intros W Hs B (A1 & A2 & A3 & A4 & A5). split; [rewrite map_length; exact A1|]. split; [exact A2|]. split; [exact A3|]. split; [exact A4|].
  intros i Hi. rewrite map_length in Hi. destruct (A5 i Hi) as (Li & Ii & T). rewrite (map_nth_in _ _ 0%nat) by exact Hi. assert (Bi := B _ (nth_In _ 0%nat Hi)).
  split; [rewrite Li; apply rs_lab; assumption|]. split; [rewrite Ii; apply rs_ini; assumption|].
  intros j Hj. rewrite map_length in Hj. rewrite (map_nth_in _ _ 0%nat) by exact Hj. destruct (T j Hj) as [Tj P]. split; [rewrite Tj; apply rs_transition; assumption|].
  intros p. rewrite P, rs_places, (In_remove_indexes m s Hs), !(zskip_nat m s Hs). reflexivity.
Qed.
Lemma remove_unused_ok alphabet fuel : forall m, wf_pctmc m -> (length (pc_lab m) <= fuel)%nat ->
  wf_pctmc (remove_unused fuel alphabet m) /\ restricted (kept alphabet m) m (remove_unused fuel alphabet m) /\ pc_expr (remove_unused fuel alphabet m) = pc_expr m /\
  (indexed m -> indexed (remove_unused fuel alphabet m)) /\ (forall l, In l (pc_lab (remove_unused fuel alphabet m)) -> In l alphabet).
Proof.
  induction fuel as [|f IH]; intros m W L; cbn [remove_unused].
  - assert (E : pc_lab m = []) by (destruct (pc_lab m); [reflexivity|cbn in L; lia]). split; [exact W|]. rewrite (kept_all alphabet m W) by (rewrite E; intros l []). split; [apply restricted_refl|]. split; [reflexivity|]. split; [auto|]. rewrite E. intros l [].
  - pose proof (first_unused_spec alphabet (pc_lab m) 0) as F. destruct (first_unused alphabet (pc_lab m) 0) as [s|].
    + destruct F as [Hs N]. rewrite Nat.sub_0_r in N. destruct W as (W1 & WL & W2). assert (W : wf_pctmc m) by (split; [exact W1|split; [exact WL|exact W2]]). assert (Hs' : (s < pc_n m)%nat) by (rewrite <- WL; lia).
      pose proof (rs_wf m s W Hs') as W'. destruct (IH (remove_state m s) W') as (A & B & C & D & E).
      { destruct W' as (_ & L' & _). rewrite L', (rs_n m s Hs'). rewrite WL in L. lia. }
      split; [exact A|]. split; [rewrite (rs_kept m s W Hs' alphabet N); apply restricted_step; auto; intros i; apply kept_lt|]. split; [exact C|]. split; [intros I; apply D; apply rs_indexed; assumption|exact E].
    + split; [exact W|]. rewrite (kept_all alphabet m W F). split; [apply restricted_refl|]. split; [reflexivity|]. split; [auto|exact F].
Qed.

(** The expressions no longer used. *)
Definition alike (m m' : pctmc R) : Prop :=
  pc_n m' = pc_n m /\ pc_lab m' = pc_lab m /\ pc_ini m' = pc_ini m /\ pc_par m' = pc_par m /\ pc_val m' = pc_val m /\ pc_ind m' = pc_ind m /\ pc_name m' = pc_name m /\
  forall i j, (i < pc_n m)%nat -> (j < pc_n m)%nat -> transition m' i j = transition m i j.
Lemma alike_trans a b c : alike a b -> alike b c -> alike a c.
Proof.
  intros (A1 & A2 & A3 & A4 & A5 & A6 & A7 & A8) (B1 & B2 & B3 & B4 & B5 & B6 & B7 & B8). repeat split; try congruence. intros i j Hi Hj. rewrite B8 by (rewrite A1; assumption). apply A8; assumption.
Qed.
Lemma used_false m t r k : used_expr (K := R) m t = false -> In r (pc_mat m) -> In k r -> k <> t.
Proof.
  unfold used_expr. intros U Ir Ik ->. assert (existsb (existsb (Nat.eqb t)) (pc_mat m) = true); [|congruence].
  apply existsb_exists. exists r. split; [exact Ir|]. apply existsb_exists. exists t. split; [exact Ik|apply Nat.eqb_refl].
Qed.
Lemma re_ok m t : wf_pctmc m -> (1 <= t < length (pc_expr m))%nat -> used_expr m t = false -> wf_pctmc (remove_expr m t) /\ alike m (remove_expr m t).
Proof.
  intros W Ht U. destruct W as (W & L & I & E0 & N).
  assert (Nn : pc_n (remove_expr m t) = pc_n m) by (unfold pc_n, remove_expr; cbn [pc_mat]; apply map_length). split.
  - split; [|split; [|split; [|split]]].
    + intros r Ir. unfold remove_expr in Ir. cbn [pc_mat] in Ir. apply in_map_iff in Ir. destruct Ir as (r0 & <- & Ir). rewrite Nn, map_length. destruct (W _ Ir) as [Lr Kr]. split; [exact Lr|].
      intros k Ik. apply in_map_iff in Ik. destruct Ik as (k0 & <- & Ik). pose proof (Kr _ Ik). pose proof (used_false m t r0 k0 U Ir Ik). unfold remove_expr. cbn [pc_expr]. rewrite length_remove by lia.
      destruct (Nat.ltb_spec t k0); lia.
    + rewrite Nn. exact L.
    + rewrite Nn. exact I.
    + unfold remove_expr. cbn [pc_expr]. rewrite nth_remove by lia. unfold skip. destruct (Nat.ltb_spec 0 t); [exact E0|lia].
    + exact N.
  - split; [exact Nn|]. repeat (split; [reflexivity|]). intros i j Hi Hj. unfold transition, remove_expr. cbn [pc_mat pc_expr].
    rewrite (map_nth_in _ _ []) by exact Hi. assert (Ir := nth_In _ [] Hi : In (nth i (pc_mat m) []) (pc_mat m)). destruct (W _ Ir) as [Lr Kr].
    rewrite (map_nth_in _ _ 0%nat) by (rewrite Lr; exact Hj). assert (Ik : In (nth j (nth i (pc_mat m) []) 0%nat) (nth i (pc_mat m) [])) by (apply nth_In; rewrite Lr; exact Hj).
    pose proof (used_false m t _ _ U Ir Ik). rewrite nth_remove by lia. f_equal. unfold skip. destruct (Nat.ltb_spec t (nth j (nth i (pc_mat m) []) 0%nat)) as [H1|H1].
    + destruct (Nat.ltb_spec (nth j (nth i (pc_mat m) []) 0%nat - 1) t); lia.
    + destruct (Nat.ltb_spec (nth j (nth i (pc_mat m) []) 0%nat) t); lia.
Qed.
Lemma remove_exprs_ok fuel : forall t m, wf_pctmc m -> (1 <= t)%nat -> wf_pctmc (remove_exprs fuel t m) /\ alike m (remove_exprs fuel t m).
Proof.
  induction fuel as [|f IH]; intros t m W Ht; cbn [remove_exprs]; [split; [exact W|repeat split; reflexivity]|].
  destruct (Nat.ltb_spec t (length (pc_expr m))) as [L|L]; [|split; [exact W|repeat split; reflexivity]].
  destruct (used_expr m t) eqn:U; [apply IH; [exact W|lia]|]. destruct (re_ok m t W (conj Ht L) U) as [W' A]. destruct (IH t _ W' Ht) as [W2 A2]. split; [exact W2|exact (alike_trans _ _ _ A A2)].
Qed.
Lemma alike_restricted ks m m1 m2 : (forall i, (i < length ks)%nat -> (i < pc_n m1)%nat) -> restricted ks m m1 -> alike m1 m2 -> restricted ks m m2.
Proof.
  intros B (A1 & A2 & A3 & A4 & A5) (B1 & B2 & B3 & B4 & B5 & B6 & B7 & B8). split; [congruence|]. split; [congruence|]. split; [intros p; rewrite <- A3; unfold current, parameterValue; rewrite B5; reflexivity|]. split; [congruence|].
  intros i Hi. destruct (A5 i Hi) as (Li & Ii & T). split; [rewrite B2; exact Li|]. split; [rewrite B3; exact Ii|]. intros j Hj. destruct (T j Hj) as [Tj P]. split; [rewrite B8 by auto; exact Tj|].
  intros p. rewrite <- P. unfold parameterIndexes. rewrite B4, B6. reflexivity.
Qed.
Lemma alike_indexed m m' : alike m m' -> indexed m -> indexed m'.
Proof.
  intros (B1 & B2 & B3 & B4 & B5 & B6 & B7 & B8) (N & O & P). split; [rewrite B4; exact N|]. split.
  - intros i j x Hi Hj Ox. rewrite B4. rewrite B1 in Hi, Hj. rewrite B8 in Ox by assumption. exact (O i j x Hi Hj Ox).
  - intros p Ip. rewrite B4 in Ip. destruct (P p Ip) as [Np Q]. assert (E : parameterIndexes m' p = parameterIndexes m p) by (unfold parameterIndexes; rewrite B4, B6; reflexivity). rewrite E. split; [exact Np|].
    intros i j. rewrite Q, B1. split; intros (Hi & Hj & Ox); (split; [exact Hi|split; [exact Hj|]]); rewrite B8 in * by lia; exact Ox.
Qed.
Lemma prune_ok alphabet m : wf_pctmc m -> wf_pctmc (prune alphabet m) /\ restricted (kept alphabet m) m (prune alphabet m) /\ (indexed m -> indexed (prune alphabet m)) /\
  (forall l, In l (pc_lab (prune alphabet m)) -> In l alphabet).
Proof.
  intros W. unfold prune. destruct (remove_unused_ok alphabet (length (pc_lab m)) m W (le_n _)) as (A & B & _ & C & D). set (m1 := remove_unused _ alphabet m) in *.
  destruct (remove_exprs_ok (length (pc_expr m1)) 1 m1 A (le_n _)) as [W2 A2]. split; [exact W2|]. split; [apply (alike_restricted _ m m1); auto; destruct B as (B & _); rewrite B; auto|].
  split; [intros I; apply (alike_indexed m1); auto|]. destruct A2 as (_ & L & _). rewrite L. exact D.
Qed.

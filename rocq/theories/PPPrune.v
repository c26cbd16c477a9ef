(** fit_parameters reduces the model it is given (C116). *)
From Coq Require Import String ZArith Bool Reals List Lia Lra.
From Verif Require LSet.
From Verif Require Import Num Py SNum SPath LSum MSet MModels MCtor MLik MBW MPctmc SPctmc LPctmc LCtor SBW SLik LBW LBWMC LEMGen LBWMDP LBWCT LLik LLik2 PBWCT PBWCTU MPLearn SPLearn LPLearn LPLearn2 LPLearn3 LPLearn4 LPLearn5 LPLearn6 PPLearn PPLearn2 PPLearn3 SPPrune LPPrune.
Import ListNotations.
Local Open Scope R_scope.

Lemma kept_spec alphabet (m : pctmc R) s : In s (kept alphabet m) <-> (s < pc_n m)%nat /\ In (nth s (pc_lab m) EmptyString) alphabet.
Proof. unfold kept. rewrite filter_In, in_seq. destruct (in_dec _ _ _); intuition (try lia; try discriminate). Qed.

(** ** The reduced model *)
Theorem C116_reduced_model : forall alphabet (m : pctmc R) fixed, wf_pctmc m ->
  wf_pctmc (prune alphabet m) /\ restricted (kept alphabet m) m (prune alphabet m) /\
  (forall l, In l (pc_lab (prune alphabet m)) -> In l alphabet) /\
  (indexed m -> indexed (prune alphabet m)) /\ (learnable fixed m -> learnable fixed (prune alphabet m)) /\ (valued m -> valued (prune alphabet m)) /\ (uniform fixed m -> uniform fixed (prune alphabet m)).
Proof.
  intros alphabet m fixed W. destruct (prune_ok alphabet m W) as (W' & R & I & L). set (m' := prune alphabet m) in *. destruct R as (R1 & R2 & R3 & R4 & R5).
  assert (B : forall i, (i < pc_n m')%nat -> (nth i (kept alphabet m) 0 < pc_n m)%nat) by (intros i Hi; rewrite R1 in Hi; apply (kept_lt alphabet), nth_In, Hi).
  assert (T : forall i j, (i < pc_n m')%nat -> (j < pc_n m')%nat -> transition m' i j = transition m (nth i (kept alphabet m) 0%nat) (nth j (kept alphabet m) 0%nat)).
  { intros i j Hi Hj. rewrite R1 in Hi, Hj. destruct (R5 i Hi) as (_ & _ & T). apply (T j Hj). }
  split; [exact W'|]. split; [exact (conj R1 (conj R2 (conj R3 (conj R4 R5))))|]. split; [exact L|]. split; [exact I|]. split; [|split].
  - intros H i j Hi Hj. rewrite T by assumption. apply H; auto.
  - intros [V1 V2]. split; [intros p Ip; rewrite R2 in Ip; rewrite R3; auto|]. intros i j v Hi Hj Hv. apply (V2 (nth i (kept alphabet m) 0%nat) (nth j (kept alphabet m) 0%nat) v); auto.
    unfold has_rate in *. rewrite T in Hv by assumption. destruct Hv as (rho & A & E). exists rho. split; [intros x Ox; rewrite <- R3; apply A; exact Ox|exact E].
  - intros H q i j i' j' Iq Hi Hj Hi' Hj' O O'. assert (E : free_params fixed m' = free_params fixed m) by (unfold free_params; rewrite R2; reflexivity).
    rewrite E in *. rewrite (T i j) in * by assumption. rewrite (T i' j') in * by assumption. apply (H q); auto.
Qed.
Print Assumptions C116_reduced_model.

(** ** The likelihood *)
Fixpoint paths_in (l : list nat) (T : nat) : list (list nat) :=
  match T with O => [[]] | S T' => flat_map (fun s => map (cons s) (paths_in l T')) l end.
Lemma paths_seq n T : paths n T = paths_in (seq 0 n) T.
Proof. induction T as [|T IH]; [reflexivity|]. cbn [paths paths_in]. rewrite IH. reflexivity. Qed.
Lemma sumL_filter {A} (P : A -> bool) l f : (forall a, In a l -> P a = false -> f a = 0) -> sumL l f = sumL (filter P l) f.
Proof.
  induction l as [|a l IH]; intros H; [reflexivity|]. cbn [filter]. assert (E := IH (fun x I => H x (or_intror I))). pose proof (H a (or_introl eq_refl)) as Ha.
  unfold sumL, rsum in *. destruct (P a); cbn [map fold_right]; rewrite E; [reflexivity|]. rewrite Ha by reflexivity. lra.
Qed.
(** Paths leaving the kept states do not count. *)
Lemma paths_filter (P : nat -> bool) l T : forall f, (forall x s, length x = T -> In s x -> P s = false -> f x = 0) -> sumL (paths_in l T) f = sumL (paths_in (filter P l) T) f.
Proof.
  induction T as [|T IH]; intros f H; [reflexivity|]. cbn [paths_in]. rewrite !sumL_flat_map.
  assert (L : forall l x, In x (paths_in l T) -> length x = T).
  { clear. intros l. induction T as [|T IH]; intros x I; cbn [paths_in] in I; [destruct I as [<-|[]]; reflexivity|]. apply in_flat_map in I. destruct I as (s & _ & I). apply in_map_iff in I. destruct I as (x' & <- & I). cbn. rewrite (IH x' I). reflexivity. }
  rewrite (sumL_filter P l).
  - apply sumL_ext. intros s _. rewrite !sumL_map. apply IH. intros x s' Lx Ix Ps. apply (H (s :: x) s'); [cbn; rewrite Lx; reflexivity|right; exact Ix|exact Ps].
  - intros s _ Ps. rewrite sumL_map. assert (G : forall x, In x (paths_in l T) -> f (s :: x) = 0) by (intros x Ix; apply (H (s :: x) s); [cbn; rewrite (L l x Ix); reflexivity|left; reflexivity|exact Ps]).
    unfold sumL. rewrite (map_ext_in _ (fun _ => 0) _ G). clear. induction (paths_in l T) as [|a r IHr]; [reflexivity|]. unfold rsum in *. cbn [map fold_right]. rewrite IHr. lra.
Qed.
Lemma paths_map g l T : paths_in (map g l) T = map (map g) (paths_in l T).
Proof.
  induction T as [|T IH]; [reflexivity|]. cbn [paths_in]. rewrite IH. rewrite flat_map_concat_map, map_map, flat_map_concat_map. rewrite concat_map, map_map. f_equal. apply map_ext. intros s. rewrite !map_map. apply map_ext. intros x. reflexivity.
Qed.
Definition index (ks : list nat) (i : nat) : nat := nth i ks 0%nat.
Lemma ks_seq ks : map (index ks) (seq 0 (length ks)) = ks.
Proof. apply (nth_ext _ _ 0%nat 0%nat); [rewrite map_length, seq_length; reflexivity|]. intros i Hi. rewrite map_length, seq_length in Hi. rewrite (map_nth_in _ _ 0%nat) by (rewrite seq_length; exact Hi). rewrite seq_nth by exact Hi. reflexivity. Qed.
Lemma In_paths n T x : In x (paths n T) -> length x = T /\ forall i, In i x -> (i < n)%nat.
Proof.
  revert x. induction T as [|T IH]; intros x I; cbn [paths] in I; [destruct I as [<-|[]]; split; [reflexivity|intros i []]|]. apply in_flat_map in I. destruct I as (s & Is & I). apply in_map_iff in I. destruct I as (x' & <- & I).
  destruct (IH x' I) as [L B]. apply in_seq in Is. split; [cbn; rewrite L; reflexivity|]. intros i [<-|J]; [lia|apply B; exact J].
Qed.
(** The sum over the paths of the whole chain is that over the paths of the part. *)
Lemma trace_prob_part n (P : nat -> bool) pi pi' As As' Bs Bs' : let ks := filter P (seq 0 n) in
  length Bs' = length Bs -> length Bs <> 0%nat ->
  (forall x s, length x = length Bs -> (forall i, In i x -> (i < n)%nat) -> In s x -> P s = false -> pi (hd 0%nat x) * path_weight As Bs x = 0) ->
  (forall i, (i < length ks)%nat -> pi' i = pi (index ks i)) ->
  (forall x, length x = length Bs -> (forall i, In i x -> (i < length ks)%nat) -> path_weight As' Bs' x = path_weight As Bs (map (index ks) x)) ->
  trace_prob (length ks) pi' As' Bs' = trace_prob n pi As Bs.
Proof.
  intros ks L NZ Z Hpi Hw. unfold trace_prob. rewrite L. transitivity (sumL (paths_in ks (length Bs)) (fun x => pi (hd 0%nat x) * path_weight As Bs x)).
  - rewrite <- (ks_seq ks), paths_map, sumL_map, map_length, seq_length, paths_seq. apply sumL_ext. intros x Ix. rewrite <- paths_seq in Ix. apply In_paths in Ix. destruct Ix as [Lx Bx]. rewrite (Hw x Lx Bx). f_equal.
    destruct x as [|i x]; [cbn in Lx; congruence|]. cbn [hd map]. apply Hpi. apply Bx. left. reflexivity.
  - rewrite paths_seq. unfold ks. transitivity (sumL (paths_in (seq 0 n) (length Bs)) (fun x => if forallb (fun i => (i <? n)%nat) x then pi (hd 0%nat x) * path_weight As Bs x else 0)).
    + rewrite (paths_filter P (seq 0 n)).
      * apply sumL_ext. intros x Ix. replace (forallb (fun i => (i <? n)%nat) x) with true; [reflexivity|]. symmetry. apply forallb_forall. intros i Ii. apply Nat.ltb_lt.
        revert x Ix Ii. generalize (length Bs). induction n0 as [|T IH]; intros x Ix Ii; cbn [paths_in] in Ix; [destruct Ix as [<-|[]]; destruct Ii|]. apply in_flat_map in Ix. destruct Ix as (s & Is & Ix). apply in_map_iff in Ix. destruct Ix as (x' & <- & Ix).
        destruct Ii as [<-|Ii]; [apply filter_In in Is; destruct Is as [Is _]; apply in_seq in Is; lia|apply (IH x' Ix Ii)].
      * intros x s Lx Ix Ps. destruct (forallb _ x) eqn:F; [|reflexivity]. apply (Z x s); auto. intros i Ii. apply Nat.ltb_lt. apply (proj1 (forallb_forall _ _) F i Ii).
    + apply sumL_ext. intros x Ix. rewrite <- paths_seq in Ix. apply In_paths in Ix. destruct Ix as [_ Bx]. replace (forallb (fun i => (i <? n)%nat) x) with true; [reflexivity|]. symmetry. apply forallb_forall. intros i Ii. apply Nat.ltb_lt, Bx, Ii.
Qed.
Lemma pw_nil As x : path_weight As [] x = 0. Proof. destruct As; reflexivity. Qed.
Lemma pw_nilx As Bs : path_weight As Bs [] = 0. Proof. destruct As, Bs; reflexivity. Qed.
Lemma pw_cons As b Bs s x : path_weight As (b :: Bs) (s :: x) =
  b s * match Bs, As, x with [], [], [] => 1 | _ :: _, A :: As', s' :: _ => A s s' * path_weight As' Bs x | _, _, _ => 0 end.
Proof. destruct As; reflexivity. Qed.
Lemma pw_index ks As As' Bs Bs' : Forall2 (fun A A' => forall i j, (i < length ks)%nat -> (j < length ks)%nat -> A' i j = A (index ks i) (index ks j)) As As' ->
  Forall2 (fun b b' => forall i, (i < length ks)%nat -> b' i = b (index ks i)) Bs Bs' ->
  forall x, (forall i, In i x -> (i < length ks)%nat) -> path_weight As' Bs' x = path_weight As Bs (map (index ks) x).
Proof.
  intros FA FB. revert As As' FA. induction FB as [|b b' Bs Bs' Hb FB IH]; intros As As' FA x Hx; [rewrite !pw_nil; reflexivity|].
  destruct x as [|s x]; [cbn [map]; rewrite !pw_nilx; reflexivity|]. cbn [map]. rewrite !pw_cons. rewrite (Hb s) by (apply Hx; left; reflexivity). f_equal.
  destruct FB as [|b2 b2' Bs Bs' Hb2 FB]; [destruct FA; [destruct x; reflexivity|reflexivity]|]. destruct FA as [|A A' As As' HA FA]; [reflexivity|]. destruct x as [|s' x]; [reflexivity|]. cbn [map].
  rewrite (HA s s') by (apply Hx; cbn; auto). f_equal. change (index ks s' :: map (index ks) x) with (map (index ks) (s' :: x)). apply IH; [exact FA|]. intros i I. apply Hx. right. exact I.
Qed.
Lemma pw_zero As Bs x s : (forall b, In b Bs -> b s = 0) -> (length x <= length Bs)%nat -> In s x -> path_weight As Bs x = 0.
Proof.
  revert As x. induction Bs as [|b Bs IH]; intros As x Z L I; [apply pw_nil|]. destruct x as [|s0 x]; [destruct I|]. rewrite pw_cons.
  destruct I as [->|I]; [rewrite (Z b (or_introl eq_refl)); ring|]. destruct Bs as [|b2 Bs]; [destruct x; [destruct I|cbn in L; lia]|]. destruct As as [|A As]; [ring|]. destruct x as [|s1 x]; [destruct I|].
  rewrite (IH As (s1 :: x)); [ring|intros; apply Z; right; assumption|cbn in *; lia|exact I].
Qed.
Lemma pw_zero_move (P : nat -> bool) (A : nat -> nat -> R) (B : string -> nat -> R) n tr x s : tr <> [] -> (forall o s, In o tr -> P s = false -> B o s = 0) ->
  (forall s s', (s < n)%nat -> (s' < n)%nat -> P s = true -> P s' = false -> A s s' = 0) -> (forall i, In i x -> (i < n)%nat) -> length x = S (length tr) -> In s x -> P s = false ->
  path_weight (repeat A (length tr)) (map B tr ++ [fun _ => 1]) x = 0.
Proof.
  intros NE HB HA. revert x. induction tr as [|o tr IH]; intros x Hx L I Ps; [congruence|]. destruct x as [|s0 x]; [destruct I|]. cbn [length] in L. injection L as L. cbn [map app repeat length]. rewrite pw_cons.
  destruct (P s0) eqn:E0; [|rewrite (HB o s0) by (auto; left; reflexivity); ring].
  destruct I as [->|I]; [congruence|]. destruct tr as [|o' tr].
  - cbn [map app repeat length]. destruct x as [|s1 [|]]; try (cbn in L; lia). destruct I as [->|[]]. rewrite (HA s0 s) by (auto; apply Hx; cbn; auto). ring.
  - cbn [map app]. destruct x as [|s1 x]; [destruct I|]. assert (Z := IH ltac:(discriminate) (fun o s Io => HB o s (or_intror Io)) (s1 :: x) (fun i Ii => Hx i (or_intror Ii)) L I Ps). cbn [map app] in Z. rewrite Z. ring.
Qed.

Section Lik.
  Variables (alphabet : list string) (m : pctmc R) (c c' : ctmc R).
  Hypothesis Hwf : wf_pctmc m.
  Hypothesis Hcl : closed_in (kept alphabet m) m.
  Hypothesis Hc : realises m c.
  Hypothesis Hc' : realises (prune alphabet m) c'.
  Let P := fun s => if in_dec string_dec (nth s (pc_lab m) EmptyString) alphabet then true else false.
  Notation ks := (filter P (seq 0 (pc_n m))).
  Lemma pk_n : ct_n c' = length ks.
  Proof. destruct (prune_ok alphabet m Hwf) as (_ & (R1 & _) & _). destruct Hc' as (_ & _ & N & _). rewrite N. exact R1. Qed.
  Lemma pk_restricted : restricted ks m (prune alphabet m). Proof. destruct (prune_ok alphabet m Hwf) as (_ & R & _). exact R. Qed.
  Lemma pk_lt i : (i < length ks)%nat -> (index ks i < pc_n m)%nat.
  Proof. intros Hi. apply (kept_lt alphabet). unfold kept. fold P. apply nth_In. exact Hi. Qed.
  Lemma pk_P i : (i < length ks)%nat -> P (index ks i) = true.
  Proof. intros Hi. assert (I := nth_In ks 0%nat Hi). apply filter_In in I. apply I. Qed.
  Lemma pk_mat i j : (i < length ks)%nat -> (j < length ks)%nat -> matR (ct_mat c') i j = matR (ct_mat c) (index ks i) (index ks j).
  Proof.
    intros Hi Hj. destruct pk_restricted as (R1 & _ & R3 & _ & R5). destruct Hc as (_ & _ & _ & _ & V). destruct Hc' as (_ & _ & _ & _ & V').
    assert (H1 := V' i j). rewrite R1 in H1. specialize (H1 Hi Hj). destruct (R5 i Hi) as (_ & _ & T). destruct (T j Hj) as [Tj _]. unfold has_rate in H1. rewrite Tj in H1.
    assert (H2 := V _ _ (pk_lt i Hi) (pk_lt j Hj)). apply (has_value_fun (current m) (transition m (index ks i) (index ks j))); [|exact H2].
    destruct H1 as (rho & A & E). exists rho. split; [intros x Ox; rewrite <- R3; apply A; exact Ox|exact E].
  Qed.
  Lemma pk_zero s s' : (s < pc_n m)%nat -> (s' < pc_n m)%nat -> P s = true -> P s' = false -> matR (ct_mat c) s s' = 0.
  Proof.
    intros Hs Hs' Ps Ps'. destruct Hc as (_ & _ & _ & _ & V). apply (has_value_fun (current m) (transition m s s')); [apply V; assumption|]. apply Hcl; [|exact Hs'|].
    - apply filter_In. split; [apply in_seq; lia|exact Ps].
    - intros I. apply filter_In in I. destruct I as [_ I]. fold (P s') in I. congruence.
  Qed.
  Lemma pk_square : square (ct_n c) (ct_mat c).
  Proof. destruct Hc as (_ & _ & N & S & _). split; [reflexivity|]. intros r Ir. rewrite N. apply S. exact Ir. Qed.
  Lemma pk_square' : square (ct_n c') (ct_mat c').
  Proof. destruct Hc' as (_ & _ & N & S & _). split; [reflexivity|]. intros r Ir. rewrite N. apply S. exact Ir. Qed.
  Lemma pk_exit i : (i < length ks)%nat -> exit_rate c' i = exit_rate c (index ks i).
  Proof.
    intros Hi. assert (Hn : ct_n c = pc_n m) by (destruct Hc as (_ & _ & N & _); exact N). unfold exit_rate. rewrite (row_sum_Sum _ (ct_n c') i pk_square') by (rewrite pk_n; exact Hi).
    rewrite (row_sum_Sum _ (ct_n c) (index ks i) pk_square) by (rewrite Hn; apply pk_lt; exact Hi). rewrite pk_n, Hn. unfold Sum. rewrite (sumL_filter P (seq 0 (pc_n m))).
    - rewrite <- (ks_seq ks) at 2. rewrite sumL_map. apply sumL_ext. intros j Ij. apply in_seq in Ij. apply pk_mat; lia.
    - intros s Is Ps. apply in_seq in Is. apply pk_zero; [apply pk_lt; exact Hi|lia|apply pk_P; exact Hi|exact Ps].
  Qed.
  Lemma pk_label o i : (i < length ks)%nat -> is_label (ct_lab c') o i = is_label (ct_lab c) o (index ks i).
  Proof.
    intros Hi. destruct pk_restricted as (_ & _ & _ & _ & R5). destruct (R5 i Hi) as (L & _). destruct Hc as (-> & _). destruct Hc' as (-> & _). unfold is_label. rewrite L. reflexivity.
  Qed.
  Lemma pk_ini i : (i < length ks)%nat -> vecR (ct_ini c') i = vecR (ct_ini c) (index ks i).
  Proof. intros Hi. destruct pk_restricted as (_ & _ & _ & _ & R5). destruct (R5 i Hi) as (_ & I & _). destruct Hc as (_ & -> & _). destruct Hc' as (_ & -> & _). exact I. Qed.
  Lemma pk_unlabelled o s : In o alphabet -> P s = false -> is_label (ct_lab c) o s = 0.
  Proof.
    intros Io Ps. destruct Hc as (-> & _). unfold is_label. destruct (String.eqb_spec (nth s (pc_lab m) EmptyString) o) as [E|]; [|reflexivity]. unfold P in Ps. destruct (in_dec _ _ _) as [|N]; [discriminate|]. exfalso. apply N. rewrite E. exact Io.
  Qed.
  Lemma pk_timed tr : fst tr <> [] -> (forall o, In o (fst tr) -> In o alphabet) -> ct_density c' tr = ct_density c tr.
  Proof.
    intros NE Ho. unfold ct_density. rewrite pk_n. assert (Hn : ct_n c = pc_n m) by (destruct Hc as (_ & _ & N & _); exact N). rewrite Hn. apply trace_prob_part.
    - rewrite !map_length. reflexivity.
    - rewrite map_length. destruct (fst tr); [congruence|discriminate].
    - intros x s Lx Bx Ix Ps. rewrite (pw_zero _ _ x s); [ring| |lia|exact Ix]. intros b Ib. apply in_map_iff in Ib. destruct Ib as (o & <- & Io). apply pk_unlabelled; auto.
    - exact pk_ini.
    - intros x _ Bx. apply pw_index; [| |exact Bx].
      + induction (snd tr) as [|t ts IH]; cbn [map]; constructor; [|exact IH]. intros i j Hi Hj. unfold jump_density. rewrite pk_mat, pk_exit by assumption. reflexivity.
      + clear NE Ho. induction (fst tr) as [|o os IH]; cbn [map]; constructor; [|exact IH]. intros i Hi. apply pk_label. exact Hi.
  Qed.
  Lemma pk_untimed tr : tr <> [] -> (forall o, In o tr -> In o alphabet) -> mc_trace_prob_move (jump_chain c') tr = mc_trace_prob_move (jump_chain c) tr.
  Proof.
    intros NE Ho. unfold mc_trace_prob_move. rewrite !jc_n, pk_n. assert (Hn : ct_n c = pc_n m) by (destruct Hc as (_ & _ & N & _); exact N). rewrite Hn. cbn [jump_chain mc_ini mc_lab].
    assert (J : forall s s', (s < pc_n m)%nat -> (s' < pc_n m)%nat -> matR (mc_mat (jump_chain c)) s s' = jump c s s').
    { intros s s' Hs Hs'. unfold jump_chain, matR. cbn [mc_mat]. unfold vbuild. rewrite Hn. rewrite (map_nth_in _ _ 0%nat) by (rewrite seq_length; exact Hs). rewrite (map_nth_in _ _ 0%nat) by (rewrite seq_length; exact Hs'). rewrite !seq_nth by assumption. reflexivity. }
    assert (J' : forall s s', (s < length ks)%nat -> (s' < length ks)%nat -> matR (mc_mat (jump_chain c')) s s' = jump c' s s').
    { intros s s' Hs Hs'. unfold jump_chain, matR. cbn [mc_mat]. unfold vbuild. rewrite pk_n. rewrite (map_nth_in _ _ 0%nat) by (rewrite seq_length; exact Hs). rewrite (map_nth_in _ _ 0%nat) by (rewrite seq_length; exact Hs'). rewrite !seq_nth by assumption. reflexivity. }
    apply trace_prob_part.
    - rewrite !app_length, !map_length. reflexivity.
    - rewrite app_length. cbn. lia.
    - intros x s Lx Bx Ix Ps. rewrite app_length, map_length in Lx. cbn [length] in Lx. rewrite (pw_zero_move P _ (is_label (ct_lab c)) (pc_n m) tr x s); auto; [ring| | |lia].
      + intros o s' Io Ps'. apply pk_unlabelled; auto.
      + intros s1 s2 H1 H2 P1 P2. rewrite J by assumption. unfold jump. rewrite pk_zero by assumption. unfold Rdiv. ring.
    - exact pk_ini.
    - intros x _ Bx. apply pw_index; [| |exact Bx].
      + generalize (length tr). intros k. induction k as [|k IH]; cbn [repeat]; constructor; [|exact IH]. intros i j Hi Hj. rewrite J' by assumption. rewrite J by (apply pk_lt; assumption). unfold jump. rewrite pk_mat, pk_exit by assumption. reflexivity.
      + clear NE Ho. induction tr as [|o os IH]; cbn [map app]; constructor; [| |intros i Hi; apply pk_label; exact Hi|exact IH]; [reflexivity|constructor].
  Qed.
End Lik.

Lemma in_alphabet (l : list ((list string * list R) * Z)) tr t o : In (tr, t) l -> In o (fst tr) -> In o (alphabet_of (Timed l)).
Proof. intros I Io. unfold alphabet_of. apply (proj2 (LSet.dedup_exact _ String.eqb_eq _)). apply in_flat_map. exists (tr, t). split; [exact I|exact Io]. Qed.
Lemma in_alphabet_u (l : list (list string * Z)) tr t o : In (tr, t) l -> In o tr -> In o (alphabet_of (K := R) (Untimed l)).
Proof. intros I Io. unfold alphabet_of. apply (proj2 (LSet.dedup_exact _ String.eqb_eq _)). apply in_flat_map. exists (tr, t). split; [exact I|exact Io]. Qed.
Lemma set_ll_ext {T} (f g : T -> R) set : (forall tr t, In (tr, t) set -> f tr = g tr) -> set_ll f set = set_ll g set.
Proof. intros H. unfold set_ll. apply sumL_ext. intros [tr t] I. cbn [fst snd]. rewrite (H tr t I). reflexivity. Qed.

(** The reduced model gives the traces the same likelihood when the states which
    are kept cannot be left for those which are not. *)
Theorem C116_likelihood_timed : forall (m : pctmc R) (l : list ((list string * list R) * Z)) (c c' : ctmc R), wf_pctmc m -> timed_set l ->
  closed_in (kept (alphabet_of (Timed l)) m) m -> realises m c -> realises (prune (alphabet_of (Timed l)) m) c' ->
  (forall tr t, In (tr, t) l -> ct_density c' tr = ct_density c tr) /\ set_ll (ct_density c') l = set_ll (ct_density c) l.
Proof.
  intros m l c c' W Hl Cl Rc Rc'. assert (G : forall tr t, In (tr, t) l -> ct_density c' tr = ct_density c tr).
  { intros tr t I. apply (pk_timed (alphabet_of (Timed l)) m); auto; [|intros o Io; apply (in_alphabet l tr t); assumption]. destruct (Hl tr t I) as [L _]. destruct (fst tr); [discriminate|discriminate]. }
  split; [exact G|]. apply set_ll_ext. exact G.
Qed.
Print Assumptions C116_likelihood_timed.
Theorem C116_likelihood_untimed : forall (m : pctmc R) (l : list (list string * Z)) (c c' : ctmc R), wf_pctmc m -> (forall tr t, In (tr, t) l -> tr <> []) ->
  closed_in (kept (alphabet_of (K := R) (Untimed l)) m) m -> realises m c -> realises (prune (alphabet_of (K := R) (Untimed l)) m) c' ->
  (forall tr t, In (tr, t) l -> mc_trace_prob_move (jump_chain c') tr = mc_trace_prob_move (jump_chain c) tr) /\ set_ll (mc_trace_prob_move (jump_chain c')) l = set_ll (mc_trace_prob_move (jump_chain c)) l.
Proof.
  intros m l c c' W Hl Cl Rc Rc'. assert (G : forall tr t, In (tr, t) l -> mc_trace_prob_move (jump_chain c') tr = mc_trace_prob_move (jump_chain c) tr).
  { intros tr t I. apply (pk_untimed (alphabet_of (K := R) (Untimed l)) m); auto; [apply (Hl tr t I)|intros o Io; apply (in_alphabet_u l tr t); assumption]. }
  split; [exact G|]. apply set_ll_ext. exact G.
Qed.
Print Assumptions C116_likelihood_untimed.

(** fit_parameters on the model of the caller: the traces are at least as likely
    as under that model. *)
Theorem C116_fit_parameters_timed : forall ob (maxroot : list R -> res R) (l : list ((list string * list R) * Z)) (m m' : pctmc R) (to_update : list string) (eps : R) (max_it : nat) result (c : ctmc R),
  solver maxroot -> timed_set l -> pos_times l -> In "init"%string (alphabet_of (Timed l)) ->
  wf_pctmc m -> indexed m -> learnable (others m to_update) m -> valued m -> closed_in (kept (alphabet_of (Timed l)) m) m -> realises m c ->
  fit_parameters ob maxroot (Timed l) m to_update eps max_it Some = Some (Ok result, m') ->
  result = map (fun q => (q, current m' q)) to_update /\ (forall q, ~ In q to_update -> current m' q = current m q) /\
  exists c', realises m' c' /\ set_ll (ct_density c) l <= set_ll (ct_density c') l.
Proof.
  intros ob maxroot l m m' tu eps mx result c Hs Hset HT Hi W I L V Cl Rc E.
  destruct (C116_reduced_model (alphabet_of (Timed l)) m (others m tu) W) as (W0 & R0 & _ & I0 & L0 & V0 & _).
  destruct (C109_fit_parameters_timed ob maxroot l m _ m' tu eps mx Some result Hs Hset HT Hi eq_refl (same_shape_refl _) W0 (I0 I) (L0 L) (V0 V) E) as (A & _ & F & c0 & c' & Rc0 & Rc' & LL).
  split; [exact A|]. split; [intros q N; rewrite (F q N); destruct R0 as (_ & _ & R3 & _); apply R3|]. exists c'. split; [exact Rc'|].
  destruct (C116_likelihood_timed m l c c0 W Hset Cl Rc Rc0) as [_ <-]. exact LL.
Qed.
Print Assumptions C116_fit_parameters_timed.
Lemma closed_anchored alphabet fixed (m : pctmc R) : wf_pctmc m -> closed_in (kept alphabet m) m -> anchored fixed m -> anchored fixed (prune alphabet m).
Proof.
  intros W Cl An. destruct (prune_ok alphabet m W) as (_ & (R1 & _ & R3 & _ & R5) & _). intros i Hi. rewrite R1 in *. set (s := nth i (kept alphabet m) 0%nat) in *. assert (Is : In s (kept alphabet m)) by (apply nth_In; exact Hi).
  destruct (An s (kept_lt _ _ _ Is)) as (s' & v & Hs' & Hv & Pv & O). destruct (in_dec Nat.eq_dec s' (kept alphabet m)) as [Is'|N]; [|pose proof (Cl s s' Is Hs' N) as Z; pose proof (has_value_fun _ _ _ _ Hv Z); lra].
  destruct (In_nth _ _ 0%nat Is') as (j & Hj & Ej). destruct (R5 i Hi) as (_ & _ & T). destruct (T j Hj) as [Tj _]. fold s in Tj. rewrite Ej in Tj. exists j, v. split; [exact Hj|]. unfold has_rate. rewrite Tj. split; [|split; [exact Pv|exact O]].
  destruct Hv as (rho & A & E). exists rho. split; [intros x Ox; rewrite R3; apply A; exact Ox|exact E].
Qed.
Theorem C116_fit_parameters_untimed : forall ob (maxroot : list R -> res R) (l : list (list string * Z)) (m m' : pctmc R) (to_update : list string) (eps : R) (max_it : nat) result (c : ctmc R),
  solver maxroot -> pos_times l -> (forall tr t, In (tr, t) l -> tr <> []) -> In "init"%string (alphabet_of (K := R) (Untimed l)) -> ob_kind ob = KGeneric ->
  wf_pctmc m -> indexed m -> learnable (others m to_update) m -> valued m -> anchored (others m to_update) m -> closed_in (kept (alphabet_of (K := R) (Untimed l)) m) m -> realises m c ->
  fit_parameters ob maxroot (Untimed l) m to_update eps max_it Some = Some (Ok result, m') ->
  result = map (fun q => (q, current m' q)) to_update /\ (forall q, ~ In q to_update -> current m' q = current m q) /\
  exists c', realises m' c' /\ set_ll (mc_trace_prob_move (jump_chain c)) l <= set_ll (mc_trace_prob_move (jump_chain c')) l.
Proof.
  intros ob maxroot l m m' tu eps mx result c Hs HT Hl Hi Hk W I L V An Cl Rc E.
  destruct (C116_reduced_model (alphabet_of (K := R) (Untimed l)) m (others m tu) W) as (W0 & R0 & _ & I0 & L0 & V0 & _).
  destruct (C109_fit_parameters_untimed ob maxroot l m _ m' tu eps mx Some result Hs HT Hi Hk eq_refl (same_shape_refl _) W0 (I0 I) (L0 L) (V0 V) (closed_anchored _ _ m W Cl An) E) as (A & _ & F & c0 & c' & Rc0 & Rc' & LL).
  split; [exact A|]. split; [intros q N; rewrite (F q N); destruct R0 as (_ & _ & R3 & _); apply R3|]. exists c'. split; [exact Rc'|].
  destruct (C116_likelihood_untimed m l c c0 W Hl Cl Rc Rc0) as [_ <-]. exact LL.
Qed.
Print Assumptions C116_fit_parameters_untimed.

(** Otherwise the parameters are estimated in a different model: the state a of
    exM is left at rate 6, and at rate 3 in the reduced model. *)
Definition exMC : ctmc R := mkCTMC [[0; 1; 0]; [3; 0; 3]; [0; 3; 0]] ["init"; "a"; "b"]%string [1; 0; 0] "ex".
Definition exMT : list ((list string * list R) * Z) := [((["init"; "a"; "init"]%string, [1; 1]), 1%Z)].
Theorem C116_likelihood_refuted : exists (m : pctmc R) (l : list ((list string * list R) * Z)) (c c' : ctmc R), wf_pctmc m /\ timed_set l /\ pos_times l /\ pos_dwell l /\
  realises m c /\ realises (prune (alphabet_of (Timed l)) m) c' /\ set_ll (ct_density c) l < set_ll (ct_density c') l.
Proof.
  exists exM, exMT, exMC, (mkCTMC [[0; 1]; [3; 0]] ["init"; "a"]%string [1; 0] "ex").
  split; [split; [|split; [reflexivity|split; [reflexivity|split; [reflexivity|]]]]|].
  { intros r [<-|[<-|[<-|[]]]]; (split; [reflexivity|]); intros k [<-|[<-|[<-|[]]]]; cbn; lia. }
  { intros x [<-|[<-|[<-|[]]]]; lra. }
  split; [intros tr t [E|[]]; injection E as <- <-; split; [reflexivity|intros d [<-|[<-|[]]]; lra]|].
  split; [intros x [<-|[]]; cbn; lia|]. split; [intros tr t [E|[]]; injection E as <- <-; intros d [<-|[<-|[]]]; lra|].
  split; [apply hval_realises; reflexivity|]. split; [apply hval_realises; reflexivity|].
  unfold set_ll, exMT, sumL. cbn [map rsum fold_right fst snd].
  assert (D1 : ct_density exMC (["init"; "a"; "init"]%string, [1; 1]) = exp (-1) * (3 * exp (-6))).
  { unfold ct_density, trace_prob, sumL, jump_density, is_label, exit_rate, matR. cbn. replace (- ((0 + (1 + (0 + 0))) * 1)) with (-1) by ring. replace (- ((3 + (0 + (3 + 0))) * 1)) with (-6) by ring. ring. }
  assert (D2 : ct_density (mkCTMC [[0; 1]; [3; 0]] ["init"; "a"]%string [1; 0] "ex") (["init"; "a"; "init"]%string, [1; 1]) = exp (-1) * (3 * exp (-3))).
  { unfold ct_density, trace_prob, sumL, jump_density, is_label, exit_rate, matR. cbn. replace (- ((0 + (1 + 0)) * 1)) with (-1) by ring. replace (- ((3 + (0 + 0)) * 1)) with (-3) by ring. ring. }
  rewrite D1, D2. pose proof (exp_pos (-1)). pose proof (exp_pos (-6)). pose proof (exp_pos (-3)). assert (exp (-6) < exp (-3)) by (apply exp_increasing; lra).
  assert (A1 : 0 < exp (-1) * (3 * exp (-6))) by (apply Rmult_lt_0_compat; lra). assert (A2 : 0 < exp (-1) * (3 * exp (-3))) by (apply Rmult_lt_0_compat; lra).
  destruct (Rlt_dec _ _); [|contradiction]. destruct (Rlt_dec _ _); [|contradiction].
  assert (ln (exp (-1) * (3 * exp (-6))) < ln (exp (-1) * (3 * exp (-3)))); [|lra]. apply ln_increasing; [exact A1|]. apply Rmult_lt_compat_l; lra.
Qed.
Print Assumptions C116_likelihood_refuted.

(** A parameter to estimate which occurs only on transitions from or to removed
    states (or nowhere): always an exception. *)
Theorem C116_unused_parameter_refuted : forall ob (maxroot : list R -> res R) (ts : traces R) (m : pctmc R) (to_update : list string) (eps : R) (max_it : nat) rnd q,
  wf_pctmc m -> indexed m -> In q to_update -> In q (pc_par m) ->
  (forall i j, (i < pc_n m)%nat -> (j < pc_n m)%nat -> occurs q (transition m i j) -> ~ In (nth i (pc_lab m) EmptyString) (alphabet_of ts) \/ ~ In (nth j (pc_lab m) EmptyString) (alphabet_of ts)) ->
  (forall m0, rnd (prune (alphabet_of ts) m) = Some m0 -> same_shape (prune (alphabet_of ts) m) m0) ->
  forall result m', fit_parameters ob maxroot ts m to_update eps max_it rnd <> Some (Ok result, m').
Proof.
  intros ob maxroot ts m tu eps mx rnd q W I Iq Ip N Sh result m' E. unfold fit_parameters in E. destruct (negb _) in E; [discriminate|]. destruct (rnd _) as [m0|] eqn:Er; [|discriminate].
  destruct (prune_ok (alphabet_of ts) m W) as (W' & (R1 & R2 & _ & _ & R5) & I' & _). specialize (I' I). set (mp := prune (alphabet_of ts) m) in *. destruct (Sh m0 eq_refl) as (S1 & S2 & S3 & S4 & S5 & _).
  assert (P : parameterIndexes m0 q = []).
  { unfold parameterIndexes. rewrite S5, S4. fold (parameterIndexes mp q). destruct I' as (_ & _ & Q). destruct (Q q) as [_ Q2]; [rewrite R2; exact Ip|]. destruct (parameterIndexes mp q) as [|[i j] r]; [reflexivity|]. exfalso.
    destruct (proj1 (Q2 i j) (or_introl eq_refl)) as (Hi & Hj & O). assert (Hi' : (Z.to_nat i < length (kept (alphabet_of ts) m))%nat) by (rewrite <- R1; lia). assert (Hj' : (Z.to_nat j < length (kept (alphabet_of ts) m))%nat) by (rewrite <- R1; lia).
    destruct (R5 _ Hi') as (_ & _ & T). destruct (T _ Hj') as [Tj _]. rewrite Tj in O. pose proof (nth_In _ 0%nat Hi') as K1. pose proof (nth_In _ 0%nat Hj') as K2. apply kept_spec in K1, K2. destruct (N _ _ (proj1 K1) (proj1 K2) O) as [X|X]; tauto. }
  destruct (sortParameters m0 _) as [pl|] eqn:Es; [|discriminate]. unfold sortParameters in Es. apply bind_ok in Es. destruct Es as (a & _ & Es). apply bind_ok in Es. destruct Es as (cats & Ec & _).
  apply mmap_forall2 in Ec. destruct (Forall2_In_l _ _ _ q Ec) as (b & _ & Eb).
  { apply filter_In. split; [rewrite S5, R2; exact Ip|]. apply negb_true_iff. destruct (memb String.eqb q _) eqn:M; [|reflexivity]. apply (memb_In _ String.eqb_eq) in M. apply filter_In in M. destruct M as [_ M]. apply negb_true_iff in M.
    assert (memb String.eqb q tu = true) by (apply (memb_In _ String.eqb_eq); exact Iq). congruence. }
  unfold category_of in Eb. unfold places in Eb. rewrite P in Eb. cbn in Eb. discriminate.
Qed.
Print Assumptions C116_unused_parameter_refuted.

(** A model meeting the hypotheses: exL and a third state, b, not in the traces. *)
Definition exK : pctmc R := mkPC [[1; 2; 0]; [3; 4; 0]; [1; 4; 0]]%nat ["init"; "a"; "b"]%string [EConst 0; EConst 1; EMul (EVar "x") (EVar "y"); EConst 3; EMul (EConst 2) (EVar "z")]
  [("x", 1); ("y", 2); ("z", 1)]%string [[(0, 1)]; [(0, 1)]; [(1, 1); (2, 1)]]%Z ["x"; "y"; "z"]%string [1; 0; 0] "ex".
Definition exKC : ctmc R := mkCTMC [[1; 1 * 2; 0]; [3; 2 * 1; 0]; [1; 2 * 1; 0]] ["init"; "a"; "b"]%string [1; 0; 0] "ex".
Lemma exK_prune : prune (alphabet_of (Timed exT)) exK = exL. Proof. reflexivity. Qed.
Lemma exK_kept : kept (alphabet_of (Timed exT)) exK = [0; 1]%nat. Proof. reflexivity. Qed.
Lemma exK_realises : realises exK exKC. Proof. apply hval_realises. reflexivity. Qed.
Lemma lt3 i : (i < 3)%nat -> i = 0%nat \/ i = 1%nat \/ i = 2%nat. Proof. lia. Qed.
Lemma lt3Z i : (0 <= i < 3)%Z -> i = 0%Z \/ i = 1%Z \/ i = 2%Z. Proof. lia. Qed.
Example C116_instance : wf_pctmc exK /\ indexed exK /\ learnable [] exK /\ valued exK /\ anchored [] exK /\ closed_in (kept (alphabet_of (Timed exT)) exK) exK /\ realises exK exKC /\
  exists N result m', forall max_it, (S N <= max_it)%nat -> fit_parameters exO quad (Timed exT) exK ["x"; "y"; "z"]%string 1 max_it Some = Some (Ok result, m').
Proof.
  split; [split; [|split; [reflexivity|split; [reflexivity|split; [reflexivity|]]]]|].
  { intros r [<-|[<-|[<-|[]]]]; (split; [reflexivity|]); intros k [<-|[<-|[<-|[]]]]; cbn; lia. }
  { intros x [<-|[<-|[<-|[]]]]; lra. }
  split; [split; [|split]|].
  { repeat constructor; cbn; intuition discriminate. }
  { intros i j x Hi Hj. apply lt3 in Hi, Hj. destruct Hi as [->|[->| ->]], Hj as [->|[->| ->]]; cbn; intuition (subst; auto). }
  { intros p Ip. split; [cbn in Ip; destruct Ip as [<-|[<-|[<-|[]]]]; repeat constructor; cbn; intuition discriminate|]. intros i j. split.
    - cbn in Ip. destruct Ip as [<-|[<-|[<-|[]]]]; cbn; intros I; repeat (destruct I as [E|I]; [injection E as <- <-|]); try contradiction; (split; [lia|split; [lia|]]); change (Z.to_nat 1) with 1%nat; change (Z.to_nat 2) with 2%nat; cbn; auto.
    - intros (Hi & Hj & O). change (Z.of_nat (pc_n exK)) with 3%Z in Hi, Hj. apply lt3Z in Hi, Hj. destruct Hi as [->|[->| ->]], Hj as [->|[->| ->]]; change (Z.to_nat 1) with 1%nat in O; change (Z.to_nat 2) with 2%nat in O; cbn in O;
        cbn in Ip; destruct Ip as [<-|[<-|[<-|[]]]]; cbn; intuition (try discriminate). }
  split; [intros i j Hi Hj; left; apply lt3 in Hi, Hj; destruct Hi as [->|[->| ->]], Hj as [->|[->| ->]]; cbn; repeat split; auto; intros x; intuition (subst; discriminate)|].
  split; [split|].
  { intros p Ip. cbn in Ip. destruct Ip as [<-|[<-|[<-|[]]]]; eexists; (split; [reflexivity|lra]). }
  { intros i j v Hi Hj Hr. destruct exK_realises as (_ & _ & _ & _ & R). specialize (R i j Hi Hj). rewrite (has_value_fun _ _ _ _ Hr R). apply lt3 in Hi, Hj. destruct Hi as [->|[->| ->]], Hj as [->|[->| ->]]; unfold matR; cbn; lra. }
  split.
  { intros i Hi. apply lt3 in Hi. exists 0%nat. destruct Hi as [->|[->| ->]]; [exists 1|exists 3|exists 1]; (split; [cbn; lia|]); (split; [exists (fun _ => 0); split; [intros x []|reflexivity]|]); (split; [lra|intros x []]). }
  split; [|split; [exact exK_realises|]].
  { rewrite exK_kept. intros s s' Is Hs' N. apply lt3 in Hs'. assert (s' = 2%nat) by (cbn in N; intuition). subst s'. cbn in Is. destruct Is as [<-|[<-|[]]]; (exists (fun _ => 0); split; [intros x []|reflexivity]). }
  destruct C109_C110_timed_instance as (N & result & m' & _ & _ & _ & F). exists N, result, m'. intros mx Hm. rewrite <- (F mx Hm). reflexivity.
Qed.
(** A parameter which occurs only on the transition from b to a. *)
Example C116_unused_instance : let m := mkPC [[0; 1; 0]; [1; 0; 0]; [0; 2; 0]]%nat ["init"; "a"; "b"]%string [EConst 0; EConst 1; EVar "x"] [("x"%string, 1)] [[(2, 1)]]%Z ["x"]%string [1; 0; 0] "ex" in
  forall ob maxroot eps max_it result m', fit_parameters ob maxroot (Timed exT) m ["x"]%string eps max_it Some <> Some (Ok result, m').
Proof.
  intros m ob maxroot eps mx result m'. apply (C116_unused_parameter_refuted ob maxroot (Timed exT) m ["x"]%string eps mx Some "x"%string).
  - split; [|split; [reflexivity|split; [reflexivity|split; [reflexivity|]]]].
    + intros r [<-|[<-|[<-|[]]]]; (split; [reflexivity|]); intros k [<-|[<-|[<-|[]]]]; cbn; lia.
    + intros x [<-|[<-|[<-|[]]]]; lra.
  - split; [repeat constructor; intros []|]. split.
    + intros i j x Hi Hj. apply lt3 in Hi, Hj. destruct Hi as [->|[->| ->]], Hj as [->|[->| ->]]; cbn; intuition (subst; auto).
    + intros p [<-|[]]. split; [repeat constructor; intros []|]. intros i j. split.
      * cbn. intros [E|[]]. injection E as <- <-. split; [lia|]. split; [lia|]. change (Z.to_nat 1) with 1%nat; change (Z.to_nat 2) with 2%nat. cbn. reflexivity.
      * intros (Hi & Hj & O). change (Z.of_nat (pc_n m)) with 3%Z in Hi, Hj. apply lt3Z in Hi, Hj. destruct Hi as [->|[->| ->]], Hj as [->|[->| ->]]; change (Z.to_nat 1) with 1%nat in O; change (Z.to_nat 2) with 2%nat in O; cbn in O; try contradiction; cbn; auto.
  - left. reflexivity.
  - left. reflexivity.
  - intros i j Hi Hj. apply lt3 in Hi, Hj. destruct Hi as [->|[->| ->]], Hj as [->|[->| ->]]; cbn; intros O; try contradiction. left. intuition discriminate.
  - intros m0 E. injection E as <-. apply same_shape_refl.
Qed.

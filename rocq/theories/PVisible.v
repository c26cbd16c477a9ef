(** C170: parameters learned from timed traces in which every state is visible. *)
From Coq Require Import String ZArith Bool Reals List Lia Lra.
From Verif Require Import Num Py SNum SPath LSum MSet SSet MModels MCtor MLik MBW MPctmc SPctmc LPctmc LCtor LFB LEM SBW SExp LBW LBWSet LBWMC SLik LLik LEMGen LBWMDP LBWCT LBWPath LLik2 LBWLoop LFit PLik PBWMC PBWCT PBWCTU PPctmc LMM MPLearn SPLearn LPLearn LPLearn2 LPLearn3 LPLearn4 LPLearn5 LPLearn6 PPLearn PPLearn2 SObs LObs PObs2 PObs3 SVisible.
Import ListNotations.
Local Open Scope R_scope.

(** ** One parameter per rate *)
Lemma mono_scale q rho (e : expr R) : is_monomial e -> denote rho e = denote (fun x => if String.eqb x q then 1 else rho x) e * rho q ^ degree q e.
Proof.
  induction e; cbn [is_monomial denote degree]; try tauto.
  - intros _. cbn. ring.
  - intros _. rewrite String.eqb_sym. destruct (String.eqb_spec q x) as [->|]; cbn; ring.
  - intros (A & B & _). rewrite IHe1, IHe2, pow_add by assumption. ring.
  - destruct e; try tauto. intros _. cbn [denote degree]. rewrite String.eqb_sym. destruct (String.eqb_spec q x) as [->|].
    + rewrite pow1, Nat.mul_1_r. ring.
    + rewrite Nat.mul_0_r. cbn. ring.
Qed.
Lemma total_ge q (e : expr R) : forall l, In q l -> (degree q e <= total_degree l e)%nat.
Proof. induction l as [|a l IH]; [intros []|]. unfold total_degree in *. cbn [fold_right]. intros [->|I]; [lia|]. specialize (IH I). lia. Qed.
Lemma total_ge2 q q' (e : expr R) : q <> q' -> forall l, In q l -> In q' l -> (degree q e + degree q' e <= total_degree l e)%nat.
Proof.
  intros N. induction l as [|a l IH]; [intros []|]. intros I J. pose proof (fun H => total_ge q e l H) as G. pose proof (fun H => total_ge q' e l H) as G'. unfold total_degree in *. cbn [fold_right].
  destruct I as [->|I], J as [->|J]; [congruence| | |].
  - specialize (G' J). lia.
  - specialize (G I). lia.
  - specialize (IH I J). lia.
Qed.
Lemma free_mono fixed (m : pctmc R) q i j : learnable fixed m -> In q (free_params fixed m) -> (i < pc_n m)%nat -> (j < pc_n m)%nat -> occurs q (transition m i j) -> is_monomial (transition m i j).
Proof. intros L Iq Hi Hj Oq. destruct (L i j Hi Hj) as [M|M]; [exact M|]. exfalso. apply (fixed_not_free fixed m q); auto. Qed.
Lemma sep_degree fixed (m : pctmc R) q i j : learnable fixed m -> separate fixed m -> In q (free_params fixed m) -> (i < pc_n m)%nat -> (j < pc_n m)%nat -> occurs q (transition m i j) ->
  degree q (transition m i j) = 1%nat /\ forall q', In q' (free_params fixed m) -> occurs q' (transition m i j) -> q' = q.
Proof.
  intros L S Iq Hi Hj Oq. pose proof (free_mono fixed m q i j L Iq Hi Hj Oq) as M. pose proof (S q i j Iq Hi Hj Oq) as T. pose proof (degree_pos q _ M Oq) as D. pose proof (total_ge q (transition m i j) _ Iq) as G. split; [lia|].
  intros q' Iq' O'. destruct (string_dec q q') as [E|N]; [congruence|]. pose proof (total_ge2 q q' (transition m i j) N _ Iq Iq'). pose proof (degree_pos q' _ M O'). lia.
Qed.
Lemma sep_uniform fixed (m : pctmc R) : separate fixed m -> uniform fixed m.
Proof. intros S q i j i' j' Iq Hi Hj Hi' Hj' O1 O2. rewrite (S q i j), (S q i' j'); auto. Qed.
Lemma shape_trans (m x : pctmc R) i j : same_shape m x -> transition x i j = transition m i j.
Proof. intros (A & _ & B & _). unfold transition. rewrite A, B. reflexivity. Qed.
Lemma shape_n (m x : pctmc R) : same_shape m x -> pc_n x = pc_n m.
Proof. intros (A & _). unfold pc_n. rewrite A. reflexivity. Qed.
Lemma shape_lab (m x : pctmc R) : same_shape m x -> pc_lab x = pc_lab m.
Proof. intros (_ & A & _). exact A. Qed.

(** The rate is the coefficient times the value, whatever the values of the other
    parameters to estimate. *)
Lemma unit_rate fixed (m x : pctmc R) q coef i j r v : learnable fixed m -> separate fixed m -> In q (free_params fixed m) -> per_unit m q coef ->
  same_shape m x -> (forall p, ~ In p (free_params fixed m) -> current x p = current m p) ->
  (i < pc_n m)%nat -> (j < pc_n m)%nat -> occurs q (transition m i j) -> current x q = Some v -> has_rate x (current x) i j r -> r = coef i j * v.
Proof.
  intros L S Iq U Sh Fx Hi Hj Oq Ev [rho [A ->]]. rewrite (shape_trans m x i j Sh) in *.
  destruct (sep_degree fixed m q i j L S Iq Hi Hj Oq) as [D1 Oth]. pose proof (free_mono fixed m q i j L Iq Hi Hj Oq) as M.
  rewrite (mono_scale q rho _ M), D1, pow_1. pose proof (A q Oq) as Aq. rewrite Ev in Aq. injection Aq as ->.
  f_equal. destruct (U i j Hi Hj Oq) as [rho' [A' ->]]. apply (has_value_fun (fun y => if String.eqb y q then Some 1 else current m y) (transition m i j)); [|exists rho'; split; [exact A'|reflexivity]].
  eexists. split; [|reflexivity]. intros y Oy. cbn beta. destruct (String.eqb_spec y q) as [->|Ny]; [reflexivity|]. rewrite <- A by exact Oy. symmetry. apply Fx. intros Iy. apply Ny. apply Oth; assumption.
Qed.
Lemma degree_zero q (e : expr R) : degree q e <> 0%nat -> occurs q e.
Proof.
  induction e; cbn [degree occurs]; intros D; try congruence.
  - destruct (String.eqb_spec q x); congruence.
  - destruct (Nat.eq_dec (degree q e1) 0); [right; apply IHe2; lia|left; auto].
  - apply IHe. intros Z. apply D. rewrite Z. lia.
Qed.

(** ** A round *)
Lemma seen_counts (c : ctmc R) set : wf_ctmc c -> NoDup (ct_lab c) -> timed_set set -> (forall tr t, In (tr, t) set -> 0 < ct_density c tr) ->
  forall i j, (i < ct_n c)%nat -> (j < ct_n c)%nat ->
    set_expected (ct_density c) (ct_expected_moves c i j) set = ct_moves_seen (nth i (ct_lab c) EmptyString) (nth j (ct_lab c) EmptyString) set /\
    set_expected (ct_density c) (ct_expected_dwell c i) set = ct_time_seen (nth i (ct_lab c) EmptyString) set.
Proof.
  intros W ND A HP i j Hi Hj. assert (Ll : length (ct_lab c) = ct_n c) by apply W. set (a := nth i (ct_lab c) EmptyString). set (b := nth j (ct_lab c) EmptyString). split.
  - rewrite (set_expected_total _ _ (fun tr => seen a b (fst tr) (map (fun _ => 1) (snd tr))) set HP); [reflexivity|].
    intros tr t I. unfold ct_expected_moves, ct_expected, ct_density.
    replace (map (fun _ : R => on_move i j 1) (snd tr)) with (map (on_move i j) (map (fun _ => 1) (snd tr))) by (rewrite map_map; reflexivity).
    apply (moves_exact (ct_n c) (ct_lab c) Ll ND); rewrite ?map_length; auto. apply (A tr t I).
  - rewrite (set_expected_total _ _ (fun tr => left a (fst tr) (snd tr)) set HP); [reflexivity|].
    intros tr t I. unfold ct_expected_dwell, ct_expected, ct_density.
    replace (map (fun t0 : R => on_leave i t0) (snd tr)) with (map (on_leave i) (snd tr)) by reflexivity.
    apply (leaves_exact (ct_n c) (ct_lab c) Ll ND); rewrite ?map_length; auto. apply (A tr t I).
Qed.

(** After any number of rounds, one more: the re-estimation of C107 with the counts
    read off the traces. *)
Theorem C170_round : forall (maxroot : list R -> res R) (p : nat) (fixed : list string) (pl : plan R) set (m : pctmc R) (k : nat) (mk m' : pctmc R) (ll : R) (c : ctmc R),
  solver maxroot -> timed_set set -> pos_times set -> wf_pctmc m -> indexed m -> learnable fixed m -> valued m -> sortParameters m fixed = Ok pl ->
  NoDup (pc_lab m) ->
  after_rounds (round_PCTMC maxroot KTimed false p pl (timed_traces set)) k m mk ->
  round_PCTMC maxroot KTimed false p pl (timed_traces set) mk = Ok (m', ll) -> realises mk c ->
  (forall tr t, In (tr, t) set -> 0 < ct_density c tr) ->
  let label := fun i => nth i (pc_lab m) EmptyString in
  forall q v, In q (free_params fixed m) -> current mk q = Some v -> exists w, current m' q = Some w /\
    reestimated fixed m q (fun i j => ct_moves_seen (label i) (label j) set) (fun i => ct_time_seen (label i) set) (rate c) v w.
Proof.
  intros maxroot p fixed pl set m k mk m' ll c Hs Hset HT W I L V Ep ND R Er Rc HP label q v Iq Ev.
  destruct (C107_pctmc_timed_round maxroot p fixed pl set m k mk m' ll c Hs Hset HT W I L V Ep R Er Rc) as [_ K].
  destruct (K q v Iq Ev) as (w & Ew & z & Z0 & Zw & Ze). exists w. split; [exact Ew|]. exists z. split; [exact Z0|]. split; [exact Zw|].
  destruct (timed_rounds fixed pl set maxroot p m mk k Hset HT Hs (mkPinv fixed pl m W I L V (sort_plan fixed m pl I L V Ep)) R) as ([W1 I1 L1 V1 P1] & Sh & _).
  destruct (hval_total mk I1 V1) as [h Hh]. destruct (realises_same mk c h Rc (hval_realises mk h Hh)) as [nm ->].
  pose proof (hval_wf mk h W1 Hh) as Wh. destruct (hval_realises mk h Hh) as (Eh & _ & En & _).
  rewrite (shape_lab m mk Sh) in Eh. rewrite (shape_n m mk Sh) in En.
  assert (Cn : forall i j, (i < pc_n m)%nat -> (j < pc_n m)%nat -> set_expected (ct_density h) (ct_expected_moves h i j) set = ct_moves_seen (label i) (label j) set /\ set_expected (ct_density h) (ct_expected_dwell h i) set = ct_time_seen (label i) set).
  { intros i j Hi Hj. unfold label. rewrite <- Eh. apply seen_counts; auto; rewrite ?Eh, ?En; auto. }
  assert (E1 : forall x, expected_uses fixed m q (fun i => set_expected (ct_density h) (ct_expected_dwell h i) set) (rate h) x = expected_uses fixed m q (fun i => ct_time_seen (label i) set) (rate h) x).
  { intros x. unfold expected_uses. apply Sum_ext. intros i Hi. apply Sum_ext. intros j Hj. rewrite (proj2 (Cn i j Hi Hj)). reflexivity. }
  assert (E2 : observed_uses m q (fun i j => set_expected (ct_density h) (ct_expected_moves h i j) set) = observed_uses m q (fun i j => ct_moves_seen (label i) (label j) set)).
  { unfold observed_uses. apply Sum_ext. intros i Hi. apply Sum_ext. intros j Hj. rewrite (proj1 (Cn i j Hi Hj)). reflexivity. }
  change (rate {| ct_mat := ct_mat h; ct_lab := ct_lab h; ct_ini := ct_ini h; ct_name := nm |}) with (rate h) in *. rewrite <- E2, <- !E1. exact Ze.
Qed.
Print Assumptions C170_round.

(** When each rate contains at most one parameter to estimate, the new value is a
    ratio which does not depend on the old values. *)
Theorem C170_closed_form : forall (maxroot : list R -> res R) (p : nat) (fixed : list string) (pl : plan R) set (m : pctmc R) (k : nat) (mk m' : pctmc R) (ll : R) (c : ctmc R) (q : string) (coef : nat -> nat -> R) (v : R),
  solver maxroot -> timed_set set -> pos_times set -> wf_pctmc m -> indexed m -> learnable fixed m -> valued m -> sortParameters m fixed = Ok pl ->
  NoDup (pc_lab m) -> separate fixed m ->
  after_rounds (round_PCTMC maxroot KTimed false p pl (timed_traces set)) k m mk ->
  round_PCTMC maxroot KTimed false p pl (timed_traces set) mk = Ok (m', ll) -> realises mk c ->
  (forall tr t, In (tr, t) set -> 0 < ct_density c tr) ->
  In q (free_params fixed m) -> per_unit m q coef -> current mk q = Some v -> 0 < v \/ v = 0 /\ moves_with m q set = 0 -> exposure m q coef set <> 0 ->
  current m' q = Some (moves_with m q set / exposure m q coef set).
Proof.
  intros maxroot p fixed pl set m k mk m' ll c q coef v Hs Hset HT W I L V Ep ND Sp R Er Rc HP Iq U Ev Hv Ex.
  destruct (C170_round maxroot p fixed pl set m k mk m' ll c Hs Hset HT W I L V Ep ND R Er Rc HP q v Iq Ev) as (w & Ew & z & Z0 & -> & Ze).
  destruct (timed_rounds fixed pl set maxroot p m mk k Hset HT Hs (mkPinv fixed pl m W I L V (sort_plan fixed m pl I L V Ep)) R) as (_ & Sh & Fx).
  rewrite Ew. f_equal. destruct Hv as [Pv|[-> M0]]; [|rewrite M0; unfold Rdiv; ring].
  assert (E1 : forall x, expected_uses fixed m q (fun i => ct_time_seen (nth i (pc_lab m) EmptyString) set) (rate c) x = v * x * exposure m q coef set).
  { intros x. unfold expected_uses, exposure. rewrite <- Sum_scal_l. apply Sum_ext. intros i Hi. rewrite <- Sum_scal_l. apply Sum_ext. intros j Hj.
    destruct (Nat.eq_dec (degree q (transition m i j)) 0) as [D0|D0]; [rewrite D0; cbn; ring|]. pose proof (degree_zero q _ D0) as Oq. rewrite (Sp q i j Iq Hi Hj Oq), pow_1.
    destruct Rc as (_ & _ & _ & _ & Rr). assert (Hi' : (i < pc_n mk)%nat) by (rewrite (shape_n m mk Sh); exact Hi). assert (Hj' : (j < pc_n mk)%nat) by (rewrite (shape_n m mk Sh); exact Hj).
    unfold rate. rewrite (unit_rate fixed m mk q coef i j _ v L Sp Iq U Sh Fx Hi Hj Oq Ev (Rr i j Hi' Hj')). ring. }
  change (observed_uses m q _) with (moves_with m q set) in Ze. rewrite !E1 in Ze. destruct Ze as [Ze|[-> Ze]].
  - rewrite <- Ze. field. exact Ex.
  - exfalso. apply Ex. apply (Rmult_eq_reg_l v); [|lra]. rewrite Rmult_1_r in Ze. rewrite Ze. ring.
Qed.
Print Assumptions C170_closed_form.

(** ** The whole fit *)
Lemma same_values (x y : pctmc R) c : same_shape x y -> (forall i j p, (i < pc_n x)%nat -> (j < pc_n x)%nat -> occurs p (transition x i j) -> current y p = current x p) -> realises x c -> realises y c.
Proof.
  intros Sh Cv (A & B & C & D & E). pose proof Sh as (_ & F2 & _ & _ & _ & F6 & _). unfold realises. rewrite F2, F6, (shape_n x y Sh). split; [exact A|]. split; [exact B|]. split; [exact C|]. split; [exact D|].
  intros i j Hi Hj. unfold has_rate. rewrite (shape_trans x y i j Sh). apply (has_value_ext (current x)); [|exact (E i j Hi Hj)]. intros p Op. symmetry. exact (Cv i j p Hi Hj Op).
Qed.
Lemma pll_of set (x : pctmc R) c : indexed x -> valued x -> realises x c -> pll set x = set_ll (ct_density c) set.
Proof. intros I V Rc. destruct (hval_total x I V) as [h Hh]. unfold pll. rewrite Hh. rewrite (realises_density x h c (hval_realises x h Hh) Rc). reflexivity. Qed.

Theorem C170_fit : forall (maxroot : list R -> res R) (p max_it : nat) (fixed : list string) (pl : plan R) set (m : pctmc R) (c : ctmc R) (eps : R) (coef : string -> nat -> nat -> R),
  solver maxroot -> timed_set set -> pos_times set -> set <> [] -> (forall tr t, In (tr, t) set -> (2 <= length (fst tr))%nat) ->
  wf_pctmc m -> indexed m -> learnable fixed m -> valued m -> sortParameters m fixed = Ok pl ->
  NoDup (pc_lab m) -> separate fixed m -> realises m c -> (forall tr t, In (tr, t) set -> 0 < ct_density c tr) ->
  (forall q, In q (free_params fixed m) -> (exists v, current m q = Some v /\ 0 < v) /\ per_unit m q (coef q) /\ exposure m q (coef q) set <> 0) ->
  0 < eps -> (1 <= max_it)%nat ->
  exists m' n ll stopped, bw_loop (round_PCTMC maxroot KTimed false p pl (timed_traces set)) eps max_it None 0 m = Ok (m', n, Some ll, stopped) /\
    (n <= 3)%nat /\ ((3 <= max_it)%nat -> stopped = true) /\ same_shape m m' /\
    (forall q, In q (free_params fixed m) -> current m' q = Some (moves_with m q set / exposure m q (coef q) set)) /\
    (forall q, ~ In q (free_params fixed m) -> current m' q = current m q).
Proof.
  intros maxroot p mx fixed pl set m c eps coef Hs Hset HT NE Hlen W I L V Ep ND Sp Rc HP HQ He Hm. destruct mx as [|mx]; [lia|].
  set (round := round_PCTMC maxroot KTimed false p pl (timed_traces set)).
  pose proof (mkPinv fixed pl m W I L V (sort_plan fixed m pl I L V Ep)) as Pm.
  assert (C3 : pl_cat3 pl = []) by (apply (uniform_cat3 fixed m); auto using sep_uniform).
  set (J := fun x => (exists k, after_rounds round k m x) /\ (forall cx, realises x cx -> forall tr t, In (tr, t) set -> 0 < ct_density cx tr) /\
      forall q, In q (free_params fixed m) -> exists v, current x q = Some v /\ (0 < v \/ v = 0 /\ moves_with m q set = 0)).
  set (G := fun x => same_shape m x /\ pinv fixed pl x /\ (forall q, In q (free_params fixed m) -> current x q = Some (moves_with m q set / exposure m q (coef q) set)) /\
      (forall q, ~ In q (free_params fixed m) -> current x q = current m q)).
  destruct (loop_three round eps J (fun _ y => G y) (pll set) He) with (n := mx) (m := m) as (m' & n & ll & st & E & (S1 & _ & S3 & S4) & N3 & ST).
  - intros x ((k & Rx) & Px & Qx). destruct (timed_rounds fixed pl set maxroot p m x k Hset HT Hs Pm Rx) as (Ix & Sx & Fx). pose proof Ix as [W1 I1 L1 V1 P1].
    destruct (hval_total x I1 V1) as [h Hh]. pose proof (hval_realises x h Hh) as Rh.
    destruct (timed_round_ok x fixed pl h set Hh W1 I1 L1 V1 P1 Hset maxroot p C3 Hlen) as (x' & l & Ex).
    { destruct set as [|[tr t] r]; [congruence|]. exists tr, t. split; [left; reflexivity|]. apply (Px h Rh tr t). left. reflexivity. }
    { right. exact (Px h Rh). }
    destruct (timed_step fixed pl set maxroot p x x' l Hset HT Hs Ix Ex) as (Ix' & Sx' & Fx' & hx & hx' & Hx & Hx' & -> & _ & Ps). assert (hx = h) by congruence. subst hx.
    assert (Vals : forall q, In q (free_params fixed m) -> current x' q = Some (moves_with m q set / exposure m q (coef q) set)).
    { intros q Iq. destruct (Qx q Iq) as (v & Ev & Pv). destruct (HQ q Iq) as (_ & U & X).
      apply (C170_closed_form maxroot p fixed pl set m k x x' (set_ll (ct_density h) set) h q (coef q) v); auto; try exact (Px h Rh). }
    exists x'. split; [unfold pll; rewrite Hh; exact Ex|]. split.
    + split; [exists (S k); apply (ar_round round k m x x' _ Rx Ex)|]. split.
      * intros cx Rcx tr t It. rewrite (realises_density x' cx hx' Rcx (hval_realises x' hx' Hx')). apply (Ps tr t It). exact (Px h Rh tr t It).
      * intros q Iq. exists (moves_with m q set / exposure m q (coef q) set). split; [exact (Vals q Iq)|].
        assert (Pq : 0 <= moves_with m q set / exposure m q (coef q) set).
        { destruct (pv_val _ _ _ Ix') as [Vp _]. destruct (Vp q) as (v & Ev & Pv); [rewrite (proj1 (proj2 (proj2 (proj2 (proj2 Sx'))))), (proj1 (proj2 (proj2 (proj2 (proj2 Sx))))); apply (free_In m fixed); exact Iq|]. rewrite (Vals q Iq) in Ev. injection Ev as <-. exact Pv. }
        destruct (Req_dec (moves_with m q set) 0) as [M0|M0]; [right; split; [rewrite M0; unfold Rdiv; ring|exact M0]|left].
        destruct (Rle_lt_or_eq_dec _ _ Pq) as [P|Z]; [exact P|]. exfalso. destruct (HQ q Iq) as (_ & _ & X). apply M0. symmetry in Z. unfold Rdiv in Z. apply Rmult_integral in Z. destruct Z as [Z|Z]; [exact Z|]. exfalso. exact (Rinv_neq_0_compat _ X Z).
    + split; [apply (same_shape_trans m x x'); assumption|]. split; [exact Ix'|]. split; [exact Vals|]. intros q Nq. rewrite Fx' by (rewrite (free_shape fixed m x Sx); exact Nq). apply Fx. exact Nq.
  - intros x y z _ H. exact H.
  - intros x y z _ _ (A1 & [_ A2i _ A2v _] & A3 & A4) (B1 & [_ B2i _ B2v _] & B3 & B4) _. destruct (hval_total y A2i A2v) as [h Hh]. pose proof (hval_realises y h Hh) as Rh.
    rewrite (pll_of set y h A2i A2v Rh). apply (pll_of set z h B2i B2v). apply (same_values y z h); auto.
    + destruct A1 as (a1 & a2 & a3 & a4 & a5 & a6 & a7), B1 as (b1 & b2 & b3 & b4 & b5 & b6 & b7). repeat split; congruence.
    + intros i j q _ _ _. destruct (in_dec string_dec q (free_params fixed m)) as [Iq|Nq]; [rewrite A3, B3 by exact Iq; reflexivity|rewrite A4, B4 by exact Nq; reflexivity].
  - split; [exists 0%nat; apply ar_start|]. split; [intros cx Rcx; rewrite (realises_density m cx c Rcx Rc); exact HP|]. intros q Iq. destruct (HQ q Iq) as ((v & Ev & Pv) & _). exists v. auto.
  - exists m', n, ll, st. split; [exact E|]. split; [exact N3|]. split; [intros; apply ST; lia|]. split; [exact S1|]. split; assumption.
Qed.
Print Assumptions C170_fit.

(** The values found are the best ones: no other positive values of the parameters
    to estimate give the traces a higher likelihood. *)
Theorem C170_optimal : forall (fixed : list string) (pl : plan R) set (m mo : pctmc R) (c co : ctmc R) (coef : string -> nat -> nat -> R),
  timed_set set -> pos_times set -> set <> [] -> (forall tr t, In (tr, t) set -> (2 <= length (fst tr))%nat) ->
  wf_pctmc m -> indexed m -> learnable fixed m -> valued m -> sortParameters m fixed = Ok pl ->
  NoDup (pc_lab m) -> separate fixed m -> realises m c -> (forall tr t, In (tr, t) set -> 0 < ct_density c tr) ->
  (forall q, In q (free_params fixed m) -> (exists v, current m q = Some v /\ 0 < v) /\ per_unit m q (coef q) /\ exposure m q (coef q) set <> 0) ->
  same_shape m mo -> realises mo co -> (forall q, ~ In q (free_params fixed m) -> current mo q = current m q) ->
  (forall q, In q (free_params fixed m) -> current mo q = Some (moves_with m q set / exposure m q (coef q) set)) ->
  (forall tr t, In (tr, t) set -> 0 < ct_density co tr) /\
  set_ll (ct_density c) set <= set_ll (ct_density co) set.
Proof.
  intros fixed pl set m mo c co coef Hset HT NE Hlen W I L V Ep ND Sp Rc HP HQ So Ro Fo Vo.
  pose proof (mkPinv fixed pl m W I L V (sort_plan fixed m pl I L V Ep)) as Pm.
  assert (C3 : pl_cat3 pl = []) by (apply (uniform_cat3 fixed m); auto using sep_uniform).
  set (maxroot := fun _ : list R => @Err R ValueError). assert (Hs : solver maxroot) by (intros t x E; discriminate).
  destruct (hval_total m I V) as [h Hh]. pose proof (hval_realises m h Hh) as Rh. pose proof (realises_density m c h Rc Rh) as Dh.
  assert (HPh : forall tr t, In (tr, t) set -> 0 < ct_density h tr) by (rewrite <- Dh; exact HP).
  destruct (timed_round_ok m fixed pl h set Hh W I L V (sort_plan fixed m pl I L V Ep) Hset maxroot 1 C3 Hlen) as (x & l & Ex).
  { destruct set as [|[tr t] r]; [congruence|]. exists tr, t. split; [left; reflexivity|]. apply (HPh tr t). left. reflexivity. }
  { right. exact HPh. }
  destruct (timed_step fixed pl set maxroot 1 m x l Hset HT Hs Pm Ex) as (Ix & Sx & Fx & hx & hx' & Hx & Hx' & -> & Le & Ps). assert (hx = h) by congruence. subst hx.
  assert (Rx : realises x co).
  { apply (same_values mo x co); auto.
    - destruct So as (a1 & a2 & a3 & a4 & a5 & a6 & a7), Sx as (b1 & b2 & b3 & b4 & b5 & b6 & b7). repeat split; congruence.
    - intros i j q _ _ _. destruct (in_dec string_dec q (free_params fixed m)) as [Iq|Nq]; [|rewrite Fo, Fx by exact Nq; reflexivity]. rewrite Vo by exact Iq.
      destruct (HQ q Iq) as ((v & Ev & Pv) & U & X). apply (C170_closed_form maxroot 1 fixed pl set m 0 m x (set_ll (ct_density h) set) h q (coef q) v); auto. apply ar_start. }
  rewrite (realises_density x co hx' Rx (hval_realises x hx' Hx')), Dh. split; [|exact Le]. intros tr t It. apply (Ps tr t It). exact (HPh tr t It).
Qed.
Print Assumptions C170_optimal.

(** The same for fit_parameters: it returns these values. *)
Theorem C170_fit_parameters : forall ob p (maxroot : list R -> res R) (set : list ((list string * list R) * Z)) (m m0 : pctmc R) (to_update : list string) (eps : R) (max_it : nat) rnd (c : ctmc R) pl (coef : string -> nat -> nat -> R),
  let fixed := others m to_update in
  ob_verbose ob = true -> ob_processes ob = Some p -> (forall q, In q to_update -> In q (pc_par m)) -> In "init"%string (alphabet_of (Timed set)) ->
  rnd (prune (alphabet_of (Timed set)) m) = Some m0 ->
  solver maxroot -> timed_set set -> pos_times set -> set <> [] -> (forall tr t, In (tr, t) set -> (2 <= length (fst tr))%nat) ->
  wf_pctmc m0 -> indexed m0 -> learnable fixed m0 -> valued m0 -> sortParameters m0 fixed = Ok pl ->
  NoDup (pc_lab m0) -> separate fixed m0 -> realises m0 c -> (forall tr t, In (tr, t) set -> 0 < ct_density c tr) ->
  (forall q, In q (free_params fixed m0) -> (exists v, current m0 q = Some v /\ 0 < v) /\ per_unit m0 q (coef q) /\ exposure m0 q (coef q) set <> 0) ->
  0 < eps -> (1 <= max_it)%nat ->
  exists m', fit_parameters ob maxroot (Timed set) m to_update eps max_it rnd = Some (Ok (map (fun q => (q, current m' q)) to_update), m') /\
    (forall q, In q (free_params fixed m0) -> current m' q = Some (moves_with m0 q set / exposure m0 q (coef q) set)) /\
    (forall q, ~ In q (free_params fixed m0) -> current m' q = current m0 q).
Proof.
  intros ob p maxroot set m m0 tu eps mx rnd c pl coef fixed Hv Hpr Htu Hi Er Hs Hset HT NE Hlen W I L V Ep ND Sp Rc HP HQ He Hm.
  destruct (C170_fit maxroot p mx fixed pl set m0 c eps coef Hs Hset HT NE Hlen W I L V Ep ND Sp Rc HP HQ He Hm) as (m' & n & ll & st & E & _ & _ & _ & A & B).
  exists m'. split; [|split; assumption]. unfold fit_parameters.
  assert (Hf : forallb (fun p0 => memb String.eqb p0 (pc_par m)) tu = true) by (rewrite forallb_forall; intros q Iq; rewrite (LCtor.memb_In _ String.eqb_eq); exact (Htu q Iq)).
  rewrite Hf.
  cbn [negb]. rewrite Er. fold (others m tu). fold fixed. rewrite Ep. unfold bw_PCTMC. cbn [ob_verbose ob_processes ob_kind]. rewrite Hv, Hpr. cbn [negb]. rewrite training_timed by exact Hi.
  change (fun x : pctmc R => round_PCTMC maxroot KTimed false p pl (timed_traces set) x) with (round_PCTMC maxroot KTimed false p pl (timed_traces set)).
  rewrite E. reflexivity.
Qed.
Print Assumptions C170_fit_parameters.

(** The model of PPLearn2 with y fixed: rates 1, x*y, 3 and 2*z with y = 2.  In the
    traces the state init is left 3 times towards a in 3 units of time, and a once
    towards a in 2 units: x = 3 / (3 * 2), z = 1 / (2 * 2). *)
Lemma exL_separate : separate ["y"%string] exL.
Proof. intros q i j Iq Hi Hj O. cbn in Iq. two Hi; two Hj; cbn in O; intuition (congruence || (subst; reflexivity)). Qed.
Definition ex_coef (q : string) (i j : nat) : R := 2.
Lemma ex_unit q : In q (free_params ["y"%string] exL) -> per_unit exL q (ex_coef q).
Proof.
  intros Iq i j Hi Hj O. assert (C : (q = "x" \/ q = "z")%string) by (cbn in Iq; intuition congruence).
  exists (fun y => if String.eqb y "y" then 2 else 1). two Hi; two Hj; destruct C as [-> | ->]; cbn in O; try (exfalso; intuition congruence).
  - split; [cbn; intros y [-> | ->]; reflexivity|cbn; unfold ex_coef; lra].
  - split; [cbn; intros y [[]| ->]; reflexivity|cbn; unfold ex_coef; lra].
Qed.
Lemma ex_values : moves_with exL "x" exT = 3 /\ exposure exL "x" (ex_coef "x") exT = 6 /\ moves_with exL "z" exT = 1 /\ exposure exL "z" (ex_coef "z") exT = 4.
Proof. unfold moves_with, exposure, ex_coef, ct_moves_seen, ct_time_seen, SObs.total, Sum, sumL. cbn. lra. Qed.
Example C170_instance : exists pl m' n ll,
  sortParameters exL ["y"%string] = Ok pl /\
  bw_loop (round_PCTMC quad KTimed false 1 pl (timed_traces exT)) (1 / 100) 50 None 0 exL = Ok (m', n, Some ll, true) /\ (n <= 3)%nat /\
  current m' "x" = Some (1 / 2) /\ current m' "y" = Some 2 /\ current m' "z" = Some (1 / 4).
Proof.
  destruct exT_ok as (A & B & C & D & E). destruct ex_values as (V1 & V2 & V3 & V4).
  assert (Ep : exists pl, sortParameters exL ["y"%string] = Ok pl) by (eexists; reflexivity). destruct Ep as [pl Ep].
  destruct (C170_fit quad 1 50 ["y"%string] pl exT exL exC (1 / 100) ex_coef) as (m' & n & ll & st & Eq & N3 & ST & _ & Vf & Vo); auto using quad_solver, exL_wf, exL_indexed, exL_valued, exL_learnable, exL_separate, exL_realises; try discriminate; try lra; try lia.
  - repeat constructor; cbn; intuition discriminate.
  - exact exT_pos.
  - intros q Iq. split; [|split; [apply ex_unit; exact Iq|]].
    + cbn in Iq. destruct Iq as [<-|[<-|[]]]; eexists; (split; [reflexivity|lra]).
    + cbn in Iq. destruct Iq as [<-|[<-|[]]]; [rewrite V2|rewrite V4]; lra.
  - exists pl, m', n, ll. rewrite ST in Eq by lia. split; [exact Ep|]. split; [exact Eq|]. split; [exact N3|].
    split; [rewrite (Vf "x"%string) by (cbn; auto); rewrite V1, V2; f_equal; lra|]. split; [rewrite (Vo "y"%string) by (cbn; intuition discriminate); reflexivity|].
    rewrite (Vf "z"%string) by (cbn; auto). rewrite V3, V4. reflexivity.
Qed.

(** C145 for parametric CTMCs: a round that changes a parameter improves the
    likelihood; C170: the values found are the only best ones. *)
From Coq Require Import String ZArith Bool Reals List Lia Lra Psatz FunctionalExtensionality.
From Verif Require Import Num Py SNum SPath LSum MSet SSet MModels MCtor MLik MBW MPctmc SPctmc LPctmc LCtor LFB LEM SBW SExp LBW LBWSet LBWMC SLik LLik LEMGen LBWMDP LBWCT LBWPath LLik2 LBWLoop LFit PLik PBWMC PBWCT PBWCTU PPctmc LMM MPLearn SPLearn LPLearn LPLearn2 LPLearn3 LPLearn4 LPLearn5 LPLearn6 PPLearn PPLearn2 SObs LObs PObs2 PObs3 SVisible PVisible LStrict.
Import ListNotations.
Local Open Scope R_scope.

(** Some transition with a positive rate mentions q, and its source is occupied for
    a positive expected time. *)
Definition exposed (m : pctmc R) (c : ctmc R) (set : list ((list string * list R) * Z)) (q : string) : Prop :=
  exists i j, (i < pc_n m)%nat /\ (j < pc_n m)%nat /\ occurs q (transition m i j) /\ 0 < rate c i j /\
    0 < set_expected (ct_density c) (ct_expected_dwell c i) set.

Lemma strict_step fixed pl (set : list ((list string * list R) * Z)) maxroot p (m m' : pctmc R) ll c c' q :
  timed_set set -> pos_times set -> solver maxroot -> pinv fixed pl m ->
  round_PCTMC maxroot KTimed false p pl (timed_traces set) m = Ok (m', ll) -> realises m c -> realises m' c' ->
  In q (free_params fixed m) -> exposed m c set q -> current m' q = current m q \/ set_ll (ct_density c) set < set_ll (ct_density c') set.
Proof.
  intros Hset HT Hsol Pm Er Rc Rc' Iq (i & j & Hi & Hj & Oq & Pr & Pd). pose proof Pm as [Hwf Hidx Hlearn Hval Hplan].
  destruct (hval_total m Hidx Hval) as [h Hh]. pose proof (hval_realises m h Hh) as Rh.
  destruct (realises_unique m c h Rc Rh) as (Ec1 & Ec2 & Ec3). pose proof (realises_density m c h Rc Rh) as Dc.
  destruct (timed_step fixed pl set maxroot p m m' ll Hset HT Hsol Pm Er) as ([Hwf' Hidx' _ Hval' _] & Sh & O & _).
  destruct (timed_round m fixed pl h set Hh Hwf Hidx Hlearn Hval Hplan Hset HT maxroot p m' ll Hsol Er) as (_ & _ & _ & z & Z).
  assert (Z' : forall q, In q (free_params fixed m) -> 0 <= z q /\ current m' q = Some (LPctmc.total (pc_val m) q * z q) /\
     (z q = 1 \/ sumL (list_prod (seq 0 (pc_n m)) (seq 0 (pc_n m))) (fun y => INR (adeg m fixed q y) * (set_expected (ct_density h) (ct_expected_dwell h (fst y)) set * mget (ct_mat h) (fst y) (snd y) * z q ^ tdeg m fixed y)) =
                 sumL (list_prod (seq 0 (pc_n m)) (seq 0 (pc_n m))) (fun y => INR (adeg m fixed q y) * set_expected (ct_density h) (ct_expected_moves h (fst y) (snd y)) set))) by (intros q' I; destruct (Z q' I) as (A & B & [[C _]|C]); auto).
  clear Z; rename Z' into Z.
  destruct (hval_total m' Hidx' Hval') as [h' Hh']. pose proof (hval_realises m' h' Hh') as Rh'. rewrite Dc, (realises_density m' c' h' Rc' Rh').
  destruct (Req_dec (z q) 1) as [E1|N1].
  { left. destruct (Z q Iq) as (_ & -> & _). rewrite E1, Rmult_1_r. destruct Hval as [Vv _]. apply free_In in Iq. destruct (Vv q (proj1 Iq)) as (v & E & _). unfold current, parameterValue in *. unfold LPctmc.total. rewrite E. reflexivity. }
  right.
  assert (En : ct_n h = pc_n m) by (apply hval_n; exact Hh).
  assert (W : wf_ctmc h) by (apply (hval_wf m); assumption).
  assert (W' : wf_ctmc h') by (apply (hval_wf m'); assumption).
  assert (NN : nonneg_mat (ct_mat h)) by (apply (hval_nonneg m); assumption).
  assert (En' : ct_n h' = ct_n h) by (rewrite (hval_n m' h' Hh'), En; apply (shape_expr m m' Sh)).
  assert (El : ct_lab h' = ct_lab h) by (destruct Rh as (-> & _), Rh' as (-> & _); apply Sh).
  assert (Ei : ct_ini h' = ct_ini h) by (destruct Rh as (_ & -> & _), Rh' as (_ & -> & _); apply Sh).
  set (N := fun y : nat * nat => set_expected (ct_density h) (ct_expected_moves h (fst y) (snd y)) set) in *.
  set (D := fun s => set_expected (ct_density h) (ct_expected_dwell h s) set) in *.
  assert (HN : forall y, inrange m y -> 0 <= N y) by (intros y [R1 R2]; rewrite <- En in R1, R2; apply (em_X_nonneg h set); assumption).
  assert (HD : forall s, (s < pc_n m)%nat -> 0 <= D s) by (intros s R1; rewrite <- En in R1; apply (em_D_nonneg h set); assumption).
  assert (HNr : forall y, inrange m y -> 0 < N y -> 0 < mget (ct_mat h) (fst y) (snd y)) by (intros y [R1 R2]; rewrite <- En in R1, R2; apply (em_X_supp h set); assumption).
  assert (G : 0 < sumL (list_prod (seq 0 (pc_n m)) (seq 0 (pc_n m))) (fun y => N y * ln (mget (ct_mat h') (fst y) (snd y) / mget (ct_mat h) (fst y) (snd y)) - D (fst y) * (mget (ct_mat h') (fst y) (snd y) - mget (ct_mat h) (fst y) (snd y)))).
  { apply (mms_gain _ (free_params fixed m) N (fun y => D (fst y)) (fun y => mget (ct_mat h) (fst y) (snd y)) (fun y => mget (ct_mat h') (fst y) (snd y)) (adeg m fixed) z) with (p := q) (t0 := (i, j)); auto.
    - intros t I. apply HN, pairs_In, I.
    - intros t I. apply HD. apply pairs_In in I. apply I.
    - intros t I. apply (g_nonneg m h Hidx Hval Hh). exact I.
    - intros t I. apply HNr, pairs_In, I.
    - intros q' Iq'. apply (Z q' Iq').
    - intros t I. apply (g_hr fixed m m' z h h' Hidx Hlearn Hval Sh O Hh Hh' N D Z). exact I.
    - intros q' Iq'. apply (g_eq fixed m m' z h N D Z). exact Iq'.
    - apply pairs_In. split; assumption.
    - rewrite adeg_free by exact Iq. apply (degree_pos q); [|exact Oq]. apply (free_mono fixed m q i j); assumption.
    - cbn [fst snd]. apply Rmult_lt_0_compat.
      + unfold D. rewrite <- Dc. replace (ct_expected_dwell h i) with (ct_expected_dwell c i); [exact Pd|].
        symmetry in Ec1, Ec2, Ec3. clear - Ec1 Ec2 Ec3. destruct c, h. cbn in *. subst. reflexivity.
      + unfold rate in Pr. rewrite Ec1 in Pr. exact Pr. }
  apply Rlt_le_trans with (set_ll (ct_density h) set + Sum (ct_n h) (fun s => Sum (ct_n h) (fun s' => N (s, s') * ln (rate h' s s' / rate h s s') - D s * (rate h' s s' - rate h s s')))).
  { rewrite sumL_prod in G. rewrite En.
    match goal with |- ?x < ?x + ?g => assert (0 < g); [|lra] end. exact G. }
  apply (ct_em_gain h h' set); auto.
  - rewrite <- En'. apply W'.
  - apply (hval_nonneg m'); assumption.
  - intros s s' R1 R2 E. rewrite En in R1, R2. apply (gain_zero fixed m m' z h h' Hidx Hlearn Hval Sh O Hh Hh' N D) with (y := (s, s')); auto. split; assumption.
  - intros s s' R1 R2 E. rewrite En in R1, R2. apply (gain_supp fixed m m' z h h' Hidx Hlearn Hval Sh O Hh Hh' N D HN HNr Z) with (y := (s, s')); auto. split; assumption.
Qed.

(** One round on timed traces: either no parameter that the traces say something
    about changes, or the likelihood strictly increases. *)
Theorem C145_pctmc_timed_strict : forall (maxroot : list R -> res R) (p : nat) (fixed : list string) (pl : plan R) set (m m' : pctmc R) (ll : R) (c c' : ctmc R),
  solver maxroot -> timed_set set -> pos_times set -> wf_pctmc m -> indexed m -> learnable fixed m -> valued m -> sortParameters m fixed = Ok pl ->
  round_PCTMC maxroot KTimed false p pl (timed_traces set) m = Ok (m', ll) -> realises m c -> realises m' c' ->
  (forall q, In q (free_params fixed m) -> exposed m c set q -> current m' q = current m q) \/ set_ll (ct_density c) set < set_ll (ct_density c') set.
Proof.
  intros maxroot p fixed pl set m m' ll c c' Hs Hset HT W I L V Ep Er Rc Rc'.
  pose proof (mkPinv fixed pl m W I L V (sort_plan fixed m pl I L V Ep)) as Pm.
  destruct (Rlt_dec (set_ll (ct_density c) set) (set_ll (ct_density c') set)) as [Q|Q]; [right; exact Q|left].
  intros q Iq Xq. destruct (strict_step fixed pl set maxroot p m m' ll c c' q) as [E|E]; auto. contradiction.
Qed.
Print Assumptions C145_pctmc_timed_strict.

Lemma Sum_nonzero n f : Sum n f <> 0 -> exists i, (i < n)%nat /\ f i <> 0.
Proof.
  induction n as [|n IH]; [intros H; exfalso; apply H; reflexivity|]. intros H. destruct (Req_dec (f n) 0) as [Z|N]; [|exists n; split; [lia|exact N]].
  destruct IH as (i & Hi & Ni); [|exists i; split; [lia|exact Ni]]. intros Q. apply H. rewrite Sum_S, Q, Z. ring.
Qed.
Lemma visible_exposed fixed set (m : pctmc R) (c : ctmc R) q coef : timed_set set -> pos_times set ->
  wf_pctmc m -> indexed m -> learnable fixed m -> valued m -> NoDup (pc_lab m) -> separate fixed m -> realises m c -> (forall tr t, In (tr, t) set -> 0 < ct_density c tr) ->
  In q (free_params fixed m) -> (exists v, current m q = Some v /\ 0 < v) -> per_unit m q coef -> exposure m q coef set <> 0 -> exposed m c set q.
Proof.
  intros Hset HT W I L V ND Sp Rc HP Iq (v & Ev & Pv) U X. unfold exposure in X. apply Sum_nonzero in X as (i & Hi & X). apply Sum_nonzero in X as (j & Hj & X).
  assert (D0 : degree q (transition m i j) <> 0%nat) by (intros Z; apply X; rewrite Z; cbn; ring). pose proof (degree_zero q _ D0) as Oq.
  assert (T0 : ct_time_seen (nth i (pc_lab m) EmptyString) set <> 0) by (intros Z; apply X; rewrite Z; ring).
  assert (C0 : coef i j <> 0) by (intros Z; apply X; rewrite Z; ring).
  exists i, j. split; [exact Hi|]. split; [exact Hj|]. split; [exact Oq|].
  destruct (hval_total m I V) as [h Hh]. destruct (realises_same m c h Rc (hval_realises m h Hh)) as [nm ->].
  pose proof (hval_wf m h W Hh) as Wh. pose proof (hval_nonneg m h V Hh) as Nh. destruct (hval_realises m h Hh) as (El & _ & En & _ & Rr).
  assert (Cn : set_expected (ct_density h) (ct_expected_dwell h i) set = ct_time_seen (nth i (pc_lab m) EmptyString) set).
  { rewrite <- El. apply (seen_counts h set Wh) with (j := j); rewrite ?El, ?En; auto. }
  change (0 < rate h i j /\ 0 < set_expected (ct_density h) (ct_expected_dwell h i) set). split.
  - assert (Rn : 0 <= rate h i j) by (apply mget_nonneg; exact Nh). assert (Rv : rate h i j = coef i j * v).
    { apply (unit_rate fixed m m q coef i j (rate h i j) v); auto using same_shape_refl. apply Rr; assumption. }
    assert (Rz : coef i j * v <> 0) by (intros Z; apply Rmult_integral in Z; destruct Z; lra). lra.
  - assert (Dn : 0 <= set_expected (ct_density h) (ct_expected_dwell h i) set) by (apply (em_D_nonneg h set); auto; rewrite En; exact Hi). rewrite Cn in *. lra.
Qed.

(** The values found are the only best ones: other positive values of the parameters
    to estimate make the traces strictly less likely. *)
Theorem C170_unique : forall (fixed : list string) (pl : plan R) set (m mo : pctmc R) (c co : ctmc R) (coef : string -> nat -> nat -> R),
  timed_set set -> pos_times set -> set <> [] -> (forall tr t, In (tr, t) set -> (2 <= length (fst tr))%nat) ->
  wf_pctmc m -> indexed m -> learnable fixed m -> valued m -> sortParameters m fixed = Ok pl ->
  NoDup (pc_lab m) -> separate fixed m -> realises m c -> (forall tr t, In (tr, t) set -> 0 < ct_density c tr) ->
  (forall q, In q (free_params fixed m) -> (exists v, current m q = Some v /\ 0 < v) /\ per_unit m q (coef q) /\ exposure m q (coef q) set <> 0) ->
  same_shape m mo -> realises mo co -> (forall q, ~ In q (free_params fixed m) -> current mo q = current m q) ->
  (forall q, In q (free_params fixed m) -> current mo q = Some (moves_with m q set / exposure m q (coef q) set)) ->
  (forall q, current m q = current mo q) \/ set_ll (ct_density c) set < set_ll (ct_density co) set.
Proof.
  intros fixed pl set m mo c co coef Hset HT NE Hlen W I L V Ep ND Sp Rc HP HQ So Ro Fo Vo.
  pose proof (mkPinv fixed pl m W I L V (sort_plan fixed m pl I L V Ep)) as Pm.
  assert (C3 : pl_cat3 pl = []) by (apply (uniform_cat3 fixed m); auto using sep_uniform).
  set (maxroot := fun _ : list R => @Err R ValueError). assert (Hs : solver maxroot) by (intros t x E; discriminate).
  destruct (hval_total m I V) as [h Hh]. pose proof (hval_realises m h Hh) as Rh. pose proof (realises_density m c h Rc Rh) as Dh.
  assert (HPh : forall tr t, In (tr, t) set -> 0 < ct_density h tr) by (rewrite <- Dh; exact HP).
  destruct (timed_round_ok m fixed pl h set Hh W I L V (sort_plan fixed m pl I L V Ep) Hset maxroot 1 C3 Hlen) as (x & l & Ex).
  { destruct set as [|[tr t] r]; [congruence|]. exists tr, t. split; [left; reflexivity|]. apply (HPh tr t). left. reflexivity. }
  { right. exact HPh. }
  destruct (timed_step fixed pl set maxroot 1 m x l Hset HT Hs Pm Ex) as (Ix & Sx & Fx & hx & hx' & Hx & Hx' & El & _).
  assert (Vx : forall q, In q (free_params fixed m) -> current x q = current mo q).
  { intros q Iq. rewrite Vo by exact Iq. destruct (HQ q Iq) as ((v & Ev & Pv) & U & X). apply (C170_closed_form maxroot 1 fixed pl set m 0 m x l h q (coef q) v); auto. apply ar_start. }
  assert (Rx : realises x co).
  { apply (same_values mo x co); auto.
    - destruct So as (a1 & a2 & a3 & a4 & a5 & a6 & a7), Sx as (b1 & b2 & b3 & b4 & b5 & b6 & b7). repeat split; congruence.
    - intros i j q _ _ _. destruct (in_dec string_dec q (free_params fixed m)) as [Iq|Nq]; [apply Vx; exact Iq|rewrite Fo, Fx by exact Nq; reflexivity]. }
  destruct (C145_pctmc_timed_strict maxroot 1 fixed pl set m x l c co Hs Hset HT W I L V Ep Ex Rc Rx) as [Q|Q]; [left|right; exact Q].
  intros q. destruct (in_dec string_dec q (free_params fixed m)) as [Iq|Nq]; [|symmetry; apply Fo; exact Nq].
  rewrite <- (Vx q Iq). symmetry. apply Q; [exact Iq|]. destruct (HQ q Iq) as (Pv & U & X). apply (visible_exposed fixed set m c q (coef q)); auto.
Qed.
Print Assumptions C170_unique.

(** With y fixed in the example of PVisible, the initial values are not the best. *)
Example C170_unique_instance : forall mo co, same_shape exL mo -> realises mo co ->
  current mo "x" = Some (1 / 2) -> current mo "y" = Some 2 -> current mo "z" = Some (1 / 4) -> (forall q, ~ In q ["x"; "y"; "z"]%string -> current mo q = current exL q) ->
  set_ll (ct_density exC) exT < set_ll (ct_density co) exT.
Proof.
  intros mo co So Ro Cx Cy Cz Cq. destruct exT_ok as (A & B & C & D & E). destruct ex_values as (V1 & V2 & V3 & V4).
  assert (Ep : exists pl, sortParameters exL ["y"%string] = Ok pl) by (eexists; reflexivity). destruct Ep as [pl Ep].
  destruct (C170_unique ["y"%string] pl exT exL mo exC co ex_coef) as [Q|Q]; auto using exL_wf, exL_indexed, exL_valued, exL_learnable, exL_separate, exL_realises; try discriminate.
  - repeat constructor; cbn; intuition discriminate.
  - exact exT_pos.
  - intros q Iq. split; [|split; [apply ex_unit; exact Iq|]].
    + cbn in Iq. destruct Iq as [<-|[<-|[]]]; eexists; (split; [reflexivity|lra]).
    + cbn in Iq. destruct Iq as [<-|[<-|[]]]; [rewrite V2|rewrite V4]; lra.
  - intros q Nq. destruct (string_dec q "y") as [->|Ny]; [rewrite Cy; reflexivity|]. apply Cq. intros [<-|[<-|[<-|[]]]]; [apply Nq; cbn; auto|congruence|apply Nq; cbn; auto].
  - intros q Iq. cbn in Iq. destruct Iq as [<-|[<-|[]]]; [rewrite Cx, V1, V2|rewrite Cz, V3, V4]; f_equal; lra.
  - exfalso. specialize (Q "x"%string). rewrite Cx in Q. cbn in Q. injection Q as Q. lra.
Qed.

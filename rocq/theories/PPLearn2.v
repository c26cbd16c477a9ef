(** Learning the parameters of parametric CTMCs: success, instances, and what goes
    wrong (C110). *)
From Coq Require Import String ZArith Bool Reals List Lia Lra Psatz FunctionalExtensionality.
From Verif Require Import Num Py SNum SPath LSum MSet MModels MCtor MLik MBW MPctmc SPctmc LPctmc LCtor LFB LEM SBW SExp LBW LBWSet LBWMC SLik LLik LEMGen LBWMDP LBWCT LBWPath LLik2 LBWLoop PLik PBWMC PBWCT PBWCTU PPctmc LMM MPLearn SPLearn LPLearn LPLearn2 LPLearn3 LPLearn4 LPLearn5 LPLearn6 PPLearn.
Import ListNotations.
Local Open Scope R_scope.

(** ** No equation to solve *)
Lemma uniform_cat3 fixed (m : pctmc R) pl : indexed m -> learnable fixed m -> uniform fixed m -> sortParameters m fixed = Ok pl -> pl_cat3 pl = [].
Proof.
  intros Hi Hl U E. unfold sortParameters in E. destruct (sort_a m fixed) as [a|] eqn:Ea; [|discriminate]. cbn [bind] in E.
  rewrite (free_eq m fixed) in E. destruct (mmap _ (free_params fixed m)) as [cats|] eqn:Ec; [|discriminate]. cbn [bind] in E.
  destruct (mmap _ (map fst (filter (is_cat Cat1) cats))) as [cs|] eqn:Es; [|discriminate]. cbn [bind] in E. injection E as <-. cbn [pl_cat3].
  destruct (map fst (filter (is_cat Cat3) cats)) as [|q l] eqn:Eq; [reflexivity|]. exfalso.
  assert (I : In (q, Cat3) cats) by (apply cat_filter; rewrite Eq; left; reflexivity).
  pose proof (mmap_forall2 _ _ _ Ec) as F. destruct (Forall2_In_r _ _ _ _ F I) as (p & Ip & Ep). destruct (category_of m a p) as [c'|] eqn:Q; [|discriminate]. injection Ep as -> ->.
  destruct (places_spec m Hi q) as [_ S]; [apply (free_In m fixed); exact Ip|].
  assert (HM : mmap (C_of m a) (places m q) = Ok (map (tdeg m fixed) (places m q))).
  { apply (LBW.mmap_ok (C_of m a)). intros x J. apply (C_of_spec m fixed Hi Hl a Ea). apply S. exact J. }
  unfold category_of in Q. rewrite HM in Q. cbn [bind] in Q. destruct (map (tdeg m fixed) (places m q)) as [|c0 cl] eqn:El; [discriminate|].
  destruct (_ && _) in Q; [discriminate|]. destruct (all_eq c0 (c0 :: cl)) eqn:B; [discriminate|].
  assert (all_eq c0 (c0 :: cl) = true); [|congruence]. unfold all_eq. apply forallb_forall. intros k Ik. apply Nat.eqb_eq. rewrite <- El in Ik. apply in_map_iff in Ik. destruct Ik as (y & <- & Iy).
  destruct (places m q) as [|x r] eqn:Epl; [discriminate|]. cbn [map] in El. injection El as <- _. rewrite !tdeg_total.
  destruct (proj1 (S x) (or_introl eq_refl)) as [[X1 X2] X3]. destruct (proj1 (S y) Iy) as [[Y1 Y2] Y3]. destruct x as [i j], y as [i' j']. apply (U q i j i' j'); assumption.
Qed.

(** ** C110: it returns *)
Theorem C110_fit_parameters_timed_returns : forall ob p (maxroot : list R -> res R) (l : list ((list string * list R) * Z)) (m m0 : pctmc R) (to_update : list string) (eps : R) rnd (c : ctmc R) pl (N : nat),
  ob_verbose ob = true -> ob_processes ob = Some p -> (forall q, In q to_update -> In q (pc_par m)) ->
  solver maxroot -> timed_set l -> pos_dwell l -> pos_times l -> (forall tr t, In (tr, t) l -> (2 <= length (fst tr))%nat) -> In "init"%string (alphabet_of (Timed l)) -> 0 < eps ->
  rnd (prune (alphabet_of (Timed l)) m) = Some m0 -> wf_pctmc m0 -> indexed m0 -> learnable (others m to_update) m0 -> uniform (others m to_update) m0 -> valued m0 -> rsum (pc_ini m0) <= 1 ->
  sortParameters m0 (others m to_update) = Ok pl -> realises m0 c ->
  (exists tr t, In (tr, t) l /\ 0 < ct_density c tr) -> ((1 < p)%nat \/ forall tr t, In (tr, t) l -> 0 < ct_density c tr) ->
  set_bound l - set_ll (ct_density c) l < INR N * eps ->
  exists result m', forall max_it, (S N <= max_it)%nat -> fit_parameters ob maxroot (Timed l) m to_update eps max_it rnd = Some (Ok result, m').
Proof.
  intros ob p maxroot l m m0 tu eps rnd c pl N Hv Hpr Htu Hs Hset Hd HT Hlen Hi He Er W I L U V Hini Ep Rc Hex Hp HN.
  destruct (hval_total m0 I V) as [h Hh]. destruct (realises_same m0 c h Rc (hval_realises m0 h Hh)) as [nm ->].
  assert (C3 : pl_cat3 pl = []) by (apply (uniform_cat3 (others m tu) m0); assumption).
  assert (Pv : pinv (others m tu) pl m0) by (constructor; auto; apply sort_plan; assumption).
  set (Q := fun x : pctmc R => pinv (others m tu) pl x /\ pc_ini x = pc_ini m0 /\ forall hx, hval x = Ok hx ->
              (exists tr t, In (tr, t) l /\ 0 < ct_density hx tr) /\ ((1 < p)%nat \/ forall tr t, In (tr, t) l -> 0 < ct_density hx tr)).
  destruct (bw_terminates_ub (fun x => round_PCTMC maxroot KTimed false p pl (timed_traces l) x) eps Q (pll l) (set_bound l) He) with (N := N) (m := m0) as (m' & c' & ll & E & _).
  - intros x (Px & Ei & Hx). destruct (hval_total x (pv_idx _ _ _ Px) (pv_val _ _ _ Px)) as [hx Ehx]. destruct (Hx hx Ehx) as [Ex1 Hp1]. split.
    + unfold pll. rewrite Ehx. apply set_ll_bound; auto; [split; [apply (hval_wf x); auto; apply Px|apply (hval_nonneg x); auto; apply Px]|].
      destruct (hval_realises x hx Ehx) as (_ & -> & _). rewrite Ei. exact Hini.
    + pose proof Px as [W1 I1 L1 V1 P1]. destruct (timed_round_ok x (others m tu) pl hx l Ehx W1 I1 L1 V1 P1 Hset maxroot p C3 Hlen Ex1 Hp1) as (x' & ll & Ex).
      destruct (timed_step _ pl l maxroot p x x' ll Hset HT Hs Px Ex) as (Px' & Sx & _ & hy & hx' & Hy & Hx' & -> & _ & Ps).
      assert (hy = hx) by congruence. subst hy. exists x'. unfold pll. rewrite Ehx. split; [exact Ex|]. split; [exact Px'|].
      split; [destruct Sx as (_ & _ & _ & _ & _ & -> & _); exact Ei|]. intros hz Hz. assert (hz = hx') by congruence. subst hz. split.
      * destruct Ex1 as (tr & t & It & Pt). exists tr, t. split; [exact It|]. apply (Ps tr t It). exact Pt.
      * destruct Hp1 as [Hp1|Hp1]; [left; exact Hp1|right]. intros tr t It. apply (Ps tr t It). exact (Hp1 tr t It).
  - split; [exact Pv|]. split; [reflexivity|]. intros hx Hx. assert (hx = h) by congruence. subst hx. split; assumption.
  - unfold pll. rewrite Hh. exact HN.
  - exists (map (fun q => (q, parameterValue m' q)) tu), m'. intros mx Hm. unfold fit_parameters.
    replace (forallb (fun p0 => memb String.eqb p0 (pc_par m)) tu) with true by (symmetry; apply forallb_forall; intros q Iq; apply (memb_In _ String.eqb_eq); auto).
    cbn [negb]. rewrite Er. fold (others m tu). rewrite Ep. unfold bw_PCTMC. cbn [ob_verbose ob_processes ob_kind]. rewrite Hv, Hpr. cbn [negb]. rewrite training_timed by exact Hi.
    replace mx with (S N + (mx - S N))%nat by lia. rewrite (bw_loop_more _ _ _ _ _ _ _ _ _ _ E). reflexivity.
Qed.
Print Assumptions C110_fit_parameters_timed_returns.

Theorem C110_fit_parameters_untimed_returns : forall ob p (maxroot : list R -> res R) (l : list (list string * Z)) (m m0 : pctmc R) (to_update : list string) (eps : R) rnd (c : ctmc R) pl (N : nat),
  ob_verbose ob = true -> ob_processes ob = Some p -> ob_kind ob = KGeneric -> (forall q, In q to_update -> In q (pc_par m)) ->
  solver maxroot -> pos_times l -> (forall tr t, In (tr, t) l -> (2 <= length tr)%nat) -> In "init"%string (alphabet_of (K := R) (Untimed l)) -> 0 < eps ->
  rnd (prune (alphabet_of (K := R) (Untimed l)) m) = Some m0 -> wf_pctmc m0 -> indexed m0 -> learnable (others m to_update) m0 -> uniform (others m to_update) m0 -> valued m0 ->
  anchored (others m to_update) m0 -> rsum (pc_ini m0) <= 1 ->
  sortParameters m0 (others m to_update) = Ok pl -> realises m0 c ->
  (exists tr t, In (tr, t) l /\ 0 < mc_trace_prob_move (jump_chain c) tr) -> ((1 < p)%nat \/ forall tr t, In (tr, t) l -> 0 < mc_trace_prob_move (jump_chain c) tr) ->
  - set_ll (mc_trace_prob_move (jump_chain c)) l < INR N * eps ->
  exists result m', forall max_it, (S N <= max_it)%nat -> fit_parameters ob maxroot (Untimed l) m to_update eps max_it rnd = Some (Ok result, m').
Proof.
  intros ob p maxroot l m m0 tu eps rnd c pl N Hv Hpr Hk Htu Hs HT Hlen Hi He Er W I L U V An Hini Ep Rc Hex Hp HN.
  destruct (hval_total m0 I V) as [h Hh]. destruct (realises_same m0 c h Rc (hval_realises m0 h Hh)) as [nm ->].
  assert (C3 : pl_cat3 pl = []) by (apply (uniform_cat3 (others m tu) m0); assumption).
  assert (Pv : pinv (others m tu) pl m0) by (constructor; auto; apply sort_plan; assumption).
  set (L0 := fun x : pctmc R => match hval x with Ok h => set_ll (mc_trace_prob_move (jump_chain h)) l | Err _ => 0 end).
  set (Q := fun x : pctmc R => pinv (others m tu) pl x /\ pc_ini x = pc_ini m0 /\ (exists k, after_rounds (round_PCTMC maxroot KGeneric false p pl (untimed_traces l)) k m0 x) /\ forall hx, hval x = Ok hx ->
              (exists tr t, In (tr, t) l /\ 0 < mc_trace_prob_move (jump_chain hx) tr) /\ ((1 < p)%nat \/ forall tr t, In (tr, t) l -> 0 < mc_trace_prob_move (jump_chain hx) tr)).
  destruct (bw_terminates (fun x => round_PCTMC maxroot KGeneric false p pl (untimed_traces l) x) eps Q L0 He) with (N := N) (m := m0) as (m' & c' & ll & E & _).
  - intros x (Px & Ei & (k & Ak) & Hx). destruct (hval_total x (pv_idx _ _ _ Px) (pv_val _ _ _ Px)) as [hx Ehx]. destruct (Hx hx Ehx) as [Ex1 Hp1].
    destruct (untimed_rounds _ pl l maxroot p m0 x k HT Hs Pv An Ak) as (_ & _ & _ & Lv). split.
    + unfold L0. rewrite Ehx. assert (Wx : wf_ctmc hx) by (apply (hval_wf x); auto; apply Px). assert (Nx : nonneg_mat (ct_mat hx)) by (apply (hval_nonneg x); auto; apply Px).
      apply set_ll_nonpos; [|exact HT]. intros tr t _. apply mc_move_le1; [apply jc_wf; exact Wx| |].
      * split; [apply jc_nonneg; exact Nx|]. intros r Ir. rewrite (jc_rows hx Wx (Lv hx Ehx) r Ir). lra.
      * destruct (hval_realises x hx Ehx) as (_ & Eh & _). cbn [jump_chain mc_ini]. rewrite Eh, Ei. exact Hini.
    + pose proof Px as [W1 I1 L1 V1 P1]. destruct (untimed_round_ok x (others m tu) pl hx l Ehx W1 I1 L1 V1 P1 maxroot p C3 Hlen Ex1 Hp1) as (x' & ll & Ex).
      destruct (untimed_step _ pl l maxroot p x x' ll HT Hs Px Lv Ex) as (Px' & Sx & _ & hy & hx' & Hy & Hx' & -> & _ & Ps).
      assert (hy = hx) by congruence. subst hy. exists x'. unfold L0. rewrite Ehx. split; [exact Ex|]. split; [exact Px'|].
      split; [destruct Sx as (_ & _ & _ & _ & _ & -> & _); exact Ei|]. split; [exists (S k); eapply ar_round; eauto|]. intros hz Hz. assert (hz = hx') by congruence. subst hz. split.
      * destruct Ex1 as (tr & t & It & Pt). exists tr, t. split; [exact It|]. apply (Ps tr t It). exact Pt.
      * destruct Hp1 as [Hp1|Hp1]; [left; exact Hp1|right]. intros tr t It. apply (Ps tr t It). exact (Hp1 tr t It).
  - split; [exact Pv|]. split; [reflexivity|]. split; [exists 0%nat; apply ar_start|]. intros hx Hx. assert (hx = h) by congruence. subst hx. split; assumption.
  - unfold L0. rewrite Hh. exact HN.
  - exists (map (fun q => (q, parameterValue m' q)) tu), m'. intros mx Hm. unfold fit_parameters.
    replace (forallb (fun p0 => memb String.eqb p0 (pc_par m)) tu) with true by (symmetry; apply forallb_forall; intros q Iq; apply (memb_In _ String.eqb_eq); auto).
    cbn [negb]. rewrite Er. fold (others m tu). rewrite Ep. unfold bw_PCTMC. cbn [ob_verbose ob_processes ob_kind]. rewrite Hv, Hpr, Hk. cbn [negb]. rewrite training_untimed by exact Hi.
    replace mx with (S N + (mx - S N))%nat by lia. rewrite (bw_loop_more _ _ _ _ _ _ _ _ _ _ E). reflexivity.
Qed.
Print Assumptions C110_fit_parameters_untimed_returns.

(** ** An instance of all the hypotheses above (C107-C110): rates 1, x*y, 3 and
    2*z; x and y are estimated together, z alone. *)
Definition exL : pctmc R := mkPC [[1; 2]; [3; 4]]%nat ["init"; "a"]%string [EConst 0; EConst 1; EMul (EVar "x") (EVar "y"); EConst 3; EMul (EConst 2) (EVar "z")]
  [("x", 1); ("y", 2); ("z", 1)]%string [[(0, 1)]; [(0, 1)]; [(1, 1)]]%Z ["x"; "y"; "z"]%string [1; 0] "ex".
Definition exC : ctmc R := mkCTMC [[1; 2]; [3; 2]] ["init"; "a"]%string [1; 0] "ex".
Definition exT : list ((list string * list R) * Z) := [((["init"; "a"], [1]), 2%Z); ((["init"; "a"; "a"], [1; 2]), 1%Z)]%string.
Definition exU : list (list string * Z) := [(["init"; "a"], 2%Z); (["init"; "a"; "a"], 1%Z)]%string.
Lemma lt2 i : (i < 2)%nat -> i = 0%nat \/ i = 1%nat. Proof. lia. Qed.
Lemma lt2Z i : (0 <= i < 2)%Z -> i = 0%Z \/ i = 1%Z. Proof. lia. Qed.
Lemma exL_wf : wf_pctmc exL.
Proof.
  split; [|split; [reflexivity|split; [reflexivity|split; [reflexivity|]]]].
  - intros r [<-|[<-|[]]]; (split; [reflexivity|]); intros k [<-|[<-|[]]]; cbn; lia.
  - intros x [<-|[<-|[]]]; lra.
Qed.
Ltac two H := apply lt2 in H; destruct H as [-> | ->].
Lemma exL_indexed : indexed exL.
Proof.
  split; [|split].
  - repeat constructor; cbn; intuition discriminate.
  - intros i j x Hi Hj. two Hi; two Hj; cbn; intuition congruence.
  - intros p Ip. assert (C : (p = "x" \/ p = "y" \/ p = "z")%string) by (cbn in Ip; intuition congruence). destruct C as [-> |[-> | ->]]; (split; [repeat constructor; cbn; tauto|]); intros i j; cbn [parameterIndexes exL]; split.
    1,3,5: intros [[= <- <-]|[]]; (split; [cbn; lia|]); (split; [cbn; lia|]); change (Z.to_nat 1) with 1%nat; change (Z.to_nat 0) with 0%nat; cbn; auto.
    all: intros (Hi & Hj & O); apply lt2Z in Hi; apply lt2Z in Hj; destruct Hi as [-> | ->], Hj as [-> | ->]; change (Z.to_nat 1) with 1%nat in O; change (Z.to_nat 0) with 0%nat in O; cbn in O; intuition (congruence || (left; reflexivity)).
Qed.
Lemma exL_learnable fixed : learnable fixed exL.
Proof. intros i j Hi Hj. left. two Hi; two Hj; cbn; intuition congruence. Qed.
Lemma exL_uniform : uniform [] exL.
Proof. intros q i j i' j' Iq Hi Hj Hi' Hj' O O'. cbn in Iq. two Hi; two Hj; two Hi'; two Hj'; cbn in O, O'; intuition (congruence || (subst; reflexivity || discriminate)). Qed.
Lemma exL_realises : realises exL exC.
Proof.
  split; [reflexivity|]. split; [reflexivity|]. split; [reflexivity|]. split; [intros r [<-|[<-|[]]]; reflexivity|].
  intros i j Hi Hj. exists (fun x => if String.eqb x "y" then 2 else 1).
  two Hi; two Hj; (split; [intros x; cbn; intros O; repeat (destruct O as [O|O]); try subst x; try tauto; reflexivity|]); unfold matR; cbn; lra.
Qed.
Lemma exL_valued : valued exL.
Proof.
  split.
  - intros p Ip. cbn in Ip. destruct Ip as [<-|[<-|[<-|[]]]]; eexists; (split; [reflexivity|lra]).
  - intros i j v Hi Hj Hr. destruct exL_realises as (_ & _ & _ & _ & R). specialize (R i j Hi Hj). rewrite (has_value_fun _ _ _ _ Hr R). two Hi; two Hj; unfold matR; cbn; lra.
Qed.
Lemma exL_anchored fixed : anchored fixed exL.
Proof.
  intros i Hi. exists 0%nat. two Hi; [exists 1|exists 3]; (split; [cbn; lia|]); (split; [exists (fun _ => 0); split; [intros x []|reflexivity]|]); (split; [lra|intros x []]).
Qed.
Lemma exL_sort : exists pl, sortParameters exL [] = Ok pl /\ pl_cat1 pl = ["z"%string] /\ pl_cat2 pl = ["x"; "y"]%string.
Proof. eexists. split; [reflexivity|]. split; reflexivity. Qed.
Lemma exT_pos tr t : In (tr, t) exT -> 0 < ct_density exC tr.
Proof.
  intros [E|[E|[]]]; injection E as <- <-; unfold ct_density, trace_prob, sumL, jump_density, is_label; cbn;
    repeat match goal with |- context [exp ?e] => lazymatch goal with H : 0 < exp e |- _ => fail | _ => pose proof (exp_pos e) end end; generalize dependent exp; intros ex; intros; try nra.
  all: repeat match goal with |- context [ex ?e] => let k := fresh in remember (ex e) as k end; nra.
Qed.
Lemma exU_pos tr t : In (tr, t) exU -> 0 < mc_trace_prob_move (jump_chain exC) tr.
Proof.
  intros [E|[E|[]]]; injection E as <- <-; unfold mc_trace_prob_move, trace_prob, sumL, is_label, jump_chain, jump, exit_rate, matR; cbn; lra.
Qed.
(** A root finder for the equations of degree at most two, as numpy's. *)
Definition quad (t : list R) : res R :=
  match t with
  | [a; b] => if Req_EM_T b 0 then Err ValueError else Ok (- a / b)
  | [a; b; c] => if Req_EM_T c 0 then if Req_EM_T b 0 then Err ValueError else Ok (- a / b) else Ok ((- b + sqrt (b * b - 4 * a * c)) / (2 * c))
  | _ => Err ValueError
  end.
Lemma quad_solver : solver quad.
Proof.
  intros t x E A B. destruct t as [|a [|b [|c [|]]]]; try discriminate; cbn [quad] in E; cbn [nth] in A; pose proof (B 0%nat) as B0; pose proof (B 1%nat) as B1; cbn [nth] in B0, B1; unfold poly; cbn [fold_right].
  - destruct (Req_EM_T b 0); [discriminate|]. injection E as <-. split; [apply Rmult_le_pos; [lra|apply Rlt_le, Rinv_0_lt_compat; lra]|field; assumption].
  - destruct (Req_EM_T c 0) as [->|NC].
    + destruct (Req_EM_T b 0); [discriminate|]. injection E as <-. split; [apply Rmult_le_pos; [lra|apply Rlt_le, Rinv_0_lt_compat; lra]|field; assumption].
    + injection E as <-. assert (D0 : b * b <= b * b - 4 * a * c) by nra. assert (S2 : sqrt (b * b - 4 * a * c) * sqrt (b * b - 4 * a * c) = b * b - 4 * a * c) by (apply sqrt_sqrt; nra).
      assert (b <= sqrt (b * b - 4 * a * c)) by (rewrite <- (sqrt_square b B0) at 1; apply sqrt_le_1; nra).
      revert S2 H. generalize (sqrt (b * b - 4 * a * c)). intros s S2 Hs. split; [apply Rmult_le_pos; [lra|apply Rlt_le, Rinv_0_lt_compat; lra]|].
      replace (a + (- b + s) / (2 * c) * (b + (- b + s) / (2 * c) * (c + (- b + s) / (2 * c) * 0))) with ((4 * a * c - b * b + s * s) / (4 * c)) by (field; lra). rewrite S2. field. exact NC.
Qed.

Definition exO : bwobj := mkBW true (Some 1%nat) KGeneric.
Lemma exT_ok : timed_set exT /\ pos_dwell exT /\ pos_times exT /\ (forall tr t, In (tr, t) exT -> (2 <= length (fst tr))%nat) /\ In "init"%string (alphabet_of (Timed exT)).
Proof.
  split; [|split; [|split; [|split]]].
  - intros tr t [E|[E|[]]]; injection E as <- <-; (split; [reflexivity|]); cbn; intros d; intuition lra.
  - intros tr t [E|[E|[]]]; injection E as <- <-; cbn; intros d; intuition lra.
  - intros x [<-|[<-|[]]]; cbn; lia.
  - intros tr t [E|[E|[]]]; injection E as <- <-; cbn; lia.
  - left. reflexivity.
Qed.
Lemma exU_ok : pos_times exU /\ (forall tr t, In (tr, t) exU -> (2 <= length tr)%nat) /\ In "init"%string (alphabet_of (K := R) (Untimed exU)).
Proof.
  split; [|split].
  - intros x [<-|[<-|[]]]; cbn; lia.
  - intros tr t [E|[E|[]]]; injection E as <- <-; cbn; lia.
  - left. reflexivity.
Qed.
Lemma exL_others : others exL ["x"; "y"; "z"]%string = []. Proof. reflexivity. Qed.
Lemma enough x : exists N, x < INR N * 1.
Proof.
  exists (Z.to_nat (up x)). rewrite Rmult_1_r. destruct (archimed x) as [H _]. apply Rlt_le_trans with (1 := H). rewrite INR_IZR_INZ. apply IZR_le. lia.
Qed.
Example C107_C108_timed_instance : exists pl m' ll,
  solver quad /\ timed_set exT /\ pos_times exT /\ wf_pctmc exL /\ indexed exL /\ learnable [] exL /\ valued exL /\ sortParameters exL [] = Ok pl /\
  after_rounds (round_PCTMC quad KTimed false 1 pl (timed_traces exT)) 0 exL exL /\ round_PCTMC quad KTimed false 1 pl (timed_traces exT) exL = Ok (m', ll) /\ realises exL exC.
Proof.
  destruct exT_ok as (A & B & C & D & E). destruct exL_sort as (pl & Ep & _).
  destruct (hval_total exL exL_indexed exL_valued) as [h Hh]. destruct (realises_same exL exC h exL_realises (hval_realises exL h Hh)) as [nm Ec].
  assert (Pos : forall tr t, In (tr, t) exT -> 0 < ct_density h tr) by (intros tr t I; pose proof (exT_pos tr t I) as P; rewrite Ec in P; exact P).
  destruct (timed_round_ok exL [] pl h exT Hh exL_wf exL_indexed (exL_learnable []) exL_valued (sort_plan _ _ _ exL_indexed (exL_learnable []) exL_valued Ep) A quad 1) as (m' & ll & Er).
  - apply (uniform_cat3 [] exL); auto using exL_indexed, (exL_learnable []), exL_uniform.
  - exact D.
  - exists (["init"; "a"], [1])%string, 2%Z. split; [left; reflexivity|]. apply (Pos _ 2%Z). left. reflexivity.
  - right. exact Pos.
  - exists pl, m', ll. repeat lazymatch goal with |- _ /\ _ => split; [solve [auto using quad_solver, exL_wf, exL_indexed, exL_valued, (exL_learnable []), exL_realises, ar_start]|] end. exact exL_realises.
Qed.
Example C107_C108_untimed_instance : exists pl m' ll,
  solver quad /\ pos_times exU /\ wf_pctmc exL /\ indexed exL /\ learnable [] exL /\ valued exL /\ anchored [] exL /\ sortParameters exL [] = Ok pl /\
  after_rounds (round_PCTMC quad KGeneric false 1 pl (untimed_traces exU)) 0 exL exL /\ round_PCTMC quad KGeneric false 1 pl (untimed_traces exU) exL = Ok (m', ll) /\ realises exL exC.
Proof.
  destruct exU_ok as (C & D & E). destruct exL_sort as (pl & Ep & _).
  destruct (hval_total exL exL_indexed exL_valued) as [h Hh]. destruct (realises_same exL exC h exL_realises (hval_realises exL h Hh)) as [nm Ec].
  assert (Pos : forall tr t, In (tr, t) exU -> 0 < mc_trace_prob_move (jump_chain h) tr) by (intros tr t I; pose proof (exU_pos tr t I) as P; rewrite Ec in P; exact P).
  destruct (untimed_round_ok exL [] pl h exU Hh exL_wf exL_indexed (exL_learnable []) exL_valued (sort_plan _ _ _ exL_indexed (exL_learnable []) exL_valued Ep) quad 1) as (m' & ll & Er).
  - apply (uniform_cat3 [] exL); auto using exL_indexed, (exL_learnable []), exL_uniform.
  - exact D.
  - exists ["init"; "a"]%string, 2%Z. split; [left; reflexivity|]. apply (Pos _ 2%Z). left. reflexivity.
  - right. exact Pos.
  - exists pl, m', ll. repeat lazymatch goal with |- _ /\ _ => split; [solve [auto using quad_solver, exL_wf, exL_indexed, exL_valued, (exL_learnable []), (exL_anchored []), exL_realises, ar_start]|] end. exact exL_realises.
Qed.
(** fit_parameters on this model: the hypotheses of C109 and C110 hold. *)
Example C109_C110_timed_instance : exists N result m',
  prune (alphabet_of (Timed exT)) exL = exL /\ same_shape exL exL /\ set_bound exT - set_ll (ct_density exC) exT < INR N * 1 /\
  forall max_it, (S N <= max_it)%nat -> fit_parameters exO quad (Timed exT) exL ["x"; "y"; "z"]%string 1 max_it Some = Some (Ok result, m').
Proof.
  destruct exT_ok as (A & B & C & D & E). destruct exL_sort as (pl & Ep & _). destruct (enough (set_bound exT - set_ll (ct_density exC) exT)) as [N HN].
  destruct (C110_fit_parameters_timed_returns exO 1 quad exT exL exL ["x"; "y"; "z"]%string 1 Some exC pl N) as (result & m' & F); auto using quad_solver, exL_wf, exL_indexed, exL_valued, exL_realises; try reflexivity.
  - lra.
  - rewrite exL_others. apply exL_learnable.
  - rewrite exL_others. apply exL_uniform.
  - cbn. lra.
  - exists (["init"; "a"], [1])%string, 2%Z. split; [left; reflexivity|]. apply (exT_pos _ 2%Z). left. reflexivity.
  - right. exact exT_pos.
  - exists N, result, m'. split; [reflexivity|]. split; [apply same_shape_refl|]. split; [exact HN|exact F].
Qed.
Example C109_C110_untimed_instance : exists N result m',
  prune (alphabet_of (K := R) (Untimed exU)) exL = exL /\ anchored [] exL /\ - set_ll (mc_trace_prob_move (jump_chain exC)) exU < INR N * 1 /\
  forall max_it, (S N <= max_it)%nat -> fit_parameters exO quad (Untimed exU) exL ["x"; "y"; "z"]%string 1 max_it Some = Some (Ok result, m').
Proof.
  destruct exU_ok as (C & D & E). destruct exL_sort as (pl & Ep & _). destruct (enough (- set_ll (mc_trace_prob_move (jump_chain exC)) exU)) as [N HN].
  destruct (C110_fit_parameters_untimed_returns exO 1 quad exU exL exL ["x"; "y"; "z"]%string 1 Some exC pl N) as (result & m' & F); auto using quad_solver, exL_wf, exL_indexed, exL_valued, exL_realises; try reflexivity.
  - lra.
  - rewrite exL_others. apply exL_learnable.
  - rewrite exL_others. apply exL_uniform.
  - apply exL_anchored.
  - cbn. lra.
  - exists ["init"; "a"]%string, 2%Z. split; [left; reflexivity|]. apply (exU_pos _ 2%Z). left. reflexivity.
  - right. exact exU_pos.
  - exists N, result, m'. split; [reflexivity|]. split; [apply exL_anchored|]. split; [exact HN|exact F].
Qed.

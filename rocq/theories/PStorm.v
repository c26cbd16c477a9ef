(** Theorems C121-C126: conversions between stormpy sparse models and jajapy
    models. *)
From Coq Require Import String Ascii ZArith Bool Reals Permutation List Lra Lia.
From Verif Require Import Num Py SNum LSum MTools LTools SSet LSet SPath MModels MCtor SCtor LCtor PCtor MLik SBW SLik LFB LLik MPctmc MStorm SStorm LStorm.
Import ListNotations.
Local Open Scope R_scope.

(** ** C121: a sparse Markov chain *)

(** The states of the sparse model that carry the label init. *)
Definition has_initial (ls : list (list string)) : Prop := exists s, (s < length ls)%nat /\ In "init"%string (nth s ls []).
Definition one_marked (ls : list (list string)) : Prop :=
  forall s s', (s < length ls)%nat -> (s' < length ls)%nat -> marked (nth s ls []) -> marked (nth s' ls []) -> s = s'.

Lemma rows_and_labels (m : list (list R)) ls D : (forall L, In L ls -> NoDup L) -> length m = length ls ->
  (forall s, (s < length ls)%nat -> length (nth s m []) = length ls /\ forall j, (j < length ls)%nat -> matR m s j = D s j) ->
  (In "init"%string (labelling_of ls) <-> has_initial ls) /\
  (length (labelling_of ls) = length (add_state m (add_init_of ls)) <-> one_marked ls) /\
  (one_marked ls -> only_marked ls (add_init_of ls) /\ converted_labels ls (add_init_of ls) (labelling_of ls) /\
     converted_matrix (length ls) D (add_init_of ls) (add_state m (add_init_of ls)) /\
     ((forall r, In r (add_state m (add_init_of ls)) -> row_ok (rsum r)) <-> forall s, (s < length ls)%nat -> row_ok (Sum (length ls) (D s)))).
Proof.
  intros ND L H. split; [apply init_labelling, ND|]. split.
  - rewrite labels_length. unfold one_marked. rewrite (unique_marked ls ND). pose proof (marked_fold ls 0 None) as F. cbn zeta in F. fold (add_init_of ls) in F.
    destruct F as [[E1 E2]|(s & Hs & M & E & _)].
    + rewrite E1, E2. cbn [add_state length]. lia.
    + rewrite E. cbn [add_state]. rewrite map_length, app_length. cbn [length]. rewrite L.
      assert (X : In (state_label (nth s ls [])) (filter snd (map state_label ls))) by (apply filter_In; split; [apply in_map, nth_In, Hs|exact M]).
      destruct (filter snd (map state_label ls)) as [|y r]; [destruct X|]. cbn [length]. lia.
  - intros U. pose proof (proj1 (unique_marked ls ND) U) as F. destruct (add_init_spec ls ND F) as [OM _].
    split; [exact OM|]. split; [apply labels_converted; assumption|]. apply add_state_spec; [exact L|exact H|].
    intros s0 E. rewrite E in OM. apply OM.
Qed.

Theorem C121_MC : forall (h : sparse R R) (D : nat -> nat -> R),
  well_formed h -> one_action h ->
  let n := length (sp_labels h) in
  (forall s j, (s < n)%nat -> (j < n)%nat -> entry 0 (action h s 0) j (D s j)) ->
  ((exists m, stormpy_to_MC h = Ok m) <->
   has_initial (sp_labels h) /\ one_marked (sp_labels h) /\ forall s, (s < n)%nat -> row_ok (Sum n (D s))) /\
  (forall m, stormpy_to_MC h = Ok m ->
     exists o, only_marked (sp_labels h) o /\ converted_labels (sp_labels h) o (mc_lab m) /\
               converted_matrix n D o (mc_mat m) /\ uniform_on_init (mc_lab m) (mc_ini m) /\ mc_name m = "unknown_MC"%string) /\
  (forall e, stormpy_to_MC h = Err e -> e = ValueError).
Proof.
  intros h D WF ONE n HD. destruct (dense_rows h D WF ONE HD) as (m & E & L & H). unfold stormpy_to_MC. rewrite E. cbn [bind].
  destruct (rows_and_labels m (sp_labels h) D (proj1 (proj2 WF)) L H) as (I1 & I2 & I3).
  destruct (C16_MC_constructor (add_state m (add_init_of (sp_labels h))) (labelling_of (sp_labels h)) "unknown_MC") as (A & B & C).
  split; [|split; [|exact C]].
  - rewrite A, I1, I2. split.
    + intros (X & Y & Z). split; [exact X|]. split; [exact Y|]. apply I3; assumption.
    + intros (X & Y & Z). split; [exact X|]. split; [exact Y|]. apply I3; assumption.
  - intros c Ec. assert (U : one_marked (sp_labels h)) by (apply I2, A; eauto). destruct (I3 U) as (J1 & J2 & J3 & _).
    destruct (B c Ec) as (-> & -> & Nm & U'). exists (add_init_of (sp_labels h)). auto.
Qed.
Print Assumptions C121_MC.

(** The values of a sparse CTMC are multiplied by the exit rates, except for a
    model built from a Prism file. *)
Definition read_rate (from_prism : bool) (h : sparse R R) (D : nat -> nat -> R) (s j : nat) : R :=
  if from_prism then D s j else D s j * nth s (sp_exit h) 0.

Theorem C121_CTMC : forall (h : sparse R R) (D : nat -> nat -> R) from_prism,
  well_formed h -> one_action h ->
  let n := length (sp_labels h) in
  (from_prism = false -> length (sp_exit h) = n) ->
  (forall s j, (s < n)%nat -> (j < n)%nat -> entry 0 (action h s 0) j (D s j)) ->
  ((exists m, stormpy_to_CTMC from_prism h = Ok m) <-> has_initial (sp_labels h) /\ one_marked (sp_labels h)) /\
  (forall m, stormpy_to_CTMC from_prism h = Ok m ->
     exists o, only_marked (sp_labels h) o /\ converted_labels (sp_labels h) o (ct_lab m) /\
               converted_matrix n (read_rate from_prism h D) o (ct_mat m) /\ uniform_on_init (ct_lab m) (ct_ini m) /\ ct_name m = "unknown_CTMC"%string) /\
  (forall e, stormpy_to_CTMC from_prism h = Err e -> e = ValueError).
Proof.
  intros h D fp WF ONE n HX HD. destruct (scaled_rows h D WF ONE HD fp HX) as (m & E & L & H). unfold stormpy_to_CTMC. rewrite E. cbn [bind].
  destruct (rows_and_labels m (sp_labels h) (read_rate fp h D) (proj1 (proj2 WF)) L H) as (I1 & I2 & I3).
  destruct (C16_CTMC_constructor (add_state m (add_init_of (sp_labels h))) (labelling_of (sp_labels h)) "unknown_CTMC") as (A & B & C).
  split; [|split; [|exact C]].
  - rewrite A, I1, I2. reflexivity.
  - intros c Ec. assert (U : one_marked (sp_labels h)) by (apply I2, A; eauto). destruct (I3 U) as (J1 & J2 & J3 & _).
    destruct (B c Ec) as (-> & -> & Nm & U'). exists (add_init_of (sp_labels h)). auto.
Qed.
Print Assumptions C121_CTMC.

(** ** C122: the traces of the converted model *)

(** Probability that the sparse model, started in [s0], shows the texts [w]. *)
Definition sparse_prob (n : nat) (D : nat -> nat -> R) (labels : list string) (s0 : nat) (w : list string) : R :=
  trace_prob n (fun s => if Nat.eqb s s0 then 1 else 0) (repeat D (length w - 1)) (map (is_label labels) w).

Lemma Bk_grow n (A A' : nat -> nat -> R) (B : string -> nat -> R) x l : 
  (forall s j, (s < n)%nat -> (j < n)%nat -> A' s j = A s j) -> (forall s, (s < n)%nat -> A' s n = 0) -> forall s, (s < n)%nat ->
  Bk (n + 1) (map (fun o s s' => B o s * A' s s') l) (B x) s = Bk n (map (fun o s s' => B o s * A s s') l) (B x) s.
Proof.
  intros H1 H2. induction l as [|o l IH]; intros s Hs; [reflexivity|]. cbn [map Bk]. rewrite Nat.add_1_r, Sum_S, (H2 s Hs).
  rewrite Rmult_0_r, Rmult_0_l, Rplus_0_r. apply Sum_ext. intros j Hj. rewrite (H1 s j Hs Hj). f_equal. rewrite <- Nat.add_1_r. apply IH, Hj.
Qed.

Lemma delta_init labels ini n : uniform_on_init labels ini -> length labels = (n + 1)%nat -> (forall s, (s < n)%nat -> nth s labels EmptyString <> "init"%string) ->
  forall s, (s < n + 1)%nat -> vecR ini s = if Nat.eqb s n then 1 else 0.
Proof.
  intros (L & [_ S1] & U) LL NI. assert (Z : forall s, (s < n)%nat -> vecR ini s = 0).
  { intros s Hs. rewrite U by lia. destruct (String.eqb_spec (nth s labels EmptyString) "init") as [E|]; [exfalso; apply (NI s Hs E)|reflexivity]. }
  rewrite rsum_nth, L, LL, Nat.add_1_r, Sum_S in S1. rewrite (Sum_zero_ext n) in S1 by exact Z. intros s Hs. destruct (Nat.eqb_spec s n) as [->|NE]; [unfold vecR; lra|apply Z; lia].
Qed.

(** The only initial state of the sparse model is s0 and it carries another
    label: the converted model first shows init, then behaves as the sparse
    model from s0. *)
Theorem C122_traces : forall (h : sparse R R) (D : nat -> nat -> R) m s0,
  well_formed h -> one_action h ->
  let n := length (sp_labels h) in
  (forall s j, (s < n)%nat -> (j < n)%nat -> entry 0 (action h s 0) j (D s j)) ->
  stormpy_to_MC h = Ok m ->
  (s0 < n)%nat -> marked (nth s0 (sp_labels h) []) ->
  (forall s, (s < n)%nat -> In "init"%string (nth s (sp_labels h) []) -> s = s0) ->
  forall w, w <> [] -> mc_trace_prob m ("init"%string :: w) = sparse_prob n D (mc_lab m) s0 w.
Proof.
  intros h D m s0 WF ONE n HD E Hs0 MK UN w NE. destruct (C121_MC h D WF ONE HD) as (_ & B & _). destruct (B m E) as (o & OM & (LL & LT & LI) & (ML & MR & MD & MX) & UI & _).
  change (length (sp_labels h)) with n in LL, LT, ML, MR, MD, MX. assert (o = Some s0) as ->.
  { destruct o as [s1|]; cbn in OM; [f_equal; symmetry; apply OM; assumption|]. exfalso. apply (OM s0); assumption. }
  cbn [extra] in *. destruct MX as [MX1 MX2].
  assert (NI : forall s, (s < n)%nat -> nth s (mc_lab m) EmptyString <> "init"%string).
  { intros s Hs EQ. specialize (LT s Hs). rewrite EQ in LT. apply state_text_init in LT as [J NM]; [|apply (proj1 (proj2 WF)), nth_In, Hs].
    rewrite (UN s Hs J) in NM. contradiction. }
  destruct (exists_last NE) as (l & x & ->). unfold mc_trace_prob, sparse_prob. unfold mc_n. rewrite ML.
  change ("init"%string :: l ++ [x]) with (("init"%string :: l) ++ [x]). rewrite !trace_prob_tot.
  unfold tot. rewrite (Sum_ext (n + 1) _ (fun s => if Nat.eqb s n then Bk (n + 1) (map (fun o s s' => is_label (mc_lab m) o s * matR (mc_mat m) s s') ("init"%string :: l)) (is_label (mc_lab m) x) s else 0)).
  2:{ intros s Hs. rewrite (delta_init _ _ n UI LL NI s Hs). destruct (Nat.eqb s n); ring. }
  rewrite (Sum_indicator_in (n + 1) n (fun s => Bk (n + 1) (map (fun o s s' => is_label (mc_lab m) o s * matR (mc_mat m) s s') ("init"%string :: l)) (is_label (mc_lab m) x) s)) by lia.
  rewrite (Sum_ext n _ (fun s => if Nat.eqb s s0 then Bk n (map (fun o s s' => is_label (mc_lab m) o s * D s s') l) (is_label (mc_lab m) x) s else 0)) by (intros s Hs; destruct (Nat.eqb s s0); ring).
  rewrite (Sum_indicator_in n s0 (fun s => Bk n (map (fun o s s' => is_label (mc_lab m) o s * D s s') l) (is_label (mc_lab m) x) s)) by exact Hs0.
  cbn [map Bk]. assert (IL : is_label (mc_lab m) "init" n = 1) by (unfold is_label; unfold n; rewrite LI by discriminate; reflexivity).
  rewrite (Sum_ext (n + 1) _ (fun s => if Nat.eqb s s0 then Bk (n + 1) (map (fun o s s' => is_label (mc_lab m) o s * matR (mc_mat m) s s') l) (is_label (mc_lab m) x) s else 0)).
  2:{ intros s Hs. rewrite IL, MX2 by lia. destruct (Nat.eqb s s0); ring. }
  rewrite (Sum_indicator_in (n + 1) s0 (fun s => Bk (n + 1) (map (fun o s s' => is_label (mc_lab m) o s * matR (mc_mat m) s s') l) (is_label (mc_lab m) x) s)) by lia.
  apply Bk_grow; assumption.
Qed.
Print Assumptions C122_traces.

(** ** C123: to stormpy and back *)

Theorem C123_MC : forall zeros (matrix : list (list R)) labels name m,
  MC_new matrix labels name = Ok m -> square (length matrix) matrix ->
  stormpy_to_MC (MCtoStormpy zeros m) = Ok (mkMC (mc_mat m) (map storm_label (mc_lab m)) (mc_ini m) "unknown_MC").
Proof.
  intros z matrix labels name m E SQ. destruct (C16_MC_constructor matrix labels name) as (A & B & _).
  destruct (proj1 A (ex_intro _ m E)) as (_ & LL & _). destruct (B m E) as (EM & EL & _ & _).
  unfold stormpy_to_MC, MCtoStormpy. cbn [sp_labels sp_rows]. rewrite EM, EL. unfold state_labelling at 1. rewrite map_length, LL.
  rewrite dense_all by apply SQ. cbn [bind]. rewrite add_init_one, labelling_one. cbn [add_state].
  unfold MC_new in *. rewrite base_init_storm. destruct (base_mc_init (length matrix) labels) as [ini|]; [|discriminate]. cbn [bind] in *.
  destruct (forallb checkProbabilities matrix); [|discriminate]. injection E as <-. reflexivity.
Qed.
Print Assumptions C123_MC.

Lemma scaled_all z (m : list (list R)) labs n : (forall r, In r m -> length r = n /\ rsum r <> 0) -> length m = n -> length labs = n ->
  stormpy_to_CTMC false (CTMCtoStormpy z (mkCTMC m labs [] "")) = CTMC_new m (map storm_label labs) "unknown_CTMC".
Proof.
  intros H L LB. unfold stormpy_to_CTMC, CTMCtoStormpy. cbn [sp_labels sp_rows sp_exit ct_lab]. unfold ct_n. cbn [ct_mat]. rewrite L.
  assert (LS : length (state_labelling labs) = n) by (unfold state_labelling; rewrite map_length; exact LB). rewrite LS.
  set (c := mkCTMC m labs [] ""). rewrite add_init_one, labelling_one. cbn [add_state].
  match goal with |- (do m <- ?X; _) = _ => assert (E : X = Ok m) end; [|rewrite E; reflexivity].
  assert (G : forall k l, (forall i, (i < length l)%nat -> nth i l [] = nth (k + i) m []) -> (k + length l = n)%nat ->
    mmap (fun ir => do r <- dense_row n (snd ir); do e <- at_list (map (ct_e c) (seq 0 n)) (fst ir); Ok (map (fun x => nmul x e) r))
      (combine (seq k (length l)) (map (fun s => [sparse_row z (map (fun x => ndiv x (ct_e c s)) (nth s m []))]) (seq k (length l)))) = Ok l).
  { intros k l. revert k. induction l as [|r l IH]; intros k N E; [reflexivity|]. cbn [length seq map combine mmap fst snd]. cbn [length] in E.
    pose proof (N O ltac:(cbn; lia)) as Nr. cbn [nth] in Nr. rewrite Nat.add_0_r in Nr. rewrite <- Nr.
    assert (IR : In r m) by (rewrite Nr; apply nth_In; lia). destruct (H r IR) as [Lr Sr].
    assert (CE : ct_e c k = rsum r) by (unfold ct_e, c; cbn [ct_mat]; rewrite <- Nr; apply nsum_rsum).
    unfold dense_row at 1. cbn [mfold]. rewrite <- Lr at 1. rewrite <- (map_length (fun x => ndiv x (ct_e c k)) r) at 1. rewrite dense_sparse. cbn [bind].
    unfold at_list at 1. rewrite (nth_error_nth' _ 0) by (rewrite map_length, seq_length; lia). cbn [bind].
    rewrite (nth_indep _ 0 (ct_e c 0)) by (rewrite map_length, seq_length; lia). rewrite map_nth, seq_nth by lia. cbn [Nat.add]. rewrite map_map, CE.
    rewrite (map_ext_in _ (fun x => x)) by (intros x _; nR; field; exact Sr). rewrite map_id.
    rewrite (IH (S k)); [reflexivity| |lia]. intros i Hi. pose proof (N (S i) ltac:(cbn; lia)) as Ni. cbn [nth] in Ni. rewrite Ni. f_equal. lia. }
  pose proof (G O m (fun i _ => eq_refl) L) as G0. rewrite L in G0. exact G0.
Qed.

Theorem C123_CTMC : forall zeros (matrix : list (list R)) labels name m,
  CTMC_new matrix labels name = Ok m -> square (length matrix) matrix -> (forall r, In r matrix -> rsum r <> 0) ->
  stormpy_to_CTMC false (CTMCtoStormpy zeros m) = Ok (mkCTMC (ct_mat m) (map storm_label (ct_lab m)) (ct_ini m) "unknown_CTMC").
Proof.
  intros z matrix labels name m E SQ NZ. destruct (C16_CTMC_constructor matrix labels name) as (A & B & _).
  destruct (proj1 A (ex_intro _ m E)) as (_ & LL). destruct (B m E) as (EM & EL & _ & _).
  assert (X : CTMCtoStormpy z m = CTMCtoStormpy z (mkCTMC matrix labels [] "")).
  { unfold CTMCtoStormpy, ct_n, ct_e. rewrite EM, EL. reflexivity. }
  rewrite X, (scaled_all z matrix labels (length matrix)); [|intros r I; split; [apply SQ, I|apply NZ, I]|reflexivity|exact LL].
  unfold CTMC_new in *. rewrite base_init_storm. rewrite EM, EL. destruct (base_mc_init (length matrix) labels) as [ini|]; [|discriminate]. cbn [bind] in *. injection E as <-. reflexivity.
Qed.
Print Assumptions C123_CTMC.

(** ** C124: the rates of a CTMC *)

(** stormpy's convention: an entry of the matrix of a sparse CTMC is a rate and
    the exit rate of a state is the sum of its row. *)
Definition storm_ctmc (h : sparse R R) (rate : nat -> nat -> R) : Prop :=
  let n := length (sp_labels h) in
  well_formed h /\ one_action h /\ length (sp_exit h) = n /\
  (forall s j, (s < n)%nat -> (j < n)%nat -> entry 0 (action h s 0) j (rate s j)) /\
  (forall s, (s < n)%nat -> nth s (sp_exit h) 0 = Sum n (rate s)).

(** With [from_prism] the rates are kept; without it, a rate is kept only if it
    is 0 or if the exit rate of its state is 1. *)
Theorem C124_import : forall (h : sparse R R) rate from_prism m,
  storm_ctmc h rate -> stormpy_to_CTMC from_prism h = Ok m ->
  let n := length (sp_labels h) in
  forall s j, (s < n)%nat -> (j < n)%nat ->
    (matR (ct_mat m) s j = rate s j <-> from_prism = true \/ rate s j = 0 \/ Sum n (rate s) = 1).
Proof.
  intros h rate fp m (WF & ONE & LX & HD & HX) E n s j Hs Hj. destruct (C121_CTMC h rate fp WF ONE (fun _ => LX) HD) as (_ & B & _).
  destruct (B m E) as (o & _ & _ & (_ & _ & MD & _) & _). rewrite MD by assumption. unfold read_rate. destruct fp; [split; auto|]. rewrite HX by exact Hs. fold n. split.
  - intros Q. right. destruct (Req_dec (rate s j) 0) as [Z|NZ]; [left; exact Z|right]. apply (Rmult_eq_reg_l (rate s j)); [lra|exact NZ].
  - intros [F|[Z|O]]; [discriminate|rewrite Z; ring|rewrite O; ring].
Qed.
Print Assumptions C124_import.

Theorem C124_import_refuted : exists (h : sparse R R) rate m, storm_ctmc h rate /\ stormpy_to_CTMC false h = Ok m /\ matR (ct_mat m) 0 0 <> rate O O.
Proof.
  exists (mkSparse [["init"%string]] [[[(O, 2)]]] [2]), (fun _ _ => 2).
  assert (SC : storm_ctmc (mkSparse [["init"%string]] [[[(O, 2)]]] [2]) (fun _ _ => 2)).
  { split; [|split; [|split; [reflexivity|split]]].
    - split; [reflexivity|]. split; [intros L [<-|[]]; repeat constructor; tauto|]. intros acts ts [<-|[]] [<-|[]]. split; [repeat constructor; tauto|]. intros j v [[= <- <-]|[]]. cbn. lia.
    - intros acts [<-|[]]. reflexivity.
    - intros [|s] [|j] Hs Hj; cbn in Hs, Hj; try lia. left. left. reflexivity.
    - intros [|s] Hs; cbn in Hs; [|lia]. unfold Sum, sumL. cbn. ring. }
  pose proof SC as (WF & ONE & LX & HD & HX).
  destruct (C121_CTMC _ _ false WF ONE (fun _ => LX) HD) as (A & _ & _). destruct (proj2 A) as (m & E).
  - split.
    + exists O. split; [cbn; lia|left; reflexivity].
    + intros s s' Hs Hs'. cbn in Hs, Hs'. lia.
  - exists m. split; [exact SC|]. split; [exact E|]. intros Q. apply (C124_import _ _ _ _ SC E O O) in Q; [|cbn; lia|cbn; lia].
    destruct Q as [Q|[Q|Q]]; [discriminate|lra|]. unfold Sum, sumL in Q. cbn in Q. lra.
Qed.
Print Assumptions C124_import_refuted.

(** The matrix exported holds the jump probabilities, next to the exit rates. *)
Theorem C124_export : forall zeros (m : ctmc R), wf_ctmc m ->
  let h := CTMCtoStormpy zeros m in
  well_formed h /\ one_action h /\ length (sp_exit h) = ct_n m /\
  sp_labels h = map (fun l => [l]) (ct_lab m) /\
  forall s, (s < ct_n m)%nat -> nth s (sp_exit h) 0 = exit_rate m s /\
    forall j, (j < ct_n m)%nat -> entry 0 (action h s 0) j (jump m s j).
Proof.
  intros z m (SQ & LL & _) h.
  assert (LB : length (sp_labels h) = ct_n m) by (unfold h; cbn; unfold state_labelling; rewrite map_length; exact LL).
  assert (NR : forall s, (s < ct_n m)%nat -> nth s (sp_rows h) [] = [sparse_row z (map (fun x => ndiv x (ct_e m s)) (nth s (ct_mat m) []))]).
  { intros s Hs. unfold h. cbn [sp_rows CTMCtoStormpy]. set (f := fun s => _). rewrite (nth_indep _ [] (f O)) by (rewrite map_length, seq_length; exact Hs). rewrite map_nth, seq_nth by exact Hs. reflexivity. }
  assert (LR : length (sp_rows h) = ct_n m) by (unfold h; cbn; rewrite map_length, seq_length; reflexivity).
  assert (LQ : forall s, (s < ct_n m)%nat -> length (nth s (ct_mat m) []) = ct_n m) by (intros s Hs; apply SQ, nth_In, Hs).
  split; [|split; [|split; [|split; [reflexivity|]]]].
  - split; [congruence|]. split.
    + intros L I. unfold h in I. cbn in I. apply in_map_iff in I as (l & <- & _). repeat constructor; tauto.
    + intros acts ts I J. apply (In_nth _ _ []) in I as (s & Hs & <-). rewrite LR in Hs. rewrite NR in J by exact Hs. destruct J as [<-|[]].
      destruct (sparse_row_ok z (map (fun x => ndiv x (ct_e m s)) (nth s (ct_mat m) []))) as [N C]. split; [exact N|]. intros j v J. apply C in J. rewrite map_length, LQ in J by exact Hs. lia.
  - intros acts I. apply (In_nth _ _ []) in I as (s & Hs & <-). rewrite LR in Hs. rewrite NR by exact Hs. reflexivity.
  - unfold h. cbn. rewrite map_length, seq_length. reflexivity.
  - intros s Hs. assert (EX : ct_e m s = exit_rate m s) by apply nsum_rsum. split.
    + unfold h. cbn [sp_exit CTMCtoStormpy]. rewrite (nth_indep _ 0 (ct_e m 0)) by (rewrite map_length, seq_length; exact Hs). rewrite map_nth, seq_nth by exact Hs. exact EX.
    + intros j Hj. unfold action. rewrite NR by exact Hs. cbn [nth]. pose proof (sparse_row_entry z (map (fun x => ndiv x (ct_e m s)) (nth s (ct_mat m) [])) j) as EN.
      rewrite map_length, LQ in EN by exact Hs. specialize (EN Hj). rewrite (nth_indep _ 0 (ndiv 0 (ct_e m s))) in EN by (rewrite map_length, LQ by exact Hs; exact Hj).
      rewrite (map_nth (fun x => ndiv x (ct_e m s))) in EN. rewrite EX in EN. exact EN.
Qed.
Print Assumptions C124_export.

Lemma wf_of_new (mat : list (list R)) labels name m : CTMC_new mat labels name = Ok m -> square (length mat) mat -> wf_ctmc m.
Proof.
  intros E SQ. destruct (C16_CTMC_constructor mat labels name) as (A & B & _). destruct (proj1 A (ex_intro _ m E)) as (_ & LL). destruct (B m E) as (EM & EL & _ & (L1 & (NN & _) & _)).
  unfold wf_ctmc, ct_n. rewrite EM, EL. split; [exact SQ|]. split; [exact LL|]. split; [rewrite L1; exact LL|exact NN].
Qed.

(** In stormpy's convention the exported model does not have the rates of the
    CTMC. *)
Theorem C124_export_refuted : exists (m : ctmc R), wf_ctmc m /\ (forall s, (s < ct_n m)%nat -> 0 < exit_rate m s) /\
  forall zeros rate, ~ (storm_ctmc (CTMCtoStormpy zeros m) rate /\ forall s j, (s < ct_n m)%nat -> (j < ct_n m)%nat -> rate s j = matR (ct_mat m) s j).
Proof.
  destruct (C16_CTMC_constructor [[2]] ["init"%string] "x") as (A & B & _). destruct (proj2 A) as (m & E); [split; [left; reflexivity|reflexivity]|]. destruct (B m E) as (EM & EL & _).
  assert (W : wf_ctmc m) by (apply (wf_of_new _ _ _ _ E); split; [reflexivity|intros r [<-|[]]; reflexivity]).
  exists m. split; [exact W|]. assert (N : ct_n m = 1%nat) by (unfold ct_n; rewrite EM; reflexivity).
  assert (X : forall s, (s < ct_n m)%nat -> exit_rate m s = 2) by (intros [|s] Hs; [|rewrite N in Hs; lia]; unfold exit_rate; rewrite EM; cbn; ring).
  split; [intros s Hs; rewrite X by exact Hs; lra|]. intros z rate [(WF & _ & _ & HD & _) HR].
  destruct (C124_export z m W) as (_ & _ & _ & LB & EN). destruct (EN O) as [_ EN0]; [lia|]. specialize (EN0 O ltac:(lia)).
  assert (LN : length (sp_labels (CTMCtoStormpy z m)) = 1%nat) by (rewrite LB, map_length, EL; reflexivity).
  specialize (HD O O). rewrite LN in HD. specialize (HD ltac:(lia) ltac:(lia)). rewrite (HR O O) in HD by lia.
  assert (ND : NoDup (map fst (action (CTMCtoStormpy z m) 0 0))).
  { unfold CTMCtoStormpy, action. rewrite N. cbn [sp_rows seq map nth]. apply sparse_row_ok. }
  pose proof (entry_fun 0 _ O _ _ ND HD EN0) as Q. unfold jump in Q. rewrite X in Q by lia. rewrite EM in Q. cbn in Q. lra.
Qed.
Print Assumptions C124_export_refuted.

(** ** Instances *)

(** State 0 is initial and labelled a; it loops or goes to the absorbing state 1,
    which stormpy labels deadlock. *)
Definition ex_sparse : sparse R R := mkSparse [["init"; "a"]; ["b"; "deadlock"]]%string [[[(O, 1/2); (1%nat, 1/2)]]; [[(1%nat, 1)]]] [2; 4].
Definition ex_mat : nat -> nat -> R := fun s j => matR [[1/2; 1/2]; [0; 1]] s j.
Lemma ex_sparse_ok : well_formed ex_sparse /\ one_action ex_sparse /\ (forall s j, (s < 2)%nat -> (j < 2)%nat -> entry 0 (action ex_sparse s 0) j (ex_mat s j)) /\
  has_initial (sp_labels ex_sparse) /\ one_marked (sp_labels ex_sparse).
Proof.
  split; [|split; [|split; [|split]]].
  - split; [reflexivity|]. split.
    + intros L [<-|[<-|[]]]; (constructor; [intros [X|[]]; discriminate|repeat constructor; tauto]).
    + intros acts ts [<-|[<-|[]]] [<-|[]]; (split; [repeat constructor; cbn; intuition discriminate|]).
      * intros j v [[= <- <-]|[[= <- <-]|[]]]; cbn; lia.
      * intros j v [[= <- <-]|[]]; cbn; lia.
  - intros acts [<-|[<-|[]]]; reflexivity.
  - intros [|[|s]] [|[|j]] Hs Hj; try lia; unfold entry, ex_mat, action, matR, vecR; cbn.
    + left. left. reflexivity.
    + left. right. left. reflexivity.
    + right. split; [intros w [X|[]]; discriminate|reflexivity].
    + left. left. reflexivity.
  - exists O. split; [cbn; lia|left; reflexivity].
  - intros [|[|s]] [|[|s']] Hs Hs'; cbn in Hs, Hs'; try lia; cbn [nth sp_labels ex_sparse]; intros (I & _) (I' & _); cbn in I, I'; intuition discriminate.
Qed.
Example C121_instance : exists m, stormpy_to_MC ex_sparse = Ok m /\ length (mc_lab m) = 3%nat /\ nth 2 (mc_lab m) EmptyString = "init"%string /\ matR (mc_mat m) 2 0 = 1 /\ matR (mc_mat m) 0 1 = 1/2.
Proof.
  destruct ex_sparse_ok as (WF & ONE & HD & HI & OM). destruct (C121_MC ex_sparse ex_mat WF ONE HD) as (A & B & _). destruct (proj2 A) as (m & E).
  - split; [exact HI|]. split; [exact OM|]. intros [|[|s]] Hs; cbn in Hs; try lia; unfold row_ok, Sum, sumL, ex_mat, matR, vecR; cbn; unfold Rabs; destruct (Rcase_abs _); lra.
  - exists m. split; [exact E|]. destruct (B m E) as (o & OK & (L & _ & LI) & (_ & _ & MD & MX) & _). destruct o as [s0|].
    2:{ exfalso. apply (OK O); [cbn; lia|]. split; [left; reflexivity|]. exists "a"%string. split; [right; left; reflexivity|split; discriminate]. }
    assert (s0 = O) as ->. { symmetry. apply OK; [cbn; lia|]. split; [left; reflexivity|]. exists "a"%string. split; [right; left; reflexivity|split; discriminate]. }
    split; [exact L|]. split; [apply LI; discriminate|]. split; [apply (proj2 MX O); cbn; lia|]. rewrite MD by (cbn; lia). unfold ex_mat, matR, vecR. reflexivity.
Qed.
Example C121_CTMC_instance : exists m, stormpy_to_CTMC false ex_sparse = Ok m /\ matR (ct_mat m) 0 1 = 1 /\ matR (ct_mat m) 1 1 = 4.
Proof.
  destruct ex_sparse_ok as (WF & ONE & HD & HI & OM). destruct (C121_CTMC ex_sparse ex_mat false WF ONE (fun _ => eq_refl) HD) as (A & B & _). destruct (proj2 A (conj HI OM)) as (m & E).
  exists m. split; [exact E|]. destruct (B m E) as (o & _ & _ & (_ & _ & MD & _) & _). rewrite !MD by (cbn; lia). unfold read_rate, ex_mat, matR, vecR. cbn. split; lra.
Qed.
Example C122_instance : exists m, stormpy_to_MC ex_sparse = Ok m /\ mc_trace_prob m ["init"; "a"; "b"]%string = sparse_prob 2 ex_mat (mc_lab m) 0 ["a"; "b"]%string.
Proof.
  destruct C121_instance as (m & E & _). exists m. split; [exact E|]. destruct ex_sparse_ok as (WF & ONE & HD & HI & OM).
  apply (C122_traces ex_sparse ex_mat m 0 WF ONE HD E); [cbn; lia| | |discriminate].
  - split; [left; reflexivity|]. exists "a"%string. split; [right; left; reflexivity|split; discriminate].
  - intros [|[|s]] Hs I; cbn in Hs, I; try lia; intuition discriminate.
Qed.
Example C123_instance : exists m, MC_new [[1/2; 1/2]; [0; 1]] ["init"; "deadlock"]%string "x" = Ok m /\
  stormpy_to_MC (MCtoStormpy true m) = Ok (mkMC (mc_mat m) ["init"; "empty"]%string (mc_ini m) "unknown_MC").
Proof.
  destruct (C16_MC_constructor [[1/2; 1/2]; [0; 1]] ["init"; "deadlock"]%string "x") as (A & B & _). destruct (proj2 A) as (m & E).
  - split; [left; reflexivity|]. split; [reflexivity|]. intros r [<-|[<-|[]]]; unfold row_ok, rsum; cbn; unfold Rabs; destruct (Rcase_abs _); lra.
  - exists m. split; [exact E|]. rewrite (C123_MC true _ _ _ _ E); [|split; [reflexivity|intros r [<-|[<-|[]]]; reflexivity]]. destruct (B m E) as (_ & EL & _). rewrite EL. reflexivity.
Qed.
Example C123_CTMC_instance : exists m, CTMC_new [[1; 3]; [2; 0]] ["init"; "b"]%string "x" = Ok m /\
  stormpy_to_CTMC false (CTMCtoStormpy false m) = Ok (mkCTMC [[1; 3]; [2; 0]] ["init"; "b"]%string (ct_ini m) "unknown_CTMC").
Proof.
  destruct (C16_CTMC_constructor [[1; 3]; [2; 0]] ["init"; "b"]%string "x") as (A & B & _). destruct (proj2 A) as (m & E); [split; [left; reflexivity|reflexivity]|].
  exists m. split; [exact E|]. rewrite (C123_CTMC false _ _ _ _ E).
  - destruct (B m E) as (EM & EL & _). rewrite EM, EL. reflexivity.
  - split; [reflexivity|intros r [<-|[<-|[]]]; reflexivity].
  - intros r [<-|[<-|[]]]; unfold rsum; cbn; lra.
Qed.
Example C124_export_instance : exists m, wf_ctmc m /\ ct_n m = 2%nat /\ exit_rate m 0 = 4 /\ entry 0 (action (CTMCtoStormpy true m) 0 0) 1 (3/4).
Proof.
  destruct C123_CTMC_instance as (m & E & _). assert (W : wf_ctmc m) by (apply (wf_of_new _ _ _ _ E); split; [reflexivity|intros r [<-|[<-|[]]]; reflexivity]).
  destruct (C16_CTMC_constructor [[1; 3]; [2; 0]] ["init"; "b"]%string "x") as (_ & B & _). destruct (B m E) as (EM & _).
  assert (N : ct_n m = 2%nat) by (unfold ct_n; rewrite EM; reflexivity). exists m. split; [exact W|]. split; [exact N|].
  assert (X : exit_rate m 0 = 4) by (unfold exit_rate; rewrite EM; cbn; lra). split; [exact X|].
  destruct (C124_export true m W) as (_ & _ & _ & _ & H). destruct (H O) as (_ & H0); [lia|]. specialize (H0 1%nat ltac:(lia)). unfold jump in H0. rewrite X, EM in H0. exact H0.
Qed.

(** ** Where the claims stop *)

(** Two initial states that carry another label: two labels init are added and
    one state. *)
Theorem C121_two_initial_refuted : exists (h : sparse R R) D, well_formed h /\ one_action h /\ has_initial (sp_labels h) /\
  (forall s j, (s < 2)%nat -> (j < 2)%nat -> entry 0 (action h s 0) j (D s j)) /\ (forall s, (s < 2)%nat -> row_ok (Sum 2 (D s))) /\
  length (sp_labels h) = 2%nat /\ stormpy_to_MC h = Err ValueError.
Proof.
  exists (mkSparse [["init"; "a"]; ["init"; "b"]]%string [[[(O, 1/2); (1%nat, 1/2)]]; [[(1%nat, 1)]]] [2; 4]), ex_mat. set (h := mkSparse _ _ _).
  destruct ex_sparse_ok as (WF & ONE & HD & HI & OM).
  assert (WF' : well_formed h).
  { split; [reflexivity|]. split; [|apply WF]. intros L [<-|[<-|[]]]; (constructor; [intros [X|[]]; discriminate|repeat constructor; tauto]). }
  split; [exact WF'|]. split; [exact ONE|]. split; [exists O; split; [cbn; lia|left; reflexivity]|]. split; [exact HD|]. split.
  { intros [|[|s]] Hs; try lia; unfold row_ok, Sum, sumL, ex_mat, matR, vecR; cbn; unfold Rabs; destruct (Rcase_abs _); lra. }
  split; [reflexivity|]. destruct (C121_MC h ex_mat WF' ONE HD) as (A & _ & C). destruct (stormpy_to_MC h) as [m|e] eqn:E; [|f_equal; apply C; reflexivity].
  exfalso. destruct (proj1 A (ex_intro _ m eq_refl)) as (_ & U & _). specialize (U O 1%nat). enough (O = 1%nat) by discriminate.
  apply U; [cbn; lia|cbn; lia| |].
  - split; [left; reflexivity|]. exists "a"%string. split; [right; left; reflexivity|split; discriminate].
  - split; [left; reflexivity|]. exists "b"%string. split; [right; left; reflexivity|split; discriminate].
Qed.
Print Assumptions C121_two_initial_refuted.

(** A label written without the character _. *)
Definition plain (o : string) : Prop := ~ In "_"%char (list_ascii_of_string o).
Lemma chars_app a b : list_ascii_of_string (a ++ b)%string = list_ascii_of_string a ++ list_ascii_of_string b.
Proof. induction a as [|c a IH]; cbn; [reflexivity|rewrite IH; reflexivity]. Qed.
Lemma chars_inj a b : list_ascii_of_string a = list_ascii_of_string b -> a = b.
Proof. intros E. rewrite <- (string_of_list_ascii_of_string a), <- (string_of_list_ascii_of_string b), E. reflexivity. Qed.
Lemma first_us (a a' b b' : list ascii) : ~ In "_"%char a -> ~ In "_"%char a' -> a ++ "_"%char :: b = a' ++ "_"%char :: b' -> a = a' /\ b = b'.
Proof.
  revert a'. induction a as [|c a IH]; intros [|c' a'] N N' E; cbn in *.
  - injection E as ->. auto.
  - exfalso. apply N'. left. congruence.
  - exfalso. apply N. left. congruence.
  - injection E as -> E. destruct (IH a') as [-> ->]; auto.
Qed.
Lemma concat_inj l : forall l', l <> [] -> l' <> [] -> (forall o, In o l -> plain o) -> (forall o, In o l' -> plain o) -> String.concat "_" l = String.concat "_" l' -> l = l'.
Proof.
  assert (C : forall x y (r : list string), String.concat "_" (x :: y :: r) = (x ++ "_" ++ String.concat "_" (y :: r))%string) by reflexivity.
  assert (U : forall x y : string, list_ascii_of_string (x ++ "_" ++ y)%string = list_ascii_of_string x ++ "_"%char :: list_ascii_of_string y) by (intros x y; rewrite !chars_app; reflexivity).
  induction l as [|a l IH]; intros [|b l'] N N' P P' E; try congruence. destruct l as [|a2 l], l' as [|b2 l'].
  - cbn in E. congruence.
  - exfalso. rewrite C in E. apply (f_equal list_ascii_of_string) in E. rewrite U in E. cbn [String.concat] in E. apply (P a (or_introl eq_refl)). rewrite E. apply in_or_app. right. left. reflexivity.
  - exfalso. rewrite C in E. apply (f_equal list_ascii_of_string) in E. rewrite U in E. cbn [String.concat] in E. apply (P' b (or_introl eq_refl)). rewrite <- E. apply in_or_app. right. left. reflexivity.
  - rewrite !C in E. apply (f_equal list_ascii_of_string) in E. rewrite !U in E. apply first_us in E as [E1 E2]; [|apply P; left; reflexivity|apply P'; left; reflexivity].
    apply chars_inj in E1, E2. rewrite E1. f_equal. apply IH; try discriminate; [intros o I; apply P; right; exact I|intros o I; apply P'; right; exact I|exact E2].
Qed.

(** Without the character _ in the labels, nor the label empty, the text of a
    state tells the labels it shows. *)
Theorem C121_text : forall L L' t, state_text L t -> state_text L' t ->
  (forall o, In o L -> plain o /\ o <> "empty"%string) -> (forall o, In o L' -> plain o /\ o <> "empty"%string) ->
  forall o, shown L o <-> shown L' o.
Proof.
  intros L L' t (l & _ & _ & H & E) (l' & _ & _ & H' & E') P P' o. rewrite <- H, <- H'.
  assert (Q : forall x, In x l -> plain x /\ x <> "empty"%string) by (intros x I; apply P; apply H in I; apply I).
  assert (Q' : forall x, In x l' -> plain x /\ x <> "empty"%string) by (intros x I; apply P'; apply H' in I; apply I).
  assert (EM : forall l : list string, l <> [] -> (forall x, In x l -> plain x /\ x <> "empty"%string) -> String.concat "_" l <> "empty"%string).
  { intros r N HQ X. apply (concat_inj r ["empty"%string]) in X; [|exact N|discriminate|intros x I; apply HQ, I|].
    - subst r. destruct (HQ "empty"%string (or_introl eq_refl)) as [_ Z]. congruence.
    - intros x [<-|[]] I. cbn in I. intuition discriminate. }
  assert (l = l') as ->; [|reflexivity].
  destruct l as [|a l], l' as [|b l']; [reflexivity| | |].
  - exfalso. apply (EM (b :: l')); [discriminate|exact Q'|congruence].
  - exfalso. apply (EM (a :: l)); [discriminate|exact Q|congruence].
  - apply concat_inj; try discriminate; [intros x I; apply Q, I|intros x I; apply Q', I|congruence].
Qed.
Print Assumptions C121_text.

(** The text of a state does not tell its labels: one label a_b, or a and b. *)
Theorem C121_text_refuted : exists L L' t, NoDup L /\ NoDup L' /\ state_text L t /\ state_text L' t /\ shown L "a" /\ ~ shown L' "a".
Proof.
  assert (NM : forall L, ~ In "init"%string L -> ~ marked L) by (intros L N (I & _); contradiction).
  exists ["a"; "b"]%string, ["a_b"]%string, "a_b"%string. split; [repeat constructor; cbn; intuition discriminate|]. split; [repeat constructor; cbn; tauto|]. split; [|split; [|split]].
  - exists ["a"; "b"]%string. split; [repeat constructor; cbn; intuition discriminate|]. split; [|split; [|reflexivity]].
    + cbn. intuition; subst; reflexivity.
    + intros o. unfold shown. split; [|tauto]. intros I. split; [exact I|]. split; [destruct I as [<-|[<-|[]]]; discriminate|]. intros _. apply NM. cbn. intuition discriminate.
  - exists ["a_b"]%string. split; [repeat constructor; cbn; tauto|]. split; [|split; [|reflexivity]].
    + cbn. intuition.
    + intros o. unfold shown. split; [|tauto]. intros I. split; [exact I|]. split; [destruct I as [<-|[]]; discriminate|]. intros _. apply NM. cbn. intuition discriminate.
  - split; [left; reflexivity|]. split; [discriminate|]. intros X; discriminate.
  - intros ([X|[]] & _). discriminate.
Qed.
Print Assumptions C121_text_refuted.

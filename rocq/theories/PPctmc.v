(** Parametric CTMCs: instantiation (C50, C51, C91), constructor (C86),
    agreement with the CTMC of the evaluated rates (C87), simulation (C88). *)
From Coq Require Import String ZArith Bool Reals Lra Lia Arith List.
From Verif Require Import Num Py MTools MSet MModels MCtor MRun MLik MPctmc SNum SSet SPath SBW SCtor SLik SRun SPctmc LSum LSet LCtor LBW LLik LRun LPctmc PCtor PRun.
Import ListNotations.
Local Open Scope R_scope.

(** ** C50 *)
Lemma checkRates_spec (m : pctmc R) d : wf_pctmc m -> (checkRates m d = true <-> valid_rates m (current m)).
Proof.
  intros (Sq & _ & _ & Z0 & _). unfold checkRates, valid_rates.
  assert (LR : forall i, (i < pc_n m)%nat -> length (nth i (pc_mat m) []) = pc_n m) by (intros i L; apply Sq, nth_In, L).
  rewrite forallb_forall. split.
  - intros H i j v Li Lj V. specialize (H i). rewrite in_seq in H. specialize (H ltac:(lia)). rewrite forallb_forall in H. specialize (H j). rewrite in_seq, LR in H by exact Li. specialize (H ltac:(lia)).
    destruct (Nat.eqb_spec (nth j (nth i (pc_mat m) []) O) 0) as [E|E].
    + unfold has_rate, transition in V. rewrite E, Z0 in V. destruct V as (r & _ & ->). cbn. lra.
    + apply evaluate_rate in V. rewrite V in H. apply negb_true_iff, Rltb_false in H. exact H.
  - intros H i Ii. apply in_seq in Ii. apply forallb_forall. intros j Ij. apply in_seq in Ij. rewrite LR in Ij by lia.
    destruct (nth j (nth i (pc_mat m) []) O =? 0)%nat; [reflexivity|]. destruct (evaluateTransition m i j None) as [v|] eqn:E; [|reflexivity].
    apply evaluate_rate in E. apply negb_true_iff, Rltb_false. apply (H i j v); [lia|lia|exact E].
Qed.

(** instantiate returns True exactly when no rate is negative before the call,
    whatever the new values. *)
Theorem C50_instantiate_partial : forall (m : pctmc R) ps vs, wf_pctmc m ->
  (fst (instantiate m ps vs) = true <-> valid_rates m (current m)).
Proof.
  intros m ps vs W. unfold instantiate. rewrite <- (checkRates_spec m (new_values (pc_val m) ps vs) W). destruct (checkRates m _); cbn; split; congruence.
Qed.
Print Assumptions C50_instantiate_partial.

Definition ex_pc : pctmc R := mkPC [[0; 1]; [2; 0]]%nat ["init"; "a"]%string [EConst 0; EVar "x"; EConst 2] [] [[(0, 1)%Z]] ["x"%string] [1; 0] "ex".
Lemma ex_pc_wf : wf_pctmc ex_pc.
Proof.
  split; [|split; [reflexivity|split; [reflexivity|split; [reflexivity|]]]].
  - intros r [<-|[<-|[]]]; (split; [reflexivity|]); intros k [<-|[<-|[]]]; cbn; lia.
  - intros x [<-|[<-|[]]]; lra.
Qed.
Lemma ex_rate val v : has_rate ex_pc val 0 1 v <-> val "x"%string = Some v.
Proof.
  unfold has_rate, has_value, transition. cbn. split; [intros (rho & A & ->); apply A; reflexivity|]. intros E. exists (fun _ => v). split; [intros x ->; exact E|reflexivity].
Qed.
Lemma ex_valid val : valid_rates ex_pc val <-> forall v, val "x"%string = Some v -> 0 <= v.
Proof.
  split.
  - intros H v E. apply (H 0%nat 1%nat); [cbn; lia|cbn; lia|apply ex_rate, E].
  - intros H i j v Li Lj V. assert (C : (i = 0 \/ i = 1)%nat) by (cbn in Li; lia). assert (D : (j = 0 \/ j = 1)%nat) by (cbn in Lj; lia).
    destruct C as [-> | ->], D as [-> | ->].
    + destruct V as (r & _ & ->). cbn. lra.
    + apply ex_rate in V. apply H, V.
    + destruct V as (r & _ & ->). cbn. lra.
    + destruct V as (r & _ & ->). cbn. lra.
Qed.
(** Values giving a negative rate are accepted. *)
Theorem C50_refuted : exists (m m' : pctmc R) ps vs, wf_pctmc m /\ instantiate m ps vs = (true, m') /\ ~ valid_rates m' (current m').
Proof.
  exists ex_pc. eexists. exists ["x"%string], [-1]. split; [apply ex_pc_wf|]. split.
  - pose proof (proj2 (C50_instantiate_partial ex_pc ["x"%string] [-1] ex_pc_wf)) as H. unfold instantiate in *. destruct (checkRates ex_pc _); [reflexivity|]. exfalso. cbn in H. discriminate H. apply ex_valid. intros v E. discriminate.
  - intros H. assert (X : 0 <= -1); [|lra]. apply (H 0%nat 1%nat); [cbn; lia|cbn; lia|]. exists (fun _ => -1). split; [intros x ->; reflexivity|reflexivity].
Qed.
Print Assumptions C50_refuted.

(** Then no further call succeeds: the model keeps its invalid values for every
    sequence of calls, even with valid ones, and randomInstantiation does not
    end. *)
Fixpoint instantiate_all (m : pctmc R) (calls : list (list string * list R)) : list bool * pctmc R :=
  match calls with
  | [] => ([], m)
  | c :: cs => let (b, m1) := instantiate m (fst c) (snd c) in let (bs, m2) := instantiate_all m1 cs in (b :: bs, m2)
  end.
Lemma instantiate_invalid (m : pctmc R) ps vs : wf_pctmc m -> ~ valid_rates m (current m) -> instantiate m ps vs = (false, m).
Proof. intros W N. unfold instantiate. destruct (checkRates m _) eqn:E; [|reflexivity]. apply checkRates_spec in E; [contradiction|exact W]. Qed.
Theorem C50_stuck_refuted : forall (m : pctmc R), wf_pctmc m -> ~ valid_rates m (current m) ->
  (forall calls, instantiate_all m calls = (map (fun _ => false) calls, m)) /\
  (forall ps lo hi rands attempts, randomInstantiation m ps lo hi rands attempts = None).
Proof.
  intros m W N. split.
  - induction calls as [|c cs IH]; [reflexivity|]. cbn [instantiate_all map]. rewrite (instantiate_invalid m _ _ W N), IH. reflexivity.
  - intros ps lo hi rands attempts. unfold randomInstantiation. destruct (bounds m lo hi) as [l h]. generalize (match ps with None => default_params m | Some l => l end). intros p. generalize 0%nat.
    induction attempts as [|a IH]; intros k; [reflexivity|]. cbn [random_loop]. rewrite (instantiate_invalid m _ _ W N). apply IH.
Qed.
Print Assumptions C50_stuck_refuted.
(** ex_pc after the call of C50_refuted. *)
Example C50_stuck_instance : let m := snd (instantiate ex_pc ["x"%string] [-1]) in
  wf_pctmc m /\ ~ valid_rates m (current m) /\ fst (instantiate m ["x"%string] [3]) = false.
Proof.
  intros m. assert (E : m = mkPC (pc_mat ex_pc) (pc_lab ex_pc) (pc_expr ex_pc) [("x"%string, -1)] (pc_ind ex_pc) (pc_par ex_pc) (pc_ini ex_pc) (pc_name ex_pc)).
  { unfold m, instantiate. destruct (checkRates ex_pc _) eqn:E; [reflexivity|]. exfalso. assert (X : checkRates ex_pc (new_values (pc_val ex_pc) ["x"%string] [-1]) = true); [|congruence]. apply checkRates_spec; [apply ex_pc_wf|]. apply ex_valid. intros v V. discriminate. }
  rewrite E. assert (W : wf_pctmc (mkPC (pc_mat ex_pc) (pc_lab ex_pc) (pc_expr ex_pc) [("x"%string, -1)] (pc_ind ex_pc) (pc_par ex_pc) (pc_ini ex_pc) (pc_name ex_pc))) by exact ex_pc_wf.
  assert (N : ~ valid_rates (mkPC (pc_mat ex_pc) (pc_lab ex_pc) (pc_expr ex_pc) [("x"%string, -1)] (pc_ind ex_pc) (pc_par ex_pc) (pc_ini ex_pc) (pc_name ex_pc)) (current (mkPC (pc_mat ex_pc) (pc_lab ex_pc) (pc_expr ex_pc) [("x"%string, -1)] (pc_ind ex_pc) (pc_par ex_pc) (pc_ini ex_pc) (pc_name ex_pc)))).
  { intros H. assert (X : 0 <= -1); [|lra]. apply (H 0%nat 1%nat); [cbn; lia|cbn; lia|]. exists (fun _ => -1). split; [intros x ->; reflexivity|reflexivity]. }
  split; [exact W|]. split; [exact N|]. rewrite (instantiate_invalid _ _ _ W N). reflexivity.
Qed.

(** ** C51 *)
Theorem C51_all_or_nothing : forall (m m' : pctmc R) ps vs b, instantiate m ps vs = (b, m') ->
  (b = false -> m' = m) /\
  (b = true ->
     (forall x, parameterValue m' x = given ps vs (parameterValue m) x) /\
     (forall x, ~ In x ps -> parameterValue m' x = parameterValue m x) /\
     (NoDup ps -> forall k x v, nth_error ps k = Some x -> nth_error vs k = Some v -> parameterValue m' x = Some v) /\
     pc_mat m' = pc_mat m /\ pc_lab m' = pc_lab m /\ pc_expr m' = pc_expr m /\ pc_ind m' = pc_ind m /\ pc_par m' = pc_par m /\ pc_ini m' = pc_ini m /\ pc_name m' = pc_name m).
Proof.
  intros m m' ps vs b. unfold instantiate. destruct (checkRates m _); intros [= <- <-]; (split; [try discriminate; try reflexivity|try discriminate]).
  intros _. assert (G : forall x, parameterValue (mkPC (pc_mat m) (pc_lab m) (pc_expr m) (new_values (pc_val m) ps vs) (pc_ind m) (pc_par m) (pc_ini m) (pc_name m)) x = given ps vs (parameterValue m) x) by (intros x; apply new_values_get).
  split; [exact G|]. split; [intros x N; rewrite G; apply given_other, N|]. split; [intros N k x v E1 E2; rewrite G; apply (given_nth ps vs _ k); assumption|]. repeat split.
Qed.
Print Assumptions C51_all_or_nothing.
Example C51_instance : exists m', instantiate ex_pc ["x"%string; "y"%string] [3] = (true, m') /\ parameterValue m' "x" = Some 3 /\ parameterValue m' "y" = None.
Proof.
  pose proof (proj2 (C50_instantiate_partial ex_pc ["x"%string; "y"%string] [3] ex_pc_wf)) as H. destruct (instantiate ex_pc ["x"%string; "y"%string] [3]) as [b m'] eqn:E. cbn [fst] in H.
  assert (B : b = true) by (apply H, ex_valid; intros v V; discriminate). subst b. exists m'. split; [reflexivity|]. destruct (C51_all_or_nothing _ _ _ _ _ E) as (_ & T). destruct (T eq_refl) as (G & _). rewrite !G. split; reflexivity.
Qed.

(** ** C91 *)
Lemma scale_in lo hi r : lo <= hi -> 0 <= r <= 1 -> lo <= r * (hi - lo) + lo <= hi.
Proof. intros. nra. Qed.
(** From valid values, with a minimal and maximal value: one round; the
    parameters without value get one between the bounds, the others keep theirs. *)
Theorem C91_randomInstantiation_partial : forall (m : pctmc R) lo hi rands attempts, wf_pctmc m -> valid_rates m (current m) -> NoDup (pc_par m) ->
  lo <= hi -> (forall r, In r (rands O) -> 0 <= r <= 1) ->
  length (rands O) = length (filter (fun p => match parameterValue m p with None => true | _ => false end) (pc_par m)) ->
  exists m', randomInstantiation m None (Some lo) (Some hi) rands (S attempts) = Some m' /\
    (forall p, In p (pc_par m) -> parameterValue m p = None -> exists v, parameterValue m' p = Some v /\ lo <= v <= hi) /\
    (forall p, parameterValue m p <> None -> parameterValue m' p = parameterValue m p).
Proof.
  intros m lo hi rands attempts W V ND LH RD LN. unfold randomInstantiation. cbn [bounds random_loop]. set (ps := default_params m). set (vs := map _ (rands O)).
  pose proof (proj2 (C50_instantiate_partial m ps vs W) V) as B. destruct (instantiate m ps vs) as [b m'] eqn:E. cbn in B. subst b. exists m'. split; [reflexivity|].
  destruct (C51_all_or_nothing _ _ _ _ _ E) as (_ & T). destruct (T eq_refl) as (_ & KEEP & G & _). clear T.
  assert (FE : ps = filter (fun p => match parameterValue m p with None => true | _ => false end) (pc_par m)).
  { unfold ps, default_params. apply filter_ext. intros p. unfold inst_param, parameterValue. destruct (dget (pc_val m) p); reflexivity. }
  assert (NP : NoDup ps) by (rewrite FE; apply NoDup_filter, ND). split.
  - intros p I N. assert (J : In p ps) by (rewrite FE; apply filter_In; rewrite N; auto). apply In_nth_error in J as (k & J).
    destruct (nth_error (rands O) k) as [r|] eqn:R; [|apply nth_error_None in R; assert (k < length ps)%nat by (apply nth_error_Some; congruence); rewrite LN, <- FE in R; lia].
    exists (r * (hi - lo) + lo). split; [|apply scale_in; [exact LH|apply RD, nth_error_In with k, R]]. apply (G NP k); [exact J|]. unfold vs. rewrite nth_error_map, R. reflexivity.
  - intros p N. apply KEEP. rewrite FE. intros J. apply filter_In in J as (_ & J). destruct (parameterValue m p); [discriminate|congruence].
Qed.
Print Assumptions C91_randomInstantiation_partial.
Example C91_instance : exists m', randomInstantiation ex_pc None (Some 1) (Some 2) (fun _ => [1/2]) 7 = Some m' /\ exists v, parameterValue m' "x" = Some v /\ 1 <= v <= 2.
Proof.
  destruct (C91_randomInstantiation_partial ex_pc 1 2 (fun _ => [1/2]) 6) as (m' & E & A & _); [apply ex_pc_wf|apply ex_valid; discriminate|repeat constructor; intros []|lra|intros r [<-|[]]; lra|reflexivity|].
  exists m'. split; [exact E|]. apply A; [left; reflexivity|reflexivity].
Qed.
(** Without bounds and with fewer than two values the range is [0.01, 0.3],
    not the documented [0.1, 5]. *)
Theorem C91_default_range_refuted : forall (m : pctmc R), pc_val m = [] -> bounds m None None = (1 / 100, 3 / 10).
Proof. intros m E. unfold bounds. rewrite E. reflexivity. Qed.
Print Assumptions C91_default_range_refuted.

(** ** C86 *)
Lemma zmax_spec l x : zmax l = Ok x -> In x l /\ forall y, In y l -> (y <= x)%Z.
Proof.
  destruct l as [|a l]; [discriminate|]. cbn [zmax]. intros [= <-]. revert a; induction l as [|b l IH]; intros a; [cbn; split; [auto|intros y [->|[]]; lia]|].
  cbn [fold_left]. destruct (IH (Z.max a b)) as (I & M). split.
  - destruct I as [E|I]; [|right; right; exact I]. rewrite <- E. destruct (Z.max_spec a b) as [[_ ->]|[_ ->]]; [right; left|left]; reflexivity.
  - intros y [->|[->|J]]; [|..]; [pose proof (M (Z.max y b) (or_introl eq_refl)); lia|pose proof (M (Z.max a y) (or_introl eq_refl)); lia|apply M; right; exact J].
Qed.
Lemma zmin_spec l x : zmin l = Ok x -> In x l /\ forall y, In y l -> (x <= y)%Z.
Proof.
  destruct l as [|a l]; [discriminate|]. cbn [zmin]. intros [= <-]. revert a; induction l as [|b l IH]; intros a; [cbn; split; [auto|intros y [->|[]]; lia]|].
  cbn [fold_left]. destruct (IH (Z.min a b)) as (I & M). split.
  - destruct I as [E|I]; [|right; right; exact I]. rewrite <- E. destruct (Z.min_spec a b) as [[_ ->]|[_ ->]]; [left|right; left]; reflexivity.
  - intros y [->|[->|J]]; [|..]; [pose proof (M (Z.min y b) (or_introl eq_refl)); lia|pose proof (M (Z.min a y) (or_introl eq_refl)); lia|apply M; right; exact J].
Qed.
Theorem C86_PCTMC_constructor : forall (matrix : list (list Z)) labels (exprs : list (expr R)) values indexes params name,
  ((exists m, PCTMC_new matrix labels exprs values indexes params name = Ok m) <->
   In "init"%string labels /\ length indexes = length params /\ (exists r k, In r matrix /\ In k r) /\
   (forall r k, In r matrix -> In k r -> (0 <= k < Z.of_nat (length exprs))%Z) /\ length labels = length matrix) /\
  (forall m, PCTMC_new matrix labels exprs values indexes params name = Ok m ->
     pc_mat m = map (map Z.to_nat) matrix /\ pc_lab m = labels /\ pc_expr m = exprs /\ pc_ind m = indexes /\ pc_par m = params /\ pc_name m = name /\
     uniform_on_init labels (pc_ini m) /\
     (NoDup (map fst values) -> forall p v, parameterValue m p = Some v <-> In (p, Some v) values)) /\
  (forall e, PCTMC_new matrix labels exprs values indexes params name = Err e -> e = ValueError).
Proof.
  intros matrix labels exprs values indexes params name. unfold PCTMC_new.
  destruct (memb String.eqb "init"%string labels) eqn:MI; cbn [negb].
  2:{ apply memb_str_false in MI. split; [split; [intros (m & E); discriminate|tauto]|split; [discriminate|intros e [= <-]; reflexivity]]. }
  apply memb_str in MI. destruct (Nat.eqb_spec (length indexes) (length params)) as [LI|LI]; cbn [negb].
  2:{ split; [split; [intros (m & E); discriminate|tauto]|split; [discriminate|intros e [= <-]; reflexivity]]. }
  destruct (zmax (concat matrix)) as [mx|e] eqn:MX; cbn [bind].
  2:{ assert (X : concat matrix = [] /\ e = ValueError) by (destruct (concat matrix); [cbn in MX; split; congruence|discriminate]). destruct X as (X & ->).
      split; [split; [intros (m & E); discriminate|]|split; [discriminate|intros e [= <-]; reflexivity]].
      intros (_ & _ & (r & k & Ir & Ik) & _). exfalso. assert (In k (concat matrix)) by (apply in_concat; eauto). rewrite X in H. exact H. }
  destruct (zmax_spec _ _ MX) as (MX1 & MX2). apply in_concat in MX1 as (rx & Irx & Imx).
  destruct (Z.leb_spec (Z.of_nat (length exprs)) mx) as [C|C].
  { split; [split; [intros (m & E); discriminate|]|split; [discriminate|intros e [= <-]; reflexivity]]. intros (_ & _ & _ & H & _). specialize (H rx mx Irx Imx). lia. }
  destruct (zmin (concat matrix)) as [mn|e] eqn:MN; cbn [bind].
  2:{ exfalso. destruct (concat matrix) eqn:CE; [discriminate|discriminate]. }
  destruct (zmin_spec _ _ MN) as (MN1 & MN2). apply in_concat in MN1 as (rn & Irn & Imn).
  destruct (Z.ltb_spec mn 0) as [D|D].
  { split; [split; [intros (m & E); discriminate|]|split; [discriminate|intros e [= <-]; reflexivity]]. intros (_ & _ & _ & H & _). specialize (H rn mn Irn Imn). lia. }
  destruct (Nat.eqb_spec (length labels) (length matrix)) as [LL|LL]; cbn [negb].
  2:{ split; [split; [intros (m & E); discriminate|tauto]|split; [discriminate|intros e [= <-]; reflexivity]]. }
  destruct (base_mc_init_cases (length matrix) labels) as [(_ & _ & ini & E)|[N _]]; [|exfalso; apply N; auto].
  pose proof (proj1 (base_mc_init_ok _ _ _) E) as (_ & _ & Ei).
  assert (MI2 : model_init (length matrix) (IniList (map (fun l => if String.eqb l "init" then ndiv n1 (nofZ (Z.of_nat (countb String.eqb "init"%string labels))) else n0) labels)) = Ok ini :> res (list R)).
  { unfold base_mc_init in E. rewrite (proj2 (memb_str _ _) MI) in E. cbn [negb] in E. destruct (model_init (length matrix) _) as [i2|]; cbn [bind] in E; [|discriminate]. rewrite LL, Nat.eqb_refl in E. cbn in E. congruence. }
  rewrite MI2. cbn [bind]. split; [split; [intros _|eauto]|split; [|discriminate]].
  - split; [exact MI|]. split; [exact LI|]. split; [exists rx, mx; auto|]. split; [|exact LL]. intros r k Ir Ik. assert (I : In k (concat matrix)) by (apply in_concat; eauto). specialize (MX2 k I). specialize (MN2 k I). lia.
  - intros m [= <-]. cbn. do 6 (split; [reflexivity|]). split; [rewrite Ei; apply uniform_init_spec, MI|].
    unfold parameterValue. cbn [pc_val]. intros ND p v. induction values as [|(q, o) values IH]; [cbn; split; [discriminate|intros []]|].
    cbn [map fst] in ND. inversion ND as [|? ? N1 N2]; subst. unfold drop_nan in *. cbn [flat_map snd fst]. destruct o as [w|]; cbn [app dget].
    + destruct (String.eqb_spec p q) as [->|NE].
      * split; [intros [= ->]; left; reflexivity|]. intros [X|X]; [injection X as ->; reflexivity|]. exfalso. apply N1. apply in_map_iff. exists (q, Some v). auto.
      * rewrite (IH N2). split; [intros X; right; exact X|]. intros [X|X]; [congruence|exact X].
    + rewrite (IH N2). split; [intros X; right; exact X|]. intros [X|X]; [discriminate|exact X].
Qed.
Print Assumptions C86_PCTMC_constructor.
Example C86_instance : exists m, PCTMC_new [[0; 1]; [2; 0]]%Z ["init"; "a"]%string [EConst 0; EVar "x"; EConst 2] [("x"%string, Some 3)] [[(0, 1)%Z]] ["x"%string] "m" = Ok m /\ parameterValue m "x" = Some 3.
Proof.
  destruct (C86_PCTMC_constructor [[0; 1]; [2; 0]]%Z ["init"; "a"]%string [EConst 0; EVar "x"; EConst 2] [("x"%string, Some 3)] [[(0, 1)%Z]] ["x"%string] "m") as (A & B & _).
  destruct (proj2 A) as (m & E).
  - split; [left; reflexivity|]. split; [reflexivity|]. split; [exists [0; 1]%Z, 0%Z; cbn; auto|]. split; [|reflexivity]. intros r k [<-|[<-|[]]] [<-|[<-|[]]]; cbn; lia.
  - exists m. split; [exact E|]. destruct (B m E) as (_ & _ & _ & _ & _ & _ & _ & V). apply V; [repeat constructor; intros []|left; reflexivity].
Qed.

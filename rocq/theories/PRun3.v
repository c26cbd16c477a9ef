(** Traces generated by CTMCs: possible traces (C25), sets of timed or untimed traces
    (C26); export of an instantiated parametric CTMC (C127). *)
From Coq Require Import String ZArith Bool Reals Lra Lia Arith List.
From Verif Require Import Num Py MTools MSet MModels MCtor MRun MLik MPctmc MStorm SNum SSet SPath SBW SCtor SLik SRun SPctmc SStorm LSum LSet LCtor LBW LLik LRun LPctmc LStorm PCtor PRun PPctmc PPctmc2 PStorm PStorm3.
Import ListNotations.
Local Open Scope R_scope.

(** ** C25 *)
Lemma matR_pos_range m i j : 0 < matR m i j -> (i < length m)%nat /\ (j < length (nth i m []))%nat.
Proof.
  unfold matR. intros P. destruct (Nat.lt_ge_cases i (length m)) as [Li|Li]; [|rewrite (nth_overflow m) in P by lia; destruct j; cbn in P; lra].
  split; [exact Li|]. destruct (Nat.lt_ge_cases j (length (nth i m []))) as [Lj|Lj]; [exact Lj|]. unfold vecR in P. rewrite nth_overflow in P by lia. lra.
Qed.
(** The labels and times of a run, with any times: a path of positive rates and a
    positive density in the model. *)
Lemma path_density (m : ctmc R) samples s x (ts : list R) i : wf_ctmc m -> (forall r, In r (ct_mat m) -> nonneg r) -> 0 < vecR (ct_ini m) s -> (s < ct_n m)%nat -> ct_path m samples i s x -> length ts = length x ->
  0 < ct_density m (map (fun j => nth j (ct_lab m) EmptyString) (s :: x), ts).
Proof.
  intros ((Lm & Lr) & Ll & Li & Ni) NN Ps Ls Px LT. unfold ct_density. cbn [fst snd].
  assert (JP : forall t i j, 0 <= jump_density m t i j).
  { intros t i0 j. unfold jump_density. apply Rmult_le_pos; [apply matR_nonneg; exact NN|left; apply exp_pos]. }
  assert (RG : forall x i s, (s < ct_n m)%nat -> ct_path m samples i s x -> forall j, In j (s :: x) -> (j < ct_n m)%nat).
  { clear - Lr. induction x as [|s' x IH]; intros i s Ls P j [<-|I]; try exact Ls; [destruct I|]. destruct P as (P & _ & F). apply matR_pos_range in P as [P1 P2].
    rewrite (Lr (nth s (ct_mat m) [])) in P2 by (apply nth_In; exact P1). apply (IH (S i) s' P2 F j I). }
  apply (trace_prob_pos _ _ _ _ (s :: x)).
  - rewrite !map_length. reflexivity.
  - apply (RG x i s Ls Px).
  - intros k _. apply vecR_nonneg, Ni.
  - intros A a b I _ _. apply in_map_iff in I as (t & <- & _). apply JP.
  - intros B a I _. apply in_map_iff in I as (o & <- & _). apply is_label_nonneg.
  - discriminate.
  - exact Ps.
  - clear - Px LT. revert s i ts Px LT. induction x as [|s' x IH]; intros s i ts P L; destruct ts as [|t ts]; try discriminate.
    + cbn. unfold is_label. rewrite String.eqb_refl. lra.
    + destruct P as (P & _ & F). specialize (IH s' (S i) ts F ltac:(cbn in L; lia)). cbn [map path_weight] in *. unfold is_label at 1. rewrite String.eqb_refl, Rmult_1_l.
      apply Rmult_lt_0_compat; [|exact IH]. unfold jump_density. apply Rmult_lt_0_compat; [exact P|apply exp_pos].
Qed.
Lemma selected_range p r k n : length p = n -> selected p r k -> (k < n)%nat /\ 0 < vecR p k.
Proof. intros <- (L & P & _). auto. Qed.
Theorem C25_ctmc_run_possible : forall (m : ctmc R) (steps : nat) r0 samples tr,
  wf_ctmc m -> (forall r, In r (ct_mat m) -> nonneg r) -> is_dist (ct_ini m) -> unit_draw r0 ->
  (forall i s, (s < ct_n m)%nat -> exists k, (k < ct_n m)%nat /\ 0 < matR (ct_mat m) s k /\ samples i k < 1024) ->
  ct_run m (Z.of_nat steps) r0 samples = Ok tr ->
  length (fst tr) = steps /\ 0 < ct_density m (map fst (fst tr) ++ [snd tr], map snd (fst tr)).
Proof.
  intros m steps r0 samples tr W NN DI U H E. destruct (C25_ctmc_run_partial m steps r0 samples W DI U H) as (s & x & Lx & Sx & Px & E'). rewrite E in E'. assert (ET := f_equal (fun z => match z with Ok t => t | Err _ => tr end) E'). cbn beta iota in ET. clear E'. subst tr. cbn [fst snd].
  set (lab := fun j => nth j (ct_lab m) EmptyString).
  assert (LT : forall x i, length (ct_times samples i x) = length x) by (induction x0 as [|a y IH]; intros i; [reflexivity|cbn; rewrite IH; reflexivity]).
  assert (LA : forall (s a : nat) x, last (a :: x) s = last x a).
  { clear. intros s a x; revert s a; induction x as [|y x IH]; intros s a; [reflexivity|]. destruct x as [|z x]; [reflexivity|]. exact (IH s a). }
  assert (A : forall x s (ts : list R), length ts = length x -> map fst (combine (map lab (s :: x)) ts) ++ [lab (last x s)] = map lab (s :: x) /\ map snd (combine (map lab (s :: x)) ts) = ts).
  { clear - LA. induction x as [|a x IH]; intros s ts L; destruct ts as [|t ts]; try discriminate; [split; reflexivity|]. rewrite LA. destruct (IH a ts) as [I1 I2]; [cbn in L; lia|]. cbn [map combine fst snd app] in *. split; f_equal; assumption. }
  split; [rewrite combine_length, map_length, LT; cbn [length]; lia|]. destruct (A x s (ct_times samples 0 x) (LT x O)) as [A1 A2]. fold (lab (last x s)). rewrite A1, A2.
  assert (Li : length (ct_ini m) = ct_n m) by apply W. destruct (selected_range _ _ _ _ Li Sx) as [Ls Ps].
  apply (path_density m samples s x (ct_times samples 0 x) 0 W NN Ps Ls Px (LT x O)).
Qed.
Print Assumptions C25_ctmc_run_possible.

(** ** C26 *)
(** The list returned by run for a path and its times. *)
Fixpoint timed_list (lab : nat -> string) (s : nat) (x : list nat) (ts : list R) : list (pv R) :=
  match x, ts with
  | s' :: x', t :: ts' => VStr (lab s) :: VFlt t :: timed_list lab s' x' ts'
  | _, _ => [VStr (lab s)]
  end.
Definition ct_trace (timed : bool) (m : ctmc R) (s : nat) (x : list nat) (ts : list R) : list (pv R) :=
  let lab := fun j => nth j (ct_lab m) EmptyString in
  if timed then timed_list lab s x ts else map (fun j => VStr (lab j)) (s :: x).
Lemma ct_output_trace timed (m : ctmc R) s x ts : length ts = length x ->
  ct_output timed (combine (map (fun j => nth j (ct_lab m) EmptyString) (s :: x)) ts, nth (last x s) (ct_lab m) EmptyString) = ct_trace timed m s x ts.
Proof.
  unfold ct_output, ct_trace. cbn [fst snd]. revert s ts. induction x as [|a x IH]; intros s ts L; destruct ts as [|t ts]; try discriminate; [destruct timed; reflexivity|].
  assert (LA : last (a :: x) s = last x a). { clear. revert s a; induction x as [|y x IH]; intros s a; [reflexivity|]. destruct x as [|z x]; [reflexivity|]. exact (IH s a). }
  rewrite LA. specialize (IH a ts ltac:(cbn in L; lia)). cbn [map combine flat_map fst snd] in *. destruct timed; cbn [app timed_list] in *; rewrite IH; reflexivity.
Qed.
(** A set generated by a CTMC: the type is that of timed traces exactly when times
    were asked for; each trace is the one of a path of positive rates, with a
    positive density. *)
Theorem C26_ctmc_generateSet_partial : forall (m : ctmc R) timed (k : nat) param geo min_size (size : nat -> nat) r0 samples eqb,
  wf_ctmc m -> (forall r, In r (ct_mat m) -> nonneg r) -> is_dist (ct_ini m) -> (forall i, unit_draw (r0 i)) ->
  (forall n i s, (s < ct_n m)%nat -> exists k, (k < ct_n m)%nat /\ 0 < matR (ct_mat m) s k /\ samples n i k < 1024) ->
  decides_eq eqb -> requested param geo min_size k (fun i => Z.of_nat (size i)) -> (0 < k)%nat -> (forall i, (i < k)%nat -> (0 < size i)%nat) ->
  exists tr s, generateSet eqb (fun i z => do x <- ct_run m z (r0 i) (samples i); Ok (ct_output timed x)) None (Z.of_nat k) param geo min_size = Ok s /\
    ty s = Some (if timed then 4 else 0)%Z /\ wf_set s /\ (forall x, mult eqb s x = Z.of_nat (occ eqb x (map tr (seq 0 k)))) /\
    forall i, (i < k)%nat -> exists s0 x ts, tr i = ct_trace timed m s0 x ts /\ length x = size i /\ length ts = size i /\
      0 < ct_density m (map (fun j => nth j (ct_lab m) EmptyString) (s0 :: x), ts).
Proof.
  intros m timed k param geo mn size r0 samples eqb W NN DI U H D RQ Pk Ps.
  assert (LT : forall sm x i, length (ct_times sm i x) = length x) by (induction x as [|a y IH]; intros i; [reflexivity|cbn; rewrite IH; reflexivity]).
  assert (EX : forall i, exists t, (exists s0 x ts, t = ct_trace timed m s0 x ts /\ length x = size i /\ length ts = size i /\ 0 < ct_density m (map (fun j => nth j (ct_lab m) EmptyString) (s0 :: x), ts)) /\
     (do x <- ct_run m (Z.of_nat (size i)) (r0 i) (samples i); Ok (ct_output timed x)) = Ok t).
  { intros i. destruct (C25_ctmc_run_partial m (size i) (r0 i) (samples i) W DI (U i) (H i)) as (s & x & Lx & Sx & Px & E). rewrite E. cbn [bind]. rewrite ct_output_trace by apply LT.
    eexists. split; [|reflexivity]. exists s, x, (ct_times (samples i) 0 x). split; [reflexivity|]. split; [exact Lx|]. split; [rewrite LT; exact Lx|].
    assert (Li : length (ct_ini m) = ct_n m) by apply W. destruct (selected_range _ _ _ _ Li Sx) as [Ls Pss]. apply (path_density m (samples i) s x _ 0 W NN Pss Ls Px), LT. }
  assert (CH : forall n, exists tr : nat -> list (pv R), forall i, (i < n)%nat -> (exists s0 x ts, tr i = ct_trace timed m s0 x ts /\ length x = size i /\ length ts = size i /\ 0 < ct_density m (map (fun j => nth j (ct_lab m) EmptyString) (s0 :: x), ts)) /\
     (do x <- ct_run m (Z.of_nat (size i)) (r0 i) (samples i); Ok (ct_output timed x)) = Ok (tr i)).
  { induction n as [|n (ps & IH)]; [exists (fun _ => []); intros; lia|]. destruct (EX n) as (p & Hp). exists (fun i => if Nat.eqb i n then p else ps i). intros i L. destruct (Nat.eqb_spec i n) as [->|N]; [exact Hp|apply IH; lia]. }
  destruct (CH k) as (tr & HT).
  assert (SH : forall i, (i < k)%nat -> infer_type (tr i) = Ok (if timed then 4 else 0)%Z /\ (2 <= length (tr i))%nat).
  { intros i L. destruct (HT i L) as [(s0 & x & ts & -> & Lx & Lt & _) _]. specialize (Ps i L). destruct x as [|a x]; [cbn in Lx; lia|]. destruct ts as [|t ts]; [cbn in Lt; lia|].
    unfold ct_trace. destruct timed; cbn; (split; [reflexivity|]); [destruct x, ts|]; cbn; lia. }
  destruct (C26_generateSet_set eqb (fun i z => do x <- ct_run m z (r0 i) (samples i); Ok (ct_output timed x)) None k param geo mn (fun i => Z.of_nat (size i)) tr D RQ Pk) as (s & E & WS & _ & M & _).
  { intros i L. apply HT, L. } { right. apply SH, Pk. }
  exists tr, s. split; [exact E|]. split; [|split; [exact WS|split; [exact M|intros i L; apply HT, L]]].
  destruct (C26_generateSet eqb (fun i z => do x <- ct_run m z (r0 i) (samples i); Ok (ct_output timed x)) k param geo mn (fun i => Z.of_nat (size i)) tr D RQ) as (ss & vs & G & _ & IN & _ & Z).
  { intros i L. apply HT, L. }
  unfold generateSet in E. rewrite G in E. cbn [bind fst snd] in E. destruct ss as [|t0 ss].
  { exfalso. assert (I : In (tr O) (map tr (seq 0 k))) by (apply in_map, in_seq; lia). apply IN in I. destruct I. }
  cbn [newSet] in E. assert (I : In t0 (map tr (seq 0 k))) by (apply IN; left; reflexivity). apply in_map_iff in I as (i & <- & I). apply in_seq in I.
  rewrite (proj1 (SH i ltac:(lia))) in E. cbn [bind] in E. injection E as <-. reflexivity.
Qed.
Print Assumptions C26_ctmc_generateSet_partial.

(** ** C127: jajapyModeltoStormpy on a parametric CTMC *)
Theorem C127_PCTMCtoStormpy : forall zeros (m : pctmc R), wf_pctmc m -> listed m -> uniform_on_init (pc_lab m) (pc_ini m) -> In "init"%string (pc_lab m) ->
  ((exists h, PCTMCtoStormpy zeros m = Ok h) <-> forall p, In p (pc_par m) -> current m p <> None) /\
  (forall e, PCTMCtoStormpy zeros m = Err e -> e = ValueError) /\
  forall h, PCTMCtoStormpy zeros m = Ok h -> exists c, realises m c /\
    well_formed h /\ one_action h /\ length (sp_exit h) = pc_n m /\ sp_labels h = map (fun l => [l]) (pc_lab m) /\
    forall s, (s < pc_n m)%nat -> nth s (sp_exit h) 0 = exit_rate c s /\ forall j, (j < pc_n m)%nat -> entry 0 (action h s 0) j (jump c s j).
Proof.
  intros z m W LS U I. destruct (C127_PCTMCtoCTMC m W LS U I) as (A & B & C). unfold PCTMCtoStormpy. split; [|split].
  - rewrite <- A. destruct (PCTMCtoCTMC m) as [c|e]; cbn [bind]; split; intros [x E]; try discriminate; eexists; reflexivity.
  - intros e. destruct (PCTMCtoCTMC m) as [c|e']; cbn [bind]; [discriminate|]. intros [= <-]. apply C. reflexivity.
  - intros h. destruct (PCTMCtoCTMC m) as [c|e']; cbn [bind]; [|discriminate]. intros [= <-]. destruct (B c eq_refl) as [RE _]. exists c. split; [exact RE|].
    pose proof (C124_export z c (real_wf m c W RE)) as X. cbv zeta in X. destruct RE as (EL & _ & EN & _). rewrite EN, EL in X. exact X.
Qed.
Print Assumptions C127_PCTMCtoStormpy.

Example C127_stormpy_instance : exists m h, wf_pctmc m /\ listed m /\ PCTMCtoStormpy false m = Ok h.
Proof. destruct C127_instance as (m & c & W & L & E & _). exists m. unfold PCTMCtoStormpy. rewrite E. cbn [bind]. eexists. split; [exact W|]. split; [exact L|]. reflexivity. Qed.

(** ** C60: a memory state the finite memory scheduler was not built for is refused *)
Theorem C60_finite_memory_unknown : forall am tm s r a, (forall x, In x am -> fst x <> s) ->
  sch_get (FiniteMemoryScheduler (K:=R) am tm) s r = Err KeyError /\
  fm_getProbability am s a None = Err KeyError /\
  (forall cur, fm_getProbability am cur a (Some s) = Err KeyError).
Proof.
  intros am tm s r a N.
  assert (E : assoc Z.eqb s am = None).
  { induction am as [|[z p] am IH]; [reflexivity|]. cbn [assoc]. destruct (Z.eqb_spec s z) as [->|D]; [exfalso; apply (N (z, p)); [left|]; reflexivity|]. apply IH. intros x I. apply N. right. exact I. }
  cbn [sch_get FiniteMemoryScheduler]. unfold fm_get, fm_getProbability. rewrite E. auto.
Qed.
Print Assumptions C60_finite_memory_unknown.
Example C60_unknown_instance : sch_get (FiniteMemoryScheduler (K:=R) [(0%Z, ([1], ["x"%string]))] [("a"%string, [1]%Z)]) 1%Z 0 = Err KeyError.
Proof. apply (C60_finite_memory_unknown _ _ _ _ EmptyString). intros x [<-|[]]. discriminate. Qed.

(** ** Instances for C25 and C26 *)
Definition ex_smp (i k : nat) : R := if Nat.even i then 1/2 else 1 + INR k.
Lemma ex_ct_nonneg : forall r, In r (ct_mat ex_ct) -> nonneg r.
Proof. intros r [<-|[<-|[]]] x [<-|[<-|[]]]; lra. Qed.
Lemma ex_smp_ok : forall i s, (s < ct_n ex_ct)%nat -> exists k, (k < ct_n ex_ct)%nat /\ 0 < matR (ct_mat ex_ct) s k /\ ex_smp i k < 1024.
Proof. intros i [|[|s]] L; cbn in L; try lia; [exists 1%nat|exists O]; (split; [cbn; lia|split; [cbn; lra|unfold ex_smp; destruct (Nat.even i); cbn; lra]]). Qed.
Lemma half_unit : unit_draw (1/2).
Proof. unfold unit_draw. lra. Qed.
Example C25_run_instance : exists tr, ct_run ex_ct 3 (1/2) ex_smp = Ok tr /\ length (fst tr) = 3%nat /\ 0 < ct_density ex_ct (map fst (fst tr) ++ [snd tr], map snd (fst tr)).
Proof.
  destruct C25_instance as (W & D & _). destruct (C25_ctmc_run_partial ex_ct 3 (1/2) ex_smp W D half_unit ex_smp_ok) as (s & x & _ & _ & _ & E).
  eexists. split; [exact E|]. apply (C25_ctmc_run_possible ex_ct 3 (1/2) ex_smp _ W ex_ct_nonneg D half_unit ex_smp_ok E).
Qed.
Lemma pv_list_eqb : exists eqb : list (pv R) -> list (pv R) -> bool, decides_eq eqb.
Proof.
  assert (DE : forall x y : list (pv R), {x = y} + {x <> y}). { apply list_eq_dec. decide equality; try apply string_dec; try apply Z.eq_dec; try apply Req_EM_T; apply list_eq_dec, Req_EM_T. }
  exists (fun x y => if DE x y then true else false). intros x y. destruct (DE x y); split; congruence.
Qed.
Example C26_ctmc_instance : exists eqb s, generateSet eqb (fun i z => do x <- ct_run ex_ct z (1/2) ex_smp; Ok (ct_output true x)) None 4 (PInt 3) None None = Ok s /\ ty s = Some 4%Z.
Proof.
  destruct C25_instance as (W & D & _). destruct pv_list_eqb as (eqb & DE). exists eqb.
  destruct (C26_ctmc_generateSet_partial ex_ct true 4 (PInt 3) None None (fun _ => 3%nat) (fun _ => 1/2) (fun _ => ex_smp) eqb W ex_ct_nonneg D (fun _ => half_unit) (fun _ => ex_smp_ok) DE) as (tr & s & E & T & _).
  - intros i _. reflexivity.
  - lia.
  - intros. lia.
  - exists s. split; [exact E|exact T].
Qed.

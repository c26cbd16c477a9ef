(** Theorems C137: what holds whatever the rounding. *)
From Coq Require Import String ZArith Bool List Lia PrimFloat FloatOps FloatAxioms SpecFloat.
From Verif Require Import Num Py MTools MSet MModels MLik MCtor MBW MRun MFloat LAny.
Import ListNotations.

(** ** Zeros in double precision *)
Definition zero_or_nan (x : float) : Prop := PrimFloat.eqb x PrimFloat.zero = true \/ PrimFloat.is_nan x = true.
Lemma zn_spec x : zero_or_nan x <-> match Prim2SF x with S754_zero _ | S754_nan => True | _ => False end.
Proof.
  unfold zero_or_nan, PrimFloat.is_nan. rewrite !eqb_spec. change (Prim2SF PrimFloat.zero) with (S754_zero false).
  destruct (Prim2SF x) as [s|s| |s m e]; cbn; intuition; try discriminate; destruct s; cbn in *; try discriminate.
  all: try (rewrite Z.compare_refl, Pos.compare_refl in *; cbn in *; discriminate).
Qed.
Lemma zn_zero : zero_or_nan n0.
Proof. left. reflexivity. Qed.
Lemma zn_add x y : zero_or_nan x -> zero_or_nan y -> zero_or_nan (nadd x y).
Proof.
  cbn [nadd FNum]. rewrite !zn_spec, add_spec. unfold SF64add, SFadd. destruct (Prim2SF x) as [s|s| |s m e], (Prim2SF y) as [s'|s'| |s' m' e']; cbn; try tauto.
  destruct (Bool.eqb s s'); exact (fun _ _ => I).
Qed.
Lemma zn_mul_l x y : zero_or_nan x -> zero_or_nan (nmul x y).
Proof. cbn [nmul FNum]. rewrite !zn_spec, mul_spec. unfold SF64mul, SFmul. destruct (Prim2SF x) as [s|s| |s m e], (Prim2SF y) as [s'|s'| |s' m' e']; cbn; tauto. Qed.
Lemma zn_mul_r x y : zero_or_nan y -> zero_or_nan (nmul x y).
Proof. cbn [nmul FNum]. rewrite !zn_spec, mul_spec. unfold SF64mul, SFmul. destruct (Prim2SF x) as [s|s| |s m e], (Prim2SF y) as [s'|s'| |s' m' e']; cbn; tauto. Qed.
Lemma zn_div x y : zero_or_nan x -> zero_or_nan (ndiv x y).
Proof. cbn [ndiv FNum]. rewrite !zn_spec, div_spec. unfold SF64div, SFdiv. destruct (Prim2SF x) as [s|s| |s m e], (Prim2SF y) as [s'|s'| |s' m' e']; cbn; tauto. Qed.
Lemma zero_spec x : PrimFloat.eqb x PrimFloat.zero = true -> exists s, Prim2SF x = S754_zero s.
Proof.
  rewrite eqb_spec. change (Prim2SF PrimFloat.zero) with (S754_zero false). destruct (Prim2SF x) as [s|s| |s m e]; [eauto|destruct s; discriminate|discriminate|destruct s; discriminate].
Qed.
Lemma add_zero_ltb_float (c x r : float) : neqb x n0 = true -> nltb (nadd c x) r = nltb c r.
Proof.
  intros Z. destruct (zero_spec x Z) as [s E]. unfold nltb. cbn [nleb neqb nadd FNum]. rewrite !leb_spec, !eqb_spec, add_spec, E. unfold SF64add, SFadd.
  destruct (Prim2SF c) as [s'|s'| |s' m' e']; [|reflexivity|reflexivity|reflexivity]. destruct (Bool.eqb s' s), (Prim2SF r) as [s''|s''| |s'' m'' e'']; reflexivity.
Qed.
Lemma add_zero_eqb_float (c x : float) : neqb x n0 = true -> neqb (nadd c x) n0 = neqb c n0.
Proof.
  intros Z. destruct (zero_spec x Z) as [s E]. cbn [neqb n0 nadd FNum]. rewrite !eqb_spec, add_spec, E. unfold SF64add, SFadd.
  destruct (Prim2SF c) as [s'|s'| |s' m' e']; [|reflexivity|reflexivity|reflexivity]. destruct (Bool.eqb s' s); reflexivity.
Qed.

(** ** Learning in double precision never creates a transition
    (the rounds of the model are those of the code, with the same sums up to
    their order; longdouble is double on some platforms, and is taken to be here). *)
Theorem C137_mc_zero_stays_zero_double : forall (TF : Trans float) (m m' : mc float) p max_it c set (eps : float) ll stopped,
  bw_loop (round_MC p set) eps max_it None 0 m = Ok (m', c, ll, stopped) ->
  forall s s', zero_or_nan (mget (mc_mat m) s s') -> zero_or_nan (mget (mc_mat m') s s').
Proof.
  intros TF m m' p mx c set eps ll st E s s' Z.
  apply (loop_inv _ _ (fun x => zero_or_nan (mget (mc_mat x) s s'))) in E; [exact E| |exact Z]. intros x x' l H Er.
  apply (null_round_MC zero_or_nan zn_zero zn_add zn_mul_l zn_mul_r zn_div p set x x' l Er s s' H).
Qed.
Print Assumptions C137_mc_zero_stays_zero_double.
Theorem C137_hmm_zero_stays_zero_double : forall (TF : Trans float) (m m' : hmm float) p max_it c set (eps : float) ll stopped, NoDup (hmm_alph m) ->
  bw_loop (round_HMM p set) eps max_it None 0 m = Ok (m', c, ll, stopped) ->
  (forall s s', zero_or_nan (mget (hmm_mat m) s s') -> zero_or_nan (mget (hmm_mat m') s s')) /\
  (forall s j, zero_or_nan (mget (hmm_out m) s j) -> zero_or_nan (mget (hmm_out m') s j)) /\
  (forall s, zero_or_nan (vget (hmm_ini m) s) -> zero_or_nan (vget (hmm_ini m') s)).
Proof.
  intros TF m m' p mx c set eps ll st ND E.
  apply (loop_inv _ _ (fun x => hmm_alph x = hmm_alph m /\ (forall s s', zero_or_nan (mget (hmm_mat m) s s') -> zero_or_nan (mget (hmm_mat x) s s')) /\
    (forall s j, zero_or_nan (mget (hmm_out m) s j) -> zero_or_nan (mget (hmm_out x) s j)) /\ (forall s, zero_or_nan (vget (hmm_ini m) s) -> zero_or_nan (vget (hmm_ini x) s)))) in E;
    [apply E| |auto]. intros x x' l (A & H1 & H2 & H3) Er.
  destruct (null_round_HMM zero_or_nan zn_zero zn_add zn_mul_l zn_mul_r zn_div p set x x' l ltac:(rewrite A; exact ND) Er) as (G1 & G2 & G3 & G4).
  split; [congruence|]. repeat split; intros; auto.
Qed.
Print Assumptions C137_hmm_zero_stays_zero_double.
Theorem C137_mdp_zero_stays_zero_double : forall (TF : Trans float) (m m' : mdp float) p max_it c set (eps : float) ll stopped, NoDup (mdp_act m) ->
  bw_loop (round_MDP p set) eps max_it None 0 m = Ok (m', c, ll, stopped) ->
  forall s a s', zero_or_nan (mdp_get (mdp_mat m) s a s') -> zero_or_nan (mdp_get (mdp_mat m') s a s').
Proof.
  intros TF m m' p mx c set eps ll st ND E s a s' Z.
  apply (loop_inv _ _ (fun x => mdp_act x = mdp_act m /\ zero_or_nan (mdp_get (mdp_mat x) s a s'))) in E; [apply E| |auto]. intros x x' l [A H] Er.
  destruct (null_round_MDP zero_or_nan zn_zero zn_add zn_mul_l zn_mul_r zn_div p set x x' l Er) as [G A']. split; [congruence|]. apply G; [rewrite A; exact ND|exact H].
Qed.
Print Assumptions C137_mdp_zero_stays_zero_double.
Theorem C137_ctmc_zero_stays_zero_double : forall (TF : Trans float) (m m' : ctmc float) fixed p max_it c (eps : float) ll stopped,
  (exists set, bw_loop (round_CTMC_timed p fixed set) eps max_it None 0 m = Ok (m', c, ll, stopped)) \/
  (exists set, bw_loop (round_CTMC_untimed p fixed set) eps max_it None 0 m = Ok (m', c, ll, stopped)) ->
  forall s s', zero_or_nan (mget (ct_mat m) s s') -> zero_or_nan (mget (ct_mat m') s s').
Proof.
  intros TF m m' fixed p mx c eps ll st E s s' Z. destruct E as [[set E]|[set E]];
  (apply (loop_inv _ _ (fun x => zero_or_nan (mget (ct_mat x) s s'))) in E; [exact E| |exact Z]); intros x x' l H Er.
  - apply (null_round_CTMC_timed zero_or_nan zn_zero zn_add zn_mul_l zn_mul_r zn_div p fixed set x x' l Er s s' H).
  - apply (null_round_CTMC_untimed zero_or_nan zn_zero zn_add zn_mul_l zn_mul_r zn_div p fixed set x x' l Er s s' H).
Qed.
Print Assumptions C137_ctmc_zero_stays_zero_double.
Theorem C137_gohmm_zero_stays_zero_double : forall (TF : Trans float) (m m' : gohmm float) p d max_it c set (eps : float) ll stopped,
  bw_loop (round_GoHMM p d set) eps max_it None 0 m = Ok (m', c, ll, stopped) ->
  (forall s s', zero_or_nan (mget (go_mat m) s s') -> zero_or_nan (mget (go_mat m') s s')) /\
  (forall s, zero_or_nan (vget (go_ini m) s) -> zero_or_nan (vget (go_ini m') s)).
Proof.
  intros TF m m' p d mx c set eps ll st E.
  apply (loop_inv _ _ (fun x => (forall s s', zero_or_nan (mget (go_mat m) s s') -> zero_or_nan (mget (go_mat x) s s')) /\ (forall s, zero_or_nan (vget (go_ini m) s) -> zero_or_nan (vget (go_ini x) s)))) in E;
    [exact E| |auto]. intros x x' l (H1 & H2) Er.
  destruct (null_round_GoHMM zero_or_nan zn_zero zn_add zn_mul_l zn_mul_r zn_div p d set x x' l Er) as (G1 & G2). split; intros; auto.
Qed.
Print Assumptions C137_gohmm_zero_stays_zero_double.

(** ** In any arithmetic: the number of processes
    When learning with one process succeeds, learning with any number of
    processes gives the same model, bit for bit. *)
Theorem C137_processes_any_arithmetic : forall (K : Type) (NK : Num K) (TK : Trans K) (p max_it : nat) (eps : K),
  (forall set (m : mc K) x, bw_loop (round_MC 1 set) eps max_it None 0 m = Ok x -> bw_loop (round_MC p set) eps max_it None 0 m = Ok x) /\
  (forall set (m : hmm K) x, bw_loop (round_HMM 1 set) eps max_it None 0 m = Ok x -> bw_loop (round_HMM p set) eps max_it None 0 m = Ok x) /\
  (forall set (m : mdp K) x, bw_loop (round_MDP 1 set) eps max_it None 0 m = Ok x -> bw_loop (round_MDP p set) eps max_it None 0 m = Ok x) /\
  (forall fixed set (m : ctmc K) x, bw_loop (round_CTMC_timed 1 fixed set) eps max_it None 0 m = Ok x -> bw_loop (round_CTMC_timed p fixed set) eps max_it None 0 m = Ok x) /\
  (forall fixed set (m : ctmc K) x, bw_loop (round_CTMC_untimed 1 fixed set) eps max_it None 0 m = Ok x -> bw_loop (round_CTMC_untimed p fixed set) eps max_it None 0 m = Ok x) /\
  (forall d set (m : gohmm K) x, bw_loop (round_GoHMM 1 d set) eps max_it None 0 m = Ok x -> bw_loop (round_GoHMM p d set) eps max_it None 0 m = Ok x).
Proof.
  intros K NK TK p mx eps.
  repeat split; intros; eapply loop_sub; try eassumption; intros m1 x1 E;
    unfold round_MC, update_MC, round_HMM, update_HMM, round_MDP, update_MDP, round_CTMC_timed, round_CTMC_untimed, update_CTMC, round_GoHMM, update_GoHMM in *;
    match type of E with bind (unwrap (runProcesses 1 ?w ?set)) _ = _ => destruct (unwrap (runProcesses 1 w set)) as [l|] eqn:U; [|discriminate];
      rewrite (run_one_any p w set l U), U; exact E end.
Qed.
Print Assumptions C137_processes_any_arithmetic.

(** ** Simulation in double precision only takes transitions of non-zero probability *)
Definition nonzero_prob (x : float) : Prop := PrimFloat.eqb x PrimFloat.zero = false.
Fixpoint all_steps (P : nat -> nat -> Prop) (s : nat) (x : list nat) : Prop := match x with [] => True | y :: x => P s y /\ all_steps P y x end.
Lemma drawn_nonzero (row : list float) r i : resolveRandom row r = Ok i -> (i < length row)%nat /\ nonzero_prob (vget row i).
Proof. apply (resolve_nonzero add_zero_ltb_float add_zero_eqb_float row r i eq_refl). Qed.
Lemma pyget_inv {A} (l : list A) s x d : pyget l (Z.of_nat s) = Ok x -> (s < length l)%nat /\ nth s l d = x.
Proof.
  unfold pyget. destruct (Z.ltb_spec (Z.of_nat s) 0) as [H|_]; [lia|]. destruct (Z.ltb_spec (Z.of_nat s) 0) as [H|_]; [lia|]. cbn [orb].
  destruct (Z.leb_spec (Z.of_nat (length l)) (Z.of_nat s)) as [H|H]; [discriminate|]. rewrite Nat2Z.id. destruct (nth_error l s) as [y|] eqn:E; [|discriminate].
  intros Q. injection Q as ->. split; [lia|apply nth_error_nth, E].
Qed.
Theorem C137_mc_run_double : forall (m : mc float) (n : Z) (draws : nat -> float) (tr : list string), mc_run m n (-1) draws = Ok tr ->
  exists s x, length x = Z.to_nat n /\ nonzero_prob (vget (mc_ini m) s) /\ all_steps (fun a b => nonzero_prob (mget (mc_mat m) a b)) s x /\
    tr = map (fun j => nth j (mc_lab m) EmptyString) (s :: x).
Proof.
  intros m n draws tr. unfold mc_run. change (-1 =? -1)%Z with true. cbv iota. destruct (resolveRandom (mc_ini m) (draws 0%nat)) as [s|] eqn:E0; cbn [bind]; [|discriminate].
  destruct (drawn_nonzero _ _ _ E0) as [_ N0]. intros E. exists s.
  cut (exists x, length x = Z.to_nat n /\ all_steps (fun a b => nonzero_prob (mget (mc_mat m) a b)) s x /\ tr = map (fun j => nth j (mc_lab m) EmptyString) (s :: x)).
  { intros (x & A & B & C). exists x. auto. }
  clear E0 N0. revert E. generalize 1%nat as i. generalize (Z.to_nat n) as k. intros k. revert s tr. induction k as [|k IH]; intros s tr i E; cbn [mc_run_from] in E.
  - destruct (pyget (mc_lab m) (Z.of_nat s)) as [l|] eqn:El; cbn [bind] in E; [|discriminate]. injection E as <-. apply (pyget_inv _ _ _ EmptyString) in El as [_ <-].
    exists []. repeat split.
  - unfold mc_next in E. destruct (pyget (mc_mat m) (Z.of_nat s)) as [row|] eqn:Er; cbn [bind] in E; [|discriminate].
    destruct (resolveRandom row (draws i)) as [c|] eqn:Ec; cbn [bind] in E; [|discriminate].
    destruct (pyget (mc_lab m) (Z.of_nat s)) as [l|] eqn:El; cbn [bind fst snd] in E; [|discriminate].
    destruct (mc_run_from m k (Z.of_nat c) draws (S i)) as [rest|] eqn:Ek; cbn [bind] in E; [|discriminate]. injection E as <-.
    destruct (IH c rest (S i) Ek) as (x & A & B & C). exists (c :: x). apply (pyget_inv _ _ _ EmptyString) in El as [_ <-]. apply (pyget_inv _ _ _ []) in Er as [_ Er].
    split; [cbn; congruence|]. split; [|rewrite C; reflexivity]. split; [|exact B]. unfold mget. rewrite Er. apply (drawn_nonzero _ _ _ Ec).
Qed.
Print Assumptions C137_mc_run_double.
(** HMM: the states and the observations. *)
Fixpoint emits (m : hmm float) (s : nat) (x : list nat) (tr : list string) : Prop :=
  match x, tr with
  | [], [] => True
  | y :: x, o :: tr => nonzero_prob (mget (hmm_mat m) s y) /\ (exists j, nth j (hmm_alph m) EmptyString = o /\ nonzero_prob (mget (hmm_out m) s j)) /\ emits m y x tr
  | _, _ => False
  end.
Theorem C137_hmm_run_double : forall (m : hmm float) (n : Z) (draws : nat -> float) (tr : list string), hmm_run m n (-1) draws = Ok tr ->
  exists s x, length tr = Z.to_nat n /\ nonzero_prob (vget (hmm_ini m) s) /\ emits m s x tr.
Proof.
  intros m n draws tr. unfold hmm_run. change (-1 =? -1)%Z with true. cbv iota. destruct (resolveRandom (hmm_ini m) (draws 0%nat)) as [s|] eqn:E0; cbn [bind]; [|discriminate].
  destruct (drawn_nonzero _ _ _ E0) as [_ N0]. intros E. exists s.
  cut (exists x, length tr = Z.to_nat n /\ emits m s x tr). { intros (x & A & B). exists x. auto. }
  clear E0 N0. revert E. generalize 1%nat as i. generalize (Z.to_nat n) as k. intros k. revert s tr. induction k as [|k IH]; intros s tr i E; cbn [hmm_run_from] in E.
  - injection E as <-. exists []. split; [reflexivity|exact I].
  - unfold hmm_next in E. destruct (pyget (hmm_mat m) (Z.of_nat s)) as [row|] eqn:Er; cbn [bind] in E; [|discriminate].
    destruct (resolveRandom row (draws i)) as [c|] eqn:Ec; cbn [bind] in E; [|discriminate].
    destruct (pyget (hmm_out m) (Z.of_nat s)) as [out|] eqn:Eo; cbn [bind] in E; [|discriminate].
    destruct (resolveRandom out (draws (S i))) as [o|] eqn:Eb; cbn [bind] in E; [|discriminate].
    destruct (pyget (hmm_alph m) (Z.of_nat o)) as [l|] eqn:El; cbn [bind fst snd] in E; [|discriminate].
    destruct (hmm_run_from m k (Z.of_nat c) draws (S (S i))) as [rest|] eqn:Ek; cbn [bind] in E; [|discriminate]. injection E as <-.
    destruct (IH c rest (S (S i)) Ek) as (x & A & B). exists (c :: x). split; [cbn; congruence|].
    apply (pyget_inv _ _ _ EmptyString) in El as [_ El]. apply (pyget_inv _ _ _ []) in Er as [_ Er]. apply (pyget_inv _ _ _ []) in Eo as [_ Eo].
    split; [unfold mget; rewrite Er; apply (drawn_nonzero _ _ _ Ec)|]. split; [|exact B]. exists o. split; [exact El|]. unfold mget. rewrite Eo. apply (drawn_nonzero _ _ _ Eb).
Qed.
Print Assumptions C137_hmm_run_double.
(** MDP: the actions are available ones and the transitions theirs. *)
Fixpoint acts (m : mdp float) (s : nat) (x : list (string * nat)) : Prop :=
  match x with
  | [] => True
  | (a, y) :: x => In a (getActions m s) /\ (exists k, nth_error (mdp_act m) k = Some a /\ nonzero_prob (mdp_get (mdp_mat m) s k y)) /\ acts m y x
  end.
Lemma index_nth (l : list string) o k : index_of String.eqb o l = Some k -> nth_error l k = Some o.
Proof.
  revert k. induction l as [|x l IH]; intros k E; cbn in E; [discriminate|]. destruct (String.eqb_spec o x) as [->|_]; [injection E as <-; reflexivity|].
  destruct (index_of String.eqb o l) as [j|]; [|discriminate]. injection E as <-. cbn. apply IH. reflexivity.
Qed.
Theorem C137_mdp_run_double : forall (St : Type) (m : mdp float) (sch : scheduler float St) (st : St) (n : Z) (draws : list float) (tr : list string),
  mdp_run m sch st n draws = Some (Ok tr) ->
  exists s x, length x = Z.to_nat n /\ nonzero_prob (vget (mdp_ini m) s) /\ acts m s x /\
    tr = nth s (mdp_lab m) EmptyString :: flat_map (fun ay => [fst ay; nth (snd ay) (mdp_lab m) EmptyString]) x.
Proof.
  intros St m sch st n draws tr. unfold mdp_run. destruct draws as [|r draws]; [discriminate|]. destruct (resolveRandom (mdp_ini m) r) as [s|] eqn:E0; [|discriminate].
  destruct (drawn_nonzero _ _ _ E0) as [_ N0]. intros E. exists s.
  cut (exists x, length x = Z.to_nat n /\ acts m s x /\ tr = nth s (mdp_lab m) EmptyString :: flat_map (fun ay => [fst ay; nth (snd ay) (mdp_lab m) EmptyString]) x).
  { intros (x & A & B & C). exists x. auto. }
  clear E0 N0. revert E. generalize (sch_reset sch st) as s0. clear st. generalize (Z.to_nat n) as k. intros k. revert s tr draws. induction k as [|k IH]; intros s tr draws st E; cbn [mdp_run_from] in E.
  - unfold at_list in E. destruct (nth_error (mdp_lab m) s) as [l|] eqn:El; cbn [bind] in E; [|discriminate]. injection E as <-. exists []. rewrite (nth_error_nth _ _ _ El). repeat split.
  - destruct (mdp_choose m sch st s draws) as [[[a|] d]|] eqn:Ech; [|discriminate|discriminate]. destruct d as [|r1 d]; [discriminate|].
    assert (Ha : In a (getActions m s)).
    { clear -Ech. induction draws as [|r0 draws IH]; [discriminate|]. cbn [mdp_choose] in Ech. destruct (sch_get sch st r0) as [b|]; [|discriminate].
      destruct (memb String.eqb b (getActions m s)) eqn:M; [|apply IH, Ech]. injection Ech as -> _. clear -M. induction (getActions m s) as [|y l IH]; [discriminate|]. cbn in M.
      apply orb_true_iff in M as [M|M]; [left; symmetry; apply String.eqb_eq, M|right; apply IH, M]. }
    destruct (mdp_next m s a r1) as [[s' o]|] eqn:En; [|discriminate]. destruct (sch_obs sch st o) as [st'|]; [|discriminate].
    destruct (mdp_run_from m sch k st' s' d) as [[tr'|]|] eqn:Ek; try discriminate. injection E as <-. destruct (IH s' tr' d st' Ek) as (x & A & B & C).
    unfold mdp_next, at_list in En. destruct (index_of String.eqb a (mdp_act m)) as [j|] eqn:Ej; [|discriminate].
    destruct (nth_error (mdp_mat m) s) as [rows|] eqn:E1; cbn [bind] in En; [|discriminate]. destruct (nth_error rows j) as [row|] eqn:E2; cbn [bind] in En; [|discriminate].
    destruct (resolveRandom row r1) as [c|] eqn:Ec; cbn [bind] in En; [|discriminate]. destruct (nth_error (mdp_lab m) s) as [l|] eqn:El; cbn [bind] in En; [|discriminate].
    injection En as <- <-. exists ((a, c) :: x). split; [cbn; congruence|]. split.
    + cbn [acts]. split; [exact Ha|]. split; [|exact B]. exists j. split; [apply index_nth, Ej|]. unfold mdp_get, mget. rewrite (nth_error_nth _ _ _ E1), (nth_error_nth _ _ _ E2). apply (drawn_nonzero _ _ _ Ec).
    + cbn [flat_map app fst snd]. rewrite C, (nth_error_nth _ _ _ El). reflexivity.
Qed.
Print Assumptions C137_mdp_run_double.

(** ** The hypotheses are met
    A three-state chain, two traces, three rounds with four processes; the
    logarithm does not matter (any [Trans float] will do). *)
Definition chain3 : mc float :=
  mkMC [[0.5; 0.5; 0]; [0; 0.75; 0.25]; [0; 0; 1]]%float ["a"; "b"; "a"]%string [1; 0; 0]%float "chain"%string.
Definition traces3 : list (list string * Z) := [(["a"; "a"; "b"; "a"], 2); (["a"; "b"; "b"; "b"], 1)]%string%Z.
#[local] Instance anyTrans : Trans float := {| nln := fun x => x; nexp := fun x => x; nsqrt := PrimFloat.sqrt; npi := 3%float |}.
Example C137_learning_instance :
  (exists m' c ll st, bw_loop (round_MC 4 traces3) PrimFloat.zero 3 None 0 chain3 = Ok (m', c, ll, st) /\
     PrimFloat.eqb (mget (mc_mat m') 0 1) (mget (mc_mat chain3) 0 1) = false) /\
  zero_or_nan (mget (mc_mat chain3) 1 0) /\ ~ zero_or_nan (mget (mc_mat chain3) 0 1) /\
  (exists x, bw_loop (round_MC 1 traces3) PrimFloat.zero 3 None 0 chain3 = Ok x).
Proof.
  split; [do 4 eexists; split; [vm_compute; reflexivity|vm_compute; reflexivity]|].
  split; [left; reflexivity|]. split; [intros [H|H]; vm_compute in H; discriminate|]. eexists. vm_compute. reflexivity.
Qed.
Definition draws3 (k : nat) : float := match k with O => 0.5%float | S O => 0.75%float | _ => 0.125%float end.
Example C137_run_instance : exists tr, mc_run chain3 5 (-1) draws3 = Ok tr /\ length tr = 6%nat.
Proof. eexists. split; vm_compute; reflexivity. Qed.
Definition hmm2 : hmm float := mkHMM [[0.5; 0.5]; [0; 1]]%float [[1; 0]; [0.5; 0.5]]%float ["x"; "y"]%string [1; 0]%float "h"%string.
Example C137_hmm_instance : NoDup (hmm_alph hmm2) /\ (exists tr, hmm_run hmm2 4 (-1) draws3 = Ok tr /\ length tr = 4%nat) /\
  (exists m' c ll st, bw_loop (round_HMM 2 [(["x"; "x"; "y"], 1)]%string%Z) PrimFloat.zero 2 None 0 hmm2 = Ok (m', c, ll, st) /\
     PrimFloat.eqb (mget (hmm_mat m') 0 1) (mget (hmm_mat hmm2) 0 1) = false).
Proof.
  split; [repeat constructor; cbn; intuition discriminate|]. split; [eexists; split; vm_compute; reflexivity|].
  do 4 eexists. split; vm_compute; reflexivity.
Qed.
Definition mdp2 : mdp float := mkMDP [[[0.5; 0.5]; [0; 1]]; [[0; 1]; [0; 0]]]%float ["x"; "y"]%string ["l"; "r"]%string [1; 0]%float "m"%string.
Example C137_mdp_instance : NoDup (mdp_act mdp2) /\
  (exists tr, mdp_run mdp2 (UniformScheduler ["l"; "r"]%string) tt 3 [0.5; 0.75; 0.25; 0.75; 0.75; 0.25; 0.25; 0.25; 0.25]%float = Some (Ok tr) /\ length tr = 7%nat).
Proof. split; [repeat constructor; cbn; intuition discriminate|]. eexists; split; vm_compute; reflexivity. Qed.

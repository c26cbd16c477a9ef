(** Instance of C148 for GoHMMs: one state, read [0], [2].  The first round moves
    the mean from 0 to 1 and measures the deviation from the old mean; the second
    corrects the deviation; then nothing moves. *)
From Coq Require Import String ZArith Bool Reals List Lia Lra.
From Verif Require Import Num Py SNum SPath LSum MSet SSet LSet MModels MLik MBW LFB LEM SBW LBW LBWSet LBWMC SLik LPath LLik LLik2 LBWLoop LBWPath SExp LEMGen LBWMDP LBWGO PLik LFit PBWMC PBWGO SGain LGain PGain PGain2 SGrad LGrad LGrad2 PGrad PGrad2 PGrad3 SLimit LLimit PLimit PLimit4.
Import ListNotations.
Local Open Scope R_scope.

Definition gl_one (mu sg : R) : gohmm R := mkGO [[1]] [[(mu, sg)]] [1] "one"%string.
Definition gl_set : list (list (list R) * Z) := [([[0]; [2]], 1%Z)].
Lemma gl_one_ok mu sg : 0 < sg -> wf_gohmm 1 (gl_one mu sg) /\ stochastic (go_mat (gl_one mu sg)) /\ rsum (go_ini (gl_one mu sg)) = 1 /\ go_full 1 (gl_one mu sg).
Proof.
  intros Hs. split; [|split; [|split]].
  - unfold wf_gohmm, gl_one, go_n; cbn. split; [split; [reflexivity|intros r [<-|[]]; reflexivity]|]. split; [reflexivity|]. split; [intros r [<-|[]]; reflexivity|].
    split; [reflexivity|]. intros x [<-|[]]. lra.
  - split; [intros r [<-|[]] x [<-|[]]; lra|]. intros r [<-|[]]. unfold rsum; cbn; lra.
  - unfold rsum; cbn; lra.
  - unfold go_full, pos_sigma, gl_one, go_n, stddev, matR, vecR; cbn. split; [lia|]. split; [|split].
    + intros s k A B. destruct s; [|lia]. destruct k; [|lia]. cbn. exact Hs.
    + intros s k A B. destruct s; [|lia]. destruct k; [|lia]. cbn. lra.
    + intros s A. destruct s; [|lia]. cbn. lra.
Qed.
Lemma gl_set_ok : obs_dim 1 gl_set /\ pos_times gl_set /\ varied 1 gl_set.
Proof.
  split; [|split; [|split]].
  - intros tr t [I|[]] o Io. inversion I; subst. destruct Io as [<-|[<-|[]]]; reflexivity.
  - intros [tr t] [I|[]]. inversion I; subst. cbn. lia.
  - exists [0], [[0]; [2]], 1%Z. split; [left; reflexivity|left; reflexivity].
  - intros k Hk. destruct k; [|lia]. exists [0], [2]. split; [|split; [|cbn; lra]]; exists [[0]; [2]], 1%Z; (split; [left; reflexivity|]); cbn; auto.
Qed.
Lemma gl_expected mu sg g : 0 < sg ->
  set_expected (go_trace_density_move (gl_one mu sg)) (go_expected (gl_one mu sg) g) gl_set = g [0] 0%nat 0%nat + g [2] 0%nat 0%nat.
Proof.
  intros Hs. set (m := gl_one mu sg). set (D := go_density m [0] 0 * go_density m [2] 0).
  destruct (gl_one_ok mu sg Hs) as (_ & _ & _ & F).
  assert (P : go_trace_density_move m [[0]; [2]] = D).
  { unfold go_trace_density_move, trace_prob, sumL, m, matR, vecR; cbn - [go_density]. fold m. unfold D. ring. }
  assert (E : go_expected m g [[0]; [2]] = D * (g [0] 0%nat 0%nat + g [2] 0%nat 0%nat)).
  { unfold go_expected, expected, sumL, m, matR, vecR; cbn - [go_density]. fold m. unfold D. ring. }
  assert (Pp : 0 < D).
  { rewrite <- P, <- gP_path. apply (full_P 1); [exact F|]. intros o [<-|[<-|[]]]; reflexivity. }
  unfold set_expected, sumL, gl_set. cbn [map rsum fold_right fst snd]. rewrite P, E. destruct (Rlt_dec 0 D); [|lra]. cbn. field. lra.
Qed.
Lemma gl_one_starts mu sg : 0 < sg -> set_expected (go_trace_density_move (gl_one mu sg)) (go_expected_starts (gl_one mu sg) 0) gl_set = 1.
Proof.
  intros Hs. set (m := gl_one mu sg). set (D := go_density m [0] 0 * go_density m [2] 0).
  destruct (gl_one_ok mu sg Hs) as (_ & _ & _ & F).
  assert (P : go_trace_density_move m [[0]; [2]] = D).
  { unfold go_trace_density_move, trace_prob, sumL, m, matR, vecR; cbn - [go_density]. fold m. unfold D. ring. }
  assert (E : go_expected_starts m 0 [[0]; [2]] = D).
  { unfold go_expected_starts, trace_prob, sumL, m, matR, vecR; cbn - [go_density]. fold m. unfold D. ring. }
  assert (Pp : 0 < D).
  { rewrite <- P, <- gP_path. apply (full_P 1); [exact F|]. intros o [<-|[<-|[]]]; reflexivity. }
  unfold set_expected, sumL, gl_set. cbn [map rsum fold_right fst snd]. rewrite P, E. destruct (Rlt_dec 0 D); [|lra]. cbn. field. lra.
Qed.
Lemma gl_one_round mu sg : 0 < sg -> exists ll, round_GoHMM 1 1 gl_set (gl_one mu sg) = Ok (gl_one 1 (sqrt ((mu * mu + (2 - mu) * (2 - mu)) / 2)), ll).
Proof.
  intros Hs. destruct (gl_one_ok mu sg Hs) as (W & S & I & F). destruct gl_set_ok as (Hd & HT & V). set (m := gl_one mu sg) in *.
  destruct (full_round_succeeds 1 m gl_set 1 W F Hd) as (m' & ll & E); [discriminate|]. exists ll. rewrite E. f_equal. f_equal.
  destruct (round_GoHMM_spec m 1 W (proj1 (proj2 F)) gl_set Hd (proj1 S) 1 m' ll E) as (A & B & D & Lo & Ro & Li & G & H1 & H2 & Hi & _).
  assert (Z0 : (0 < go_n m)%nat) by (cbn; lia).
  assert (ED : gDEN m gl_set 0 = 2).
  { rewrite gDEN_path by exact Z0. unfold go_expected_visits. unfold m. rewrite gl_expected by exact Hs. unfold on_leave; cbn. lra. }
  assert (EN : gNUM m gl_set 0 0 = 2).
  { rewrite gNUM_path by exact Z0. unfold go_expected_moves. unfold m. rewrite gl_expected by exact Hs. unfold on_move; cbn. lra. }
  assert (ES : forall h, gSUM m gl_set 0 0 h = h 0 + h 2).
  { intros h. rewrite gSUM_path by exact Z0. unfold go_expected_sum, m. rewrite gl_expected by exact Hs. unfold on_leave; cbn. reflexivity. }
  assert (EI : gIN m gl_set 0 = 1) by (rewrite gIN_path by exact Z0; apply gl_one_starts; exact Hs).
  specialize (G 0%nat 0%nat Z0 Z0). unfold est in G. rewrite EN, ED in G. specialize (H1 0%nat 0%nat Z0 ltac:(lia)). specialize (H2 0%nat 0%nat Z0 ltac:(lia)).
  rewrite ED, ES in H1, H2. specialize (Hi 0%nat Z0). assert (SI : Sum (go_n m) (gIN m gl_set) = 1) by (unfold Sum, sumL, rsum, m; cbn - [gIN]; fold m; rewrite EI; ring). rewrite EI, SI in Hi.
  destruct (Req_EM_T 2 0); [lra|]. change (go_n m) with 1%nat in *.
  destruct m' as [a b c nm]. cbn in *. unfold go_n in B; cbn in B. subst nm. unfold gl_one. 
  destruct D as [D1 D2]. destruct a as [|r [|]]; try discriminate. pose proof (D2 r (or_introl eq_refl)) as Lr. destruct r as [|x [|]]; try discriminate.
  destruct b as [|u [|]]; try discriminate. pose proof (Ro u (or_introl eq_refl)) as Lu. destruct u as [|[y z] [|]]; try discriminate.
  destruct c as [|v [|]]; try discriminate. cbn in *.
  assert (x = 1) by (change (x = 2 / 2) in G; lra). assert (v = 1) by (change (v = 1 / 1) in Hi; lra).
  assert (y = 1) by (change (y = (0 + 2) / 2) in H1; lra). assert (z = sqrt ((mu * mu + (2 - mu) * (2 - mu)) / 2)).
  { change (z = sqrt (((0 - mu) * (0 - mu) + (2 - mu) * (2 - mu)) / 2)) in H2. rewrite H2. f_equal. lra. }
  clear G H1 H2 Hi; congruence.
Qed.
Definition gl_run (k : nat) : gohmm R := match k with O => gl_one 0 1 | S O => gl_one 1 (sqrt 2) | _ => gl_one 1 1 end.
Example C148_gohmm_instance : gl_run 1 <> gl_run 0 /\ gl_run 2 <> gl_run 1 /\ go_good 1 (gl_run 0) /\ endless (round_GoHMM 1 1 gl_set) gl_run /\
  go_tends 1 gl_run (gl_one 1 1) /\ (exists ll, round_GoHMM 1 1 gl_set (gl_one 1 1) = Ok (gl_one 1 1, ll)) /\
  Un_cv (fun k => set_ll (go_trace_density_move (gl_run k)) gl_set) (set_ll (go_trace_density_move (gl_one 1 1)) gl_set).
Proof.
  assert (S2 : 0 < sqrt 2) by (apply sqrt_lt_R0; lra). assert (Q2 : sqrt 2 * sqrt 2 = 2) by (apply sqrt_sqrt; lra).
  destruct (gl_one_ok 0 1 ltac:(lra)) as (W & S & I & F). destruct gl_set_ok as (Hd & HT & V).
  assert (D1 : gl_run 1 <> gl_run 0) by (intros X; inversion X; lra).
  assert (D2 : gl_run 2 <> gl_run 1) by (intros X; inversion X as [Y]; rewrite <- Y in Q2; lra).
  assert (En : endless (round_GoHMM 1 1 gl_set) gl_run).
  { intros k. destruct k as [|[|k]]; cbn [gl_run].
    - destruct (gl_one_round 0 1 ltac:(lra)) as [ll E]. exists ll. rewrite E. do 3 f_equal. f_equal. lra.
    - destruct (gl_one_round 1 (sqrt 2) S2) as [ll E]. exists ll. rewrite E. do 3 f_equal. rewrite <- sqrt_1 at 5. f_equal. lra.
    - destruct (gl_one_round 1 1 ltac:(lra)) as [ll E]. exists ll. rewrite E. do 3 f_equal. rewrite <- sqrt_1 at 5. f_equal. lra. }
  assert (Ev : forall h : gohmm R -> R, Un_cv (fun k => h (gl_run k)) (h (gl_one 1 1))).
  { intros h e He. exists 2%nat. intros k Hk. destruct k as [|[|k]]; try lia. cbn [gl_run]. unfold R_dist. rewrite Rminus_eq_0, Rabs_R0. exact He. }
  assert (T : go_tends 1 gl_run (gl_one 1 1)).
  { split; [intros [|[|k]]; split; reflexivity|]. split; [split; [reflexivity|split; [intros r [<-|[]]; reflexivity|]]|split; [split; [reflexivity|]|]].
    - intros s j _ _. exact (Ev (fun x => matR (go_mat x) s j)).
    - intros s _. exact (Ev (fun x => vecR (go_ini x) s)).
    - split; [reflexivity|]. split; [intros r [<-|[]]; reflexivity|]. intros s j _ _. split; [exact (Ev (fun x => mean x s j))|exact (Ev (fun x => stddev x s j))]. }
  split; [exact D1|]. split; [exact D2|]. split; [exact (conj W (conj S (conj I F)))|]. split; [exact En|]. split; [exact T|].
  destruct (C148_gohmm_limit 1 gl_run (fun k => k) (gl_one 1 1) 1 gl_set W S I F Hd HT V En) as (X & _ & Y).
  - intros k. lia.
  - exact T.
  - apply gl_one_ok. lra.
  - intros s Hs. destruct s; [|cbn in Hs; lia]. unfold go_expected_visits. rewrite gl_expected by lra. unfold on_leave; cbn. lra.
  - split; assumption.
Qed.

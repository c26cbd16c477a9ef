(** Theorems C129, C130: fit with a number of states instead of an initial model. *)
From Coq Require Import String ZArith Bool Reals List Lra Lia.
From Verif Require Import Num Py SNum LSum SPath LPath MTools MSet SSet LSet MModels LBW SBW SLik MCtor SCtor LCtor PCtor LRun PRun MRandom PRandom MLik MBW MBWObj MPrep PPrep MInit LInit PBWMC PLik PBWObj PPool.
Import ListNotations.
Local Open Scope R_scope.

(** ** C129: the traces the first hypothesis can generate *)

Lemma choose_states n (labs : list string) t : (forall x, In x t -> exists i, (i < n)%nat /\ nth i labs EmptyString = x) ->
  exists y, (forall i, In i y -> (i < n)%nat) /\ map (labelof labs) y = t.
Proof.
  induction t as [|x t IH]; intros H; [exists []; split; [intros i []|reflexivity]|].
  destruct (H x (or_introl eq_refl)) as (i & Li & Ei). destruct IH as (y & By & Ey); [intros; apply H; right; assumption|].
  exists (i :: y). split; [intros j [<-|J]; auto|]. cbn [map]. rewrite Ei, Ey. reflexivity.
Qed.
(** The labels of the states are the first n given ones. *)
Lemma random_label_set n labels ls : random_labels n labels ls ->
  forall x, (exists i, (i < n)%nat /\ nth i ls EmptyString = x) <-> In x (firstn n labels).
Proof.
  intros (L & LI & F & A) x. destruct (Nat.le_gt_cases n (length labels)) as [C|C].
  - assert (E : forall i, (i < n)%nat -> nth i (firstn n labels) EmptyString = nth i labels EmptyString).
    { clear. revert n. induction labels as [|y l IH]; intros n i Hi; [rewrite firstn_nil; reflexivity|]. destruct n, i; cbn; try lia; auto. apply IH. lia. }
    split.
    + intros (i & Hi & <-). rewrite F, <- E by lia. apply nth_In. rewrite firstn_length. lia.
    + intros I. apply (In_nth _ _ EmptyString) in I as (i & Hi & <-). rewrite firstn_length in Hi. exists i. split; [lia|]. rewrite E, F by lia. reflexivity.
  - rewrite firstn_all2 by lia. split.
    + intros (i & Hi & <-). apply A, Hi.
    + intros I. apply (In_nth _ _ EmptyString) in I as (i & Hi & <-). exists i. split; [lia|]. apply F; lia.
Qed.

Lemma loop_support n ri pi As labels ls t : (forall A, In A As -> starts n ri true pi A) -> length As = length t ->
  (forall s, (s <= n)%nat -> pi s = if (s =? n)%nat then 1 else 0) -> (0 < n)%nat -> labels <> [] -> random_labels n labels ls ->
  (0 < trace_prob (S n) pi As (map (is_label ls) ("init"%string :: t)) <->
   (forall x, In x t -> In x (firstn n labels)) /\ (ri = false -> t = [] \/ hd EmptyString t = nth 0 labels EmptyString)).
Proof.
  intros ST L PI Pn NE RL. rewrite (starts_trace n ri true) by (assumption || apply RL).
  assert (L0 : nth 0 ls EmptyString = nth 0 labels EmptyString) by (apply RL; [lia|destruct labels; [congruence|cbn; lia]]).
  split.
  - intros (y & By & Ey & F & _). subst t. split.
    + intros x I. apply in_map_iff in I as (i & <- & I). apply (random_label_set n labels ls RL). exists i. auto.
    + intros R. destruct (F R) as [->|E]; [left; reflexivity|]. destruct y as [|s y]; [left; reflexivity|]. right. cbn [hd map] in *. subst s. exact L0.
  - intros [Al F]. destruct t as [|x t].
    + exists []. repeat split; try (intros i []); auto.
    + destruct ri.
      * destruct (choose_states n ls (x :: t)) as (y & By & Ey); [intros z I; apply (random_label_set n labels ls RL), Al, I|].
        exists y. repeat split; auto; discriminate.
      * destruct (choose_states n ls t) as (y & By & Ey); [intros z I; apply (random_label_set n labels ls RL), Al; right; exact I|].
        exists (O :: y). split; [intros i [<-|I]; auto|]. split; [cbn [map]; rewrite Ey, L0; f_equal; destruct (F eq_refl) as [E|E]; [discriminate|symmetry; exact E]|].
        split; [intros _; right; reflexivity|discriminate].
Qed.

Lemma share_dec_pos n (ri : bool) d j : (ri = true -> good_draws n d) -> (j < n)%nat ->
  (0 < (if ri then share d j else if (j =? 0)%nat then 1 else 0) <-> ri = true \/ j = O).
Proof.
  intros G L. destruct ri.
  - split; [auto|]. intros _. apply (share_pos n); auto.
  - destruct (Nat.eqb_spec j 0); split; intros H; try lra; auto. destruct H as [H|H]; [discriminate|lia].
Qed.

Lemma matR_nonneg m i j : nonneg_mat m -> 0 <= matR m i j.
Proof.
  intros N. unfold matR. destruct (nth_in_or_default i m []) as [I|E]; [|rewrite E; destruct j; cbn; lra].
  destruct (nth_in_or_default j (nth i m []) 0) as [J|E]; [apply (N _ I), J|rewrite E; lra].
Qed.
Lemma nonneg_mat_entries n m : shape (S n) m -> (forall i j, (i <= n)%nat -> (j <= n)%nat -> 0 <= matR m i j) -> nonneg_mat m.
Proof.
  intros [L R] H r I x J. apply (In_nth _ _ []) in I as (i & Li & <-). assert (Lr : length (nth i m []) = S n) by (apply R, nth_In, Li).
  apply (In_nth _ _ 0) in J as (j & Lj & <-). apply H; lia.
Qed.

(** The chain: exactly the traces over the first n labels, and, without random
    initial state, those starting with the first label. *)
Theorem C129_MC : forall n labels (ri : bool) d ch name,
  (0 < n)%nat -> labels <> [] -> ~ In "init"%string labels -> (forall k, (ch k < length labels)%nat) ->
  (forall i, (i <= n)%nat -> good_draws n (d i)) ->
  exists m, MC_random n labels ri d ch name = Ok m /\ wf_mc m /\ stochastic (mc_mat m) /\ is_dist (mc_ini m) /\
    mc_n m = S n /\ random_labels n labels (mc_lab m) /\
    forall t, 0 < mc_trace_prob m ("init"%string :: t) <->
      (forall x, In x t -> In x (firstn n labels)) /\ (ri = false -> t = [] \/ hd EmptyString t = nth 0 labels EmptyString).
Proof.
  intros n labels ri d ch name Pn NE NI C G.
  destruct (C69_MC_random n labels ri d ch name Pn NE NI C G) as (m & E & N & Sh & AD & RL & _ & M1 & M2 & M3 & MI & DI & LI).
  exists m. split; [exact E|].
  assert (NN : nonneg_mat (mc_mat m)) by (intros r I; apply AD, I).
  split; [split; [rewrite N; exact Sh|]; rewrite N; split; [apply RL|]; split; [exact LI|apply DI]|].
  split; [split; [exact NN|intros r I; apply AD, I]|]. split; [exact DI|]. split; [exact N|]. split; [exact RL|]. intros t. unfold mc_trace_prob. rewrite N.
  apply (loop_support n ri _ _ labels (mc_lab m)); try assumption.
  - intros A I. apply repeat_spec in I as ->. constructor.
    + intros i j _ _. apply matR_nonneg, NN.
    + exact MI.
    + intros j Lj. rewrite M2 by exact Lj. apply (share_dec_pos n); [intros _; apply G; lia|exact Lj].
    + intros i j Li Lj. split; [auto|]. intros _. apply M1; assumption.
    + exact M3.
  - rewrite repeat_length. cbn [length]. lia.
Qed.
Print Assumptions C129_MC.

Lemma jump_density_pos m t s s' : 0 < jump_density m t s s' <-> 0 < matR (ct_mat m) s s'.
Proof.
  unfold jump_density. pose proof (exp_pos (- (exit_rate m s * t))) as P. split; intros H.
  - destruct (Rlt_le_dec 0 (matR (ct_mat m) s s')) as [L|L]; [exact L|]. exfalso. apply (Rmult_le_compat_r (exp (- (exit_rate m s * t)))) in L; [|lra]. rewrite Rmult_0_l in L. lra.
  - apply Rmult_lt_0_compat; assumption.
Qed.

Lemma ctmc_starts n labels lo hi (loop ri : bool) d w ch name m :
  (0 < n)%nat -> (loop = false -> 2 <= n)%nat -> labels <> [] -> ~ In "init"%string labels -> (forall k, (ch k < length labels)%nat) ->
  (forall i, (i < n)%nat -> good_draws (if loop then n else n - 1) (d i)) -> (ri = true -> good_draws n (d n)) ->
  (0 < lo)%Z -> (forall i, (lo <= w i <= hi)%Z) -> CTMC_random n labels lo hi loop ri d w ch name = Ok m ->
  ct_n m = S n /\ wf_ctmc m /\ nonneg_mat (ct_mat m) /\ is_dist (ct_ini m) /\ random_labels n labels (ct_lab m) /\
  (forall s, (s <= n)%nat -> vecR (ct_ini m) s = if (s =? n)%nat then 1 else 0) /\
  forall t, starts n ri loop (vecR (ct_ini m)) (jump_density m t).
Proof.
  intros Pn P2 NE NI C G GI Plo W E.
  destruct (C69_CTMC_random n labels lo hi loop ri d w ch name Pn P2 NE NI C G GI Plo W) as (m' & E' & N & Sh & Wf & RL & _ & _ & _ & M1 & M2 & M3 & MI & DI).
  rewrite E in E'. injection E' as <-.
  assert (NN : nonneg_mat (ct_mat m)).
  { apply (nonneg_mat_entries n); [exact Sh|]. intros i j Hi Hj. destruct (Nat.eq_dec j n) as [->|]; [rewrite M3 by exact Hi; lra|].
    destruct (Nat.eq_dec i n) as [->|].
    - rewrite M2 by lia. destruct (ri) eqn:Er; [left; apply (share_pos n); [auto|lia]|]. destruct (j =? 0)%nat; lra.
    - destruct (M1 i j ltac:(lia) ltac:(lia)) as (_ & P & Z). destruct loop; [left; apply P; auto|]. destruct (Nat.eq_dec i j) as [F|F]; [rewrite Z by auto; lra|left; apply P; auto]. }
  split; [exact N|]. split; [exact Wf|]. split; [exact NN|]. split; [exact DI|].
  split; [exact RL|]. split; [exact MI|]. intros t. constructor.
  - intros i j _ _. unfold jump_density. apply Rmult_le_pos; [apply matR_nonneg, NN|left; apply exp_pos].
  - exact MI.
  - intros j Lj. rewrite jump_density_pos, M2 by exact Lj. apply (share_dec_pos n); assumption.
  - intros i j Li Lj. rewrite jump_density_pos. destruct (M1 i j Li Lj) as (_ & P & Z). split; [|exact P]. intros H. destruct loop; [auto|]. right. intros F. rewrite Z in H by auto. lra.
  - intros i Li. unfold jump_density. rewrite M3 by exact Li. ring.
Qed.

(** The CTMC with self loops: the same traces, for all dwell times. *)
Theorem C129_CTMC_self_loops : forall n labels lo hi (ri : bool) d w ch name,
  (0 < n)%nat -> labels <> [] -> ~ In "init"%string labels -> (forall k, (ch k < length labels)%nat) ->
  (forall i, (i < n)%nat -> good_draws n (d i)) -> (ri = true -> good_draws n (d n)) ->
  (0 < lo)%Z -> (forall i, (lo <= w i <= hi)%Z) ->
  exists m, CTMC_random n labels lo hi true ri d w ch name = Ok m /\ wf_ctmc m /\
    forall t dwell, length dwell = length t ->
      (0 < ct_density m ("init"%string :: t, dwell) <->
       (forall x, In x t -> In x (firstn n labels)) /\ (ri = false -> t = [] \/ hd EmptyString t = nth 0 labels EmptyString)).
Proof.
  intros n labels lo hi ri d w ch name Pn NE NI C G GI Plo W.
  assert (P2 : true = false -> (2 <= n)%nat) by discriminate.
  destruct (C69_CTMC_random n labels lo hi true ri d w ch name Pn P2 NE NI C G GI Plo W) as (m & E & _).
  destruct (ctmc_starts n labels lo hi true ri d w ch name m Pn P2 NE NI C G GI Plo W E) as (N & Wf & _ & _ & RL & MI & ST).
  exists m. split; [exact E|]. split; [exact Wf|]. intros t dwell L. unfold ct_density. cbn [fst snd]. rewrite N.
  apply (loop_support n ri _ _ labels (ct_lab m)); try assumption.
  - intros A I. apply in_map_iff in I as (x & <- & _). apply ST.
  - rewrite map_length. exact L.
Qed.
Print Assumptions C129_CTMC_self_loops.

(** Without self loops (the default of fit): the traces in which two successive
    labels differ ... *)
Theorem C129_CTMC_default_partial : forall n labels lo hi d w ch name,
  (2 <= n)%nat -> labels <> [] -> ~ In "init"%string labels -> (forall k, (ch k < length labels)%nat) ->
  (forall i, (i < n)%nat -> good_draws (n - 1) (d i)) -> good_draws n (d n) ->
  (0 < lo)%Z -> (forall i, (lo <= w i <= hi)%Z) ->
  exists m, CTMC_random n labels lo hi false true d w ch name = Ok m /\ wf_ctmc m /\
    forall t dwell, length dwell = length t -> (forall x, In x t -> In x (firstn n labels)) ->
      (forall u x y v, t = u ++ x :: y :: v -> x <> y) -> 0 < ct_density m ("init"%string :: t, dwell).
Proof.
  intros n labels lo hi d w ch name Pn NE NI C G GI Plo W.
  assert (P1 : (0 < n)%nat) by lia.
  destruct (C69_CTMC_random n labels lo hi false true d w ch name P1 (fun _ => Pn) NE NI C G (fun _ => GI) Plo W) as (m & E & _).
  destruct (ctmc_starts n labels lo hi false true d w ch name m P1 (fun _ => Pn) NE NI C G (fun _ => GI) Plo W E) as (N & Wf & _ & _ & RL & MI & ST).
  exists m. split; [exact E|]. split; [exact Wf|]. intros t dwell L Al D. unfold ct_density. cbn [fst snd]. rewrite N.
  apply (starts_trace n true false); [intros A I; apply in_map_iff in I as (x & <- & _); apply ST|rewrite map_length; exact L|exact MI|exact P1|apply RL|].
  destruct (choose_states n (ct_lab m) t) as (y & By & Ey); [intros z I; apply (random_label_set n labels _ RL), Al, I|].
  exists y. split; [exact By|]. split; [exact Ey|]. split; [discriminate|]. intros _. subst t. clear - D. induction y as [|a [|b y] IH]; [exact I|exact I|].
  split.
  - intros ->. apply (D [] (nth b (ct_lab m) EmptyString) (nth b (ct_lab m) EmptyString) (map (labelof (ct_lab m)) y)); reflexivity.
  - apply IH. intros u x z v F. apply (D (nth a (ct_lab m) EmptyString :: u) x z v). cbn [map app] in *. rewrite F. reflexivity.
Qed.
Print Assumptions C129_CTMC_default_partial.
(** ... but with one state per label a repeated label is impossible. *)
Theorem C129_CTMC_repeated_label_refuted : forall n labels lo hi (ri : bool) d w ch name m,
  (2 <= n)%nat -> NoDup labels -> (n <= length labels)%nat -> ~ In "init"%string labels -> (forall k, (ch k < length labels)%nat) ->
  (forall i, (i < n)%nat -> good_draws (n - 1) (d i)) -> (ri = true -> good_draws n (d n)) ->
  (0 < lo)%Z -> (forall i, (lo <= w i <= hi)%Z) ->
  CTMC_random n labels lo hi false ri d w ch name = Ok m ->
  forall u x v dwell, length dwell = length (u ++ x :: x :: v) -> ct_density m ("init"%string :: u ++ x :: x :: v, dwell) = 0.
Proof.
  intros n labels lo hi ri d w ch name m Pn ND Ln NI C G GI Plo W E u x v dwell L.
  assert (P1 : (0 < n)%nat) by lia. assert (NE : labels <> []) by (destruct labels; [cbn in Ln; lia|discriminate]).
  destruct (ctmc_starts n labels lo hi false ri d w ch name m P1 (fun _ => Pn) NE NI C G GI Plo W E) as (N & Wf & NN & DI & RL & MI & ST).
  assert (P : 0 <= ct_density m ("init"%string :: u ++ x :: x :: v, dwell)).
  { unfold ct_density, trace_prob. apply sumL_nonneg. intros y I. pose proof (paths_range _ _ _ I) as B. pose proof (paths_length _ _ _ I) as Ly. apply Rmult_le_pos; [unfold vecR; destruct (nth_in_or_default (hd O y) (ct_ini m) 0) as [J|F]; [apply DI, J|rewrite F; lra]|].
    apply (path_weight_nonneg (ct_n m)); [exact B| |].
    - intros A i j J _ _. apply in_map_iff in J as (z & <- & _). unfold jump_density. apply Rmult_le_pos; [apply matR_nonneg, NN|left; apply exp_pos].
    - intros b i J _. apply in_map_iff in J as (? & <- & _). apply is_label_nonneg. }
  destruct P as [P|P]; [|symmetry; exact P]. exfalso. unfold ct_density in P. cbn [fst snd] in P. rewrite N in P.
  apply (starts_trace n ri false) in P; [|intros A I; apply in_map_iff in I as (z & <- & _); apply ST|rewrite map_length; exact L|exact MI|exact P1|apply RL].
  destruct P as (y & By & Ey & _ & H). specialize (H eq_refl).
  assert (INJ : forall i j, (i < n)%nat -> (j < n)%nat -> nth i (ct_lab m) EmptyString = nth j (ct_lab m) EmptyString -> i = j).
  { intros i j Hi Hj F. destruct RL as (_ & _ & F1 & _). rewrite !F1 in F by lia. apply (proj1 (NoDup_nth labels EmptyString) ND); lia || exact F. }
  clear - By Ey H INJ. revert u Ey. induction y as [|a y IH]; intros u Ey; [destruct u; discriminate|].
  destruct u as [|o u].
  - cbn [app map] in Ey. injection Ey as E1 E2. destruct y as [|b y]; [discriminate|]. injection E2 as E2 _. cbn [chain] in H. destruct H as [H _]. apply H. apply INJ; [apply By; left; reflexivity|apply By; right; left; reflexivity|congruence].
  - cbn [app map] in Ey. injection Ey as _ E2. apply (IH (fun i I => By i (or_intror I))) with u; [|exact E2]. destruct y as [|b y]; [exact I|apply H].
Qed.
Print Assumptions C129_CTMC_repeated_label_refuted.

Lemma evens_odds_length {E} (l : list E) : (length (evens l) = length (odds l) \/ length (evens l) = S (length (odds l)))%nat /\ (length (evens l) + length (odds l) = length l)%nat.
Proof.
  induction l as [|x l [IH1 IH2]]; [split; [left|]; reflexivity|]. cbn [evens odds length]. split; [|lia]. destruct IH1 as [IH1|IH1]; [right|left]; lia.
Qed.
Lemma act_mat_starts n labels actions alphabet (ri : bool) d dest ch name m a :
  (0 < n)%nat -> actions <> [] -> labels <> [] -> ~ In "init"%string labels -> (forall k, (ch k < length labels)%nat) ->
  (forall s a, (s < n)%nat -> (a < length actions)%nat -> good_draws n (d s a)) -> (ri = true -> good_draws n (d n O)) ->
  MDP_random n labels actions alphabet ri false d dest ch name = Ok m -> In a actions ->
  starts n ri true (vecR (mdp_ini m)) (act_mat m a).
Proof.
  intros Pn NA NE NI C G GI E Ia.
  destruct (C69_MDP_random n labels actions alphabet ri d dest ch name Pn NA NE NI C G GI) as (m' & E' & N & EA & RL & _ & SH & M1 & M2 & M3 & MI & _).
  rewrite E in E'. injection E' as <-.
  assert (NN : nonneg_mdp m) by (intros ra I r J; apply (SH ra I), J).
  apply (In_nth _ _ EmptyString) in Ia as (k & Lk & Ek).
  assert (POS : forall i j (P : Prop), (forall q, (q < length actions)%nat -> (0 < nth j (nth q (nth i (mdp_mat m) []) []) 0 <-> P)) -> (0 < act_mat m a i j <-> P)).
  { intros i j P H. unfold act_mat. rewrite EA. split.
    - intros S. unfold Sum in S. apply sumL_pos_exists in S as (q & Iq & S). apply in_seq in Iq. destruct (String.eqb _ _); [|lra]. apply (H q); [lia|exact S].
    - intros p. unfold Sum. apply (sumL_pos _ _ k).
      + intros q _. destruct (String.eqb _ _); [|lra]. destruct (nth_in_or_default i (mdp_mat m) []) as [I|F]; [|rewrite F; destruct q, j; cbn; lra].
        destruct (nth_in_or_default q (nth i (mdp_mat m) []) []) as [J|F]; [|rewrite F; destruct j; cbn; lra].
        destruct (nth_in_or_default j (nth q (nth i (mdp_mat m) []) []) 0) as [L|F]; [apply (NN _ I _ J), L|rewrite F; lra].
      + apply in_seq. lia.
      + rewrite Ek, String.eqb_refl. apply H; assumption. }
  constructor.
  - intros i j _ _. apply act_mat_nonneg, NN.
  - exact MI.
  - intros j Lj. apply POS. intros q Lq. rewrite M2 by assumption. apply (share_dec_pos n); assumption.
  - intros i j Li Lj. apply POS. intros q Lq. split; [auto|]. intros _. apply M1; assumption.
  - intros i Li. unfold act_mat. rewrite EA. apply Sum_zero_ext. intros q Lq. rewrite M3 by assumption. destruct (String.eqb _ _); reflexivity.
Qed.

(** The MDP: the same observations, whatever the known actions. *)
Theorem C129_MDP : forall n labels actions alphabet (ri : bool) d dest ch name,
  (0 < n)%nat -> actions <> [] -> NoDup actions -> labels <> [] -> ~ In "init"%string labels -> (forall k, (ch k < length labels)%nat) ->
  (forall s a, (s < n)%nat -> (a < length actions)%nat -> good_draws n (d s a)) -> (ri = true -> good_draws n (d n O)) ->
  exists m, MDP_random n labels actions alphabet ri false d dest ch name = Ok m /\ wf_mdp m /\ nonneg_mdp m /\ mdp_n m = S n /\ mdp_act m = actions /\
    random_labels n labels (mdp_lab m) /\ is_dist (mdp_ini m) /\ (forall ra, In ra (mdp_mat m) -> forall r, In r ra -> is_dist r) /\
    forall tr t, Nat.odd (length tr) = true -> evens tr = "init"%string :: t -> (forall a, In a (odds tr) -> In a actions) ->
      (0 < mdp_trace_prob m tr <->
       (forall x, In x t -> In x (firstn n labels)) /\ (ri = false -> t = [] \/ hd EmptyString t = nth 0 labels EmptyString)).
Proof.
  intros n labels actions alphabet ri d dest ch name Pn NA ND NE NI C G GI.
  destruct (C69_MDP_random n labels actions alphabet ri d dest ch name Pn NA NE NI C G GI) as (m & E & N & EA & RL & _ & SH & M1 & M2 & M3 & MI & DI & LI).
  exists m. split; [exact E|].
  assert (NN : nonneg_mdp m) by (intros ra I r J; apply (SH ra I), J).
  split.
  { split; [intros ra I; rewrite EA; split; [apply SH, I|intros r J; rewrite N; apply (SH ra I), J]|]. split; [rewrite N; apply RL|]. rewrite EA, N. split; [exact ND|]. split; [exact LI|apply DI]. }
  split; [exact NN|]. split; [exact N|]. split; [exact EA|]. split; [exact RL|]. split; [exact DI|]. split; [intros ra I r J; apply (proj2 (SH ra I) r J)|]. intros tr t O Ev Ac. unfold mdp_trace_prob. rewrite N, Ev.
  apply (loop_support n ri _ _ labels (mdp_lab m)); try assumption.
  - intros A I. apply in_map_iff in I as (a & <- & I). apply (act_mat_starts n labels actions alphabet ri d dest ch name m a); auto.
  - rewrite map_length. destruct (evens_odds_length tr) as [[H|H] S].
    + exfalso. assert (length tr = 2 * length (odds tr))%nat by lia. rewrite H0, Nat.odd_mul in O. discriminate.
    + rewrite Ev in H. cbn [length] in H. lia.
Qed.
Print Assumptions C129_MDP.

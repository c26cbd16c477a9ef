(** C149: the whole fit when all labels are different.  MDPs and CTMCs with dwell
    times: after one iteration the model has the observed frequencies and does not
    change any more, so fit stops within three iterations whatever the threshold. *)
From Coq Require Import String ZArith Bool Reals List Lia Lra.
From Verif Require Import Num Py SNum SPath LSum MSet SSet LSet MModels MLik MBW LFB LEM SBW LBW LBWSet SLik LPath LLik LLik2 LBWLoop LBWPath SExp LEMGen LBWMDP LBWCT PLik LFit PBWMDP PBWCT LBWMC SObs LObs PObs PObs2 PObsEx.
Import ListNotations.
Local Open Scope R_scope.
Local Open Scope string_scope.

Lemma loop_three {M} (round : M -> res (M * R)) (eps : R) (I : M -> Prop) (F : M -> M -> Prop) (L : M -> R) : 0 < eps ->
  (forall m, I m -> exists m', round m = Ok (m', L m) /\ I m' /\ F m m') ->
  (forall x y z, F x y -> F y z -> F x z) -> (forall m m1 m2, I m -> I m1 -> F m m1 -> F m1 m2 -> round m = Ok (m1, L m) -> L m2 = L m1) ->
  forall n m, I m -> exists m' c ll stopped, bw_loop round eps (S n) None 0 m = Ok (m', c, Some ll, stopped) /\ F m m' /\ (c <= 3)%nat /\ ((2 <= n)%nat -> stopped = true).
Proof.
  intros He HR HF HL n m Im. destruct (HR m Im) as (m1 & E1 & I1 & F1). destruct (HR m1 I1) as (m2 & E2 & I2 & F2). destruct (HR m2 I2) as (m3 & E3 & I3 & F3).
  pose proof (HL m m1 m2 Im I1 F1 F2 E1) as Lq. pose proof (HF _ _ _ F1 F2) as F12.
  cbn [bw_loop]. rewrite E1. cbn [bind]. destruct n as [|n]; [exists m1, 1%nat, (L m), false; cbn [bw_loop]; split; [reflexivity|]; split; [exact F1|]; split; lia|].
  cbn [bw_loop]. rewrite E2. cbn [bind]. destruct (nltb (nsub (L m1) (L m)) eps) eqn:Q1.
  { exists m2, 2%nat, (L m1), true. split; [reflexivity|]. split; [exact F12|]. split; [lia|reflexivity]. }
  destruct n as [|n]; [exists m2, 2%nat, (L m1), false; cbn [bw_loop]; split; [reflexivity|]; split; [exact F12|]; split; lia|].
  cbn [bw_loop]. rewrite E3. cbn [bind]. assert (Q2 : nltb (nsub (L m2) (L m1)) eps = true) by (apply Rltb_true; nR; rewrite Lq; lra). rewrite Q2.
  exists m3, 3%nat, (L m2), true. split; [reflexivity|]. split; [exact (HF _ _ _ F12 F3)|]. split; [lia|reflexivity].
Qed.

Theorem C149_mdp_fit : forall (m : mdp R) (p max_it : nat) (set : list (list string * Z)) (eps : R),
  wf_mdp m -> nonneg_mdp m -> mdp_rows (fun x => x = 0 \/ x = 1) m -> NoDup (mdp_lab m) ->
  pos_times set -> set <> [] -> alternating_set set -> (forall tr t, In (tr, t) set -> 0 < mdp_trace_prob m tr) ->
  0 < eps -> (1 <= max_it)%nat ->
  exists m' c ll stopped, bw_loop (round_MDP p set) eps max_it None 0 m = Ok (m', c, Some ll, stopped) /\
    (c <= 3)%nat /\ ((3 <= max_it)%nat -> stopped = true) /\
    forall s j s', (s < mdp_n m)%nat -> (j < length (mdp_act m))%nat -> (s' < mdp_n m)%nat ->
      let a := nth s (mdp_lab m) EmptyString in
      let x := nth j (mdp_act m) EmptyString in
      let b := nth s' (mdp_lab m) EmptyString in
      prob_of m' s j s' = if Req_EM_T (mdp_times_left a x set) 0 then prob_of m s j s' else mdp_moves_seen a x b set / mdp_times_left a x set.
Proof.
  intros m p mx set eps W N S ND HT NE A HP He Hm. destruct mx as [|n]; [lia|].
  set (I := fun x : mdp R => mdp_ok x /\ mdp_rows (fun v => v = 0 \/ v = 1) x /\ NoDup (mdp_lab x) /\ (forall tr t, In (tr, t) set -> 0 < mdp_trace_prob x tr)).
  set (F := fun x y : mdp R => same_frame x y /\ forall s j s', (s < mdp_n x)%nat -> (j < length (mdp_act x))%nat -> (s' < mdp_n x)%nat ->
      prob_of y s j s' = if Req_EM_T (mdp_times_left (nth s (mdp_lab x) EmptyString) (nth j (mdp_act x) EmptyString) set) 0 then prob_of x s j s'
        else mdp_moves_seen (nth s (mdp_lab x) EmptyString) (nth j (mdp_act x) EmptyString) (nth s' (mdp_lab x) EmptyString) set / mdp_times_left (nth s (mdp_lab x) EmptyString) (nth j (mdp_act x) EmptyString) set).
  destruct (loop_three (round_MDP p set) eps I F (fun x => set_ll (mdp_trace_prob x) set) He) with (n := n) (m := m) as (m' & c & ll & st & E & [_ FF] & C3 & ST).
  - intros x ([Wx Nx] & Sx & NDx & Px).
    destruct (round_mdp_succeeds x set p (conj Wx Nx) A) as (x' & l & E); [|right; exact Px|].
    { destruct set as [|[tr t] r]; [congruence|]. exists tr, t. split; [left; reflexivity|]. apply (Px tr t). left. reflexivity. }
    assert (S1 : mdp_rows (fun v => v <= 1) x) by (intros s j Hs Hj; destruct (Sx s j Hs Hj) as [->| ->]; lra).
    destruct (C40_mdp_round_likelihood x x' p set l Wx Nx S1 HT A E) as (-> & _ & Q). destruct (round_mdp_ok x set p x' _ (conj Wx Nx) E HT) as [O' F']. pose proof F' as (F1 & F2 & F3 & _).
    exists x'. split; [exact E|]. split.
    + split; [exact O'|]. split; [|split; [rewrite F2; exact NDx|intros tr t J; apply (Q tr t J), (Px tr t J)]].
      intros s j Hs Hj. rewrite F1 in Hs. rewrite F3 in Hj. destruct (mdp_row_rule x set p x' _ (conj Wx Nx) E HT s j Hs Hj) as [E1|[E1 E2]]; [rewrite E1; apply Sx; assumption|].
      destruct (Sx s j Hs Hj) as [Z|Z]; [contradiction|]. right. congruence.
    + split; [exact F'|]. exact (C149_mdp_round x x' p set _ Wx Nx NDx A Px E).
  - intros x y z [(A1 & A2 & A3 & A4 & A5) B] [(D1 & D2 & D3 & D4 & D5) G]. split; [repeat split; congruence|]. intros s j s' Hs Hj Hs'. rewrite G by (rewrite ?A1, ?A3; assumption). rewrite A2, A3. rewrite (B s j s' Hs Hj Hs'). destruct (Req_EM_T _ 0); reflexivity.
  - intros x y z _ ([Wy Ny] & _ & _ & _) [(B1 & B2 & B3 & B4 & B5) B] [(A1 & A2 & A3 & A4 & A5) G] _. apply set_ll_ext. apply (mdp_agree y z set); auto; try apply Wy.
    intros s j s' Hs Hj Hs' Lt. rewrite G by assumption. destruct (Req_EM_T _ 0) as [Z0|Z0]; [lra|]. rewrite B2, B3 in *. rewrite B1 in *. rewrite (B s j s' Hs Hj Hs'). destruct (Req_EM_T _ 0); [contradiction|reflexivity].
  - split; [split; assumption|]. split; [exact S|]. split; [exact ND|exact HP].
  - exists m', c, ll, st. split; [exact E|]. split; [exact C3|]. split; [intros; apply ST; lia|exact FF].
Qed.
Print Assumptions C149_mdp_fit.

Theorem C149_ctmc_timed_fit : forall (m : ctmc R) (fixed : list (list bool)) (p max_it : nat) (set : list ((list string * list R) * Z)) (eps : R),
  wf_ctmc m -> nonneg_mat (ct_mat m) -> NoDup (ct_lab m) -> (forall s s', is_fixed fixed s s' = false) ->
  pos_times set -> set <> [] -> timed_set set -> (forall tr t d, In (tr, t) set -> In d (snd tr) -> 0 < d) ->
  (forall tr t, In (tr, t) set -> 0 < ct_density m tr) ->
  0 < eps -> (1 <= max_it)%nat ->
  exists m' c ll stopped, bw_loop (round_CTMC_timed p fixed set) eps max_it None 0 m = Ok (m', c, Some ll, stopped) /\
    (c <= 3)%nat /\ ((3 <= max_it)%nat -> stopped = true) /\
    forall s s', (s < ct_n m)%nat -> (s' < ct_n m)%nat ->
      let a := nth s (ct_lab m) EmptyString in
      let b := nth s' (ct_lab m) EmptyString in
      rate m' s s' = if Req_EM_T (ct_time_seen a set) 0 then rate m s s' else ct_moves_seen a b set / ct_time_seen a set.
Proof.
  intros m fixed p mx set eps W N ND NF HT NE A HD HP He Hm. destruct mx as [|n]; [lia|].
  set (I := fun x : ctmc R => ct_ok x /\ NoDup (ct_lab x) /\ (forall tr t, In (tr, t) set -> 0 < ct_density x tr)).
  set (F := fun x y : ctmc R => (ct_frame x y /\ square (ct_n x) (ct_mat y)) /\ forall s s', (s < ct_n x)%nat -> (s' < ct_n x)%nat ->
      rate y s s' = if Req_EM_T (ct_time_seen (nth s (ct_lab x) EmptyString) set) 0 then rate x s s'
        else ct_moves_seen (nth s (ct_lab x) EmptyString) (nth s' (ct_lab x) EmptyString) set / ct_time_seen (nth s (ct_lab x) EmptyString) set).
  destruct (loop_three (round_CTMC_timed p fixed set) eps I F (fun x => set_ll (ct_density x) set) He) with (n := n) (m := m) as (m' & c & ll & st & E & [_ FF] & C3 & ST).
  - intros x ([Wx Nx] & NDx & Px).
    destruct (round_ct_succeeds x fixed set p (conj Wx Nx) A) as (x' & l & E); [|right; exact Px|].
    { destruct set as [|[tr t] r]; [congruence|]. exists tr, t. split; [left; reflexivity|]. apply (Px tr t). left. reflexivity. }
    destruct (C41_ctmc_timed_round_likelihood x x' fixed p set l Wx Nx A HT E) as (-> & _ & Q). destruct (round_ct_ok x fixed set p x' _ (conj Wx Nx) A HT E) as [O' F']. pose proof F' as (F1 & F2 & F3 & _).
    exists x'. split; [exact E|]. split.
    + split; [exact O'|]. split; [rewrite F2; exact NDx|intros tr t J; apply (Q tr t J), (Px tr t J)].
    + split; [split; [exact F'|rewrite <- F1; apply O']|]. intros s s' Hs Hs'. exact (C149_ctmc_timed_round x x' fixed p set _ Wx Nx NDx A Px E s s' Hs Hs' (NF s s')).
  - intros x y z [[(A1 & A2 & A3 & A4) SQ] B] [[(D1 & D2 & D3 & D4) SQ2] G]. split; [split; [repeat split; congruence|rewrite <- A1; exact SQ2]|]. intros s s' Hs Hs'. rewrite G by (rewrite ?A1; assumption). rewrite A2. rewrite (B s s' Hs Hs'). destruct (Req_EM_T _ 0); reflexivity.
  - intros x y z _ ([Wy Ny] & _ & _) [[(B1 & B2 & B3 & B4) SQ] B] [[(A1 & A2 & A3 & A4) SQ2] G] _. apply set_ll_ext. apply (ct_agree y z set); auto; try apply Wy.
    intros s s' Hs Hs' Lt. rewrite G by assumption. destruct (Req_EM_T _ 0) as [Z0|Z0]; [lra|]. rewrite B2 in *. rewrite B1 in *. rewrite (B s s' Hs Hs'). destruct (Req_EM_T _ 0); [contradiction|reflexivity].
  - split; [split; assumption|]. split; [exact ND|exact HP].
  - exists m', c, ll, st. split; [exact E|]. split; [exact C3|]. split; [intros; apply ST; lia|exact FF].
Qed.
Print Assumptions C149_ctmc_timed_fit.

(** The 2-state MDP and CTMC of PObsEx satisfy the hypotheses: with a threshold of
    1/1000 and up to 100 iterations, fit stops within three and gives the
    frequencies. *)
Example C149_fit_instance :
  (exists m' c ll, bw_loop (round_MDP 1 ob_mset) (1 / 1000) 100 None 0 ob_mdp = Ok (m', c, Some ll, true) /\ (c <= 3)%nat /\ prob_of m' 0 0 1 = 1 / 3) /\
  (exists m' c ll, bw_loop (round_CTMC_timed 1 [] ob_cset) (1 / 1000) 100 None 0 ob_ct = Ok (m', c, Some ll, true) /\ (c <= 3)%nat /\ rate m' 0 1 = 1 / 2).
Proof.
  destruct C149_mdp_instance as (W & N & ND & A & P & _). destruct C149_ctmc_instance as (W2 & N2 & ND2 & A2 & P2 & _). split.
  - destruct (C149_mdp_fit ob_mdp 1 100 ob_mset (1 / 1000) W N) as (m' & c & ll & st & E & C & S & H); auto; try lra; try lia; try discriminate.
    + intros s j Hs Hj. unfold mdp_n in Hs. cbn in Hs, Hj. destruct s as [|[|s]]; [| |lia]; destruct j as [|[|j]]; try lia; unfold row_total, rsum; cbn; lra.
    + intros x [<-|[<-|[]]]; cbn; lia.
    + rewrite S in E by lia. exists m', c, ll. split; [exact E|]. split; [exact C|]. rewrite H by (unfold mdp_n; cbn; lia).
      assert (V1 : mdp_times_left "x" "a" ob_mset = 3) by (unfold mdp_times_left, total, sumL; cbn; lra).
      assert (V2 : mdp_moves_seen "x" "a" "y" ob_mset = 1) by (unfold mdp_moves_seen, total, sumL; cbn; lra).
      cbn [nth mdp_lab mdp_act ob_mdp]. rewrite V1, V2. destruct (Req_EM_T 3 0); [lra|reflexivity].
  - destruct (C149_ctmc_timed_fit ob_ct [] 1 100 ob_cset (1 / 1000) W2 N2) as (m' & c & ll & st & E & C & S & H); auto; try lra; try lia; try discriminate.
    + intros s s'. unfold is_fixed. destruct s; destruct s'; reflexivity.
    + intros x [<-|[]]; cbn; lia.
    + intros tr t d [I|[]]; inversion I; subst; intros [<-|[<-|[<-|[<-|[]]]]]; lra.
    + rewrite S in E by lia. exists m', c, ll. split; [exact E|]. split; [exact C|]. rewrite H by (unfold ct_n; cbn; lia).
      assert (V1 : ct_time_seen "x" ob_cset = 2) by (unfold ct_time_seen, total, sumL; cbn; lra).
      assert (V2 : ct_moves_seen "x" "y" ob_cset = 1) by (unfold ct_moves_seen, total, sumL; cbn; lra).
      cbn [nth ct_lab ob_ct]. rewrite V1, V2. destruct (Req_EM_T 2 0); [lra|reflexivity].
Qed.

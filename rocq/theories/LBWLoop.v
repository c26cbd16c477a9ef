(** The main loop of the Baum-Welch algorithm: invariants and termination, for
    any kind of model. *)
From Coq Require Import String ZArith Bool Reals List Lia Lra.
From Verif Require Import Num Py SNum SPath LSum MSet MModels MLik MBW LFB LEM SBW LBW LBWSet.
Import ListNotations.
Local Open Scope R_scope.

Section Loop.
  Context {M : Type} (round : M -> res (M * R)) (eps : R).

  Lemma bw_loop_inv (I : M -> Prop) : (forall m m' ll, I m -> round m = Ok (m', ll) -> I m') ->
    forall fuel prev c m m' c' ll b, I m -> bw_loop round eps fuel prev c m = Ok (m', c', ll, b) -> I m'.
  Proof.
    intros HI. induction fuel as [|fuel IH]; intros prev c m m' c' ll b Hm E; cbn in E.
    - inversion E; subst; exact Hm.
    - destruct (round m) as [[m1 l1]|] eqn:Er; [|discriminate]. cbn in E.
      destruct (match prev with None => false | Some p => _ end).
      + inversion E; subst. exact (HI _ _ _ Hm Er).
      + exact (IH _ _ _ _ _ _ _ (HI _ _ _ Hm Er) E).
  Qed.
  (** a relation between the initial and the final model *)
  Lemma bw_loop_rel (I : M -> Prop) (Q : M -> M -> Prop) : (forall m, Q m m) -> (forall x y z, Q x y -> Q y z -> Q x z) ->
    (forall m m' ll, I m -> round m = Ok (m', ll) -> I m' /\ Q m m') ->
    forall fuel prev c m m' c' ll b, I m -> bw_loop round eps fuel prev c m = Ok (m', c', ll, b) -> I m' /\ Q m m'.
  Proof.
    intros Rf Tr HI fuel prev c m m' c' ll b Hm E.
    apply (bw_loop_inv (fun x => I x /\ Q m x)) in E; auto.
    intros x x' l [Ix Qx] Er. destruct (HI _ _ _ Ix Er). split; [assumption|]. eapply Tr; eassumption.
  Qed.

  Lemma bw_loop_count : forall fuel prev c m m' c' ll b, bw_loop round eps fuel prev c m = Ok (m', c', ll, b) ->
    (c' <= c + fuel)%nat /\ (b = false -> c' = (c + fuel)%nat).
  Proof.
    induction fuel as [|fuel IH]; intros prev c m m' c' ll b E; cbn in E.
    - inversion E; subst. split; intros; lia.
    - destruct (round m) as [[m1 l1]|] eqn:Er; [|discriminate]. cbn in E.
      destruct (match prev with None => false | Some p => _ end).
      + inversion E; subst. split; [lia|discriminate].
      + apply IH in E. destruct E as [A B]. split; [lia|]. intros Hb. rewrite B by exact Hb. lia.
  Qed.

  (** once stopped, more fuel changes nothing *)
  Lemma bw_loop_more : forall fuel extra prev c m m' c' ll, bw_loop round eps fuel prev c m = Ok (m', c', ll, true) ->
    bw_loop round eps (fuel + extra) prev c m = Ok (m', c', ll, true).
  Proof.
    induction fuel as [|fuel IH]; intros extra prev c m m' c' ll E; cbn in E |- *.
    - discriminate.
    - destruct (round m) as [[m1 l1]|] eqn:Er; [|discriminate]. cbn in E |- *.
      destruct (match prev with None => false | Some p => _ end); [exact E|]. apply IH. exact E.
  Qed.

  (** Termination: the value reported by a round is the likelihood of the model it
      starts from, which is bounded. *)
  Lemma bw_loop_terminates (I : M -> Prop) (L : M -> R) (U : R) : 0 < eps ->
    (forall m, I m -> L m <= U /\ exists m', round m = Ok (m', L m) /\ I m') ->
    forall fuel q c m, I m -> q <= U -> U - q < INR fuel * eps ->
    exists m' c' ll, bw_loop round eps fuel (Some q) c m = Ok (m', c', Some ll, true).
  Proof.
    intros He HI. induction fuel as [|fuel IH]; intros q c m Im Hq Hf.
    - cbn in Hf. lra.
    - cbn [bw_loop]. destruct (HI m Im) as [HL [m' [-> Im']]]. cbn [bind].
      destruct (nltb (nsub (L m) q) eps) eqn:E; [eauto|]. apply Rltb_false in E. nR.
      apply IH; auto. rewrite S_INR in Hf. nra.
  Qed.
  Lemma bw_terminates_ub (I : M -> Prop) (L : M -> R) (U : R) : 0 < eps ->
    (forall m, I m -> L m <= U /\ exists m', round m = Ok (m', L m) /\ I m') ->
    forall N m, I m -> U - L m < INR N * eps ->
    exists m' c' ll, bw_loop round eps (S N) None 0 m = Ok (m', c', Some ll, true) /\ (c' <= S N)%nat.
  Proof.
    intros He HI N m Im HN. destruct (HI m Im) as [HL [m1 [Er Im1]]].
    destruct (bw_loop_terminates I L U He HI N (L m) 1 m1 Im1 HL HN) as [m' [c' [ll E]]].
    exists m', c', ll. assert (E' : bw_loop round eps (S N) None 0 m = Ok (m', c', Some ll, true)).
    { cbn [bw_loop]. rewrite Er. exact E. }
    split; [exact E'|]. apply bw_loop_count in E'. lia.
  Qed.
  Lemma bw_terminates (I : M -> Prop) (L : M -> R) : 0 < eps ->
    (forall m, I m -> L m <= 0 /\ exists m', round m = Ok (m', L m) /\ I m') ->
    forall N m, I m -> - L m < INR N * eps ->
    exists m' c' ll, bw_loop round eps (S N) None 0 m = Ok (m', c', Some ll, true) /\ (c' <= S N)%nat.
  Proof. intros He HI N m Im HN. apply (bw_terminates_ub I L 0 He HI N m Im). lra. Qed.

  (** likelihood along the loop *)
  Lemma bw_loop_mono (I : M -> Prop) (L : M -> R) :
    (forall m m' ll, I m -> round m = Ok (m', ll) -> I m' /\ L m <= L m') ->
    forall fuel prev c m m' c' ll b, I m -> bw_loop round eps fuel prev c m = Ok (m', c', ll, b) -> I m' /\ L m <= L m'.
  Proof.
    intros HI. apply (bw_loop_rel I (fun x y => L x <= L y)); auto.
    - intros; lra.
    - intros x y z A B; lra.
  Qed.
End Loop.

(** When the round of one process succeeds, results of the pool and of the single
    process agree; successes characterised. *)
Lemma unwrap_run_one {S T} p (work : S -> Z -> option T) set : (p <= 1)%nat ->
  (forall st, In st set -> work (fst st) (snd st) <> None) -> unwrap (runProcesses p work set) = Ok (goods work set).
Proof.
  intros Hp H. unfold runProcesses. destruct (Nat.ltb_spec 1 p); [lia|]. unfold unwrap.
  induction set as [|st set IH]; [reflexivity|]. cbn [map mmap goods flat_map].
  destruct (work (fst st) (snd st)) eqn:E; [|exfalso; apply (H st); [left; reflexivity|exact E]].
  cbn [bind]. rewrite IH by (intros st' I; apply H; right; exact I). reflexivity.
Qed.
Lemma unwrap_run_one_err {S T} p (work : S -> Z -> option T) set : (p <= 1)%nat ->
  (exists st, In st set /\ work (fst st) (snd st) = None) -> unwrap (runProcesses p work set) = Err TypeError.
Proof.
  intros Hp [st [I E]]. unfold runProcesses. destruct (Nat.ltb_spec 1 p); [lia|]. unfold unwrap.
  induction set as [|st0 set IH]; [destruct I|]. cbn [map mmap]. destruct I as [->|I].
  - rewrite E. reflexivity.
  - destruct (work (fst st0) (snd st0)); [|reflexivity]. cbn [bind]. rewrite IH by exact I. reflexivity.
Qed.

(** Invariant, progress and termination of the pool. *)
From Coq Require Import List ZArith Bool Lia Arith.
From Verif Require Import Num Py MPool.
Import ListNotations.

Lemma upd_length {A} (l : list A) i x : length (upd l i x) = length l.
Proof. revert i. induction l as [|a l IH]; intros [|i]; cbn; auto. Qed.
Lemma upd_nth_error {A} (l : list A) i x j : i < length l -> nth_error (upd l i x) j = if i =? j then Some x else nth_error l j.
Proof.
  revert i j. induction l as [|a l IH]; intros i j H; [cbn in H; lia|]. destruct i as [|i], j as [|j]; cbn; auto.
  apply IH. cbn in H. lia.
Qed.

Section PoolProofs.
  Context {X A : Type} (work : X -> res A) (procs : nat) (tasks : list X).
  Notation n := (length tasks).
  Notation st0 := (pool_init (A := A) tasks).

  Definition pinv (st : pool A) : Prop :=
    length (slots st) = n /\ submitted st <= n /\ taken st <= submitted st /\
    (forall i, In i (running st) -> i < taken st) /\
    length (running st) <= procs /\
    (forall i r, nth_error (slots st) i = Some (Some r) -> exists x, nth_error tasks i = Some x /\ r = work x) /\
    (forall i, i < taken st -> In i (running st) \/ exists r, nth_error (slots st) i = Some (Some r)) /\
    mmap work (firstn (length (got st)) tasks) = Ok (got st) /\ length (got st) <= n /\
    (got st <> [] -> submitted st = n) /\
    (forall e, raised st = Some e -> submitted st = n /\ exists x, nth_error tasks (length (got st)) = Some x /\ work x = Err e).

  Lemma pinv_init : pinv st0.
  Proof.
    unfold pinv; cbn. split; [apply repeat_length|]. split; [lia|]. split; [lia|]. split; [intros i []|]. split; [lia|]. split.
    { intros i r H. apply nth_error_In in H. apply repeat_spec in H. discriminate. }
    split; [intros i Hi; lia|]. split; [reflexivity|]. split; [lia|]. split; [congruence|discriminate].
  Qed.
  Lemma mmap_snoc {B C} (f : B -> res C) l x ys y : mmap f l = Ok ys -> f x = Ok y -> mmap f (l ++ [x]) = Ok (ys ++ [y]).
  Proof.
    revert ys. induction l as [|b l IH]; intros ys H E; cbn in *.
    - inversion H; subst. rewrite E. reflexivity.
    - destruct (f b); [|discriminate]. cbn in *. destruct (mmap f l) as [zs|]; [|discriminate]. cbn in H. inversion H; subst.
      rewrite (IH zs eq_refl E). reflexivity.
  Qed.
  Lemma firstn_S_nth {B} (l : list B) k x : nth_error l k = Some x -> firstn (S k) l = firstn k l ++ [x].
  Proof.
    revert k. induction l as [|b l IH]; intros [|k] H; cbn in *; try discriminate.
    - inversion H; subst. reflexivity.
    - f_equal. apply IH. exact H.
  Qed.
  Lemma pinv_step a b : pinv a -> pstep work procs tasks a b -> pinv b.
  Proof.
    intros (L & Sb & Tk & Ru & Rp & Sl & Dn & G & Gl & Gs & Ra) H. destruct H; cbn in *.
    - unfold pinv; cbn. repeat split; auto; try lia; try discriminate. intros H1. specialize (Gs H1). lia.
    - unfold pinv; cbn. split; [exact L|]. split; [lia|]. split; [lia|]. split.
      { intros i [<-|Hi]; [lia|]. specialize (Ru i Hi). lia. }
      split; [lia|]. split; [exact Sl|]. split.
      { intros i Hi. destruct (Nat.eq_dec i tk) as [->|Hne]; [left; left; reflexivity|].
        destruct (Dn i ltac:(lia)) as [Hr|Hr]; [left; right; exact Hr|right; exact Hr]. }
      auto.
    - assert (Hi : i < n) by (apply nth_error_Some; congruence).
      unfold pinv; cbn. split; [rewrite upd_length; exact L|]. split; [lia|]. split; [lia|]. split.
      { intros j Hj. apply Ru. rewrite in_app_iff in Hj |- *. cbn. tauto. }
      split; [rewrite app_length in *; cbn in *; lia|]. split.
      { intros j r Hj. rewrite upd_nth_error in Hj by lia. destruct (Nat.eqb_spec i j) as [->|]; [|apply (Sl j r Hj)].
        inversion Hj; subst. eauto. }
      split; [|auto].
      intros j Hj. rewrite upd_nth_error by lia. destruct (Nat.eqb_spec i j) as [->|Hne]; [right; eauto|].
      destruct (Dn j Hj) as [Hr|Hr]; [left|right; exact Hr]. rewrite in_app_iff in Hr |- *. cbn in Hr. destruct Hr as [Hr|[Hr|Hr]]; [tauto|contradiction|tauto].
    - destruct (Sl _ _ H0) as [x [Hx Ew]].
      assert (Hg : length gt < n) by (apply nth_error_Some; congruence).
      unfold pinv; cbn. rewrite app_length; cbn. repeat split; auto; try lia; try discriminate.
      rewrite Nat.add_1_r. rewrite (firstn_S_nth tasks (length gt) x Hx). apply mmap_snoc; auto.
    - destruct (Sl _ _ H0) as [x [Hx Ew]]. unfold pinv; cbn. repeat split; auto. exists x. inversion H1; subst. split; congruence.
  Qed.
  Lemma pinv_steps k st : psteps work procs tasks k st0 st -> pinv st.
  Proof. intros H. remember st0 as s0 eqn:E. induction H; subst; [apply pinv_init|]. eapply pinv_step; eauto. Qed.

  Lemma mmap_err {B C} (f : B -> res C) l k x ys e : mmap f (firstn k l) = Ok ys -> nth_error l k = Some x -> f x = Err e -> mmap f l = Err e.
  Proof.
    revert l ys. induction k as [|k IH]; intros l ys H Hx E; destruct l as [|b l]; cbn in *; try discriminate.
    - inversion Hx; subst. rewrite E. reflexivity.
    - destruct (f b); [|discriminate]. cbn in *. destruct (mmap f (firstn k l)) as [zs|] eqn:Em; [|discriminate]. rewrite (IH l zs Em Hx E). reflexivity.
  Qed.
  Lemma outcome_value k st r : psteps work procs tasks k st0 st -> outcome tasks st = Some r -> r = mmap work tasks.
  Proof.
    intros H O. destruct (pinv_steps k st H) as (_ & _ & _ & _ & _ & _ & _ & G & Gl & _ & Ra). unfold outcome in O.
    destruct (raised st) as [e|] eqn:E.
    - inversion O; subst. destruct (Ra e eq_refl) as [_ [x [Hx Ew]]]. symmetry. eapply mmap_err; eauto.
    - destruct (_ && _) eqn:B; [|discriminate]. inversion O; subst. apply andb_true_iff in B. destruct B as [B _]. apply Nat.eqb_eq in B.
      rewrite B, firstn_all in G. symmetry; exact G.
  Qed.

  (** Progress: a state where the main process is not done has a step. *)
  Lemma progress k st : 0 < procs -> psteps work procs tasks k st0 st -> outcome tasks st = None -> exists st', pstep work procs tasks st st'.
  Proof.
    intros Hp H O. destruct (pinv_steps k st H) as (L & Sb & Tk & Ru & Rp & Sl & Dn & G & Gl & Gs & Ra). unfold outcome in O.
    destruct st as [sub tk run sl gt ex]; cbn in *. destruct ex as [e|]; [discriminate|].
    destruct (Nat.lt_ge_cases sub n) as [Hs|Hs]; [eexists; apply p_submit; exact Hs|]. assert (sub = n) by lia. subst sub.
    assert (Hg : length gt < n).
    { destruct (Nat.eqb_spec (length gt) n) as [E|E]; [rewrite Nat.eqb_refl in O; discriminate|lia]. }
    assert (Fin : forall i, In i run -> exists st', pstep work procs tasks (mkPool n tk run sl gt None) st').
    { intros i Hi. assert (Hl : i < n) by (specialize (Ru i Hi); lia). apply nth_error_Some in Hl. destruct (nth_error tasks i) as [x|] eqn:Ex; [|congruence].
      apply in_split in Hi. destruct Hi as [r1 [r2 ->]]. eexists. eapply p_finish. exact Ex. }
    destruct (nth_error sl (length gt)) as [[[a|e]|]|] eqn:E.
    - eexists. apply p_get; eauto.
    - eexists. eapply p_raise; eauto.
    - destruct (Nat.lt_ge_cases (length gt) tk) as [Ht|Ht].
      + destruct (Dn _ Ht) as [Hr|[r Hr]]; [eauto|congruence].
      + destruct run as [|i run]; [eexists; apply p_start; cbn; lia|]. apply (Fin i). left; reflexivity.
    - apply nth_error_None in E. lia.
  Qed.

  (** Every step lowers this measure, so every schedule is finite. *)
  Definition measure (st : pool A) : nat :=
    (n - submitted st) + 2 * (n - taken st) + length (running st) + (n - length (got st)) + (match raised st with None => 1 | Some _ => 0 end).
  Lemma measure_step a b : pinv a -> pstep work procs tasks a b -> S (measure b) <= measure a.
  Proof.
    intros P H. pose proof (pinv_step a b P H) as Q. destruct P as (L & Sb & Tk & Ru & Rp & Sl & Dn & G & Gl & Gs & Ra).
    destruct Q as (_ & Sb' & Tk' & _ & _ & _ & _ & _ & Gl' & _).
    unfold measure. destruct H; cbn in *; rewrite ?app_length in *; cbn in *; lia.
  Qed.
  Lemma steps_bound k st : psteps work procs tasks k st0 st -> k + measure st <= 4 * n + 1.
  Proof.
    intros H. remember st0 as s0 eqn:E. induction H; subst.
    - unfold measure; cbn. lia.
    - specialize (IHpsteps eq_refl). pose proof (measure_step b c (pinv_steps _ _ H) H0). lia.
  Qed.
  (** Some schedule reaches an outcome. *)
  Lemma outcome_exists : 0 < procs -> exists k st r, psteps work procs tasks k st0 st /\ outcome tasks st = Some r.
  Proof.
    intros Hp. assert (H : forall j k st, psteps work procs tasks k st0 st -> 4 * n + 1 - k <= j -> exists k' st' r, psteps work procs tasks k' st0 st' /\ outcome tasks st' = Some r).
    { induction j as [|j IH]; intros k st H Hk.
      - destruct (outcome tasks st) as [r|] eqn:O; [eauto|]. destruct (progress k st Hp H O) as [st' H']. exfalso.
        pose proof (steps_bound _ _ (ps_step _ _ _ _ _ _ _ H H')). lia.
      - destruct (outcome tasks st) as [r|] eqn:O; [eauto|]. destruct (progress k st Hp H O) as [st' H'].
        apply (IH (S k) st'); [eapply ps_step; eauto|lia]. }
    apply (H (4 * n + 1) 0 st0); [constructor|lia].
  Qed.
End PoolProofs.

Lemma mmap_Ok {B C} (f : B -> C) l : mmap (fun x => Ok (f x)) l = Ok (map f l).
Proof. induction l as [|a l IH]; cbn; [reflexivity|]. rewrite IH. reflexivity. Qed.

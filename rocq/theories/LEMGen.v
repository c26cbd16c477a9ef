(** Likelihood improvement for any model whose position weights are products
    of an observation factor and a transition factor; worker results. *)
From Coq Require Import String ZArith Bool Reals List Lia Lra Psatz.
From Verif Require Import Num Py SNum SPath LSum MSet MModels MLik MBW LFB LEM SBW LBW LBWSet LBWMC LLik.
Import ListNotations.
Local Open Scope R_scope.

Lemma nth_map_in {A B} (h : A -> B) l k da db : (k < length l)%nat -> nth k (map h l) db = h (nth k l da).
Proof. intros Hk. rewrite (nth_indep _ db (h da)) by (rewrite map_length; exact Hk). apply map_nth. Qed.

(** all weights vanishing at one position *)
Lemma tot_zero_pos n a W f k : (k < length W)%nat ->
  (forall s s', (s < n)%nat -> (s' < n)%nat -> nth k W (fun _ _ => 0) s s' = 0) -> tot n a W f = 0.
Proof.
  revert a k. induction W as [|w W IH]; intros a k Hk Hz; [cbn in Hk; lia|]. destruct k as [|k].
  - unfold tot. apply Sum_zero_ext. intros s Hs. cbn [Bk]. rewrite Sum_zero_ext; [ring|]. intros s' Hs'.
    specialize (Hz s s' Hs Hs'). cbn in Hz. rewrite Hz. ring.
  - rewrite tot_step. apply (IH _ k); [cbn in Hk; lia|exact Hz].
Qed.

Section Work.
  Context {S T : Type} (n : nat) (set : list (S * Z)).
  Variables (a : nat -> R) (W : S -> list (nat -> nat -> R)) (f : S -> nat -> R).
  Variables (work : S -> Z -> option T) (mk : S -> Z -> T).
  Notation P := (Pof n a W f).
  Hypothesis Hwork : forall x t, In (x, t) set -> work x t = if Req_EM_T (P x) 0 then None else Some (mk x t).
  Hypothesis HP : forall x t, In (x, t) set -> 0 <= P x.

  Lemma sumL_goods_gen (F : T -> R) : sumL (goods work set) F = psum n set a W f (fun x t => F (mk x t)).
  Proof.
    rewrite sumL_goods. unfold psum. apply sumL_ext. intros [x t] I. cbn [fst snd]. rewrite (Hwork x t I). specialize (HP x t I).
    destruct (Rlt_dec 0 (P x)); destruct (Req_EM_T (P x) 0); auto; lra.
  Qed.
  Lemma goods_form st : In st (goods work set) -> exists x t, In (x, t) set /\ 0 < P x /\ st = mk x t.
  Proof.
    intros I. apply In_goods in I. destruct I as [[x t] [I E]]. cbn [fst snd] in E. rewrite (Hwork x t I) in E.
    destruct (Req_EM_T (P x) 0); [discriminate|]. inversion E. exists x, t. specialize (HP x t I). repeat split; auto. lra.
  Qed.
  Lemma goods_ll (pt : T -> R * Z) : (forall x t, pt (mk x t) = (P x, t)) -> log_lik (map pt (goods work set)) = set_ll P set.
  Proof.
    intros E. rewrite log_lik_spec, sumL_map, sumL_goods_gen. unfold psum, set_ll. apply sumL_ext. intros [x t] I. cbn [fst snd].
    destruct (Rlt_dec 0 (P x)); [|reflexivity]. rewrite E. cbn [fst snd]. ring.
  Qed.
  Lemma goods_vsum (h : T -> list R) k : goods work set <> [] -> (forall x t, length (h (mk x t)) = k) ->
    length (vsum_all (map h (goods work set))) = k /\
    forall i, (i < k)%nat -> vget (vsum_all (map h (goods work set))) i = psum n set a W f (fun x t => vget (h (mk x t)) i).
  Proof.
    intros NE Hl. destruct (vsum_all_spec (map h (goods work set)) k) as [L E].
    - destruct (goods work set); [congruence|discriminate].
    - intros v I. apply in_map_iff in I. destruct I as [st [<- I]]. apply goods_form in I. destruct I as [x [t [_ [_ ->]]]]. apply Hl.
    - split; [exact L|]. intros i Hi. rewrite E by exact Hi. rewrite sumL_map. apply sumL_goods_gen.
  Qed.
  Lemma goods_msum (h : T -> list (list R)) r k : goods work set <> [] -> (forall x t, shaped r k (h (mk x t))) ->
    forall s i, (s < r)%nat -> (i < k)%nat ->
    mget (msum_all (map h (goods work set))) s i = psum n set a W f (fun x t => mget (h (mk x t)) s i).
  Proof.
    intros NE Hl. destruct (msum_all_spec (map h (goods work set)) r k) as [L E].
    - destruct (goods work set); [congruence|discriminate].
    - intros v I. apply in_map_iff in I. destruct I as [st [<- I]]. apply goods_form in I. destruct I as [x [t [_ [_ ->]]]]. apply Hl.
    - intros s i Hs Hi. rewrite E by assumption. rewrite sumL_map. apply sumL_goods_gen.
  Qed.
  (** when the list of results is usable and not empty *)
  Lemma goods_ne : (exists x t, In (x, t) set /\ 0 < P x) -> goods work set <> [].
  Proof.
    intros [x [t [I Px]]] E. assert (In (mk x t) (goods work set)); [|rewrite E in H; destruct H].
    apply In_goods. exists (x, t). split; [exact I|]. cbn [fst snd]. rewrite (Hwork x t I). destruct (Req_EM_T _ 0); [lra|reflexivity].
  Qed.
  Lemma goods_pos : goods work set <> [] -> exists x t, In (x, t) set /\ 0 < P x.
  Proof.
    intros NE. destruct (goods work set) as [|g l] eqn:G; [congruence|]. destruct (goods_form g) as [x [t [I [Px _]]]]; [rewrite G; left; reflexivity|].
    exists x, t. auto.
  Qed.
  Lemma unwrap_gen p : ((1 < p)%nat \/ forall x t, In (x, t) set -> 0 < P x) -> unwrap (runProcesses p work set) = Ok (goods work set).
  Proof.
    intros Hp. destruct (Nat.lt_ge_cases 1 p) as [L|L]; [apply unwrap_run_many; exact L|]. destruct Hp as [Hp|Hp]; [lia|].
    unfold runProcesses. destruct (Nat.ltb_spec 1 p); [lia|]. unfold unwrap, goods.
    assert (G : forall l, (forall st, In st l -> In st set) ->
      mmap (fun x : option T => match x with Some a => Ok a | None => Err TypeError end) (map (fun st : S * Z => work (fst st) (snd st)) l)
      = Ok (flat_map (fun st => match work (fst st) (snd st) with Some x => [x] | None => [] end) l)).
    { induction l as [|[x t] l IH]; intros Hl; [reflexivity|]. cbn [map mmap flat_map fst snd].
      assert (I : In (x, t) set) by (apply Hl; left; reflexivity). rewrite (Hwork x t I). specialize (Hp x t I). destruct (Req_EM_T _ 0); [lra|].
      cbn [bind]. rewrite IH by (intros; apply Hl; right; assumption). reflexivity. }
    apply G. auto.
  Qed.
End Work.

Section Emis.
  Context {S O : Type} (n : nat) (set : list (S * Z)) (obs : S -> list O) (f : S -> nat -> R).
  Variables (a : nat -> R) (A : O -> nat -> nat -> R) (b : O -> nat -> R).
  Variables (a' : nat -> R) (A' : O -> nat -> nat -> R) (b' : O -> nat -> R).
  Definition ew (A : O -> nat -> nat -> R) (b : O -> nat -> R) (x : S) : list (nat -> nat -> R) :=
    map (fun o s s' => b o s * A o s s') (obs x).
  Notation W := (ew A b).
  Notation W' := (ew A' b').
  Notation P := (Pof n a W f).
  Notation P' := (Pof n a' W' f).

  Definition trans_gain (s s' : nat) : R :=
    psum n set a W f (fun x t => wsum (xi n a (W x) (f x) s s') (map (fun o => ln (A' o s s' / A o s s')) (obs x)) * fac n a W f x t).
  Definition emit_gain (s : nat) : R :=
    psum n set a W f (fun x t => wsum (gam n a (W x) (f x) s) (map (fun o => ln (b' o s / b o s)) (obs x)) * fac n a W f x t).

  Hypothesis HT : pos_times set.
  Hypothesis Hf : forall x t, In (x, t) set -> okf n (f x).
  Hypothesis Ha : okf n a.
  Hypothesis Ha' : okf n a'.
  Hypothesis HA : forall x t o, In (x, t) set -> In o (obs x) -> okw n (A o) /\ okf n (b o).
  Hypothesis HA' : forall x t o, In (x, t) set -> In o (obs x) -> okw n (A' o) /\ okf n (b' o).

  Lemma ew_okw x t : In (x, t) set -> Forall (okw n) (W x).
  Proof.
    intros I. apply Forall_forall. intros w Iw. apply in_map_iff in Iw. destruct Iw as [o [<- Io]]. destruct (HA x t o I Io) as [H1 H2].
    intros s s' Hs Hs'. apply Rmult_le_pos; auto.
  Qed.
  Lemma ew_okw' x t : In (x, t) set -> Forall (okw n) (W' x).
  Proof.
    intros I. apply Forall_forall. intros w Iw. apply in_map_iff in Iw. destruct Iw as [o [<- Io]]. destruct (HA' x t o I Io) as [H1 H2].
    intros s s' Hs Hs'. apply Rmult_le_pos; auto.
  Qed.
  Lemma ew_length A0 b0 x : length (ew A0 b0 x) = length (obs x).
  Proof. apply map_length. Qed.
  Lemma ew_nth A0 b0 x k d s s' : (k < length (obs x))%nat -> nth k (ew A0 b0 x) (fun _ _ => 0) s s' = b0 (nth k (obs x) d) s * A0 (nth k (obs x) d) s s'.
  Proof. intros Hk. unfold ew. rewrite (nth_map_in _ _ _ d) by exact Hk. reflexivity. Qed.

  Lemma P_nonneg x t : In (x, t) set -> 0 <= P x.
  Proof. intros I. apply Sum_nonneg. intros s Hs. apply Rmult_le_pos; [auto|]. apply Bk_nonneg; eauto using ew_okw. Qed.

  (** a position which contributes has positive factors *)
  Lemma xi_factors x t k d s s' : In (x, t) set -> (k < length (obs x))%nat -> (s < n)%nat -> (s' < n)%nat ->
    0 < nth k (xi n a (W x) (f x) s s') 0 -> 0 < A (nth k (obs x) d) s s' /\ 0 < b (nth k (obs x) d) s.
  Proof.
    intros I Hk Hs Hs' Px. apply xi_nth_pos in Px; eauto using ew_okw. rewrite (ew_nth _ _ _ _ d) in Px by exact Hk.
    destruct (HA x t (nth k (obs x) d) I (nth_In _ _ Hk)) as [H1 H2]. specialize (H1 s s' Hs Hs'). specialize (H2 s Hs).
    split.
    - destruct (Req_dec (A (nth k (obs x) d) s s') 0) as [E|E]; [rewrite E in Px; lra|lra].
    - destruct (Req_dec (b (nth k (obs x) d) s) 0) as [E|E]; [rewrite E in Px; lra|lra].
  Qed.
  Lemma P_factors x t k d : In (x, t) set -> 0 < P x -> (k < length (obs x))%nat ->
    exists s s', (s < n)%nat /\ (s' < n)%nat /\ 0 < A (nth k (obs x) d) s s' /\ 0 < b (nth k (obs x) d) s.
  Proof.
    intros I Px Hk.
    assert (E : exists s s', (s < n)%nat /\ (s' < n)%nat /\ 0 < nth k (xi n a (W x) (f x) s s') 0).
    { pose proof (tot_gam n a (W x) (f x) k) as G. rewrite ew_length in G. specialize (G Hk). change (tot n a (W x) (f x)) with (P x) in G.
      rewrite <- G in Px. apply Sum_pos_exists in Px. destruct Px as [s [Hs Px]].
      assert (K : nth k (gam n a (W x) (f x) s) 0 = Sum n (fun s' => nth k (xi n a (W x) (f x) s s') 0)).
      { assert (Hk' : (k < length (W x))%nat) by (rewrite ew_length; exact Hk). revert Hk' Hs. clear. generalize a (W x). intros a0 l; revert a0 k.
        induction l as [|w l IH]; intros a0 k Hk Hs; [cbn in Hk; lia|]. destruct k as [|k].
        - cbn. rewrite <- Sum_scal_l. apply Sum_ext. intros; ring.
        - cbn [gam xi nth]. apply IH; [cbn in Hk; lia|exact Hs]. }
      rewrite K in Px. apply Sum_pos_exists in Px. destruct Px as [s' [Hs' Px]]. exists s, s'. auto. }
    destruct E as [s [s' [Hs [Hs' Pk]]]]. exists s, s'. split; [exact Hs|]. split; [exact Hs'|]. exact (xi_factors x t k d s s' I Hk Hs Hs' Pk).
  Qed.

  (** support and zero-preservation *)
  Hypothesis Hsupp : forall x t k d s s', In (x, t) set -> 0 < P x -> (k < length (obs x))%nat -> (s < n)%nat -> (s' < n)%nat ->
    0 < nth k (xi n a (W x) (f x) s s') 0 -> 0 < A' (nth k (obs x) d) s s' /\ 0 < b' (nth k (obs x) d) s.
  Hypothesis Hzero : forall x t o s s', In (x, t) set -> In o (obs x) -> (s < n)%nat -> (s' < n)%nat ->
    b o s * A o s s' = 0 -> b' o s * A' o s s' = 0.
  Hypothesis Hzini : forall s, (s < n)%nat -> a s = 0 -> a' s = 0.
  Hypothesis HI : forall s, (s < n)%nat -> 0 < IN n set a W f s -> 0 < a' s.
  Hypothesis Gini : 0 <= Sum n (fun s => IN n set a W f s * ln (a' s / a s)).

  Lemma ew_supp x t : In (x, t) set -> 0 < P x -> supp n a (W x) (W' x) (f x).
  Proof.
    intros I Px. apply supp_xi; [rewrite !ew_length; reflexivity|]. intros k s s' Hk Hs Hs' Pk. rewrite ew_length in Hk.
    destruct (obs x) as [|d l] eqn:Eo; [cbn in Hk; lia|]. rewrite <- Eo in Hk.
    rewrite (ew_nth _ _ _ _ d) by exact Hk. destruct (Hsupp x t k d s s' I Px Hk Hs Hs' Pk). apply Rmult_lt_0_compat; assumption.
  Qed.
  Lemma ew_len x t : In (x, t) set -> length (W x) = length (W' x).
  Proof. intros _. rewrite !ew_length. reflexivity. Qed.
  Lemma ew_zero x t : In (x, t) set -> P x = 0 -> P' x = 0.
  Proof.
    intros I Z. apply (tot_zero n a a' (W x)); eauto using ew_okw. unfold ew.
    assert (H : forall o, In o (obs x) -> In o (obs x)) by auto. revert H. generalize (obs x) at 1 3 4. induction l as [|o l IH]; intros Hin; cbn; constructor.
    - intros s s' Hs Hs'. apply (Hzero x t o s s' I); auto. apply Hin; left; reflexivity.
    - apply IH. intros; apply Hin; right; assumption.
  Qed.

  Lemma lrs_split x t s s' : In (x, t) set -> 0 < P x -> (s < n)%nat -> (s' < n)%nat ->
    wsum (xi n a (W x) (f x) s s') (lrs (W x) (W' x) s s') =
    wsum (xi n a (W x) (f x) s s') (map (fun o => ln (A' o s s' / A o s s')) (obs x)) +
    wsum (xi n a (W x) (f x) s s') (map (fun o => ln (b' o s / b o s)) (obs x)).
  Proof.
    intros I Px Hs Hs'. rewrite <- wsum_plus by (rewrite map_length, xi_length, ew_length; reflexivity).
    assert (Ll : length (lrs (W x) (W' x) s s') = length (obs x)) by (unfold lrs; rewrite zipwith_length, !ew_length; lia).
    apply wsum_agree.
    - rewrite Ll. rewrite zipwith_length, !map_length. lia.
    - intros k Hk Hk2 NZ. rewrite xi_length, ew_length in Hk. destruct (obs x) as [|d l] eqn:Eo; [cbn in Hk; lia|]. rewrite <- Eo in *.
      assert (Pk : 0 < nth k (xi n a (W x) (f x) s s') 0).
      { assert (0 <= nth k (xi n a (W x) (f x) s s') 0); [|lra]. apply (xi_nonneg n a (W x) (f x) s s'); eauto using ew_okw.
        apply nth_In. rewrite xi_length, ew_length. exact Hk. }
      destruct (xi_factors x t k d s s' I Hk Hs Hs' Pk) as [P1 P2]. destruct (Hsupp x t k d s s' I Px Hk Hs Hs' Pk) as [P3 P4].
      unfold lrs. rewrite (nth_zipwith _ _ _ _ (fun _ _ => 0) (fun _ _ => 0)) by (rewrite ew_length; exact Hk).
      rewrite (nth_zipwith _ _ _ _ 0 0) by (rewrite map_length; exact Hk).
      rewrite !(ew_nth _ _ _ _ d) by exact Hk. rewrite !(nth_map_in _ _ _ d) by exact Hk.
      set (o := nth k (obs x) d) in *.
      rewrite <- ln_mult; [|apply Rdiv_lt_0_compat; assumption|apply Rdiv_lt_0_compat; assumption].
      f_equal. field. split; lra.
  Qed.

  Lemma em_parts :
    Sum n (fun s => Sum n (fun s' => psum n set a W f (fun x t => wsum (xi n a (W x) (f x) s s') (lrs (W x) (W' x) s s') * fac n a W f x t)))
    = Sum n (fun s => Sum n (fun s' => trans_gain s s')) + Sum n emit_gain.
  Proof.
    rewrite <- Sum_plus. apply Sum_ext. intros s Hs.
    assert (E : emit_gain s = Sum n (fun s' => psum n set a W f (fun x t => wsum (xi n a (W x) (f x) s s') (map (fun o => ln (b' o s / b o s)) (obs x)) * fac n a W f x t))).
    { rewrite <- psum_Sum. apply psum_ext. intros x t I Px. rewrite gam_xi by exact Hs. rewrite Sum_scal_r. reflexivity. }
    rewrite E, <- Sum_plus. apply Sum_ext. intros s' Hs'. unfold trans_gain. rewrite <- psum_plus. apply psum_ext. intros x t I Px.
    rewrite (lrs_split x t) by assumption. ring.
  Qed.

  (** the likelihood increases by at least the gains of the parameters *)
  Lemma em_gain G : G <= Sum n (fun s => IN n set a W f s * ln (a' s / a s)) + (Sum n (fun s => Sum n (fun s' => trans_gain s s')) + Sum n emit_gain) ->
    set_ll P set + G <= set_ll P' set /\ (forall x t, In (x, t) set -> (0 < P x <-> 0 < P' x)).
  Proof.
    clear Gini. intros Gsum.
    assert (Pp : forall x t, In (x, t) set -> 0 < P x -> 0 < P' x).
    { intros x t I Px. apply (Pof'_pos n set a W f HT) with (t := t); eauto using ew_okw, ew_okw', ew_supp, ew_len. }
    split.
    - pose proof (set_ll_improve n set a W f HT) as SI. specialize (SI ew_okw Hf Ha a' W' ew_okw' Ha' ew_supp HI ew_zero).
      change (Pof' n f a' W') with P' in SI. rewrite SI. apply Rplus_le_compat_l.
      eapply Rle_trans; [|exact (em_set n set a W f HT ew_okw Hf Ha a' W' ew_okw' Ha' ew_supp HI)].
      rewrite em_parts. exact Gsum.
    - intros x t I. split; [eauto|]. intros Q. pose proof (P_nonneg x t I). destruct (Req_dec (P x) 0) as [E|E]; [|lra].
      rewrite (ew_zero x t I E) in Q. lra.
  Qed.
  Lemma em_generic_sum : 0 <= Sum n (fun s => Sum n (fun s' => trans_gain s s')) + Sum n emit_gain ->
    set_ll P set <= set_ll P' set /\ (forall x t, In (x, t) set -> (0 < P x <-> 0 < P' x)).
  Proof. intros Gsum. destruct (em_gain 0) as [H1 H2]; [lra|]. split; [lra|exact H2]. Qed.
  Hypothesis Gtrans : 0 <= Sum n (fun s => Sum n (fun s' => trans_gain s s')).
  Hypothesis Gemit : 0 <= Sum n emit_gain.
  Lemma em_generic : set_ll P set <= set_ll P' set /\ (forall x t, In (x, t) set -> (0 < P x <-> 0 < P' x)).
  Proof. apply em_generic_sum. lra. Qed.
End Emis.

(** Reestimation of the initial distribution. *)
Section Ini.
  Context {S : Type} (n : nat) (set : list (S * Z)).
  Variables (a : nat -> R) (W : S -> list (nat -> nat -> R)) (f : S -> nat -> R).
  Hypothesis HT : pos_times set.
  Hypothesis HW : forall x t, In (x, t) set -> Forall (okw n) (W x).
  Hypothesis Hf : forall x t, In (x, t) set -> okf n (f x).
  Hypothesis Ha : okf n a.
  Notation INs := (IN n set a W f).

  Lemma IN_zero s : a s = 0 -> INs s = 0.
  Proof. intros Z. apply psum_zero. intros. rewrite Z. ring. Qed.
  Lemma IN_supp s : (s < n)%nat -> 0 < INs s -> 0 < a s.
  Proof. intros Hs Q. pose proof (Ha s Hs). destruct (Req_dec (a s) 0) as [E|E]; [rewrite IN_zero in Q by exact E|]; lra. Qed.
  Lemma IN_total : (exists x t, In (x, t) set /\ 0 < Pof n a W f x) -> 0 < Sum n INs.
  Proof.
    intros [x [t [I Q]]]. unfold IN. rewrite <- psum_Sum.
    assert (E : forall x t, Sum n (fun j => a j * Bk n (W x) (f x) j * fac n a W f x t) = Pof n a W f x * fac n a W f x t).
    { intros. rewrite Sum_scal_r. reflexivity. }
    apply (psum_pos_term n set a W f _ x t); auto.
    - intros y u J Py. rewrite E. apply Rmult_le_pos; [lra|]. apply Rlt_le. apply (fac_pos n set a W f HT); auto.
    - rewrite E. apply Rmult_lt_0_compat; [exact Q|]. apply (fac_pos n set a W f HT); auto.
  Qed.
  Lemma ini_same_gain : Sum n (fun s => INs s * ln (a s / a s)) = 0.
  Proof.
    apply Sum_zero_ext. intros s Hs. destruct (Req_dec (a s) 0) as [E|E].
    - rewrite IN_zero by exact E. ring.
    - replace (a s / a s) with 1 by (field; exact E). rewrite ln_1. ring.
  Qed.
  Lemma ini_gain : (exists x t, In (x, t) set /\ 0 < Pof n a W f x) -> Sum n a <= 1 ->
    Sum n INs * Sum n (fun s => (sqrt (INs s / Sum n INs) - sqrt (a s)) ^ 2) <= Sum n (fun s => INs s * ln (INs s / Sum n INs / a s)).
  Proof.
    intros Ex S1. pose proof (IN_total Ex) as T. apply hellinger_gain; auto.
    - intros. apply IN_nonneg; auto.
    - intros; apply IN_supp; assumption.
  Qed.
  Lemma ini_new_gain : (exists x t, In (x, t) set /\ 0 < Pof n a W f x) -> Sum n a <= 1 ->
    0 <= Sum n (fun s => INs s * ln (INs s / Sum n INs / a s)).
  Proof.
    intros Ex S1. eapply Rle_trans; [|apply ini_gain; assumption]. apply Rmult_le_pos; [apply Rlt_le, IN_total, Ex|].
    apply Sum_nonneg. intros. apply pow2_ge_0.
  Qed.
End Ini.

(** Grouping positions by letter. *)
Lemma wsum_Sum {O} l J (F : O -> nat -> R) (tr : list O) :
  wsum l (map (fun o => Sum J (F o)) tr) = Sum J (fun j => wsum l (map (fun o => F o j) tr)).
Proof.
  revert l. induction tr as [|o tr IH]; intros l; cbn [map].
  - destruct l; symmetry; apply Sum_zero_ext; reflexivity.
  - destruct l as [|x l]; [symmetry; apply Sum_zero_ext; reflexivity|]. rewrite wsum_cons, IH.
    rewrite <- Sum_scal_l, <- Sum_plus. apply Sum_ext. intros j Hj. rewrite wsum_cons. reflexivity.
Qed.
Lemma wsum_scal_r {O} l (h : O -> R) c (tr : list O) : wsum l (map (fun o => h o * c) tr) = wsum l (map h tr) * c.
Proof.
  revert l. induction tr as [|o tr IH]; intros [|x l]; cbn [map]; try (cbn; ring). rewrite !wsum_cons, IH. ring.
Qed.
Definition letter (alph : list string) (j : nat) (o : string) : R := if String.eqb (nth j alph EmptyString) o then 1 else 0.
Lemma letter_sum alph (g : string -> R) o : NoDup alph -> In o alph ->
  Sum (length alph) (fun j => letter alph j o * g (nth j alph EmptyString)) = g o.
Proof.
  intros ND I. apply (In_nth _ _ EmptyString) in I. destruct I as [i [Hi <-]].
  rewrite (Sum_ext _ _ (fun j => if Nat.eqb j i then g (nth i alph EmptyString) else 0)).
  - apply (Sum_indicator_in _ i (fun _ => g (nth i alph EmptyString))). exact Hi.
  - intros j Hj. unfold letter. destruct (Nat.eqb_spec j i) as [->|NE].
    + rewrite String.eqb_refl. ring.
    + destruct (String.eqb_spec (nth j alph EmptyString) (nth i alph EmptyString)) as [E|]; [|ring].
      exfalso. apply NE. apply (NoDup_nth alph EmptyString); auto.
Qed.
Lemma letter_sum_out alph (g : string -> R) o : ~ In o alph ->
  Sum (length alph) (fun j => letter alph j o * g (nth j alph EmptyString)) = 0.
Proof.
  intros I. apply Sum_zero_ext. intros j Hj. unfold letter. destruct (String.eqb_spec (nth j alph EmptyString) o) as [E|]; [|ring].
  exfalso. apply I. rewrite <- E. apply nth_In. exact Hj.
Qed.
Lemma by_letters {O} alph (key : O -> string) (g : string -> R) l (tr : list O) : NoDup alph -> (forall o, In o tr -> In (key o) alph) ->
  wsum l (map (fun o => g (key o)) tr) =
  Sum (length alph) (fun j => wsum l (map (fun o => letter alph j (key o)) tr) * g (nth j alph EmptyString)).
Proof.
  intros ND Hin. rewrite (map_ext_in (fun o => g (key o)) (fun o => Sum (length alph) (fun j => letter alph j (key o) * g (nth j alph EmptyString)))).
  - rewrite wsum_Sum. apply Sum_ext. intros j Hj. apply wsum_scal_r.
  - intros o Io. symmetry. apply letter_sum; auto.
Qed.

(** Expected visits stay positive when the support of the weights is kept. *)
Lemma wsum_pos_exists l c : (forall x, In x l -> 0 <= x) -> (forall x, In x c -> 0 <= x) -> 0 < wsum l c ->
  exists k, (k < length l)%nat /\ (k < length c)%nat /\ 0 < nth k l 0 /\ 0 < nth k c 0.
Proof.
  revert c. induction l as [|x l IH]; intros c Hl Hc P; [rewrite wsum_nil_l in P; lra|]. destruct c as [|y c]; [cbn in P; lra|].
  rewrite wsum_cons in P. pose proof (Hl x (or_introl eq_refl)) as X. pose proof (Hc y (or_introl eq_refl)) as Y.
  destruct (Rlt_dec 0 (wsum l c)) as [Q|Q].
  - destruct (IH c) as [k [K1 [K2 [K3 K4]]]]; auto; [intros; apply Hl; right; assumption|intros; apply Hc; right; assumption|].
    exists (Datatypes.S k). cbn. repeat split; auto; lia.
  - exists O. cbn. assert (0 < x * y) by lra. repeat split; try lia.
    + destruct (Req_dec x 0) as [E|E]; [rewrite E, Rmult_0_l in H|]; lra.
    + destruct (Req_dec y 0) as [E|E]; [rewrite E, Rmult_0_r in H|]; lra.
Qed.
Lemma wsum_pos l c k : (forall x, In x l -> 0 <= x) -> (forall x, In x c -> 0 <= x) -> 0 < nth k l 0 -> 0 < nth k c 0 -> 0 < wsum l c.
Proof.
  revert c k. induction l as [|x l IH]; intros c k Hl Hc P Q; [destruct k; cbn in P; lra|]. destruct c as [|y c]; [destruct k; cbn in Q; lra|].
  rewrite wsum_cons. pose proof (Hl x (or_introl eq_refl)) as X. pose proof (Hc y (or_introl eq_refl)) as Y.
  assert (HL : forall x, In x l -> 0 <= x) by (intros; apply Hl; right; assumption).
  assert (HC : forall x, In x c -> 0 <= x) by (intros; apply Hc; right; assumption).
  destruct k as [|k]; cbn in P, Q.
  - pose proof (wsum_nonneg l c HL HC). pose proof (Rmult_lt_0_compat x y P Q). lra.
  - pose proof (IH c k HL HC P Q). pose proof (Rmult_le_pos x y X Y). lra.
Qed.
Lemma GA_pos_supp {S} n (set : list (S * Z)) a a' W W' f c s : pos_times set -> (s < n)%nat ->
  (forall x t, In (x, t) set -> Forall (okw n) (W x)) -> (forall x t, In (x, t) set -> Forall (okw n) (W' x)) ->
  (forall x t, In (x, t) set -> okf n (f x)) -> okf n a -> okf n a' ->
  (forall x t, In (x, t) set -> 0 < Pof n a W f x -> 0 < Pof n a' W' f x /\ supp n a (W x) (W' x) (f x)) ->
  (forall i, (i < n)%nat -> 0 < a i -> 0 < a' i) ->
  (forall x t y, In (x, t) set -> In y (c x) -> 0 <= y) ->
  0 < GA n set a W f c s -> 0 < GA n set a' W' f c s.
Proof.
  intros HT Hs HW HW' Hf Ha Ha' HS HI Hc P. unfold GA, psum in P. apply sumL_pos_exists in P. destruct P as [[x t] [I P]]. cbn [fst snd] in P.
  destruct (Rlt_dec 0 (Pof n a W f x)) as [Px|]; [|lra].
  assert (N : forall x t, In (x, t) set -> forall y, In y (gam n a (W x) (f x) s) -> 0 <= y).
  { intros u v Iu y Iy. apply (gam_nonneg n a (W u) (f u) s); eauto. }
  assert (N' : forall x t, In (x, t) set -> forall y, In y (gam n a' (W' x) (f x) s) -> 0 <= y).
  { intros u v Iu y Iy. apply (gam_nonneg n a' (W' u) (f u) s); eauto. }
  pose proof (fac_pos n set a W f HT x t I Px) as Fp.
  assert (Q : 0 < wsum (gam n a (W x) (f x) s) (c x)).
  { assert (0 <= wsum (gam n a (W x) (f x) s) (c x)) by (apply wsum_nonneg; eauto).
    destruct (Req_dec (wsum (gam n a (W x) (f x) s) (c x)) 0) as [E|E]; [rewrite E, Rmult_0_l in P|]; lra. }
  apply wsum_pos_exists in Q; eauto. destruct Q as [k [K1 [K2 [K3 K4]]]].
  destruct (HS x t I Px) as [Px' Sx].
  apply (psum_pos_term n set a' W' f (fun x t => wsum (gam n a' (W' x) (f x) s) (c x) * fac n a' W' f x t) x t); auto.
  - intros u v Iu Pu. apply Rmult_le_pos; [apply wsum_nonneg; eauto|]. apply Rlt_le. apply (fac_pos n set a' W' f HT); auto.
  - apply Rmult_lt_0_compat; [|apply (fac_pos n set a' W' f HT); auto].
    apply (wsum_pos _ _ k); eauto. apply (gam_supp n (W x) (W' x) (f x) a a'); eauto.
    intros i Hi Pi. apply HI; [exact Hi|]. pose proof (Ha i Hi). destruct (Req_dec (a i) 0) as [E|E]; [rewrite E, Rmult_0_l in Pi|]; lra.
Qed.

(** Forward computations of the likelihoods. *)
From Coq Require Import String ZArith Bool Reals List Lia Lra FunctionalExtensionality Permutation.
From Verif Require Import Num Py SNum SPath LSum MSet SSet LSet MModels MLik MBW LFB LEM SBW LBW LBWSet SLik LPath.
Import ListNotations.
Local Open Scope R_scope.

(** ** Shapes *)
Lemma map_removelast {A B} (f : A -> B) l : map f (removelast l) = removelast (map f l).
Proof. induction l as [|x l IH]; [reflexivity|]. cbn. destruct l; [reflexivity|]. cbn in *. rewrite IH. reflexivity. Qed.
Lemma removelast_length {A} (l : list A) : length (removelast l) = (length l - 1)%nat.
Proof. induction l as [|x l IH]; [reflexivity|]. cbn. destruct l; [reflexivity|]. cbn in *. rewrite IH. lia. Qed.
Lemma snoc_cases {A} (l : list A) : l = [] \/ exists l' x, l = l' ++ [x].
Proof. destruct l as [|a l]; [left; reflexivity|right]. exists (removelast (a :: l)), (last (a :: l) a). apply app_removelast_last. discriminate. Qed.

(** ** Generic forward computation *)
Section Fwd.
  Context {O : Type} (n : nat) (tau : nat -> nat -> O -> R) (b : nat -> O -> R) (ini : list R).
  Hypothesis Lini : length ini = n.

  Lemma fold_left_map_fstep (l : list O) a : fold_left (fun prev o => fstep n prev (fun ss s => tau ss s o)) l a
    = fold_left (fstep n) (map (fun o ss s => tau ss s o) l) a.
  Proof. revert a. induction l; intros; cbn; auto. Qed.

  Lemma model_prob_tot (l : list O) (x : O) :
    model_prob n tau b ini (l ++ [x]) = Ok (tot n (vget ini) (map (fun o ss s => tau ss s o) l) (fun s => b s x)).
  Proof.
    unfold model_prob. rewrite rev_app_distr. cbn [rev app]. rewrite rev_involutive. f_equal.
    rewrite fold_left_map_fstep. destruct (fold_fstep n (map (fun o ss s => tau ss s o) l) ini Lini) as [L E].
    change (@nsum R RNum (zipwith nmul ?u ?v)) with (ndot u v). 
    rewrite ndot_vbuild by exact L. rewrite tot_steps. apply Sum_ext. intros s Hs. rewrite E by exact Hs. reflexivity.
  Qed.
End Fwd.

Lemma wts_map {O} (A : nat -> nat -> R) (B : O -> nat -> R) (l : list O) :
  wts (repeat A (length l)) (map B l) = map (fun o s s' => B o s * A s s') l.
Proof. induction l; cbn; [reflexivity|]. f_equal. exact IHl. Qed.

(** the trace probability as a total *)
Lemma trace_prob_tot {O} n pi (A : nat -> nat -> R) (B : O -> nat -> R) (l : list O) x :
  trace_prob n pi (repeat A (length (l ++ [x]) - 1)) (map B (l ++ [x]))
  = tot n pi (map (fun o s s' => B o s * A s s') l) (B x).
Proof.
  rewrite app_length. cbn [length]. rewrite Nat.add_sub, map_app. cbn [map].
  rewrite paths_tot by (rewrite repeat_length, map_length; reflexivity). rewrite wts_map. reflexivity.
Qed.
Lemma trace_prob_move_tot {O} n pi (A : nat -> nat -> R) (B : O -> nat -> R) (l : list O) :
  trace_prob n pi (repeat A (length l)) (map B l ++ [fun _ => 1]) = tot n pi (map (fun o s s' => B o s * A s s') l) (fun _ => 1).
Proof. rewrite paths_tot by (rewrite repeat_length, map_length; reflexivity). rewrite wts_map. reflexivity. Qed.

Lemma tot_snoc n a W w f : tot n a (W ++ [w]) f = tot n a W (fun s => Sum n (fun s' => w s s' * f s')).
Proof. rewrite tot_app, (tot_steps n a W). reflexivity. Qed.

(** with rows summing to 1 the additional move does not matter *)
Lemma trace_prob_move_eq {O} n pi (A : nat -> nat -> R) (B : O -> nat -> R) (tr : list O) : tr <> [] ->
  (forall s, (s < n)%nat -> Sum n (A s) = 1) ->
  trace_prob n pi (repeat A (length tr)) (map B tr ++ [fun _ => 1]) = trace_prob n pi (repeat A (length tr - 1)) (map B tr).
Proof.
  intros NE H. destruct (snoc_cases tr) as [->|[l [x ->]]]; [congruence|].
  rewrite trace_prob_move_tot, trace_prob_tot, map_app. cbn [map]. rewrite tot_snoc. apply tot_ext_f. intros s Hs.
  rewrite (Sum_ext n _ (fun s' => B x s * A s s')) by (intros; ring). rewrite Sum_scal_l, H by exact Hs. ring.
Qed.

(** ** The classes *)
Lemma lab_b_label l s o : (@lab_b R RNum l s o) = is_label l o s.
Proof. reflexivity. Qed.

Lemma mc_tau_eq (m : mc R) : mc_tau m = (fun ss s o => is_label (mc_lab m) o ss * matR (mc_mat m) ss s).
Proof.
  extensionality ss. extensionality s. extensionality o. unfold mc_tau, is_label, lab. nR. rewrite String.eqb_sym.
  change (mget (mc_mat m) ss s) with (matR (mc_mat m) ss s).
  destruct (String.eqb _ o); cbn; ring.
Qed.
Lemma mc_ws_wts (m : mc R) tr : mc_ws m tr = map (fun o ss s => is_label (mc_lab m) o ss * matR (mc_mat m) ss s) tr.
Proof. unfold mc_ws. rewrite mc_tau_eq. reflexivity. Qed.

Lemma mc_model_prob (m : mc R) tr : wf_mc m -> tr <> [] ->
  model_prob (mc_n m) (mc_tau m) (lab_b (mc_lab m)) (mc_ini m) tr = Ok (mc_trace_prob m tr).
Proof.
  intros W NE. destruct (snoc_cases tr) as [->|[l [x ->]]]; [congruence|].
  rewrite model_prob_tot by apply W. f_equal. unfold mc_trace_prob. rewrite trace_prob_tot, mc_tau_eq. reflexivity.
Qed.

(** unique position of a symbol *)
Lemma Sum_index {X} (eqb : X -> X -> bool) (l : list X) o d (F : nat -> R) : (forall x y, eqb x y = true <-> x = y) -> NoDup l ->
  Sum (length l) (fun i => if eqb (nth i l d) o then F i else 0) = match index_of eqb o l with None => 0 | Some i => F i end.
Proof.
  intros De. revert F. induction l as [|x l IH]; intros F ND; [reflexivity|]. inversion ND; subst. cbn [length]. rewrite Sum_S_l. cbn [nth].
  rewrite (IH (fun i => F (S i))) by assumption. cbn [index_of].
  destruct (eqb x o) eqn:E.
  - apply De in E. subst. assert (eqb o o = true) as -> by (apply De; reflexivity).
    assert (index_of eqb o l = None) as ->; [|ring].
    clear - De H1. induction l as [|y l IH]; [reflexivity|]. cbn. destruct (eqb o y) eqn:E.
    + apply De in E. subst. exfalso. apply H1. left; reflexivity.
    + rewrite IH; [reflexivity|]. intros I. apply H1. right; exact I.
  - destruct (eqb o x) eqn:E'; [apply De in E'; subst; rewrite (proj2 (De x x) eq_refl) in E; discriminate|].
    destruct (index_of eqb o l); ring.
Qed.

Lemma index_of_range {X} (eqb : X -> X -> bool) o l i : index_of eqb o l = Some i -> (i < length l)%nat.
Proof.
  revert i. induction l as [|x l IH]; intros i; cbn; [discriminate|]. destruct (eqb o x); [intros [= <-]; lia|].
  destruct (index_of eqb o l); [|discriminate]. intros [= <-]. specialize (IH n eq_refl). lia.
Qed.

Lemma hmm_b_emit (m : hmm R) s o : wf_hmm m -> hmm_b m s o = emit m o s.
Proof.
  intros [[L _] [Lo [_ [ND _]]]]. unfold hmm_b, emit. rewrite Sum_index with (eqb := String.eqb) by (auto; apply String.eqb_eq).
  destruct (Nat.leb_spec (hmm_n m) s).
  - unfold matR. rewrite (nth_overflow (hmm_out m)) by lia. destruct (index_of _ _ _) as [i|]; [|reflexivity]. destruct i; reflexivity.
  - reflexivity.
Qed.
Lemma hmm_tau_eq (m : hmm R) : wf_hmm m -> hmm_tau m = (fun ss s o => emit m o ss * matR (hmm_mat m) ss s).
Proof.
  intros W. extensionality ss. extensionality s. extensionality o. unfold hmm_tau, hmm_a. rewrite hmm_b_emit by exact W.
  nR. change (mget (hmm_mat m) ss s) with (matR (hmm_mat m) ss s). ring.
Qed.
Lemma hmm_model_prob (m : hmm R) tr : wf_hmm m -> tr <> [] ->
  model_prob (hmm_n m) (hmm_tau m) (hmm_b m) (hmm_ini m) tr = Ok (hmm_trace_prob m tr).
Proof.
  intros W NE. destruct (snoc_cases tr) as [->|[l [x ->]]]; [congruence|].
  rewrite model_prob_tot by apply W. f_equal. unfold hmm_trace_prob. rewrite trace_prob_tot, hmm_tau_eq by exact W.
  apply tot_ext_f. intros. apply hmm_b_emit. exact W.
Qed.

Lemma ct_e_exit (m : ctmc R) s : ct_e m s = exit_rate m s. Proof. reflexivity. Qed.
Lemma ct_l_eq (m : ctmc R) s s' o : ct_l m s s' o = is_label (ct_lab m) o s * matR (ct_mat m) s s'.
Proof.
  unfold ct_l, is_label, lab. nR. change (mget (ct_mat m) s s') with (matR (ct_mat m) s s').
  destruct (String.eqb _ o); cbn; ring.
Qed.
Lemma ct_model_prob (m : ctmc R) tr : wf_ctmc m -> tr <> [] ->
  model_prob (ct_n m) (ct_tau m) (lab_b (ct_lab m)) (ct_ini m) tr = Ok (ct_trace_prob m tr).
Proof.
  intros W NE. destruct (snoc_cases tr) as [->|[l [x ->]]]; [congruence|].
  rewrite model_prob_tot by apply W. f_equal. unfold ct_trace_prob. rewrite trace_prob_tot.
  f_equal. apply map_ext. intros o. extensionality s. extensionality s'. unfold ct_tau, jump. rewrite ct_l_eq, ct_e_exit. nR. unfold Rdiv. ring.
Qed.

(** GoHMM *)
Lemma go_b_n_normal (m : gohmm R) s k x : 0 < stddev m s k -> go_b_n m s k x = normal (mean m s k) (stddev m s k) x.
Proof.
  unfold go_b_n, stddev, mean, go_param. nR. destruct (nth k (nth s (go_out m) []) (0, 0)) as [mu sg]. cbn [fst snd]. intros P.
  assert (Rleb sg 0 = false) as -> by (apply Rleb_false; exact P). unfold normal. f_equal.
  - f_equal. field. lra.
  - rewrite (sqrt_mult (2 * PI) (sg ^ 2)) by (pose proof PI_RGT_0; nra). rewrite sqrt_pow2 by lra. ring.
Qed.
Lemma fold_left_Rmult l a : fold_left Rmult l a = a * fold_right Rmult 1 l.
Proof. revert a. induction l as [|x l IH]; intros a; cbn; [ring|]. rewrite IH. ring. Qed.
Lemma zipwith_seq {B C} (f : nat -> B -> C) (l : list B) d k : zipwith f (seq k (length l)) l = map (fun i => f i (nth (i - k) l d)) (seq k (length l)).
Proof.
  revert k. induction l as [|x l IH]; intros k; cbn; [reflexivity|]. rewrite Nat.sub_diag. f_equal. rewrite IH. apply map_ext_in.
  intros i I. apply in_seq in I. replace (i - k)%nat with (S (i - S k)) by lia. reflexivity.
Qed.
Definition pos_sigma (d : nat) (m : gohmm R) := forall s k, (s < go_n m)%nat -> (k < d)%nat -> 0 < stddev m s k.
Lemma go_b_density (m : gohmm R) s o d : pos_sigma d m -> (s < go_n m)%nat -> (length o <= d)%nat -> go_b m s o = go_density m o s.
Proof.
  intros P Hs L. unfold go_b, go_density. nR. rewrite fold_left_Rmult, Rmult_1_l. f_equal. rewrite (zipwith_seq _ o 0).
  apply map_ext_in. intros k I. apply in_seq in I. rewrite Nat.sub_0_r. apply go_b_n_normal. apply P; lia.
Qed.
Lemma Forall2_map_in {X Y} (f g : X -> Y) (P : Y -> Y -> Prop) l : (forall x, In x l -> P (f x) (g x)) -> Forall2 P (map f l) (map g l).
Proof. induction l; cbn; constructor; auto. Qed.
Lemma go_model_prob (m : gohmm R) d tr : wf_gohmm d m -> pos_sigma d m -> (forall o, In o tr -> (length o <= d)%nat) -> tr <> [] ->
  model_prob (go_n m) (go_tau m) (go_b m) (go_ini m) tr = Ok (go_trace_density m tr).
Proof.
  intros W P Hd NE. destruct (snoc_cases tr) as [->|[l [x ->]]]; [congruence|].
  rewrite model_prob_tot by apply W. f_equal. unfold go_trace_density. rewrite trace_prob_tot.
  rewrite (tot_ext_f _ _ _ _ (go_density m x)) by (intros i Hi; apply (go_b_density m i x d); auto; apply Hd; rewrite in_app_iff; right; left; reflexivity).
  apply tot_ext_w. apply Forall2_map_in. intros o I i j Hi Hj. unfold go_tau. nR.
  rewrite (go_b_density m i o d) by (auto; apply Hd; rewrite in_app_iff; left; exact I).
  change (mget (go_mat m) i j) with (matR (go_mat m) i j). ring.
Qed.

(** MDP *)
Lemma pairs_evens {E} (l : list E) : Nat.odd (length l) = true -> 
  pairs_of l = combine (removelast (evens l)) (odds l) /\ length (evens l) = S (length (odds l)) /\ forall d, last l d = last (evens l) d.
Proof.
  assert (G : forall k (l : list E), (length l <= k)%nat -> Nat.odd (length l) = true -> 
    pairs_of l = combine (removelast (evens l)) (odds l) /\ length (evens l) = S (length (odds l)) /\ forall d, last l d = last (evens l) d).
  { induction k as [|k IH]; intros [|x [|y l']] L Od; cbn [length] in *; try discriminate; try lia.
    - cbn. auto.
    - cbn [Nat.odd] in Od. destruct (IH l') as [A [B C]]; [lia|exact Od|].
      destruct (evens l') as [|e es] eqn:Ee; [destruct l'; discriminate|].
      assert (Ev : evens (x :: y :: l') = x :: e :: es) by (change (evens (x :: y :: l')) with (x :: evens l'); rewrite Ee; reflexivity).
      assert (Od' : odds (x :: y :: l') = y :: odds l') by reflexivity. rewrite Ev, Od'.
      split; [|split].
      + change (pairs_of (x :: y :: l')) with ((x, y) :: pairs_of l'). rewrite A. reflexivity.
      + cbn [length] in *. lia.
      + intros d. destruct l' as [|z l'']; [discriminate|]. change (last (x :: y :: z :: l'') d) with (last (z :: l'') d). rewrite C. reflexivity. }
  apply (G (length l)). lia.
Qed.

Lemma mdp_w_eq (m : mdp R) o a : wf_mdp m -> mdp_w m (o, a) = (fun s s' => is_label (mdp_lab m) o s * act_mat m a s s').
Proof.
  intros W. extensionality s. extensionality s'. unfold mdp_w, mdp_tau, is_label, act_mat, lab. cbn [fst snd].
  rewrite (Sum_index String.eqb) with (F := fun i => nth s' (nth i (nth s (mdp_mat m) []) []) 0) by (try apply W; apply String.eqb_eq).
  nR. rewrite String.eqb_sym. destruct (String.eqb _ o); cbn [negb]; [|ring].
  destruct (index_of _ _ _); [|ring]. unfold mdp_get, mget, vget. nR. ring.
Qed.
Lemma wts_combine (m : mdp R) Bs acts : wf_mdp m ->
  map (mdp_w m) (combine Bs acts) = wts (map (act_mat m) acts) (map (is_label (mdp_lab m)) Bs).
Proof.
  intros W. revert acts. induction Bs as [|o Bs IH]; intros [|a acts]; try reflexivity.
  cbn. rewrite mdp_w_eq by exact W. f_equal. apply IH.
Qed.
Lemma lab_mask_get n l o s : (s < n)%nat -> vget (@lab_mask R RNum n l o) s = is_label l o s.
Proof. intros Hs. unfold lab_mask. rewrite vget_vbuild by exact Hs. reflexivity. Qed.
Lemma lab_mask_length n l o : length (@lab_mask R RNum n l o) = n.
Proof. apply vbuild_length. Qed.
Lemma rev_last {E} (l : list E) x r d : rev l = x :: r -> x = last l d.
Proof. intros H. rewrite <- (rev_involutive l), H. cbn. rewrite last_last. reflexivity. Qed.

Lemma mdp_trace_prob_tot (m : mdp R) tr : wf_mdp m -> Nat.odd (length tr) = true ->
  mdp_trace_prob m tr = tot (mdp_n m) (vget (mdp_ini m)) (map (mdp_w m) (pairs_of tr)) (is_label (mdp_lab m) (last tr EmptyString)).
Proof.
  intros W Od. destruct (pairs_evens tr Od) as [A [B C]]. rewrite A, wts_combine, C by exact W. unfold mdp_trace_prob.
  rewrite <- paths_tot.
  - f_equal. rewrite <- map_cons with (f := is_label (mdp_lab m)) (l := []) || idtac.
    change [is_label (mdp_lab m) (last (evens tr) EmptyString)] with (map (is_label (mdp_lab m)) [last (evens tr) EmptyString]).
    rewrite <- map_app. f_equal. apply app_removelast_last. destruct (evens tr); [discriminate|discriminate].
  - rewrite !map_length, removelast_length. lia.
Qed.
Lemma mdp_prob_eq (m : mdp R) tr : wf_mdp m -> Nat.odd (length tr) = true -> mdp_prob m tr = Ok (mdp_trace_prob m tr).
Proof.
  intros W Od. rewrite mdp_trace_prob_tot by assumption. unfold mdp_prob. destruct (rev tr) as [|x r] eqn:E.
  - apply (f_equal (@rev string)) in E. rewrite rev_involutive in E. subst. discriminate.
  - f_equal. rewrite (rev_last _ _ _ EmptyString E).
    change (@nsum R RNum (zipwith nmul ?u ?v)) with (ndot u v).
    assert (F : fold_left (fun prev oa => fstep (mdp_n m) prev (mdp_w m oa)) (pairs_of tr) (mdp_ini m) = fold_left (fstep (mdp_n m)) (map (mdp_w m) (pairs_of tr)) (mdp_ini m)).
    { generalize (mdp_ini m). induction (pairs_of tr); intros; cbn; auto. }
    rewrite F. destruct (fold_fstep (mdp_n m) (map (mdp_w m) (pairs_of tr)) (mdp_ini m)) as [L Eg]; [apply W|].
    rewrite (ndot_Sum _ _ (mdp_n m)) by (auto using lab_mask_length). rewrite tot_steps. apply Sum_ext. intros s Hs.
    rewrite Eg, lab_mask_get by exact Hs. reflexivity.
Qed.

(** Timed CTMC *)
Lemma ct_w_eq (m : ctmc R) o t : ct_w m (o, t) = (fun s s' => is_label (ct_lab m) o s * jump_density m t s s').
Proof.
  extensionality s. extensionality s'. unfold ct_w, jump_density. cbn [fst snd]. rewrite ct_l_eq, ct_e_exit. nR.
  replace (0 - exit_rate m s * t) with (- (exit_rate m s * t)) by ring. ring.
Qed.
Lemma ct_wts (m : ctmc R) Bs ts : map (ct_w m) (combine Bs ts) = wts (map (jump_density m) ts) (map (is_label (ct_lab m)) Bs).
Proof. revert ts. induction Bs as [|o Bs IH]; intros [|t ts]; try reflexivity. cbn. rewrite ct_w_eq. f_equal. apply IH. Qed.
Lemma ct_density_tot (m : ctmc R) obs ts : length obs = S (length ts) ->
  ct_density m (obs, ts) = tot (ct_n m) (vget (ct_ini m)) (map (ct_w m) (combine (removelast obs) ts)) (is_label (ct_lab m) (last obs EmptyString)).
Proof.
  intros L. unfold ct_density. cbn [fst snd]. rewrite ct_wts, <- paths_tot.
  - f_equal. change [is_label (ct_lab m) (last obs EmptyString)] with (map (is_label (ct_lab m)) [last obs EmptyString]).
    rewrite <- map_app. f_equal. apply app_removelast_last. destruct obs; discriminate.
  - rewrite !map_length, removelast_length. lia.
Qed.
Lemma ct_prob_timed_eq (m : ctmc R) obs ts : wf_ctmc m -> length obs = S (length ts) -> ct_prob_timed m (obs, ts) = Ok (ct_density m (obs, ts)).
Proof.
  intros W L. rewrite ct_density_tot by exact L. unfold ct_prob_timed. destruct (rev obs) as [|x r] eqn:E.
  - apply (f_equal (@rev string)) in E. rewrite rev_involutive in E. subst. discriminate.
  - assert (Er : rev r = removelast obs).
    { rewrite <- (rev_involutive obs), E. cbn. rewrite removelast_last. reflexivity. }
    assert (Lr : length r = length ts).
    { rewrite <- (rev_length r), Er, removelast_length. lia. }
    rewrite Lr, Nat.ltb_irrefl. f_equal. rewrite (rev_last _ _ _ EmptyString E), Er.
    change (@nsum R RNum (zipwith nmul ?u ?v)) with (ndot u v).
    assert (F : forall l, fold_left (fun prev ot => fstep (ct_n m) prev (ct_w m ot)) l (ct_ini m) = fold_left (fstep (ct_n m)) (map (ct_w m) l) (ct_ini m)).
    { intros l. generalize (ct_ini m). induction l; intros; cbn; auto. }
    rewrite F. destruct (fold_fstep (ct_n m) (map (ct_w m) (combine (removelast obs) ts)) (ct_ini m)) as [Lf Eg]; [apply W|].
    rewrite (ndot_Sum _ _ (ct_n m)) by (auto using lab_mask_length). rewrite tot_steps. apply Sum_ext. intros s Hs.
    rewrite Eg, lab_mask_get by exact Hs. reflexivity.
Qed.

(** Forward/backward theory on real-valued functions of states, and its link with
    the lists of the model. *)
From Coq Require Import ZArith Bool Reals List Lia Lra Psatz.
From Verif Require Import Num Py SNum SPath LSum MSet MModels MLik MBW.
Import ListNotations.
Local Open Scope R_scope.

Section FB.
  Variable n : nat.
  Notation weight := (nat -> nat -> R).

  (** Backward value. *)
  Fixpoint Bk (W : list weight) (f : nat -> R) (s : nat) : R :=
    match W with
    | [] => f s
    | w :: W' => Sum n (fun s' => w s s' * Bk W' f s')
    end.

  Definition step (a : nat -> R) (w : weight) (s : nat) : R := Sum n (fun ss => a ss * w ss s).
  Definition steps (a : nat -> R) (W : list weight) : nat -> R := fold_left step W a.
  Definition tot (a : nat -> R) (W : list weight) (f : nat -> R) : R := Sum n (fun s => a s * Bk W f s).

  (** Expected transitions and visits, position by position. *)
  Fixpoint xi (a : nat -> R) (W : list weight) (f : nat -> R) (s s' : nat) : list R :=
    match W with
    | [] => []
    | w :: W' => a s * w s s' * Bk W' f s' :: xi (step a w) W' f s s'
    end.
  Fixpoint gam (a : nat -> R) (W : list weight) (f : nat -> R) (s : nat) : list R :=
    match W with
    | [] => []
    | w :: W' => a s * Bk W f s :: gam (step a w) W' f s
    end.

  Definition okw (w : weight) := forall s s', (s < n)%nat -> (s' < n)%nat -> 0 <= w s s'.
  Definition okf (f : nat -> R) := forall s, (s < n)%nat -> 0 <= f s.

  Lemma Bk_nonneg W f s : Forall okw W -> okf f -> (s < n)%nat -> 0 <= Bk W f s.
  Proof.
    intros HW Hf. revert s. induction HW as [|w W Hw HW IH]; intros s Hs; cbn [Bk]; [auto|].
    apply Sum_nonneg. intros i Hi. apply Rmult_le_pos; auto.
  Qed.
  Lemma step_nonneg a w : okf a -> okw w -> okf (step a w).
  Proof. intros Ha Hw s Hs. apply Sum_nonneg. intros i Hi. apply Rmult_le_pos; auto. Qed.

  Lemma tot_step a w W f : tot a (w :: W) f = tot (step a w) W f.
  Proof.
    unfold tot, step. cbn [Bk].
    rewrite (Sum_ext n (fun s => a s * Sum n (fun s' => w s s' * Bk W f s')) (fun s => Sum n (fun s' => a s * w s s' * Bk W f s'))).
    - rewrite Sum_swap. apply Sum_ext. intros i Hi. symmetry. rewrite <- Sum_scal_r. reflexivity.
    - intros i Hi. rewrite <- Sum_scal_l. apply Sum_ext. intros; ring.
  Qed.
  Lemma tot_app a W1 W2 f : tot a (W1 ++ W2) f = tot (steps a W1) W2 f.
  Proof.
    revert a. induction W1 as [|w W1 IH]; intros a; [reflexivity|].
    change ((w :: W1) ++ W2) with (w :: (W1 ++ W2)). rewrite tot_step, IH. reflexivity.
  Qed.
  Lemma tot_steps a W f : tot a W f = Sum n (fun s => steps a W s * f s).
  Proof. rewrite <- (app_nil_r W) at 1. rewrite tot_app. reflexivity. Qed.

  Lemma Bk_ext W f g s : (forall s', (s' < n)%nat -> f s' = g s') -> (s < n)%nat -> Bk W f s = Bk W g s.
  Proof.
    intros E. revert s. induction W as [|w W IH]; intros s Hs; cbn; [auto|].
    apply Sum_ext. intros i Hi. rewrite IH by auto. reflexivity.
  Qed.
  Lemma Bk_ext_w W W' f s : Forall2 (fun w w' => forall i j, (i < n)%nat -> (j < n)%nat -> w i j = w' i j) W W' ->
    (s < n)%nat -> Bk W f s = Bk W' f s.
  Proof.
    intros F. revert s. induction F as [|w w' W W' E F IH]; intros s Hs; cbn; [reflexivity|].
    apply Sum_ext. intros i Hi. rewrite IH by auto. rewrite E by auto. reflexivity.
  Qed.
  Lemma tot_ext a b W f : (forall s, (s < n)%nat -> a s = b s) -> tot a W f = tot b W f.
  Proof. intros E. apply Sum_ext. intros i Hi. rewrite E by auto. reflexivity. Qed.
  Lemma tot_ext_w a W W' f : Forall2 (fun w w' => forall i j, (i < n)%nat -> (j < n)%nat -> w i j = w' i j) W W' ->
    tot a W f = tot a W' f.
  Proof. intros F. apply Sum_ext. intros i Hi. rewrite (Bk_ext_w W W') by auto. reflexivity. Qed.
  Lemma step_ext a b w s : (forall i, (i < n)%nat -> a i = b i) -> step a w s = step b w s.
  Proof. intros E. apply Sum_ext. intros i Hi. rewrite E by auto. reflexivity. Qed.
  Lemma xi_ext a b W f s s' : (forall i, (i < n)%nat -> a i = b i) -> (s < n)%nat -> xi a W f s s' = xi b W f s s'.
  Proof.
    revert a b. induction W as [|w W IH]; intros a b E Hs; [reflexivity|]. cbn [xi]. rewrite E by auto. f_equal.
    apply IH; [|auto]. intros i Hi. apply step_ext. exact E.
  Qed.
  Lemma gam_ext a b W f s : (forall i, (i < n)%nat -> a i = b i) -> (s < n)%nat -> gam a W f s = gam b W f s.
  Proof.
    revert a b. induction W as [|w W IH]; intros a b E Hs; [reflexivity|]. cbn [gam]. rewrite E by auto. f_equal.
    apply IH; [|auto]. intros i Hi. apply step_ext. exact E.
  Qed.

  Lemma xi_length a W f s s' : length (xi a W f s s') = length W.
  Proof. revert a. induction W; intros; cbn; [reflexivity|]. rewrite IHW. reflexivity. Qed.
  Lemma gam_length a W f s : length (gam a W f s) = length W.
  Proof. revert a. induction W; intros; cbn; [reflexivity|]. rewrite IHW. reflexivity. Qed.

  Lemma xi_nonneg a W f s s' x : okf a -> Forall okw W -> okf f -> (s < n)%nat -> (s' < n)%nat ->
    In x (xi a W f s s') -> 0 <= x.
  Proof.
    intros Ha HW Hf Hs Hs'. revert a Ha. induction HW as [|w W Hw HW IH]; intros a Ha; cbn; [intros []|].
    intros [<-|I]; [|apply (IH (step a w)); auto using step_nonneg].
    apply Rmult_le_pos; [apply Rmult_le_pos; auto|apply Bk_nonneg; auto].
  Qed.
  Lemma gam_nonneg a W f s x : okf a -> Forall okw W -> okf f -> (s < n)%nat ->
    In x (gam a W f s) -> 0 <= x.
  Proof.
    intros Ha HW Hf Hs. revert a Ha. induction HW as [|w W Hw HW IH]; intros a Ha; cbn [gam]; [intros []|].
    intros [<-|I]; [|apply (IH (step a w)); auto using step_nonneg].
    apply Rmult_le_pos; auto. apply (Bk_nonneg (w :: W)); auto.
  Qed.

  (** Weighted sums over positions. *)
  Definition wsum (l : list R) (c : list R) : R := rsum (zipwith Rmult l c).
  Lemma wsum_nil_l c : wsum [] c = 0. Proof. reflexivity. Qed.
  Lemma wsum_cons x l y c : wsum (x :: l) (y :: c) = x * y + wsum l c. Proof. reflexivity. Qed.

  Lemma gam_xi a W f s c : (s < n)%nat -> wsum (gam a W f s) c = Sum n (fun s' => wsum (xi a W f s s') c).
  Proof.
    intros Hs. revert a c. induction W as [|w W IH]; intros a c; cbn [gam xi].
    - symmetry. apply Sum_zero.
    - destruct c as [|y c]; [symmetry; apply Sum_zero|].
      rewrite wsum_cons, IH.
      rewrite (Sum_ext n (fun s' => wsum (a s * w s s' * Bk W f s' :: xi (step a w) W f s s') (y :: c)) (fun s' => a s * w s s' * Bk W f s' * y + wsum (xi (step a w) W f s s') c)) by (intros; apply wsum_cons).
      rewrite Sum_plus. f_equal. cbn [Bk]. rewrite Sum_scal_r. f_equal. rewrite <- Sum_scal_l.
      apply Sum_ext. intros; ring.
  Qed.

  Lemma wsum_ones l k : (length l <= k)%nat -> wsum l (repeat 1 k) = rsum l.
  Proof.
    revert k. induction l as [|x l IH]; intros k L; [reflexivity|]. destruct k as [|k]; [cbn in L; lia|].
    cbn [repeat]. rewrite wsum_cons, IH by (cbn in L; lia). rewrite rsum_cons. ring.
  Qed.
  Lemma wsum_scal l c k : wsum (map (fun x => x * k) l) c = wsum l c * k.
  Proof.
    revert c. induction l as [|x l IH]; intros c; cbn [map]; [rewrite !wsum_nil_l; ring|].
    destruct c as [|y c]; [cbn; ring|]. rewrite !wsum_cons, IH. ring.
  Qed.
  Lemma wsum_nonneg l c : (forall x, In x l -> 0 <= x) -> (forall x, In x c -> 0 <= x) -> 0 <= wsum l c.
  Proof.
    revert c. induction l as [|x l IH]; intros c Hl Hc; [rewrite wsum_nil_l; lra|].
    destruct c as [|y c]; [cbn; lra|]. rewrite wsum_cons. apply Rplus_le_le_0_compat.
    - apply Rmult_le_pos; [apply Hl|apply Hc]; left; reflexivity.
    - apply IH; intros; [apply Hl|apply Hc]; right; assumption.
  Qed.
  Lemma wsum_ext l c d : c = d -> wsum l c = wsum l d.
  Proof. intros ->; reflexivity. Qed.
  Lemma wsum_plus l c d : length c = length l -> length d = length l ->
    wsum l (zipwith Rplus c d) = wsum l c + wsum l d.
  Proof.
    revert c d. induction l as [|x l IH]; intros c d Hc Hd; [rewrite !wsum_nil_l; ring|].
    destruct c as [|y c]; [discriminate|]. destruct d as [|z d]; [discriminate|].
    cbn [zipwith]. rewrite !wsum_cons, IH by (cbn in *; lia). ring.
  Qed.
  Lemma wsum_const l c k : (forall y, In y c -> y = k) -> (length l <= length c)%nat -> wsum l c = rsum l * k.
  Proof.
    revert c. induction l as [|x l IH]; intros c Hc L; [rewrite wsum_nil_l, rsum_nil; ring|].
    destruct c as [|y c]; [cbn in L; lia|].
    rewrite wsum_cons, IH, rsum_cons by (try (cbn in L; lia); intros; apply Hc; right; assumption).
    rewrite (Hc y) by (left; reflexivity). ring.
  Qed.
  (** two weightings that agree where the value is nonzero *)
  Lemma wsum_agree l c d : length c = length d ->
    (forall k, (k < length l)%nat -> (k < length c)%nat -> nth k l 0 <> 0 -> nth k c 0 = nth k d 0) -> wsum l c = wsum l d.
  Proof.
    revert c d. induction l as [|x l IH]; intros c d L Ha; [reflexivity|].
    destruct c as [|y c], d as [|z d]; try discriminate; [reflexivity|].
    rewrite !wsum_cons. f_equal.
    - destruct (Req_dec x 0) as [->|Hx]; [ring|]. f_equal. apply (Ha O); cbn; auto; lia.
    - apply IH; [cbn in L; lia|]. intros k Hk Hc Hx. apply (Ha (S k)); cbn; auto; lia.
  Qed.

  (** The total at every position. *)
  Lemma tot_gam a W f k : (k < length W)%nat -> Sum n (fun s => nth k (gam a W f s) 0) = tot a W f.
  Proof.
    revert a k. induction W as [|w W IH]; intros a k L; [cbn in L; lia|].
    destruct k as [|k].
    - apply Sum_ext. intros; reflexivity.
    - cbn [gam nth]. rewrite IH by (cbn in L; lia). symmetry. apply tot_step.
  Qed.
End FB.

(** ** Paths *)

Fixpoint wts (As : list (nat -> nat -> R)) (Bs : list (nat -> R)) : list (nat -> nat -> R) :=
  match As, Bs with
  | A :: As', b :: Bs' => (fun s s' => b s * A s s') :: wts As' Bs'
  | _, _ => []
  end.

Lemma sumL_paths_S n T (F : list nat -> R) : sumL (paths n (S T)) F = Sum n (fun s => sumL (paths n T) (fun x => F (s :: x))).
Proof.
  cbn [paths]. rewrite sumL_flat_map. apply sumL_ext. intros s _. rewrite sumL_map. reflexivity.
Qed.

Lemma paths_tot n As Bs bl pi : length As = length Bs ->
  trace_prob n pi As (Bs ++ [bl]) = tot n pi (wts As Bs) bl.
Proof.
  intros L. unfold trace_prob. rewrite app_length. cbn [length]. rewrite Nat.add_1_r. rewrite sumL_paths_S. cbn [hd].
  unfold tot. apply Sum_ext. intros s Hs. rewrite sumL_scal_l. f_equal.
  revert s Hs Bs L. induction As as [|A As IH]; intros s Hs Bs L.
  - destruct Bs; [|discriminate]. unfold sumL. cbn. ring.
  - destruct Bs as [|b Bs]; [discriminate|]. cbn [length app wts Bk].
    rewrite sumL_paths_S. apply Sum_ext. intros s' Hs'.
    rewrite <- IH by (auto; cbn in L; lia).
    rewrite <- sumL_scal_l. apply sumL_ext. intros x _.
    change (path_weight (A :: As) (b :: Bs ++ [bl]) (s :: s' :: x))
      with (b s * match Bs ++ [bl] with [] => 0 | _ :: _ => A s s' * path_weight As (Bs ++ [bl]) (s' :: x) end).
    destruct (Bs ++ [bl]) as [|z zs] eqn:E; [destruct Bs; discriminate|].
    ring.
Qed.

(** ** Link with the model's lists *)

Section Link.
  Variable n : nat.
  Notation rowf v := (fun s => vget v s) (only parsing).

  Lemma fstep_length (a : list R) w : length (fstep n a w) = n.
  Proof. apply vbuild_length. Qed.
  Lemma fstep_get (a : list R) w s : length a = n -> (s < n)%nat ->
    vget (fstep n a w) s = step n (vget a) w s.
  Proof.
    intros La Hs. unfold fstep. rewrite vget_vbuild by exact Hs. unfold step.
    rewrite ndot_vbuild by exact La. reflexivity.
  Qed.

  Lemma fold_fstep (ws : list (nat -> nat -> R)) (a : list R) : length a = n ->
    length (fold_left (fstep n) ws a) = n /\
    forall s, (s < n)%nat -> vget (fold_left (fstep n) ws a) s = steps n (vget a) ws s.
  Proof.
    revert a. induction ws as [|w ws IH]; intros a La; cbn [fold_left]; [auto|].
    destruct (IH (fstep n a w) (fstep_length a w)) as [L E]. split; [exact L|]. intros s Hs. rewrite E by exact Hs.
    unfold steps. cbn [fold_left].
    assert (X : forall (W : list (nat -> nat -> R)) b c, (forall i, (i < n)%nat -> b i = c i) -> forall s, (s < n)%nat -> fold_left (step n) W b s = fold_left (step n) W c s).
    { induction W as [|w' W IHW]; intros b c Hbc s' Hs'; cbn; [auto|]. apply IHW; auto. intros i Hi. apply step_ext. exact Hbc. }
    apply X; auto. intros i Hi. apply fstep_get; auto.
  Qed.

  Lemma bw_alphas_ne (a : list R) ws : bw_alphas n a ws <> [].
  Proof. destruct ws; discriminate. Qed.
  Lemma bw_alphas_hd (a : list R) ws : hd [] (bw_alphas n a ws) = a.
  Proof. destruct ws; reflexivity. Qed.
  Lemma bw_alphas_last (a : list R) ws : last (bw_alphas n a ws) [] = fold_left (fstep n) ws a.
  Proof.
    revert a. induction ws as [|w ws IH]; intros a; [reflexivity|]. cbn [bw_alphas fold_left].
    rewrite <- IH. destruct (bw_alphas n (fstep n a w) ws) eqn:E; [exfalso; exact (bw_alphas_ne _ _ E)|]. reflexivity.
  Qed.
  Lemma bw_betas_hd_length (f : list R) ws : length f = n -> length (hd [] (bw_betas n f ws)) = n.
  Proof. destruct ws; cbn; intros; [assumption|apply vbuild_length]. Qed.
  Lemma bw_betas_hd (f : list R) ws s : length f = n -> (s < n)%nat ->
    vget (hd [] (bw_betas n f ws)) s = Bk n ws (vget f) s.
  Proof.
    intros Lf. revert s. induction ws as [|w ws IH]; intros s Hs; [reflexivity|].
    cbn [bw_betas hd Bk]. rewrite vget_vbuild by exact Hs.
    rewrite ndot_vbuild by (apply bw_betas_hd_length; exact Lf).
    apply Sum_ext. intros i Hi. nR. rewrite IH by exact Hi. ring.
  Qed.
  Lemma bw_betas_ne (f : list R) ws : bw_betas n f ws <> [].
  Proof. destruct ws; discriminate. Qed.

  Lemma col_init_alphas (a : list R) w ws s : col_init (bw_alphas n a (w :: ws)) s = vget a s :: col_init (bw_alphas n (fstep n a w) ws) s.
  Proof.
    unfold col_init. cbn [bw_alphas]. destruct (bw_alphas n (fstep n a w) ws) eqn:E; [exfalso; exact (bw_alphas_ne _ _ E)|].
    reflexivity.
  Qed.
  Lemma col_init_betas (f : list R) w ws s : length f = n -> (s < n)%nat ->
    col_init (bw_betas n f (w :: ws)) s = Bk n (w :: ws) (vget f) s :: col_init (bw_betas n f ws) s.
  Proof.
    intros Lf Hs. rewrite <- (bw_betas_hd f (w :: ws) s Lf Hs). unfold col_init. cbn [bw_betas hd].
    destruct (bw_betas n f ws) eqn:E; [exfalso; exact (bw_betas_ne _ _ E)|]. reflexivity.
  Qed.
  Lemma col_tail_betas (f : list R) w ws s : length f = n -> (s < n)%nat ->
    col_tail (bw_betas n f (w :: ws)) s = Bk n ws (vget f) s :: col_tail (bw_betas n f ws) s.
  Proof.
    intros Lf Hs. rewrite <- (bw_betas_hd f ws s Lf Hs). unfold col_tail. cbn [bw_betas tl].
    destruct (bw_betas n f ws) eqn:E; [exfalso; exact (bw_betas_ne _ _ E)|]. reflexivity.
  Qed.

  Lemma gam_model (a f : list R) ws s : length a = n -> length f = n -> (s < n)%nat ->
    zipwith nmul (col_init (bw_alphas n a ws) s) (col_init (bw_betas n f ws) s) = gam n (vget a) ws (vget f) s.
  Proof.
    intros La Lf Hs. revert a La. induction ws as [|w ws IH]; intros a La; [reflexivity|].
    rewrite col_init_alphas, col_init_betas by auto. cbn [zipwith gam]. f_equal.
    rewrite IH by apply fstep_length. apply gam_ext; [|exact Hs]. intros i Hi. apply fstep_get; auto.
  Qed.
  Lemma xi_model (a f : list R) ws s s' : length a = n -> length f = n -> (s < n)%nat -> (s' < n)%nat ->
    zipwith nmul (zipwith nmul (col_init (bw_alphas n a ws) s) (map (fun w => w s s') ws)) (col_tail (bw_betas n f ws) s')
    = xi n (vget a) ws (vget f) s s'.
  Proof.
    intros La Lf Hs Hs'. revert a La. induction ws as [|w ws IH]; intros a La; [reflexivity|].
    rewrite col_init_alphas, col_tail_betas by auto. cbn [map zipwith xi]. f_equal.
    rewrite IH by apply fstep_length. apply xi_ext; [|exact Hs]. intros i Hi. apply fstep_get; auto.
  Qed.
  (** the MDP variant multiplies in another order *)
  Lemma xi_model_mdp (a f : list R) ws c s s' : length a = n -> length f = n -> (s < n)%nat -> (s' < n)%nat ->
    length c = length ws ->
    zipwith nmul (zipwith nmul (zipwith nmul (col_init (bw_alphas n a ws) s) c) (col_tail (bw_betas n f ws) s'))
                 (map (fun w => w s s') ws)
    = zipwith Rmult (xi n (vget a) ws (vget f) s s') c.
  Proof.
    intros La Lf Hs Hs'. revert a La c. induction ws as [|w ws IH]; intros a La c Lc.
    - destruct c; reflexivity.
    - destruct c as [|y c]; [discriminate|].
      rewrite col_init_alphas, col_tail_betas by auto. cbn [map zipwith xi]. f_equal; [nR; ring|].
      rewrite IH by (try apply fstep_length; cbn in Lc; lia). f_equal.
      apply xi_ext; [|exact Hs]. intros i Hi. apply fstep_get; auto.
  Qed.

  Lemma proba_model (a : list R) ws : length a = n ->
    proba_of (bw_alphas n a ws) = tot n (vget a) ws (fun _ => 1).
  Proof.
    intros La. unfold proba_of. rewrite bw_alphas_last. toR.
    destruct (fold_fstep ws a La) as [L E]. rewrite rsum_nth, L, tot_steps. apply Sum_ext. intros i Hi.
    change (nth i (fold_left (fstep n) ws a) 0) with (vget (fold_left (fstep n) ws a) i). rewrite E by exact Hi. ring.
  Qed.
  Lemma removelast_mask (mask : list R) (l : list (list R)) : removelast (mask_last mask l) = removelast l.
  Proof. unfold mask_last. apply removelast_last. Qed.
  Lemma col_init_mask (mask : list R) (l : list (list R)) s : col_init (mask_last mask l) s = col_init l s.
  Proof. unfold col_init. rewrite removelast_mask. reflexivity. Qed.
  Lemma proba_model_mask (a mask : list R) ws : length a = n -> length mask = n ->
    proba_of (mask_last mask (bw_alphas n a ws)) = tot n (vget a) ws (vget mask).
  Proof.
    intros La Lm. unfold proba_of, mask_last. rewrite last_last, bw_alphas_last.
    destruct (fold_fstep ws a La) as [L E]. rewrite tot_steps.
    change (@nsum R RNum (zipwith nmul (fold_left (fstep n) ws a) mask)) with (ndot (fold_left (fstep n) ws a) mask).
    rewrite (ndot_Sum _ _ n L Lm). apply Sum_ext. intros i Hi. rewrite E by exact Hi. reflexivity.
  Qed.
  Lemma zip_ones (mask : list R) : length mask = n -> zipwith nmul (vones n) mask = mask.
  Proof.
    revert mask. unfold vones. induction n as [|k IH]; intros [|x mask] L; try discriminate; [reflexivity|].
    cbn [repeat zipwith]. f_equal; [nR; ring|]. apply IH. cbn in L; lia.
  Qed.
  Lemma vget_vones s : (s < n)%nat -> vget (vones n : list R) s = 1.
  Proof.
    intros Hs. unfold vget, vones. nR. revert s Hs. induction n as [|k IH]; intros s Hs; [lia|]. destruct s; cbn; [reflexivity|apply IH; lia].
  Qed.
  Lemma vones_length : length (vones n : list R) = n.
  Proof. apply repeat_length. Qed.
End Link.

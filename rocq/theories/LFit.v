(** Facts shared by the learning theorems of the model classes. *)
From Coq Require Import String ZArith Bool Reals List Lia Lra Permutation.
From Verif Require Import Num Py SNum SPath LSum MSet SSet LSet MModels MLik MBW LFB LEM SBW LBW LBWSet SLik LPath LLik LLik2 LBWPath PLik.
Import ListNotations.
Local Open Scope R_scope.

Lemma map_const {A B} (h : R -> B) (l : list A) : map h (repeat 1 (length l)) = map (fun _ => h 1) l.
Proof. induction l; cbn; [reflexivity|]. f_equal. exact IHl. Qed.

Lemma set_ll_nonpos {T} (prob : T -> R) set : (forall x t, In (x, t) set -> prob x <= 1) -> pos_times set -> set_ll prob set <= 0.
Proof.
  intros H HT. unfold set_ll. apply Rle_trans with (sumL set (fun _ => 0)); [|rewrite sumL_zero; lra]. apply sumL_le. intros [x t] I. cbn [fst snd].
  destruct (Rlt_dec 0 (prob x)) as [P|]; [|lra]. specialize (H x t I). specialize (HT (x, t) I). cbn in HT. apply IZR_lt in HT.
  assert (ln (prob x) <= 0). { destruct H as [Lt|Eq]; [pose proof (ln_increasing _ _ P Lt) as Li; rewrite ln_1 in Li; lra|rewrite Eq, ln_1; lra]. }
  nra.
Qed.

Lemma row_sub n (mat : list (list R)) s : square n mat -> (forall r, In r mat -> rsum r <= 1) -> (s < n)%nat -> Sum n (matR mat s) <= 1.
Proof.
  intros [L Lr] S1 Hs. rewrite <- (Lr (nth s mat [])) by (apply nth_In; lia). unfold matR. rewrite <- rsum_nth. apply S1, nth_In. lia.
Qed.
Lemma vec_sub n (v : list R) : length v = n -> rsum v <= 1 -> Sum n (vecR v) <= 1.
Proof. intros <- S1. unfold vecR. rewrite <- rsum_nth. exact S1. Qed.

(** Probabilities of traces followed by one more move. *)
Lemma move_01 {O} n (mat : list (list R)) ini (B : O -> nat -> R) (tr : list O) : square n mat -> substochastic mat -> length ini = n -> nonneg ini -> rsum ini <= 1 ->
  (forall o s, (s < n)%nat -> 0 <= B o s <= 1) ->
  0 <= trace_prob n (vecR ini) (repeat (matR mat) (length tr)) (map B tr ++ [fun _ => 1]) <= 1.
Proof.
  intros Sq [N S1] Li Ni Si HB.
  set (B' := fun (o : option O) s => match o with Some x => B x s | None => 1 end).
  assert (E : map B tr ++ [fun _ : nat => 1] = map B' (map Some tr ++ [None])) by (rewrite map_app, map_map; reflexivity).
  rewrite E.
  assert (HB' : forall o s, (s < n)%nat -> 0 <= B' o s <= 1) by (intros [o|] s Hs; cbn; [apply HB; exact Hs|lra]).
  assert (HA : Forall (okw n) (repeat (matR mat) (length tr))).
  { apply Forall_forall. intros A I. apply repeat_spec in I. subst. intros i j _ _. apply matR_nonneg; exact N. }
  assert (HL : length (map Some tr ++ [None]) = S (length (repeat (matR mat) (length tr)))).
  { rewrite app_length, map_length, repeat_length. cbn. lia. }
  assert (Hi : okf n (vecR ini)) by (intros i _; apply vecR_nonneg; exact Ni).
  split.
  - apply trace_prob_nonneg; auto. intros; apply HB'; assumption.
  - apply trace_prob_le1; auto; [|apply vec_sub; assumption].
    apply Forall_forall. intros A I. apply repeat_spec in I. subst. intros s Hs. apply row_sub; assumption.
Qed.

Lemma weighted_pos {A} (s : tset (list A)) : usable s -> pos_times (weighted s).
Proof. intros U [tr t] I. apply in_combine_r in I. destruct U as [_ [Po _]]. specialize (Po t I). cbn. lia. Qed.
Lemma weighted_ne {A} (s : tset (list A)) tr t : usable s -> In (tr, t) (weighted s) -> tr <> [].
Proof. intros U I Z. subst. apply in_combine_l in I. destruct U as [_ [_ Ne]]. contradiction. Qed.
Lemma avg_le {A} (s : tset (list A)) (f g : list A -> R) : usable s -> set_ll f (weighted s) <= set_ll g (weighted s) ->
  avg_ll f (weighted s) <= avg_ll g (weighted s).
Proof.
  intros U M. unfold avg_ll. unfold Rdiv. apply Rmult_le_compat_r; [|exact M].
  set (z := zsum (map snd (weighted s))). assert (0 <= z)%Z.
  { unfold z, weighted. rewrite map_snd_combine by apply U. destruct U as [_ [Po _]]. unfold pos_set in Po.
    clear - Po. induction (times s) as [|t ts IH]; cbn; [lia|]. specialize (IH (fun u I => Po u (or_intror I))). specialize (Po t (or_introl eq_refl)). lia. }
  destruct (Z.eq_dec z 0) as [->|]; [rewrite Rinv_0; lra|]. left. apply Rinv_0_lt_compat. apply IZR_lt. lia.
Qed.

(** The initial statistics as a sum over the paths starting in s. *)
Lemma starts_Bk n (a : nat -> R) As Bs bl s : length As = length Bs -> (s < n)%nat ->
  trace_prob n (fun i => if Nat.eqb i s then a i else 0) As (Bs ++ [bl]) = a s * Bk n (wts As Bs) bl s.
Proof.
  intros L Hs. rewrite paths_tot by exact L. unfold tot.
  rewrite (Sum_ext n _ (fun i => if Nat.eqb i s then a i * Bk n (wts As Bs) bl i else 0)).
  - apply Sum_indicator_in. exact Hs.
  - intros i Hi. destruct (Nat.eqb i s); ring.
Qed.

(** Forward times backward value at each position, when the last forward vector and
    the first backward vector are masked by a 0/1 vector. *)
Lemma fb_position_mask n (ini mask : list R) ws k : length ini = n -> length mask = n ->
  (forall s, (s < n)%nat -> vget mask s = 0 \/ vget mask s = 1) -> (k <= length ws)%nat ->
  Sum n (fun s => vget (nth k (mask_last mask (bw_alphas n ini ws)) []) s * vget (nth k (bw_betas n (zipwith nmul (vones n) mask) ws) []) s)
  = tot n (vget ini) ws (vget mask).
Proof.
  intros Li Lm M01 Hk.
  assert (La : length (bw_alphas n ini ws) = S (length ws)).
  { clear. generalize ini. induction ws as [|w ws IH]; intros a; cbn; auto. }
  assert (Mo : forall s, (s < n)%nat -> vget (zipwith nmul (vones n) mask) s = vget mask s).
  { intros s Hs. unfold vget at 1. nR. rewrite (nth_zipwith _ _ _ _ 0 0); [|rewrite vones_length; exact Hs|rewrite Lm; exact Hs].
    change (nth s (vones n) 0) with (@vget R RNum (vones n) s). rewrite vget_vones by exact Hs. unfold vget. nR. ring. }
  assert (Lz : length (zipwith nmul (vones n) mask) = n) by (rewrite zipwith_length, vones_length, Lm; lia).
  rewrite <- (tot_ext_f n (vget ini) ws _ _ Mo).
  rewrite <- (fb_position n ini (zipwith nmul (vones n) mask) ws Li Lz k Hk).
  apply Sum_ext. intros s Hs. unfold mask_last. set (al := bw_alphas n ini ws) in *.
  destruct (Nat.eq_dec k (length ws)) as [Eq|NE].
  - rewrite app_nth2 by (rewrite removelast_length; lia). rewrite removelast_length, La. replace (k - (S (length ws) - 1))%nat with O by lia. cbn [nth].
    assert (Last : last al [] = nth k al []).
    { rewrite Eq. clear - La. destruct (snoc_cases al) as [Z|[l [x Z]]]; [rewrite Z in La; discriminate|]. rewrite Z in La |- *. rewrite app_length in La. cbn in La.
      rewrite last_last, app_nth2 by lia. replace (length ws - length l)%nat with O by lia. reflexivity. }
    rewrite Last.
    assert (Lk : length (nth k al []) = n).
    { assert (Hl : length (last al []) = n); [|rewrite Last in Hl; exact Hl]. unfold al. rewrite bw_alphas_last. apply fold_fstep. exact Li. }
    assert (Bk' : nth k (bw_betas n (zipwith nmul (vones n) mask) ws) [] = zipwith nmul (vones n) mask).
    { rewrite Eq. clear. induction ws as [|w ws IH]; [reflexivity|]. cbn [length bw_betas nth]. exact IH. }
    rewrite Bk', Mo by exact Hs. unfold vget at 1. nR. rewrite (nth_zipwith _ _ _ _ 0 0); [|rewrite Lk; exact Hs|rewrite Lm; exact Hs].
    change (nth s mask 0) with (@vget R RNum mask s). change (nth s (nth k al []) 0) with (@vget R RNum (nth k al []) s).
    destruct (M01 s Hs) as [-> | ->]; ring.
  - rewrite app_nth1 by (rewrite removelast_length; lia). f_equal. f_equal.
    destruct (snoc_cases al) as [Z|[l [x Z]]]; [rewrite Z in La; discriminate|]. rewrite Z in La |- *. rewrite app_length in La. cbn in La.
    rewrite removelast_app by discriminate. cbn [removelast]. rewrite app_nil_r. rewrite app_nth1 by lia. reflexivity.
Qed.

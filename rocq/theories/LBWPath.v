(** The statistics of a learning round as expectations over paths. *)
From Coq Require Import String ZArith Bool Reals List Lia Lra.
From Verif Require Import Num Py SNum SPath LSum MSet MModels MLik MBW LFB LEM SBW LBW LBWSet LPath.
Import ListNotations.
Local Open Scope R_scope.

Section P.
  Context {S : Type} (n : nat) (set : list (S * Z)).
  Variables (a : nat -> R) (W : S -> list (nat -> nat -> R)) (f : S -> nat -> R).
  Variables (As : S -> list (nat -> nat -> R)) (Bs : S -> list (nat -> R)).
  Hypothesis HW : forall x t, In (x, t) set -> W x = wts (As x) (Bs x).
  Hypothesis HL : forall x t, In (x, t) set -> length (As x) = length (Bs x).
  Notation P := (fun x => trace_prob n a (As x) (Bs x ++ [f x])).

  Lemma Pof_path x t : In (x, t) set -> Pof n a W f x = P x.
  Proof. intros I. unfold Pof. rewrite (HW x t I). symmetry. apply paths_tot. exact (HL x t I). Qed.

  Lemma set_expected_ext (P1 P2 E1 E2 : S -> R) : (forall x t, In (x, t) set -> P1 x = P2 x) ->
    (forall x t, In (x, t) set -> 0 < P2 x -> E1 x = E2 x) -> set_expected P1 E1 set = set_expected P2 E2 set.
  Proof.
    intros HP HE. apply sumL_ext. intros [x t] I. cbn [fst snd]. rewrite (HP x t I). destruct (Rlt_dec 0 (P2 x)) as [Q|]; [|reflexivity].
    rewrite (HE x t I Q). reflexivity.
  Qed.

  Lemma XI_expected c s s' : (forall x t, In (x, t) set -> length (c x) = length (Bs x)) -> (s < n)%nat -> (s' < n)%nat ->
    XI n set a W f c s s' = set_expected P (fun x => expected n a (As x) (Bs x ++ [f x]) (map (on_move s s') (c x))) set.
  Proof.
    intros Hc Hs Hs'. unfold XI, psum, set_expected. apply sumL_ext. intros [x t] I. cbn [fst snd]. rewrite (Pof_path x t I).
    destruct (Rlt_dec 0 (P x)); [|reflexivity]. unfold fac. rewrite (Pof_path x t I), (HW x t I).
    rewrite (expected_gen n (As x) (Bs x) (f x) a _ s s' (c x)); auto; [unfold Rdiv; ring|exact (HL x t I)|exact (Hc x t I)].
  Qed.
  Lemma GA_expected c s : (forall x t, In (x, t) set -> length (c x) = length (Bs x)) -> (s < n)%nat ->
    GA n set a W f c s = set_expected P (fun x => expected n a (As x) (Bs x ++ [f x]) (map (on_leave s) (c x))) set.
  Proof.
    intros Hc Hs. unfold GA, psum, set_expected. apply sumL_ext. intros [x t] I. cbn [fst snd]. rewrite (Pof_path x t I).
    destruct (Rlt_dec 0 (P x)); [|reflexivity]. unfold fac. rewrite (Pof_path x t I), (HW x t I).
    rewrite (expected_leave n (As x) (Bs x) (f x) a s (c x)); auto; [unfold Rdiv; ring|exact (HL x t I)|exact (Hc x t I)].
  Qed.
End P.

Lemma map_repeat' {A B} (h : A -> B) x k : map h (repeat x k) = repeat (h x) k.
Proof. induction k; cbn; [reflexivity|]. f_equal. exact IHk. Qed.

(** Sum of forward times backward values at each position. *)
Lemma fb_position n (a f : list R) ws : length a = n -> length f = n -> forall k, (k <= length ws)%nat ->
  Sum n (fun s => vget (nth k (bw_alphas n a ws) []) s * vget (nth k (bw_betas n f ws) []) s) = tot n (vget a) ws (vget f).
Proof.
  intros La Lf. revert a La. induction ws as [|w ws IH]; intros a La k Hk.
  - assert (k = O) by (cbn in Hk; lia). subst k. reflexivity.
  - destruct k as [|k].
    + change (nth 0 (bw_alphas n a (w :: ws)) []) with a.
      assert (E : nth 0 (bw_betas n f (w :: ws)) [] = hd [] (bw_betas n f (w :: ws))) by reflexivity. rewrite E.
      apply Sum_ext. intros s Hs. rewrite bw_betas_hd by assumption. reflexivity.
    + cbn [bw_alphas bw_betas nth]. rewrite IH; [|apply fstep_length|cbn in Hk; lia].
      rewrite tot_step. apply tot_ext. intros s Hs. apply fstep_get; assumption.
Qed.

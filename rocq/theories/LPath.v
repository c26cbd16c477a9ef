(** Expected rewards over paths and the expected transitions of the
    forward-backward recursions. *)
From Coq Require Import String ZArith Bool Reals List Lia Lra.
From Verif Require Import Num Py SNum SPath LSum MSet MModels MLik MBW LFB LEM SBW LBW LBWSet.
Import ListNotations.
Local Open Scope R_scope.

Lemma path_weight_cons A As b Bs bl s s' y : path_weight (A :: As) (b :: Bs ++ [bl]) (s :: s' :: y) =
  b s * (A s s' * path_weight As (Bs ++ [bl]) (s' :: y)).
Proof.
  change (path_weight (A :: As) (b :: Bs ++ [bl]) (s :: s' :: y))
    with (b s * match Bs ++ [bl] with [] => 0 | _ :: _ => A s s' * path_weight As (Bs ++ [bl]) (s' :: y) end).
  destruct (Bs ++ [bl]) as [|z zs] eqn:E; [destruct Bs; discriminate|]. reflexivity.
Qed.

Lemma paths_Bk n As Bs bl s : length As = length Bs -> 
  sumL (paths n (length Bs)) (fun y => path_weight As (Bs ++ [bl]) (s :: y)) = Bk n (wts As Bs) bl s.
Proof.
  revert s Bs. induction As as [|A As IH]; intros s [|b Bs] L; try discriminate.
  - unfold sumL. cbn. ring.
  - cbn [length app wts Bk]. rewrite sumL_paths_S. apply Sum_ext. intros s' Hs'.
    rewrite (sumL_ext _ _ (fun y => b s * A s s' * path_weight As (Bs ++ [bl]) (s' :: y))).
    + rewrite sumL_scal_l, IH by (cbn in L; lia). reflexivity.
    + intros y _. rewrite path_weight_cons. ring.
Qed.

Lemma expected_gen n As : forall Bs bl pi (g : list (nat -> nat -> R)) s s' cs, length As = length Bs -> length cs = length Bs ->
  (s < n)%nat -> (s' < n)%nat -> g = map (on_move s s') cs ->
  expected n pi As (Bs ++ [bl]) g = wsum (xi n pi (wts As Bs) bl s s') cs.
Proof.
  induction As as [|A As IH]; intros [|b Bs] bl pi g s s' cs L Lc Hs Hs' ->; try discriminate.
  - destruct cs; [|discriminate]. transitivity 0; [|reflexivity]. unfold expected. apply sumL_zero_ext.
    intros x _. destruct x; cbn; ring.
  - destruct cs as [|c cs]; [discriminate|]. cbn [wts xi map]. rewrite wsum_cons.
    rewrite <- (IH Bs bl _ (map (on_move s s') cs) s s' cs) by (auto; cbn in *; lia).
    unfold expected. rewrite !app_length. cbn [length]. rewrite !Nat.add_1_r. cbn [Nat.add].
    rewrite sumL_paths_S. cbn [hd app].
    rewrite (sumL_paths_S n (length Bs)). cbn [hd].
    rewrite (Sum_ext n
      (fun s0 => sumL (paths n (S (length Bs))) (fun x => pi s0 * path_weight (A :: As) (b :: Bs ++ [bl]) (s0 :: x) * path_reward (on_move s s' c :: map (on_move s s') cs) (s0 :: x)))
      (fun s0 => Sum n (fun s1 => on_move s s' (pi s * (b s * A s s') * Bk n (wts As Bs) bl s' * c) s0 s1)
               + Sum n (fun s1 => pi s0 * (b s0 * A s0 s1) * sumL (paths n (length Bs)) (fun y => path_weight As (Bs ++ [bl]) (s1 :: y) * path_reward (map (on_move s s') cs) (s1 :: y))))).
    + rewrite Sum_plus. f_equal.
      * rewrite (Sum_ext n _ (fun i => if Nat.eqb i s then pi s * (b s * A s s') * Bk n (wts As Bs) bl s' * c else 0)).
        -- apply Sum_indicator_in with (f := fun _ => pi s * (b s * A s s') * Bk n (wts As Bs) bl s' * c). exact Hs.
        -- intros i Hi. unfold on_move. destruct (Nat.eqb i s); [|apply Sum_zero].
           apply Sum_indicator_in with (f := fun _ => pi s * (b s * A s s') * Bk n (wts As Bs) bl s' * c). exact Hs'.
      * rewrite Sum_swap. apply Sum_ext. intros s1 H1. unfold step. rewrite Sum_scal_r.
        rewrite <- sumL_scal_l. apply sumL_ext. intros y _. ring.
    + intros s0 H0. rewrite sumL_paths_S. rewrite <- Sum_plus. apply Sum_ext. intros s1 H1.
      rewrite (sumL_ext _ _ (fun y => pi s0 * (b s0 * A s0 s1) * on_move s s' c s0 s1 * path_weight As (Bs ++ [bl]) (s1 :: y)
         + pi s0 * (b s0 * A s0 s1) * (path_weight As (Bs ++ [bl]) (s1 :: y) * path_reward (map (on_move s s') cs) (s1 :: y)))).
      * rewrite sumL_plus, !sumL_scal_l. f_equal. rewrite paths_Bk by (cbn in L; lia).
        unfold on_move. destruct (Nat.eqb_spec s0 s); [|ring]. destruct (Nat.eqb_spec s1 s'); [|ring]. subst. ring.
      * intros y _. rewrite path_weight_cons.
        change (path_reward (on_move s s' c :: map (on_move s s') cs) (s0 :: s1 :: y))
          with (on_move s s' c s0 s1 + path_reward (map (on_move s s') cs) (s1 :: y)). ring.
Qed.

Lemma path_reward_leave n s cs x : (forall i, In i x -> (i < n)%nat) ->
  path_reward (map (on_leave s) cs) x = Sum n (fun s' => path_reward (map (on_move s s') cs) x).
Proof.
  revert cs. induction x as [|i x IH]; intros cs Hx; [destruct cs; cbn; symmetry; apply Sum_zero|].
  destruct cs as [|c cs]; [cbn; symmetry; apply Sum_zero|]. destruct x as [|j x]; [cbn; symmetry; apply Sum_zero|].
  cbn [map]. change (path_reward (on_leave s c :: map (on_leave s) cs) (i :: j :: x)) with (on_leave s c i j + path_reward (map (on_leave s) cs) (j :: x)).
  rewrite IH by (intros; apply Hx; right; assumption).
  rewrite (Sum_ext n (fun s' => path_reward (on_move s s' c :: map (on_move s s') cs) (i :: j :: x))
     (fun s' => on_move s s' c i j + path_reward (map (on_move s s') cs) (j :: x))) by reflexivity.
  rewrite Sum_plus. f_equal. unfold on_leave, on_move. destruct (Nat.eqb i s); [|symmetry; apply Sum_zero].
  rewrite (Sum_ext n _ (fun s' => if Nat.eqb s' j then c else 0)).
  - symmetry. apply (Sum_indicator_in n j (fun _ => c)). apply Hx. right; left; reflexivity.
  - intros k Hk. rewrite Nat.eqb_sym. reflexivity.
Qed.

Lemma paths_range n T x : In x (paths n T) -> forall i, In i x -> (i < n)%nat.
Proof.
  revert x. induction T as [|T IH]; intros x I; cbn in I.
  - destruct I as [<-|[]]. intros i [].
  - apply in_flat_map in I. destruct I as [s [Is I]]. apply in_map_iff in I. destruct I as [y [<- Iy]].
    apply in_seq in Is. intros i [<-|Ii]; [lia|]. exact (IH y Iy i Ii).
Qed.
Lemma paths_length n T x : In x (paths n T) -> length x = T.
Proof.
  revert x. induction T as [|T IH]; intros x I; cbn in I.
  - destruct I as [<-|[]]. reflexivity.
  - apply in_flat_map in I. destruct I as [s [Is I]]. apply in_map_iff in I. destruct I as [y [<- Iy]]. cbn. f_equal. apply IH; exact Iy.
Qed.

Lemma expected_leave n As Bs bl pi s cs : length As = length Bs -> length cs = length Bs -> (s < n)%nat ->
  expected n pi As (Bs ++ [bl]) (map (on_leave s) cs) = wsum (gam n pi (wts As Bs) bl s) cs.
Proof.
  intros L Lc Hs. rewrite gam_xi by exact Hs.
  rewrite (Sum_ext n _ (fun s' => expected n pi As (Bs ++ [bl]) (map (on_move s s') cs))).
  - unfold expected, Sum. rewrite sumL_swap. apply sumL_ext. intros x I.
    rewrite (path_reward_leave n) by exact (paths_range _ _ _ I). unfold Sum. rewrite <- sumL_scal_l. reflexivity.
  - intros s' Hs'. symmetry. apply expected_gen; auto.
Qed.

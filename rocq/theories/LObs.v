(** With different labels there is one path per trace. *)
From Coq Require Import String ZArith Bool Reals List Lia Lra.
From Verif Require Import Num Py SNum SPath LSum MSet MModels MLik LFB LEM SBW LBW LBWSet SLik LPath LBWPath SExp SObs.
Import ListNotations.
Local Open Scope R_scope.

Section Unique.
  Variables (n : nat) (labels : list string).
  Hypothesis Ln : length labels = n.
  Hypothesis ND : NoDup labels.
  Notation lab := (fun s => nth s labels EmptyString).
  Notation B := (is_label labels).

  Lemma lab_inj i j : (i < n)%nat -> (j < n)%nat -> lab i = lab j -> i = j.
  Proof. intros Hi Hj E. apply (proj1 (NoDup_nth labels EmptyString) ND); [lia|lia|exact E]. Qed.
  Lemma B_val o s : B o s = if String.eqb o (lab s) then 1 else 0.
  Proof. unfold is_label. rewrite String.eqb_sym. reflexivity. Qed.
  Lemma B_one o s (F : nat -> R) : (s < n)%nat -> String.eqb o (lab s) = true -> Sum n (fun i => B o i * F i) = F s.
  Proof.
    intros Hs E. rewrite (Sum_ext n _ (fun i => if Nat.eqb i s then F i else 0)).
    - apply Sum_indicator_in. exact Hs.
    - intros i Hi. rewrite B_val. destruct (Nat.eqb_spec i s) as [->|N]; [rewrite E; ring|].
      destruct (String.eqb_spec o (lab i)) as [->|]; [|ring]. apply String.eqb_eq in E. destruct N. apply lab_inj; assumption.
  Qed.
  Lemma Bk_off o A As Bs f s : String.eqb o (lab s) = false -> Bk n (wts (A :: As) (B o :: Bs)) f s = 0.
  Proof. intros E. cbn [wts Bk]. rewrite <- (Sum_zero n). apply Sum_ext. intros i Hi. rewrite B_val, E. ring. Qed.
  Lemma step_one pi o A s s' : (s < n)%nat -> String.eqb o (lab s) = true -> step n pi (fun i j => B o i * A i j) s' = pi s * A s s'.
  Proof.
    intros Hs E. unfold step. rewrite (Sum_ext n _ (fun i => B o i * (pi i * A i s'))) by (intros; ring). apply (B_one o s (fun i => pi i * A i s')); assumption.
  Qed.
  Lemma step_none pi o A s' : (forall i, (i < n)%nat -> String.eqb o (lab i) = false) -> step n pi (fun i j => B o i * A i j) s' = 0.
  Proof. intros H. unfold step. rewrite <- (Sum_zero n). apply Sum_ext. intros i Hi. rewrite B_val, (H i Hi). ring. Qed.

  Definition tail_share (A : nat -> nat -> R) (f : nat -> R) (s : nat) (D : nat -> R) : Prop :=
    forall s', (s' < n)%nat -> A s s' * f s' = Sum n (fun j => A s j * f j) * D s'.
  Fixpoint endc (a : string) (tr : list string) (c : list R) : R :=
    match tr, c with
    | [o], [x] => if String.eqb o a then x else 0
    | _ :: r, _ :: c' => endc a r c'
    | _, _ => 0
    end.
  Lemma xi_seen (f : nat -> R) s s' D : (s < n)%nat -> (s' < n)%nat ->
    forall os As cs pi, length As = length os -> length cs = length os ->
    (os <> [] -> tail_share (last As (fun _ _ => 0)) f s D) ->
    wsum (xi n pi (wts As (map B os)) f s s') cs = tot n pi (wts As (map B os)) f * (seen (lab s) (lab s') os cs + endc (lab s) os cs * D s').
  Proof.
    intros Hs Hs' os. induction os as [|o os IH]; intros As cs pi LA LC HT.
    - destruct As; [|discriminate]. cbn. unfold wsum. cbn. ring.
    - destruct As as [|A As]; [discriminate|]. destruct cs as [|c cs]; [discriminate|]. cbn [map wts xi]. rewrite wsum_cons.
      fold (wts As (map B os)). rewrite tot_step.
      destruct os as [|o' os].
      + destruct As; [|discriminate]. destruct cs; [|discriminate]. cbn [map wts Bk xi seen endc]. rewrite wsum_nil_l. unfold tot. cbn [Bk].
        specialize (HT ltac:(discriminate)). cbn [last] in HT. rewrite B_val. destruct (String.eqb o (lab s)) eqn:E.
        * rewrite (Sum_ext n _ (fun i => pi s * (A s i * f i))) by (intros i Hi; rewrite (step_one pi o A s i Hs E); ring). rewrite Sum_scal_l.
          replace (pi s * (1 * A s s') * f s' * c + 0) with (pi s * c * (A s s' * f s')) by ring. rewrite (HT s' Hs'). ring.
        * ring.
      + assert (HT' : o' :: os <> [] -> tail_share (last As (fun _ _ => 0)) f s D).
        { intros _. specialize (HT ltac:(discriminate)). destruct As; [discriminate|]. exact HT. }
        rewrite (IH As cs (step n pi (fun i j => B o i * A i j)) ltac:(cbn in *; lia) ltac:(cbn in *; lia) HT').
        assert (Es : forall a b, seen a b (o :: o' :: os) (c :: cs) = (if String.eqb o a then if String.eqb o' b then c else 0 else 0) + seen a b (o' :: os) cs) by reflexivity.
        assert (Ee : forall a, endc a (o :: o' :: os) (c :: cs) = endc a (o' :: os) cs) by reflexivity. rewrite Es, Ee.
        destruct As as [|A' As]; [discriminate|].
        assert (X : pi s * (B o s * A s s') * Bk n (wts (A' :: As) (map B (o' :: os))) f s' * c =
                    tot n (step n pi (fun i j => B o i * A i j)) (wts (A' :: As) (map B (o' :: os))) f * (if String.eqb o (lab s) then if String.eqb o' (lab s') then c else 0 else 0)).
        { rewrite B_val. destruct (String.eqb o (lab s)) eqn:E; [|ring]. destruct (String.eqb o' (lab s')) eqn:E'.
          - unfold tot. rewrite (Sum_ext n _ (fun i => B o' i * (pi s * A s i * Bk n (wts (A' :: As) (map B (o' :: os))) f i))).
            + rewrite (B_one o' s' (fun i => pi s * A s i * Bk n (wts (A' :: As) (map B (o' :: os))) f i) Hs' E'). ring.
            + intros i Hi. rewrite (step_one pi o A s i Hs E). rewrite B_val. destruct (String.eqb o' (lab i)) eqn:Ei; [ring|]. cbn [map]. rewrite (Bk_off o' A' As _ f i Ei). ring.
          - cbn [map]. rewrite (Bk_off o' A' As _ f s' E'). ring. }
        rewrite X. ring.
  Qed.
  (** Models that agree in the rows of the labels met. *)
  Lemma tot_agree f os : forall As As' pi, length As = length os -> length As' = length os ->
    (forall k i j, (k < length os)%nat -> (i < n)%nat -> (j < n)%nat -> nth k os EmptyString = lab i -> nth k As (fun _ _ => 0) i j = nth k As' (fun _ _ => 0) i j) ->
    tot n pi (wts As (map B os)) f = tot n pi (wts As' (map B os)) f.
  Proof.
    induction os as [|o os IH]; intros As As' pi L L' H.
    - destruct As; [|discriminate]. destruct As'; [|discriminate]. reflexivity.
    - destruct As as [|A As]; [discriminate|]. destruct As' as [|A' As']; [discriminate|]. cbn [map wts]. rewrite !tot_step.
      rewrite (IH As As'); [|cbn in *; lia|cbn in *; lia|intros k i j Hk; apply (H (S k)); cbn; lia].
      apply tot_ext. intros s Hs. unfold step. apply Sum_ext. intros i Hi. f_equal. rewrite B_val. destruct (String.eqb_spec o (lab i)) as [E|]; [|ring].
      f_equal. apply (H 0%nat i s); auto. cbn. lia.
  Qed.
End Unique.

Lemma endc_ones a tr : endc a tr (ones tr) = ends a tr.
Proof. induction tr as [|o [|o' r] IH]; [reflexivity|cbn; destruct (String.eqb o a); reflexivity|]. exact IH. Qed.
Lemma ones_length tr : length (ones tr) = length tr. Proof. apply map_length. Qed.
Lemma total_ext {T} (f g : T -> R) set : (forall x t, In (x, t) set -> f x = g x) -> total f set = total g set.
Proof. intros H. apply sumL_ext. intros [x t] I. cbn [fst snd]. rewrite (H x t I). reflexivity. Qed.
Lemma total_plus {T} (f g : T -> R) set : total (fun x => f x + g x) set = total f set + total g set.
Proof. unfold total. rewrite <- sumL_plus. apply sumL_ext. intros. ring. Qed.
Lemma total_scal {T} (f : T -> R) c set : total (fun x => f x * c) set = total f set * c.
Proof. unfold total. rewrite Rmult_comm, <- sumL_scal_l. apply sumL_ext. intros. ring. Qed.
Lemma total_nonneg {T} (f : T -> R) set : pos_times set -> (forall x t, In (x, t) set -> 0 <= f x) -> 0 <= total f set.
Proof. intros HT H. apply sumL_nonneg. intros [x t] I. apply Rmult_le_pos; [apply IZR_le; pose proof (HT _ I) as Q; cbn in *; lia|apply (H x t I)]. Qed.
Lemma total_pos {T} (f : T -> R) set x t : pos_times set -> (forall x t, In (x, t) set -> 0 <= f x) -> In (x, t) set -> 0 < f x -> 0 < total f set.
Proof.
  intros HT H I P. apply (sumL_pos _ _ (x, t)); [|exact I|].
  - intros [y u] J. apply Rmult_le_pos; [apply IZR_le; pose proof (HT _ J) as Q; cbn in *; lia|apply (H y u J)].
  - cbn [fst snd]. apply Rmult_lt_0_compat; [apply IZR_lt; apply (HT _ I)|exact P].
Qed.
Lemma set_expected_total {T} (P E : T -> R) (f : T -> R) set : (forall x t, In (x, t) set -> 0 < P x) -> (forall x t, In (x, t) set -> E x = P x * f x) ->
  set_expected P E set = total f set.
Proof.
  intros HP HE. apply sumL_ext. intros [x t] I. cbn [fst snd]. pose proof (HP x t I) as Px. destruct (Rlt_dec 0 (P x)); [|lra]. rewrite (HE x t I). field. lra.
Qed.

Section Unique2.
  Variables (n : nat) (labels : list string).
  Hypothesis Ln : length labels = n.
  Hypothesis ND : NoDup labels.
  Notation B := (is_label labels).
  Lemma gam_left (f : nat -> R) s : (s < n)%nat -> forall os As cs pi, length As = length os -> length cs = length os ->
    wsum (gam n pi (wts As (map B os)) f s) cs = tot n pi (wts As (map B os)) f * (left (nth s labels EmptyString) os cs + endc (nth s labels EmptyString) os cs).
  Proof.
    intros Hs os. induction os as [|o os IH]; intros As cs pi LA LC.
    - destruct As; [|discriminate]. cbn. unfold wsum. cbn. ring.
    - destruct As as [|A As]; [discriminate|]. destruct cs as [|c cs]; [discriminate|]. cbn [map wts gam]. rewrite wsum_cons. fold (wts As (map B os)).
      rewrite (IH As cs (step n pi (fun i j => B o i * A i j)) ltac:(cbn in *; lia) ltac:(cbn in *; lia)).
      assert (X : pi s * Bk n ((fun i j => B o i * A i j) :: wts As (map B os)) f s = tot n pi ((fun i j => B o i * A i j) :: wts As (map B os)) f * (if String.eqb o (nth s labels EmptyString) then 1 else 0)).
      { destruct (String.eqb o (nth s labels EmptyString)) eqn:E.
        - unfold tot. rewrite (Sum_ext n _ (fun i => B o i * (pi i * Bk n ((fun i j => B o i * A i j) :: wts As (map B os)) f i))).
          + rewrite (B_one n labels Ln ND o s (fun i => pi i * Bk n ((fun i j => B o i * A i j) :: wts As (map B os)) f i) Hs E). ring.
          + intros i Hi. rewrite B_val. destruct (String.eqb o (nth i labels EmptyString)) eqn:Ei; [ring|].
            pose proof (Bk_off n labels o A As (map B os) f i Ei) as Z. cbn [wts] in Z. rewrite Z. ring.
        - pose proof (Bk_off n labels o A As (map B os) f s E) as Z. cbn [wts] in Z. rewrite Z. ring. }
      rewrite X, <- tot_step. destruct os as [|o' os].
      + destruct cs; [|discriminate]. cbn [left endc]. destruct (String.eqb o _); ring.
      + assert (Es : forall a, left a (o :: o' :: os) (c :: cs) = (if String.eqb o a then c else 0) + left a (o' :: os) cs) by reflexivity.
        assert (Ee : forall a, endc a (o :: o' :: os) (c :: cs) = endc a (o' :: os) cs) by (intros; reflexivity). rewrite Es, Ee. destruct (String.eqb o _); ring.
  Qed.
End Unique2.

(** Traces read to their last label: exact counts. *)
Lemma seen_snoc a b l os : forall cs, length cs = length os -> seen a b (os ++ [l]) cs = seen a b os cs + endc a os cs * (if String.eqb l b then 1 else 0).
Proof.
  induction os as [|o os IH]; intros [|c cs] L; try discriminate; [cbn; ring|]. destruct os as [|o' os].
  - destruct cs; [|discriminate]. cbn. destruct (String.eqb o a), (String.eqb l b); ring.
  - assert (X : seen a b ((o :: o' :: os) ++ [l]) (c :: cs) = (if String.eqb o a then if String.eqb o' b then c else 0 else 0) + seen a b ((o' :: os) ++ [l]) cs) by reflexivity.
    rewrite X, IH by (cbn in *; lia). cbn [seen endc]. ring.
Qed.
Lemma left_snoc a l os : forall cs, length cs = length os -> left a (os ++ [l]) cs = left a os cs + endc a os cs.
Proof.
  induction os as [|o os IH]; intros [|c cs] L; try discriminate; [cbn; ring|]. destruct os as [|o' os].
  - destruct cs; [|discriminate]. cbn. destruct (String.eqb o a); ring.
  - assert (X : left a ((o :: o' :: os) ++ [l]) (c :: cs) = (if String.eqb o a then c else 0) + left a ((o' :: os) ++ [l]) cs) by reflexivity.
    rewrite X, IH by (cbn in *; lia). cbn [left endc]. ring.
Qed.

Section Exact.
  Variables (n : nat) (labels : list string).
  Hypothesis Ln : length labels = n.
  Hypothesis ND : NoDup labels.
  Notation B := (is_label labels).
  Lemma label_share l (A : nat -> nat -> R) s : tail_share n A (B l) s (fun s' => if String.eqb l (nth s' labels EmptyString) then 1 else 0).
  Proof.
    intros s' Hs'. rewrite (B_val labels l s'). destruct (String.eqb l (nth s' labels EmptyString)) eqn:E; [|ring].
    rewrite (Sum_ext n _ (fun j => B l j * A s j)) by (intros; ring). rewrite (B_one n labels Ln ND l s' (A s) Hs' E). ring.
  Qed.
  Lemma moves_exact tr As cs pi s s' : length tr = S (length cs) -> length As = length cs -> (s < n)%nat -> (s' < n)%nat ->
    expected n pi As (map B tr) (map (on_move s s') cs) = trace_prob n pi As (map B tr) * seen (nth s labels EmptyString) (nth s' labels EmptyString) tr cs.
  Proof.
    intros L LA Hs Hs'. assert (NE : tr <> []) by (intros ->; discriminate). destruct (exists_last NE) as (os & l & ->). rewrite app_length in L. cbn in L.
    rewrite map_app. cbn [map]. rewrite (expected_gen _ _ _ _ _ _ s s' cs) by (rewrite ?map_length; auto; lia).
    rewrite paths_tot by (rewrite map_length; lia). rewrite seen_snoc by lia.
    apply (xi_seen n labels Ln ND (B l) s s' (fun s' => if String.eqb l (nth s' labels EmptyString) then 1 else 0) Hs Hs'); [lia|lia|]. intros _. apply label_share.
  Qed.
  Lemma leaves_exact tr As cs pi s : length tr = S (length cs) -> length As = length cs -> (s < n)%nat ->
    expected n pi As (map B tr) (map (on_leave s) cs) = trace_prob n pi As (map B tr) * left (nth s labels EmptyString) tr cs.
  Proof.
    intros L LA Hs. assert (NE : tr <> []) by (intros ->; discriminate). destruct (exists_last NE) as (os & l & ->). rewrite app_length in L. cbn in L.
    rewrite map_app. cbn [map]. rewrite expected_leave by (rewrite ?map_length; auto; lia).
    rewrite paths_tot by (rewrite map_length; lia). rewrite left_snoc by lia.
    apply (gam_left n labels Ln ND (B l) s Hs); lia.
  Qed.
  Lemma prob_agree tr As As' pi : length tr = S (length As) -> length As' = length As ->
    (forall k i j, (k < length As)%nat -> (i < n)%nat -> (j < n)%nat -> nth k tr EmptyString = nth i labels EmptyString -> nth k As (fun _ _ => 0) i j = nth k As' (fun _ _ => 0) i j) ->
    trace_prob n pi As (map B tr) = trace_prob n pi As' (map B tr).
  Proof.
    intros L LA H. assert (NE : tr <> []) by (intros ->; discriminate). destruct (exists_last NE) as (os & l & ->). rewrite app_length in L. cbn in L.
    rewrite map_app. cbn [map]. rewrite !paths_tot by (rewrite map_length; lia).
    apply (tot_agree n labels Ln); [lia|lia|]. intros k i j Hk Hi Hj E. apply H; auto; [lia|]. rewrite app_nth1 by exact Hk. exact E.
  Qed.
End Exact.
Lemma seen_pos_nonneg a b tr : forall cs, (forall c, In c cs -> 0 <= c) -> 0 <= seen a b tr cs.
Proof.
  induction tr as [|o [|o' r] IH]; intros [|c cs] H; try (cbn; lra). specialize (IH cs (fun x I => H x (or_intror I))). pose proof (H c (or_introl eq_refl)).
  cbn [seen] in *. destruct (String.eqb o a), (String.eqb o' b); lra.
Qed.
Lemma left_pos_nonneg a tr : forall cs, (forall c, In c cs -> 0 <= c) -> 0 <= left a tr cs.
Proof.
  induction tr as [|o [|o' r] IH]; intros [|c cs] H; try (cbn; lra). specialize (IH cs (fun x I => H x (or_intror I))). pose proof (H c (or_introl eq_refl)).
  cbn [left] in *. destruct (String.eqb o a); lra.
Qed.
Lemma left_at a tr : forall cs k, length tr = S (length cs) -> (forall c, In c cs -> 0 <= c) -> (k < length cs)%nat -> nth k tr EmptyString = a -> nth k cs 0 <= left a tr cs.
Proof.
  induction tr as [|o [|o' r] IH]; intros [|c cs] k L H Hk E; try (cbn in *; lia).
  assert (X : left a (o :: o' :: r) (c :: cs) = (if String.eqb o a then c else 0) + left a (o' :: r) cs) by reflexivity. rewrite X.
  pose proof (left_pos_nonneg a (o' :: r) cs (fun x I => H x (or_intror I))) as N. pose proof (H c (or_introl eq_refl)).
  destruct k as [|k].
  - cbn in E. subst. rewrite String.eqb_refl. cbn [nth]. lra.
  - specialize (IH cs k ltac:(cbn in *; lia) (fun x I => H x (or_intror I)) ltac:(cbn in *; lia) E). cbn [nth]. destruct (String.eqb o a); lra.
Qed.

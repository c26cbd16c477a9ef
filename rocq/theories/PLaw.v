(** The law of the simulations: C139. *)
From Coq Require Import String ZArith Bool Reals List Lra Lia.
From Verif Require Import Num Py SNum LSum MTools LTools SPath LPath MSet SSet LSet MModels MCtor SBW SLik MRun SRun LCtor LRun LFB PRun SLaw.
Import ListNotations.
Local Open Scope R_scope.

(** ** Boxes *)
Definition cell (p : list R) (k : nat) : R * R := (rsum (firstn k p), rsum (firstn k p) + vecR p k).
Lemma selected_cell p r k : selected p r k <-> (k < length p)%nat /\ within (cell p k) r.
Proof. unfold selected, within, cell. cbn [fst snd]. split; intros (A & B & C); repeat split; auto; lra. Qed.
Lemma cell_unit p k : is_dist p -> 0 <= fst (cell p k) <= snd (cell p k) /\ snd (cell p k) <= 1.
Proof.
  intros [N S]. unfold cell. cbn [fst snd]. assert (V : 0 <= vecR p k) by (apply vecR_nonneg, N).
  assert (A : 0 <= rsum (firstn k p)). { apply nonneg_rsum. intros x I. apply N. rewrite <- (firstn_skipn k p). apply in_or_app. left. exact I. }
  split; [lra|]. rewrite <- S. rewrite <- (firstn_skipn (Datatypes.S k) p) at 3. rewrite rsum_app.
  assert (E : rsum (firstn (Datatypes.S k) p) = rsum (firstn k p) + vecR p k) by (apply rsum_firstn_S).
  rewrite E. assert (0 <= rsum (skipn (Datatypes.S k) p)). { apply nonneg_rsum. intros x I. apply N. rewrite <- (firstn_skipn (Datatypes.S k) p). apply in_or_app. right. exact I. }
  lra.
Qed.
Lemma cell_volume p k : snd (cell p k) - fst (cell p k) = vecR p k.
Proof. unfold cell. cbn. lra. Qed.

Definition apart (i : nat) (b b' : list (R * R)) : Prop := forall draws, (forall k, unit_draw (draws k)) -> inbox b draws i -> inbox b' draws i -> False.
Lemma FOP_app {A} (P : A -> A -> Prop) l m : ForallOrdPairs P l -> ForallOrdPairs P m -> (forall x y, In x l -> In y m -> P x y) -> ForallOrdPairs P (l ++ m).
Proof.
  intros F G H. induction F as [|a l Fa F IH]; [exact G|]. cbn. constructor; [|apply IH; intros; apply H; [right|]; assumption].
  apply Forall_app. split; [exact Fa|]. apply Forall_forall. intros y I. apply H; [left; reflexivity|exact I].
Qed.
Lemma FOP_flat {A B} (P : B -> B -> Prop) (f : A -> list B) l : NoDup l -> (forall x, In x l -> ForallOrdPairs P (f x)) ->
  (forall x y b c, In x l -> In y l -> x <> y -> In b (f x) -> In c (f y) -> P b c) -> ForallOrdPairs P (flat_map f l).
Proof.
  induction l as [|x l IH]; intros N F H; [constructor|]. inversion N as [|? ? N1 N2]; subst. cbn. apply FOP_app.
  - apply F. left. reflexivity.
  - apply IH; [exact N2|intros y I; apply F; right; exact I|intros y z b c I J; apply H; right; assumption].
  - intros b c I J. apply in_flat_map in J as (y & J & K). apply (H x y); [left; reflexivity|right; exact J|intros ->; contradiction|exact I|exact K].
Qed.
Lemma FOP_map {A B} (P : A -> A -> Prop) (Q : B -> B -> Prop) (f : A -> B) l : ForallOrdPairs P l -> (forall x y, P x y -> Q (f x) (f y)) -> ForallOrdPairs Q (map f l).
Proof.
  intros F H. induction F as [|a l Fa F IH]; [constructor|]. cbn. constructor; [|exact IH]. apply Forall_forall. intros y I. apply in_map_iff in I as (z & <- & I). apply H. rewrite Forall_forall in Fa. apply Fa, I.
Qed.
Lemma FOP_nth {A} (P : A -> A -> Prop) l p q x y : ForallOrdPairs P l -> nth_error l p = Some x -> nth_error l q = Some y -> (p < q)%nat -> P x y.
Proof.
  intros F. revert p q. induction F as [|a l Fa F IH]; intros p q Ep Eq L; [destruct p; discriminate|]. destruct p as [|p].
  - injection Ep as ->. destruct q as [|q]; [lia|]. cbn in Eq. apply nth_error_In in Eq. rewrite Forall_forall in Fa. apply Fa, Eq.
  - destruct q as [|q]; [lia|]. apply (IH p q); [exact Ep|exact Eq|lia].
Qed.
(** Outside of the unit interval no draw is in a box. *)
Lemma inbox_ext b d e i : (forall k, (i <= k < i + length b)%nat -> d k = e k) -> inbox b d i -> inbox b e i.
Proof.
  revert i. induction b as [|ab b IH]; intros i E; [exact (fun x => x)|]. cbn. intros [A B]. split; [rewrite <- E; [exact A|cbn; lia]|]. apply IH; [intros k L; apply E; cbn; lia|exact B].
Qed.
(** A draw of the same box in the unit interval: [r] or something smaller than 1. *)
Lemma apart_all i b b' : length b = length b' -> (forall ab, In ab b \/ In ab b' -> 0 <= fst ab <= snd ab /\ snd ab <= 1) -> apart i b b' ->
  forall draws, inbox b draws i -> inbox b' draws i -> False.
Proof.
  intros L U A draws I I'.
  (* a draw equal to 1 is replaced by one just below, in both intervals *)
  assert (W : forall ab cd r, 0 <= fst ab <= snd ab /\ snd ab <= 1 -> 0 <= fst cd <= snd cd /\ snd cd <= 1 -> within ab r -> within cd r -> exists r', unit_draw r' /\ within ab r' /\ within cd r').
  { intros [a b0] [c d0] r (A1 & A2) (C1 & C2) [W1 W2] [W3 W4]. cbn [fst snd] in *. exists (if Rlt_dec r 1 then r else (Rmax a c + 1) / 2). destruct (Rlt_dec r 1) as [H|H].
    - split; [unfold unit_draw; lra|]. split; (split; [cbn; lra|]); cbn; tauto.
    - assert (a < 1 /\ c < 1 /\ b0 = 1 /\ d0 = 1 /\ r = 1) as (Ha & Hc & -> & -> & ->) by lra.
      assert (M : Rmax a c < 1 /\ a <= Rmax a c /\ c <= Rmax a c) by (split; [apply Rmax_lub_lt; assumption|split; [apply Rmax_l|apply Rmax_r]]).
      split; [unfold unit_draw; lra|]. unfold within. cbn. split; (split; [lra|left; lra]). }
  assert (G : forall b b' i, length b = length b' -> (forall ab, In ab b \/ In ab b' -> 0 <= fst ab <= snd ab /\ snd ab <= 1) -> inbox b draws i -> inbox b' draws i -> exists e, (forall k, unit_draw (e k)) /\ inbox b e i /\ inbox b' e i).
  { clear -W. induction b as [|ab b IH]; intros [|cd b'] i L U I I'; try discriminate.
    - exists (fun _ => 0). split; [intros; unfold unit_draw; lra|split; exact Logic.I].
    - destruct I as [I1 I2], I' as [I3 I4]. destruct (IH b' (S i)) as (e & E1 & E2 & E3); [cbn in L; lia|intros x [J|J]; apply U; cbn; tauto|exact I2|exact I4|].
      destruct (W ab cd (draws i)) as (r & R1 & R2 & R3); [apply U; cbn; auto|apply U; cbn; auto|exact I1|exact I3|].
      exists (fun k => if Nat.eqb k i then r else e k). split; [intros k; destruct (Nat.eqb k i); auto|].
      assert (EX : forall b0, inbox b0 e (S i) -> inbox b0 (fun k => if Nat.eqb k i then r else e k) (S i)).
      { intros b0. apply inbox_ext. intros k Lk. destruct (Nat.eqb_spec k i); [lia|reflexivity]. }
      cbn. rewrite Nat.eqb_refl. auto. }
  destruct (G b b' i L U I I') as (e & E1 & E2 & E3). exact (A e E1 E2 E3).
Qed.
Lemma cells_apart p k k' r : is_dist p -> unit_draw r -> (k < length p)%nat -> (k' < length p)%nat -> within (cell p k) r -> within (cell p k') r -> k = k'.
Proof. intros [N _] [U _] L L' W W'. apply (selected_unique p r); [exact N|exact U|apply selected_cell; auto|apply selected_cell; auto]. Qed.

(** ** Markov chains *)
Section MC.
  Variable m : mc R.
  Hypothesis W : wf_mc m.
  Hypothesis AD : all_dist (mc_mat m).
  Hypothesis DI : is_dist (mc_ini m).
  Let n := mc_n m.
  Let row s := nth s (mc_mat m) [].
  Lemma row_dist s : (s < n)%nat -> is_dist (row s) /\ length (row s) = n.
  Proof. intros L. destruct W as ((Lm & Lr) & _). assert (I : In (row s) (mc_mat m)) by (apply nth_In; exact L). split; [apply AD, I|apply Lr, I]. Qed.
  Fixpoint mc_boxes (s : nat) (tr : list string) : list (list (R * R)) :=
    match tr with
    | [] => []
    | l :: tr' => if String.eqb (nth s (mc_lab m) EmptyString) l then
                    match tr' with [] => [[]] | _ => flat_map (fun s' => map (cons (cell (row s) s')) (mc_boxes s' tr')) (seq 0 n) end
                  else []
    end.
  Lemma mc_boxes_unit tr : forall s b, (s < n)%nat -> In b (mc_boxes s tr) -> unit_box (length tr - 1) b.
  Proof.
    induction tr as [|l tr IH]; intros s b L I; [destruct I|]. cbn [mc_boxes] in I. destruct (String.eqb _ _); [|destruct I]. destruct tr as [|l' tr].
    - destruct I as [<-|[]]. split; [reflexivity|intros ab []].
    - apply in_flat_map in I as (s' & J & I). apply in_seq in J. apply in_map_iff in I as (c & <- & I). destruct (IH s' c ltac:(lia) I) as [L1 U1]. split; [cbn in *; lia|].
      intros ab [<-|K]; [apply cell_unit, row_dist, L|apply U1, K].
  Qed.
  Lemma mc_boxes_apart tr : forall s i, (s < n)%nat -> ForallOrdPairs (apart i) (mc_boxes s tr).
  Proof.
    induction tr as [|l tr IH]; intros s i L; [constructor|]. cbn [mc_boxes]. destruct (String.eqb _ _); [|constructor]. destruct tr as [|l' tr]; [repeat constructor|].
    apply FOP_flat; [apply seq_NoDup| |].
    - intros s' J. apply in_seq in J. apply (FOP_map (apart (S i))); [apply IH; lia|]. intros b c A d U [_ B] [_ C]. exact (A d U B C).
    - intros x y b c J J' N I I'. apply in_seq in J, J'. apply in_map_iff in I as (b' & <- & _). apply in_map_iff in I' as (c' & <- & _). intros d U [B _] [C _].
      destruct (row_dist s L) as [D E]. apply N. apply (cells_apart (row s) x y (d i)); auto; lia.
  Qed.
  Lemma mc_boxes_volume tr : forall s, tr <> [] -> sumL (mc_boxes s tr) volume = sumL (paths n (length tr - 1)) (fun y => path_weight (repeat (matR (mc_mat m)) (length tr - 1)) (map (is_label (mc_lab m)) tr) (s :: y)).
  Proof.
    induction tr as [|l tr IH]; intros s NE; [congruence|]. destruct tr as [|l' tr].
    - cbn. unfold is_label, sumL. destruct (String.eqb _ _); cbn; lra.
    - replace (length (l :: l' :: tr) - 1)%nat with (S (length (l' :: tr) - 1)) by (cbn; lia). rewrite sumL_paths_S.
      cbn [mc_boxes map repeat]. rewrite (Sum_ext n _ (fun s' => is_label (mc_lab m) l s * (matR (mc_mat m) s s' * sumL (mc_boxes s' (l' :: tr)) volume))).
      + change (is_label (mc_lab m) l' :: map (is_label (mc_lab m)) tr) with (map (is_label (mc_lab m)) (l' :: tr)).
        destruct (String.eqb (nth s (mc_lab m) EmptyString) l) eqn:E.
        * rewrite sumL_flat_map. apply sumL_ext. intros s' _. rewrite sumL_map. cbn [volume]. rewrite sumL_scal_l, cell_volume. unfold is_label. rewrite E. rewrite Rmult_1_l. reflexivity.
        * symmetry. apply Sum_zero_ext. intros s' _. unfold is_label. rewrite E. ring.
      + intros s' _. rewrite IH by discriminate. rewrite <- !sumL_scal_l. apply sumL_ext. intros y _. cbn [path_weight map]. ring.
  Qed.
  Lemma mc_boxes_run tr draws : (forall k, unit_draw (draws k)) -> forall s i, (s < n)%nat -> tr <> [] ->
    (mc_run_from m (length tr - 1) (Z.of_nat s) draws i = Ok tr <-> exists b, In b (mc_boxes s tr) /\ inbox b draws i).
  Proof.
    intros UD. destruct W as ((Lm & Lr) & Ll & _). induction tr as [|l tr IH]; intros s i L NE; [congruence|]. assert (Lb : (s < length (mc_lab m))%nat) by (fold n in Ll; lia).
    destruct tr as [|l' tr].
    - cbn [length Nat.sub mc_run_from mc_boxes]. rewrite (pyget_nth _ _ EmptyString) by exact Lb. cbn [bind]. destruct (String.eqb_spec (nth s (mc_lab m) EmptyString) l) as [->|N]; split.
      + intros _. exists []. split; [left; reflexivity|exact I].
      + reflexivity.
      + intros E. congruence.
      + intros (b & [] & _).
    - replace (length (l :: l' :: tr) - 1)%nat with (S (length (l' :: tr) - 1)) by (cbn; lia). cbn [mc_run_from mc_boxes]. unfold mc_next. rewrite (pyget_nth _ _ []) by exact L. cbn [bind].
      destruct (row_dist s L) as [D E]. destruct (dist_selects _ (draws i) D (UD i)) as (c & Ec & Sc). unfold row in Ec. rewrite Ec. cbn [bind]. rewrite (pyget_nth _ _ EmptyString) by exact Lb. cbn [bind fst snd].
      apply selected_cell in Sc as [Lc Wc]. rewrite E in Lc. specialize (IH c (S i) Lc ltac:(discriminate)). split.
      + intros H. destruct (mc_run_from m (length (l' :: tr) - 1) (Z.of_nat c) draws (S i)) as [rest|] eqn:Er; cbn [bind] in H; [|discriminate]. injection H as H1 H2. subst rest. rewrite H1, String.eqb_refl.
        destruct (proj1 IH eq_refl) as (b & I & B). exists (cell (row s) c :: b). split; [|split; assumption]. apply in_flat_map. exists c. split; [apply in_seq; lia|apply in_map, I].
      + intros (b & I & B). destruct (String.eqb_spec (nth s (mc_lab m) EmptyString) l) as [->|N]; [|destruct I]. apply in_flat_map in I as (s' & J & I). apply in_seq in J. apply in_map_iff in I as (b' & <- & I). destruct B as [B1 B2].
        assert (s' = c) as -> by (apply (cells_apart (row s) s' c (draws i)); auto; lia). rewrite (proj2 IH) by eauto. reflexivity.
  Qed.
End MC.

(** ** Hidden Markov models *)
Section HMM.
  Variable m : hmm R.
  Hypothesis W : wf_hmm m.
  Hypothesis AD : all_dist (hmm_mat m).
  Hypothesis AO : all_dist (hmm_out m).
  Let n := hmm_n m.
  Let row s := nth s (hmm_mat m) [].
  Let out s := nth s (hmm_out m) [].
  Let k := length (hmm_alph m).
  Lemma hrow_dist s : (s < n)%nat -> (is_dist (row s) /\ length (row s) = n) /\ is_dist (out s) /\ length (out s) = k.
  Proof.
    intros L. destruct W as ((Lm & Lr) & Lo & Lor & _). assert (I : In (row s) (hmm_mat m)) by (apply nth_In; exact L).
    assert (J : In (out s) (hmm_out m)) by (apply nth_In; rewrite Lo; exact L). split; split; auto.
  Qed.
  Fixpoint hmm_boxes (s : nat) (tr : list string) : list (list (R * R)) :=
    match tr with
    | [] => [[]]
    | o :: tr' => flat_map (fun s' => flat_map (fun j => if String.eqb (nth j (hmm_alph m) EmptyString) o then map (fun b => cell (row s) s' :: cell (out s) j :: b) (hmm_boxes s' tr') else []) (seq 0 k)) (seq 0 n)
    end.
  Lemma hmm_boxes_in s o tr b : In b (hmm_boxes s (o :: tr)) <-> exists s' j b', (s' < n)%nat /\ (j < k)%nat /\ nth j (hmm_alph m) EmptyString = o /\ In b' (hmm_boxes s' tr) /\ b = cell (row s) s' :: cell (out s) j :: b'.
  Proof.
    cbn [hmm_boxes]. rewrite in_flat_map. split.
    - intros (s' & J & I). apply in_seq in J. apply in_flat_map in I as (j & Jj & I). apply in_seq in Jj. destruct (String.eqb_spec (nth j (hmm_alph m) EmptyString) o) as [E|]; [|destruct I].
      apply in_map_iff in I as (b' & <- & I). exists s', j, b'. repeat split; auto; lia.
    - intros (s' & j & b' & L1 & L2 & E & I & ->). exists s'. split; [apply in_seq; lia|]. apply in_flat_map. exists j. split; [apply in_seq; lia|]. rewrite E, String.eqb_refl. apply in_map_iff. eauto.
  Qed.
  Lemma hmm_boxes_unit tr : forall s b, (s < n)%nat -> In b (hmm_boxes s tr) -> unit_box (2 * length tr) b.
  Proof.
    induction tr as [|o tr IH]; intros s b L I.
    - destruct I as [<-|[]]. split; [reflexivity|intros ab []].
    - apply hmm_boxes_in in I as (s' & j & b' & L1 & L2 & _ & I & ->). destruct (IH s' b' L1 I) as [E U]. split; [cbn [length]; lia|].
      destruct (hrow_dist s L) as [[D1 _] [D2 _]]. intros ab [<-|[<-|K]]; [apply cell_unit, D1|apply cell_unit, D2|apply U, K].
  Qed.
  Lemma hmm_boxes_apart tr : forall s i, (s < n)%nat -> ForallOrdPairs (apart i) (hmm_boxes s tr).
  Proof.
    induction tr as [|o tr IH]; intros s i L; [repeat constructor|]. cbn [hmm_boxes]. destruct (hrow_dist s L) as [[D1 E1] [D2 E2]].
    apply FOP_flat; [apply seq_NoDup| |].
    - intros s' J. apply in_seq in J. apply FOP_flat; [apply seq_NoDup| |].
      + intros j Jj. destruct (String.eqb _ _); [|constructor]. apply (FOP_map (apart (S (S i)))); [apply IH; lia|]. intros b c A d U (_ & _ & B) (_ & _ & C). exact (A d U B C).
      + intros x y b c Jx Jy N I I'. apply in_seq in Jx, Jy. destruct (String.eqb (nth x _ _) _); [|destruct I]. destruct (String.eqb (nth y _ _) _); [|destruct I'].
        apply in_map_iff in I as (b' & <- & _). apply in_map_iff in I' as (c' & <- & _). intros d U (_ & B & _) (_ & C & _). apply N. apply (cells_apart (out s) x y (d (S i))); auto; lia.
    - intros x y b c Jx Jy N I I'. apply in_seq in Jx, Jy. apply in_flat_map in I as (j & _ & I). apply in_flat_map in I' as (j' & _ & I').
      destruct (String.eqb (nth j _ _) _); [|destruct I]. destruct (String.eqb (nth j' _ _) _); [|destruct I'].
      apply in_map_iff in I as (b' & <- & _). apply in_map_iff in I' as (c' & <- & _). intros d U (B & _) (C & _). apply N. apply (cells_apart (row s) x y (d i)); auto; lia.
  Qed.
  Lemma hmm_boxes_volume tr : forall s, sumL (hmm_boxes s tr) volume = sumL (paths n (length tr)) (fun y => path_weight (repeat (matR (hmm_mat m)) (length tr)) (map (emit m) tr ++ [fun _ => 1]) (s :: y)).
  Proof.
    induction tr as [|o tr IH]; intros s; [cbn; unfold sumL; cbn; lra|]. cbn [length]. rewrite sumL_paths_S. cbn [map repeat app].
    rewrite (Sum_ext n _ (fun s' => emit m o s * (matR (hmm_mat m) s s' * sumL (hmm_boxes s' tr) volume))).
    - cbn [hmm_boxes]. rewrite sumL_flat_map. apply sumL_ext. intros s' _. rewrite sumL_flat_map. unfold emit. fold k.
      rewrite (sumL_ext (seq 0 k) _ (fun j => (if String.eqb (nth j (hmm_alph m) EmptyString) o then matR (hmm_out m) s j else 0) * (matR (hmm_mat m) s s' * sumL (hmm_boxes s' tr) volume))).
      + unfold Sum. rewrite sumL_scal_r. reflexivity.
      + intros j _. destruct (String.eqb _ _); [|unfold sumL; cbn; lra]. rewrite sumL_map. cbn [volume]. rewrite !cell_volume.
        rewrite (sumL_ext _ _ (fun b => (vecR (row s) s' * vecR (out s) j) * volume b)) by (intros; ring). rewrite sumL_scal_l. unfold row, out, vecR, matR. ring.
    - intros s' _. rewrite IH. rewrite <- !sumL_scal_l. apply sumL_ext. intros y _. cbn [path_weight]. destruct (map (emit m) tr ++ [fun _ : nat => 1]) eqn:E; [destruct tr; discriminate|]. ring.
  Qed.
  Lemma hmm_boxes_run tr draws : (forall i, unit_draw (draws i)) -> forall s i, (s < n)%nat ->
    (hmm_run_from m (length tr) (Z.of_nat s) draws i = Ok tr <-> exists b, In b (hmm_boxes s tr) /\ inbox b draws i).
  Proof.
    intros UD. destruct W as ((Lm & Lr) & Lo & Lor & _). induction tr as [|o tr IH]; intros s i L.
    - cbn. split; [intros _; exists []; split; [left; reflexivity|exact I]|reflexivity].
    - cbn [length hmm_run_from]. unfold hmm_next. destruct (hrow_dist s L) as [[D1 E1] [D2 E2]]. rewrite (pyget_nth _ _ []) by exact L. cbn [bind].
      destruct (dist_selects _ (draws i) D1 (UD i)) as (c & Ec & Sc). unfold row in Ec. rewrite Ec. cbn [bind]. rewrite (pyget_nth _ _ []) by (rewrite Lo; exact L). cbn [bind].
      destruct (dist_selects _ (draws (S i)) D2 (UD (S i))) as (j & Ej & Sj). unfold out in Ej. rewrite Ej. cbn [bind].
      apply selected_cell in Sc as [Lc Wc]. apply selected_cell in Sj as [Lj Wj]. rewrite E1 in Lc. rewrite E2 in Lj.
      rewrite (pyget_nth _ _ EmptyString) by exact Lj. cbn [bind fst snd]. specialize (IH c (S (S i)) Lc). split.
      + intros H. destruct (hmm_run_from m (length tr) (Z.of_nat c) draws (S (S i))) as [rest|] eqn:Er; cbn [bind] in H; [|discriminate]. injection H as H1 H2. subst rest.
        destruct (proj1 IH eq_refl) as (b & I & B). exists (cell (row s) c :: cell (out s) j :: b). split; [|repeat split; apply Wc || apply Wj || exact B]. apply hmm_boxes_in. exists c, j, b. auto.
      + intros (b & I & B). apply hmm_boxes_in in I as (s' & j' & b' & L1 & L2 & E & I & ->). destruct B as (B1 & B2 & B3).
        assert (s' = c) as -> by (apply (cells_apart (row s) s' c (draws i)); auto; lia). assert (j' = j) as -> by (apply (cells_apart (out s) j' j (draws (S i))); auto; lia).
        rewrite (proj2 IH) by eauto. cbn [bind]. rewrite E. reflexivity.
  Qed.
End HMM.

(** The initial draw. *)
Lemma boxes_disjoint k boxes : (forall b, In b boxes -> unit_box k b) -> ForallOrdPairs (apart 0) boxes -> disjoint boxes.
Proof.
  intros U F p q b b' draws Ep Eq B B'. pose proof (U _ (nth_error_In _ _ Ep)) as [L1 U1]. pose proof (U _ (nth_error_In _ _ Eq)) as [L2 U2].
  destruct (Nat.lt_trichotomy p q) as [H|[H|H]]; [|exact H|]; exfalso.
  - apply (apart_all 0 b b') with (draws := draws); [congruence|intros ab [K|K]; auto|apply (FOP_nth _ _ p q _ _ F Ep Eq H)|exact B|exact B'].
  - apply (apart_all 0 b' b) with (draws := draws); [congruence|intros ab [K|K]; auto|apply (FOP_nth _ _ q p _ _ F Eq Ep H)|exact B'|exact B].
Qed.
Lemma start_apart p (f : nat -> list (list (R * R))) n : is_dist p -> length p = n -> (forall s, (s < n)%nat -> ForallOrdPairs (apart 1) (f s)) ->
  ForallOrdPairs (apart 0) (flat_map (fun s => map (cons (cell p s)) (f s)) (seq 0 n)).
Proof.
  intros D L H. apply FOP_flat; [apply seq_NoDup| |].
  - intros s J. apply in_seq in J. apply (FOP_map (apart 1)); [apply H; lia|]. intros b c A d Ud [_ B] [_ C]. exact (A d Ud B C).
  - intros x y b c J J' N I I'. apply in_seq in J, J'. apply in_map_iff in I as (b' & <- & _). apply in_map_iff in I' as (c' & <- & _). intros d Ud [B _] [C _].
    apply N. apply (cells_apart p x y (d 0%nat)); auto; lia.
Qed.
(** A box of positive volume contains draws. *)
Lemma box_draws k b : unit_box k b -> 0 < volume b -> exists draws, (forall i, unit_draw (draws i)) /\ inbox b draws 0.
Proof.
  intros [_ U] V. enough (H : forall i, exists draws, (forall j, unit_draw (draws j)) /\ inbox b draws i) by apply H.
  induction b as [|ab b IH]; intros i.
  - exists (fun _ => 0). split; [intros; unfold unit_draw; lra|exact I].
  - cbn [volume] in V. assert (V0 : 0 <= volume b).
    { clear -U. assert (U' : forall ab, In ab b -> 0 <= fst ab <= snd ab) by (intros x J; apply U; right; exact J). clear U. induction b as [|c b IH]; cbn; [lra|]. apply Rmult_le_pos; [specialize (U' c (or_introl eq_refl)); lra|apply IH; intros; apply U'; right; assumption]. }
    destruct (U ab (or_introl eq_refl)) as [A1 A2]. assert (V1 : fst ab < snd ab) by (destruct (Req_dec (fst ab) (snd ab)) as [E|]; [rewrite E in V; replace (snd ab - snd ab) with 0 in V by ring; lra|lra]).
    assert (V2 : 0 < volume b) by (destruct V0 as [|E]; [assumption|rewrite <- E in V; lra]).
    destruct (IH ltac:(intros; apply U; right; assumption) V2 (S i)) as (d & D1 & D2).
    exists (fun j => if Nat.eqb j i then (fst ab + snd ab) / 2 else d j). split; [intros j; destruct (Nat.eqb j i); [unfold unit_draw; lra|apply D1]|].
    cbn [inbox]. rewrite Nat.eqb_refl. split; [split; [exact V1|left; lra]|]. apply (inbox_ext b d); [|exact D2]. intros j Lj. destruct (Nat.eqb_spec j i); [lia|reflexivity].
Qed.
Lemma some_box boxes k : (forall b, In b boxes -> unit_box k b) -> 0 < rsum (map volume boxes) -> exists b draws, In b boxes /\ (forall i, unit_draw (draws i)) /\ inbox b draws 0.
Proof.
  intros U P. assert (H : exists b, In b boxes /\ 0 < volume b).
  { clear U. induction boxes as [|b boxes IH]; [cbn in P; lra|]. cbn [map] in P. rewrite rsum_cons in P. destruct (Rlt_dec 0 (volume b)) as [L|L]; [exists b; split; [left; reflexivity|exact L]|].
    destruct IH as (c & I & V); [lra|]. exists c. split; [right; exact I|exact V]. }
  destruct H as (b & I & V). destruct (box_draws k b (U b I) V) as (d & D1 & D2). eauto.
Qed.

(** ** C139 *)
(** The draws for which [run] returns the trace form disjoint boxes, and the sum of
    their volumes is the probability of the trace: with independent uniform
    draws, traces are simulated with their probability. *)
Theorem C139_mc_run_law : forall (m : mc R) (tr : list string), wf_mc m -> all_dist (mc_mat m) -> is_dist (mc_ini m) -> tr <> [] ->
  exists boxes, (forall b, In b boxes -> unit_box (length tr) b) /\ disjoint boxes /\ rsum (map volume boxes) = mc_trace_prob m tr /\
    forall draws, (forall k, unit_draw (draws k)) ->
      (mc_run m (Z.of_nat (length tr - 1)) (-1) draws = Ok tr <-> exists b, In b boxes /\ inbox b draws 0).
Proof.
  intros m tr W AD DI NE. pose proof W as W'. destruct W' as ((Lm & Lr) & Ll & Li & Ni).
  exists (flat_map (fun s => map (cons (cell (mc_ini m) s)) (mc_boxes m s tr)) (seq 0 (mc_n m))).
  assert (U : forall b, In b (flat_map (fun s => map (cons (cell (mc_ini m) s)) (mc_boxes m s tr)) (seq 0 (mc_n m))) -> unit_box (length tr) b).
  { intros b I. apply in_flat_map in I as (s & J & I). apply in_seq in J. apply in_map_iff in I as (c & <- & I). destruct (mc_boxes_unit m W AD tr s c ltac:(lia) I) as [L1 U1].
    split; [destruct tr; [congruence|cbn in *; lia]|]. intros ab [<-|K]; [apply cell_unit, DI|apply U1, K]. }
  split; [exact U|]. split; [|split].
  - apply (boxes_disjoint (length tr)); [exact U|]. apply start_apart; [exact DI|exact Li|]. intros s L. apply mc_boxes_apart; auto.
  - change (rsum (map volume ?l)) with (sumL l volume). unfold mc_trace_prob, trace_prob. rewrite map_length. destruct tr as [|l tr]; [congruence|].
    replace (length (l :: tr)) with (S (length (l :: tr) - 1)) at 1 by (cbn; lia). rewrite sumL_paths_S. rewrite sumL_flat_map. apply sumL_ext. intros s _. rewrite sumL_map. cbn [volume hd]. rewrite !sumL_scal_l, cell_volume. f_equal.
    rewrite mc_boxes_volume by discriminate. reflexivity.
  - intros draws UD. unfold mc_run. change (-1 =? -1)%Z with true. cbv iota. rewrite Nat2Z.id. destruct (dist_selects _ (draws 0%nat) DI (UD 0%nat)) as (c & Ec & Sc). rewrite Ec. cbn [bind].
    apply selected_cell in Sc as [Lc Wc]. rewrite Li in Lc. rewrite (mc_boxes_run m W AD tr draws UD c 1 Lc NE). split.
    + intros (b & I & B). exists (cell (mc_ini m) c :: b). split; [|split; assumption]. apply in_flat_map. exists c. split; [apply in_seq; lia|apply in_map, I].
    + intros (b & I & B). apply in_flat_map in I as (s' & J & I). apply in_seq in J. apply in_map_iff in I as (b' & <- & I). destruct B as [B1 B2].
      assert (s' = c) as -> by (apply (cells_apart (mc_ini m) s' c (draws 0%nat)); auto; lia). eauto.
Qed.
Print Assumptions C139_mc_run_law.
(** Every trace of positive probability is simulated for some draws. *)
Theorem C139_mc_run_all : forall (m : mc R) (tr : list string), wf_mc m -> all_dist (mc_mat m) -> is_dist (mc_ini m) -> tr <> [] -> 0 < mc_trace_prob m tr ->
  exists draws, (forall k, unit_draw (draws k)) /\ mc_run m (Z.of_nat (length tr - 1)) (-1) draws = Ok tr.
Proof.
  intros m tr W AD DI NE P. destruct (C139_mc_run_law m tr W AD DI NE) as (boxes & U & _ & V & E). rewrite <- V in P.
  destruct (some_box boxes _ U P) as (b & d & I & D & B). exists d. split; [exact D|]. apply E; [exact D|]. eauto.
Qed.
Print Assumptions C139_mc_run_all.

Theorem C139_hmm_run_law : forall (m : hmm R) (tr : list string), wf_hmm m -> all_dist (hmm_mat m) -> all_dist (hmm_out m) -> is_dist (hmm_ini m) ->
  exists boxes, (forall b, In b boxes -> unit_box (S (2 * length tr)) b) /\ disjoint boxes /\ rsum (map volume boxes) = hmm_trace_prob_move m tr /\
    forall draws, (forall k, unit_draw (draws k)) ->
      (hmm_run m (Z.of_nat (length tr)) (-1) draws = Ok tr <-> exists b, In b boxes /\ inbox b draws 0).
Proof.
  intros m tr W AD AO DI. pose proof W as W'. destruct W' as ((Lm & Lr) & Lo & Lor & _ & Li & Ni).
  exists (flat_map (fun s => map (cons (cell (hmm_ini m) s)) (hmm_boxes m s tr)) (seq 0 (hmm_n m))).
  assert (U : forall b, In b (flat_map (fun s => map (cons (cell (hmm_ini m) s)) (hmm_boxes m s tr)) (seq 0 (hmm_n m))) -> unit_box (S (2 * length tr)) b).
  { intros b I. apply in_flat_map in I as (s & J & I). apply in_seq in J. apply in_map_iff in I as (c & <- & I). destruct (hmm_boxes_unit m W AD AO tr s c ltac:(lia) I) as [L1 U1].
    split; [cbn [length]; lia|]. intros ab [<-|K]; [apply cell_unit, DI|apply U1, K]. }
  split; [exact U|]. split; [|split].
  - apply (boxes_disjoint (S (2 * length tr))); [exact U|]. apply start_apart; [exact DI|exact Li|]. intros s L. apply hmm_boxes_apart; auto.
  - change (rsum (map volume ?l)) with (sumL l volume). unfold hmm_trace_prob_move, trace_prob. rewrite app_length, map_length. cbn [length]. rewrite Nat.add_1_r.
    rewrite sumL_paths_S. rewrite sumL_flat_map. apply sumL_ext. intros s _. rewrite sumL_map. cbn [volume hd]. rewrite !sumL_scal_l, cell_volume. f_equal. apply hmm_boxes_volume.
  - intros draws UD. unfold hmm_run. change (-1 =? -1)%Z with true. cbv iota. rewrite Nat2Z.id. destruct (dist_selects _ (draws 0%nat) DI (UD 0%nat)) as (c & Ec & Sc). rewrite Ec. cbn [bind].
    apply selected_cell in Sc as [Lc Wc]. rewrite Li in Lc. rewrite (hmm_boxes_run m W AD AO tr draws UD c 1 Lc). split.
    + intros (b & I & B). exists (cell (hmm_ini m) c :: b). split; [|split; assumption]. apply in_flat_map. exists c. split; [apply in_seq; lia|apply in_map, I].
    + intros (b & I & B). apply in_flat_map in I as (s' & J & I). apply in_seq in J. apply in_map_iff in I as (b' & <- & I). destruct B as [B1 B2].
      assert (s' = c) as -> by (apply (cells_apart (hmm_ini m) s' c (draws 0%nat)); auto; lia). eauto.
Qed.
Print Assumptions C139_hmm_run_law.
Theorem C139_hmm_run_all : forall (m : hmm R) (tr : list string), wf_hmm m -> all_dist (hmm_mat m) -> all_dist (hmm_out m) -> is_dist (hmm_ini m) -> 0 < hmm_trace_prob_move m tr ->
  exists draws, (forall k, unit_draw (draws k)) /\ hmm_run m (Z.of_nat (length tr)) (-1) draws = Ok tr.
Proof.
  intros m tr W AD AO DI P. destruct (C139_hmm_run_law m tr W AD AO DI) as (boxes & U & _ & V & E). rewrite <- V in P.
  destruct (some_box boxes _ U P) as (b & d & I & D & B). exists d. split; [exact D|]. apply E; [exact D|]. eauto.
Qed.
Print Assumptions C139_hmm_run_all.

(** ** Markov decision processes *)
Lemma inbox_shift b x d i : inbox b (fun j => nth j (x :: d) 0) (S i) <-> inbox b (fun j => nth j d 0) i.
Proof. revert i. induction b as [|ab b IH]; intros i; cbn; [tauto|]. rewrite <- IH. cbn. tauto. Qed.
Lemma uniform_dist (l : list string) : l <> [] -> is_dist (uniform_weights (K := R) l) /\ length (uniform_weights (K := R) l) = length l.
Proof.
  intros N. unfold uniform_weights. rewrite repeat_length. split; [|reflexivity]. nR. rewrite <- INR_IZR_INZ.
  assert (P : 0 < INR (length l)) by (apply lt_0_INR; destruct l; [congruence|cbn; lia]).
  assert (E : forall k c, rsum (repeat c k) = INR k * c). { intros k c. induction k as [|k IH]; [cbn; lra|]. change (repeat c (S k)) with (c :: repeat c k). rewrite rsum_cons, IH, S_INR. lra. }
  split.
  - intros x I. apply repeat_spec in I. subst x. apply Rlt_le, Rdiv_lt_0_compat; lra.
  - rewrite E. field. lra.
Qed.
Section MDP.
  Variable m : mdp R.
  Hypothesis W : wf_mdp m.
  Hypothesis AD : forall ra r, In ra (mdp_mat m) -> In r ra -> is_dist r.
  Hypothesis NA : mdp_act m <> [].
  Let n := mdp_n m.
  Let k := length (mdp_act m).
  Let row s j := nth j (nth s (mdp_mat m) []) [].
  Let uni := uniform_weights (K := R) (mdp_act m).
  Lemma mrow_dist s j : (s < n)%nat -> (j < k)%nat -> is_dist (row s j) /\ length (row s j) = n.
  Proof.
    intros L Lj. destruct W as (SH & _). assert (I : In (nth s (mdp_mat m) []) (mdp_mat m)) by (apply nth_In; exact L). destruct (SH _ I) as [La Lr].
    assert (J : In (row s j) (nth s (mdp_mat m) [])) by (apply nth_In; rewrite La; exact Lj). split; [apply (AD _ _ I J)|apply Lr, J].
  Qed.
  Fixpoint mdp_boxes (s : nat) (tr : list string) : list (list (R * R)) :=
    match tr with
    | [] => []
    | [l] => if String.eqb (nth s (mdp_lab m) EmptyString) l then [[]] else []
    | l :: a :: tr' =>
      if String.eqb (nth s (mdp_lab m) EmptyString) l then
        flat_map (fun j => if String.eqb (nth j (mdp_act m) EmptyString) a then flat_map (fun s' => map (fun b => cell uni j :: cell (row s j) s' :: b) (mdp_boxes s' tr')) (seq 0 n) else []) (seq 0 k)
      else []
    end.
  Lemma mdp_boxes_in s l a tr b : In b (mdp_boxes s (l :: a :: tr)) <-> nth s (mdp_lab m) EmptyString = l /\ exists j s' b', (j < k)%nat /\ (s' < n)%nat /\ nth j (mdp_act m) EmptyString = a /\ In b' (mdp_boxes s' tr) /\ b = cell uni j :: cell (row s j) s' :: b'.
  Proof.
    cbn [mdp_boxes]. destruct (String.eqb_spec (nth s (mdp_lab m) EmptyString) l) as [E|E]; [|split; [intros []|tauto]]. rewrite in_flat_map. split.
    - intros (j & Jj & I). split; [exact E|]. apply in_seq in Jj. destruct (String.eqb_spec (nth j (mdp_act m) EmptyString) a) as [Ea|]; [|destruct I].
      apply in_flat_map in I as (s' & J & I). apply in_seq in J. apply in_map_iff in I as (b' & <- & I). exists j, s', b'. repeat split; auto; lia.
    - intros (_ & j & s' & b' & L1 & L2 & Ea & I & ->). exists j. split; [apply in_seq; lia|]. rewrite Ea, String.eqb_refl. apply in_flat_map. exists s'. split; [apply in_seq; lia|]. apply in_map_iff. eauto.
  Qed.
  Lemma mdp_boxes_unit t : forall tr s b, length tr = (2 * t + 1)%nat -> (s < n)%nat -> In b (mdp_boxes s tr) -> unit_box (2 * t) b.
  Proof.
    induction t as [|t IH]; intros tr s b L Ls I.
    - destruct tr as [|l [|]]; try discriminate. cbn in I. destruct (String.eqb _ _); [|destruct I]. destruct I as [<-|[]]. split; [reflexivity|intros ab []].
    - destruct tr as [|l [|a tr]]; cbn [length] in L; try lia. apply mdp_boxes_in in I as (_ & j & s' & b' & L1 & L2 & _ & I & ->).
      destruct (IH tr s' b' ltac:(lia) L2 I) as [E U]. split; [cbn [length]; lia|]. intros ab [<-|[<-|K]]; [apply cell_unit, uniform_dist, NA|apply cell_unit, mrow_dist; assumption|apply U, K].
  Qed.
  Lemma mdp_boxes_apart t : forall tr s i, length tr = (2 * t + 1)%nat -> (s < n)%nat -> ForallOrdPairs (apart i) (mdp_boxes s tr).
  Proof.
    induction t as [|t IH]; intros tr s i L Ls.
    - destruct tr as [|l [|]]; try discriminate. cbn. destruct (String.eqb _ _); repeat constructor.
    - destruct tr as [|l [|a tr]]; cbn [length] in L; try lia. cbn [mdp_boxes]. destruct (String.eqb _ _); [|constructor]. destruct (uniform_dist (mdp_act m) NA) as [D1 E1].
      apply FOP_flat; [apply seq_NoDup| |].
      + intros j Jj. apply in_seq in Jj. destruct (String.eqb _ _); [|constructor]. destruct (mrow_dist s j Ls ltac:(lia)) as [D2 E2]. apply FOP_flat; [apply seq_NoDup| |].
        * intros s' J. apply in_seq in J. apply (FOP_map (apart (S (S i)))); [apply IH; lia|]. intros b c A d U (_ & _ & B) (_ & _ & C). exact (A d U B C).
        * intros x y b c Jx Jy N I I'. apply in_seq in Jx, Jy. apply in_map_iff in I as (b' & <- & _). apply in_map_iff in I' as (c' & <- & _). intros d U (_ & B & _) (_ & C & _). apply N. apply (cells_apart (row s j) x y (d (S i))); auto; lia.
      + intros x y b c Jx Jy N I I'. apply in_seq in Jx, Jy. destruct (String.eqb (nth x _ _) _); [|destruct I]. destruct (String.eqb (nth y _ _) _); [|destruct I'].
        apply in_flat_map in I as (j & _ & I). apply in_flat_map in I' as (j' & _ & I'). apply in_map_iff in I as (b' & <- & _). apply in_map_iff in I' as (c' & <- & _). intros d U (B & _) (C & _). apply N. apply (cells_apart uni x y (d i)); auto; fold k in E1; unfold uni; lia.
  Qed.
  Lemma mdp_boxes_volume t : forall tr s, length tr = (2 * t + 1)%nat -> sumL (mdp_boxes s tr) volume =
    (/ INR k) ^ t * sumL (paths n t) (fun y => path_weight (map (act_mat m) (odds tr)) (map (is_label (mdp_lab m)) (evens tr)) (s :: y)).
  Proof.
    induction t as [|t IH]; intros tr s L.
    - destruct tr as [|l [|]]; try discriminate. cbn. unfold is_label, sumL. destruct (String.eqb _ _); cbn; lra.
    - destruct tr as [|l [|a tr]]; cbn [length] in L; try lia. rewrite sumL_paths_S. cbn [evens odds map].
      rewrite (Sum_ext n _ (fun s' => is_label (mdp_lab m) l s * act_mat m a s s' * sumL (paths n t) (fun y => path_weight (map (act_mat m) (odds tr)) (map (is_label (mdp_lab m)) (evens tr)) (s' :: y)))).
      + cbn [mdp_boxes]. unfold is_label at 1. destruct (String.eqb (nth s (mdp_lab m) EmptyString) l).
        2:{ unfold sumL at 1. cbn. symmetry. rewrite (Sum_zero_ext n); [lra|]. intros s' _. lra. }
        rewrite sumL_flat_map.
        rewrite (sumL_ext (seq 0 k) _ (fun j => Sum n (fun s' => (/ INR k) ^ S t * ((if String.eqb (nth j (mdp_act m) EmptyString) a then nth s' (row s j) 0 else 0) * sumL (paths n t) (fun y => path_weight (map (act_mat m) (odds tr)) (map (is_label (mdp_lab m)) (evens tr)) (s' :: y)))))).
        * change (sumL (seq 0 k) ?f) with (Sum k f). rewrite Sum_swap. rewrite <- Sum_scal_l. apply Sum_ext. intros s' _. rewrite Sum_scal_l. f_equal. rewrite Sum_scal_r, Rmult_1_l. reflexivity.
        * intros j Jj. apply in_seq in Jj. destruct (String.eqb _ _); [|symmetry; rewrite (Sum_zero_ext n); [reflexivity|intros; ring]]. rewrite sumL_flat_map. apply sumL_ext. intros s' _. rewrite sumL_map. cbn [volume]. rewrite !cell_volume.
          rewrite (sumL_ext _ _ (fun b => (vecR uni j * vecR (row s j) s') * volume b)) by (intros; ring). rewrite sumL_scal_l, IH by lia.
          replace (vecR uni j) with (/ INR k). { unfold vecR. cbn [pow]. ring. } unfold uni, uniform_weights, vecR. rewrite (nth_indep _ 0 (n1 / nofZ (Z.of_nat (length (mdp_act m))))%num) by (rewrite repeat_length; unfold k in Jj; lia). rewrite nth_repeat. nR. rewrite <- INR_IZR_INZ. fold k. unfold Rdiv. ring.
      + intros s' _. rewrite <- !sumL_scal_l. apply sumL_ext. intros y _. cbn [path_weight]. destruct tr as [|l' tr]; [cbn in L; lia|]. cbn [evens map]. ring.
  Qed.
  Lemma mdp_boxes_run t : forall tr draws s st, length tr = (2 * t + 1)%nat -> length draws = (2 * t)%nat -> (forall r, In r draws -> unit_draw r) -> (s < n)%nat ->
    (mdp_run_from m (UniformScheduler (mdp_act m)) t st s draws = Some (Ok tr) <-> exists b, In b (mdp_boxes s tr) /\ inbox b (fun i => nth i draws 0) 0).
  Proof.
    destruct W as (SH & Ll & ND & _). induction t as [|t IH]; intros tr draws s st L Ld UD Ls.
    - destruct tr as [|l [|]]; try discriminate. cbn [mdp_run_from mdp_boxes]. rewrite (at_list_nth _ _ EmptyString) by (unfold n in Ls; lia). cbn [bind].
      destruct (String.eqb_spec (nth s (mdp_lab m) EmptyString) l) as [->|N]; split; [intros _; exists []; split; [left; reflexivity|exact I]|reflexivity|congruence|intros (b & [] & _)].
    - destruct tr as [|l [|a tr]]; cbn [length] in L; try lia. destruct draws as [|r0 [|r1 draws]]; cbn [length] in Ld; try lia.
      destruct (uniform_dist (mdp_act m) NA) as [D1 E1]. destruct (dist_selects _ r0 D1 (UD r0 (or_introl eq_refl))) as (j & Ej & Sj). apply selected_cell in Sj as [Lj Wj]. rewrite E1 in Lj.
      cbn [mdp_run_from mdp_choose sch_get UniformScheduler]. unfold uniform_get. rewrite Ej. cbn [bind]. rewrite (at_list_nth _ _ EmptyString) by exact Lj.
      destruct (mrow_dist s j Ls Lj) as [D2 E2].
      replace (memb String.eqb (nth j (mdp_act m) EmptyString) (getActions m s)) with true.
      2:{ symmetry. apply memb_str, getActions_In. exists j. split; [exact Lj|]. split; [reflexivity|]. fold (row s j). destruct D2 as [_ ->]. lra. }
      unfold mdp_next. rewrite (index_of_nth String.eqb String.eqb_eq) by assumption. rewrite (at_list_nth (mdp_mat m) s []) by exact Ls. cbn [bind].
      rewrite (at_list_nth _ j []) by (destruct (SH (nth s (mdp_mat m) [])) as [La _]; [apply nth_In; exact Ls|rewrite La; exact Lj]). cbn [bind]. fold (row s j).
      destruct (dist_selects _ r1 D2 (UD r1 (or_intror (or_introl eq_refl)))) as (c & Ec & Sc). apply selected_cell in Sc as [Lc Wc]. rewrite E2 in Lc. rewrite Ec. cbn [bind].
      rewrite (at_list_nth (mdp_lab m) s EmptyString) by (unfold n in Ls; lia). cbn [bind sch_obs UniformScheduler].
      specialize (IH tr draws c st ltac:(lia) ltac:(lia) ltac:(intros r I; apply UD; right; right; exact I) Lc). split.
      + intros H. destruct (mdp_run_from m (UniformScheduler (mdp_act m)) t st c draws) as [[rest|]|] eqn:Er; try discriminate. injection H as H1 H2 H3. subst rest.
        destruct (proj1 IH eq_refl) as (b & I & B). exists (cell uni j :: cell (row s j) c :: b). split; [apply mdp_boxes_in; split; [exact H1|]; exists j, c, b; auto|].
        cbn [inbox]. split; [exact Wj|]. split; [exact Wc|]. apply (inbox_shift b r0 (r1 :: draws) 1), (inbox_shift b r1 draws 0), B.
      + intros (b & I & B). apply mdp_boxes_in in I as (El & j' & s' & b' & L1 & L2 & Ea & I & ->). cbn [inbox] in B. destruct B as (B1 & B2 & B3).
        assert (j' = j) as -> by (apply (cells_apart uni j' j r0); auto; try (unfold uni; rewrite E1; assumption); apply UD; left; reflexivity).
        assert (s' = c) as -> by (apply (cells_apart (row s j) s' c r1); auto; try lia; apply UD; right; left; reflexivity).
        rewrite (proj2 IH); [rewrite El, Ea; reflexivity|]. exists b'. split; [exact I|]. apply (inbox_shift b' r1 draws 0), (inbox_shift b' r0 (r1 :: draws) 1), B3.
  Qed.
End MDP.
(** With the uniform scheduler and every action available in every state. *)
Theorem C139_mdp_run_law : forall (m : mdp R) (t : nat) (tr : list string), wf_mdp m -> (forall ra r, In ra (mdp_mat m) -> In r ra -> is_dist r) -> is_dist (mdp_ini m) -> mdp_act m <> [] ->
  length tr = (2 * t + 1)%nat ->
  exists boxes, (forall b, In b boxes -> unit_box (2 * t + 1) b) /\ disjoint boxes /\ rsum (map volume boxes) = (1 / INR (length (mdp_act m))) ^ t * mdp_trace_prob m tr /\
    forall draws, length draws = (2 * t + 1)%nat -> (forall r, In r draws -> unit_draw r) ->
      (mdp_run m (UniformScheduler (mdp_act m)) tt (Z.of_nat t) draws = Some (Ok tr) <-> exists b, In b boxes /\ inbox b (fun i => nth i draws 0) 0).
Proof.
  intros m t tr W AD DI NA L. pose proof W as W'. destruct W' as (SH & Ll & ND & Li & Ni).
  exists (flat_map (fun s => map (cons (cell (mdp_ini m) s)) (mdp_boxes m s tr)) (seq 0 (mdp_n m))).
  assert (U : forall b, In b (flat_map (fun s => map (cons (cell (mdp_ini m) s)) (mdp_boxes m s tr)) (seq 0 (mdp_n m))) -> unit_box (2 * t + 1) b).
  { intros b I. apply in_flat_map in I as (s & J & I). apply in_seq in J. apply in_map_iff in I as (c & <- & I). destruct (mdp_boxes_unit m W AD NA t tr s c L ltac:(lia) I) as [L1 U1].
    split; [cbn [length]; lia|]. intros ab [<-|K]; [apply cell_unit, DI|apply U1, K]. }
  split; [exact U|]. split; [|split].
  - apply (boxes_disjoint (2 * t + 1)); [exact U|]. apply start_apart; [exact DI|exact Li|]. intros s Ls. apply (mdp_boxes_apart m W AD NA t); auto.
  - change (rsum (map volume ?l)) with (sumL l volume). unfold mdp_trace_prob, trace_prob. rewrite map_length.
    assert (Le : length (evens tr) = S t). { clear -L. revert tr L. induction t as [|t IH]; intros [|l [|a tr]] L; cbn [length] in L; try lia; [reflexivity|]. cbn [evens length]. f_equal. apply IH. lia. }
    rewrite Le, sumL_paths_S. rewrite sumL_flat_map, <- Sum_scal_l. apply sumL_ext. intros s _. rewrite sumL_map. cbn [volume hd]. rewrite !sumL_scal_l, cell_volume. rewrite (mdp_boxes_volume m t) by exact L.
    unfold Rdiv. rewrite Rmult_1_l. ring.
  - intros draws Ld UD. destruct draws as [|r0 draws]; [cbn in Ld; lia|]. unfold mdp_run. destruct (dist_selects _ r0 DI (UD r0 (or_introl eq_refl))) as (c & Ec & Sc). rewrite Ec. rewrite Nat2Z.id. cbn [sch_reset UniformScheduler].
    apply selected_cell in Sc as [Lc Wc]. rewrite Li in Lc. rewrite (mdp_boxes_run m W AD NA t tr draws c tt L ltac:(cbn in Ld; lia) ltac:(intros r I; apply UD; right; exact I) Lc). split.
    + intros (b & I & B). exists (cell (mdp_ini m) c :: b). split; [apply in_flat_map; exists c; split; [apply in_seq; lia|apply in_map, I]|]. split; [exact Wc|apply (inbox_shift b r0), B].
    + intros (b & I & B). apply in_flat_map in I as (s' & J & I). apply in_seq in J. apply in_map_iff in I as (b' & <- & I). destruct B as [B1 B2]. cbn [nth] in B1.
      assert (s' = c) as -> by (apply (cells_apart (mdp_ini m) s' c r0); auto; try lia; apply UD; left; reflexivity). exists b'. split; [exact I|]. apply (inbox_shift b' r0), B2.
Qed.
Print Assumptions C139_mdp_run_law.

(** The hypotheses hold for a chain and a hidden model; the trace has a
    probability between 0 and 1. *)
Example C139_instance : wf_mc ex_mc /\ all_dist (mc_mat ex_mc) /\ is_dist (mc_ini ex_mc) /\ 0 < mc_trace_prob ex_mc ["init"; "a"]%string < 1.
Proof.
  destruct C22_instance as (A & B & C & _). split; [exact A|]. split; [exact B|]. split; [exact C|].
  unfold mc_trace_prob, trace_prob, sumL, ex_mc. cbn. unfold is_label, vecR, matR. cbn. lra.
Qed.
Example C139_instance_hmm : wf_hmm ex_hmm /\ all_dist (hmm_mat ex_hmm) /\ all_dist (hmm_out ex_hmm) /\ is_dist (hmm_ini ex_hmm) /\ 0 < hmm_trace_prob_move ex_hmm ["b"]%string < 1.
Proof.
  destruct C23_instance as (A & B & C & D). repeat (split; [assumption|]).
  unfold hmm_trace_prob_move, trace_prob, sumL, ex_hmm. cbn. unfold emit, vecR, matR, Sum, sumL. cbn. lra.
Qed.
Definition law_mdp : mdp R := mkMDP [[[1/2; 1/2]; [0; 1]]; [[1; 0]; [1/3; 2/3]]] ["init"; "a"]%string ["l"; "r"]%string [1; 0] EmptyString.
Example C139_instance_mdp : wf_mdp law_mdp /\ (forall ra r, In ra (mdp_mat law_mdp) -> In r ra -> is_dist r) /\ is_dist (mdp_ini law_mdp) /\ mdp_act law_mdp <> [] /\
  0 < (1 / INR (length (mdp_act law_mdp))) ^ 1 * mdp_trace_prob law_mdp ["init"; "l"; "a"]%string < 1.
Proof.
  split; [|split; [|split; [|split; [discriminate|]]]].
  - split; [|split; [reflexivity|split; [|split; [reflexivity|intros x [<-|[<-|[]]]; lra]]]].
    + intros ra [<-|[<-|[]]]; (split; [reflexivity|]); intros r [<-|[<-|[]]]; reflexivity.
    + repeat constructor; cbn; intuition discriminate.
  - intros ra r [<-|[<-|[]]] [<-|[<-|[]]]; split; try (cbn; lra); intros x [<-|[<-|[]]]; lra.
  - split; [intros x [<-|[<-|[]]]; lra|cbn; lra].
  - unfold mdp_trace_prob, trace_prob, sumL. cbn. unfold is_label, act_mat, vecR, Sum, sumL. cbn. lra.
Qed.

(** Probabilities of events on the values of random(): they are determined by the
    event, monotone, additive, and multiply over consecutive draws. *)
From Coq Require Import String ZArith Bool Reals List Lra Lia.
From Verif Require Import Num Py SNum LSum SRun SLaw SChance PLaw.
Import ListNotations.
Local Open Scope R_scope.

Lemma disjoint_FOP boxes : disjoint boxes -> ForallOrdPairs (apart 0) boxes.
Proof.
  induction boxes as [|b l IH]; intros D; [constructor|]. constructor.
  - apply Forall_forall. intros c I d _ B C. apply In_nth_error in I as [q E]. specialize (D 0%nat (S q) b c d eq_refl E B C). discriminate.
  - apply IH. intros p q x y d Ep Eq B C. specialize (D (S p) (S q) x y d Ep Eq B C). congruence.
Qed.
Lemma chance_boxes k E p : chance k E p <-> exists boxes, (forall b, In b boxes -> unit_box k b) /\ ForallOrdPairs (apart 0) boxes /\ sumL boxes volume = p /\
    forall d, (forall i, unit_draw (d i)) -> (E d <-> exists b, In b boxes /\ inbox b d 0).
Proof.
  split; intros (boxes & U & D & V & H); exists boxes; (split; [exact U|]); (split; [|split; [exact V|exact H]]).
  - apply disjoint_FOP, D.
  - apply (boxes_disjoint k); assumption.
Qed.
Lemma chance_ext k E E' p : (forall d, (forall i, unit_draw (d i)) -> (E d <-> E' d)) -> chance k E p -> chance k E' p.
Proof. intros X (boxes & U & D & V & H). exists boxes. split; [exact U|]. split; [exact D|]. split; [exact V|]. intros d Ud. rewrite <- (X d Ud). apply H, Ud. Qed.

Lemma volume_nonneg k b : unit_box k b -> 0 <= volume b.
Proof.
  intros [_ U]. induction b as [|ab b IH]; cbn [volume]; [lra|]. apply Rmult_le_pos; [|apply IH; intros; apply U; right; assumption].
  destruct (U ab (or_introl eq_refl)) as [H _]. lra.
Qed.
Lemma volume_app b c : volume (b ++ c) = volume b * volume c.
Proof. induction b as [|ab b IH]; cbn [volume app]; [ring|]. rewrite IH. ring. Qed.
Lemma inbox_app b c d i : inbox (b ++ c) d i <-> inbox b d i /\ inbox c d (i + length b)%nat.
Proof.
  revert i. induction b as [|ab b IH]; intros i; cbn [inbox app length]; [rewrite Nat.add_0_r; tauto|]. rewrite IH. replace (S i + length b)%nat with (i + S (length b))%nat by lia. tauto.
Qed.
Lemma inbox_later b d n i : inbox b (later n d) i <-> inbox b d (n + i)%nat.
Proof.
  revert i. induction b as [|ab b IH]; intros i; cbn [inbox]; [tauto|]. rewrite IH. unfold later at 1. replace (n + S i)%nat with (S (n + i)) by lia. tauto.
Qed.
Lemma later_unit n d : (forall i, unit_draw (d i)) -> forall i, unit_draw (later n d i).
Proof. intros U i. apply U. Qed.

(** *** Products and unions *)
Lemma chance_sure : chance 0 (fun _ => True) 1.
Proof.
  apply chance_boxes. exists [[]]. split; [intros b [<-|[]]; split; [reflexivity|intros ab []]|]. split; [repeat constructor|]. split; [unfold sumL; cbn; ring|].
  intros d _. split; [intros _; exists []; split; [left; reflexivity|exact I]|auto].
Qed.
Lemma chance_prod k k' E E' p p' : chance k E p -> chance k' E' p' -> chance (k + k') (fun d => E d /\ E' (later k d)) (p * p').
Proof.
  rewrite !chance_boxes. intros (B & U & D & V & H) (B' & U' & D' & V' & H'). exists (flat_map (fun b => map (app b) B') B).
  split; [|split; [|split]].
  - intros x I. apply in_flat_map in I as (b & Ib & I). apply in_map_iff in I as (c & <- & Ic). destruct (U b Ib) as [L1 U1], (U' c Ic) as [L2 U2].
    split; [rewrite app_length; lia|]. intros ab I. apply in_app_or in I as [I|I]; auto.
  - clear V H. induction D as [|b B Fb D IH]; [constructor|]. cbn [flat_map]. apply FOP_app.
    + apply (FOP_map (apart 0)); [exact D'|]. intros x y A d Ud X Y. apply inbox_app in X as [_ X]. apply inbox_app in Y as [_ Y]. destruct (U b (or_introl eq_refl)) as [L _]. rewrite L in X, Y.
      replace (0 + k)%nat with (k + 0)%nat in X, Y by lia. apply inbox_later in X. apply inbox_later in Y. exact (A (later k d) (later_unit k d Ud) X Y).
    + apply IH. intros x I. apply U. right. exact I.
    + intros x y Ix Iy d Ud X Y. apply in_map_iff in Ix as (c & <- & _). apply in_flat_map in Iy as (b' & Ib' & Iy). apply in_map_iff in Iy as (c' & <- & _).
      apply inbox_app in X as [X _]. apply inbox_app in Y as [Y _]. rewrite Forall_forall in Fb. exact (Fb b' Ib' d Ud X Y).
  - rewrite sumL_flat_map. rewrite (sumL_ext _ _ (fun b => volume b * p')); [rewrite sumL_scal_r, V; reflexivity|]. intros b _. rewrite sumL_map.
    rewrite (sumL_ext _ _ (fun c => volume b * volume c)) by (intros; apply volume_app). rewrite sumL_scal_l, V'. reflexivity.
  - intros d Ud. rewrite (H d Ud), (H' (later k d) (later_unit k d Ud)). split.
    + intros [(b & Ib & X) (c & Ic & Y)]. exists (b ++ c). split; [apply in_flat_map; exists b; split; [exact Ib|apply in_map, Ic]|]. apply inbox_app. split; [exact X|].
      apply inbox_later in Y. destruct (U b Ib) as [-> _]. replace (0 + k)%nat with (k + 0)%nat by lia. exact Y.
    + intros (x & I & X). apply in_flat_map in I as (b & Ib & I). apply in_map_iff in I as (c & <- & Ic). apply inbox_app in X as [X Y]. destruct (U b Ib) as [L _]. rewrite L in Y.
      split; [exists b; auto|]. exists c. split; [exact Ic|]. apply inbox_later. replace (k + 0)%nat with (0 + k)%nat by lia. exact Y.
Qed.
Lemma chance_union {A} k (L : list A) (E : A -> (nat -> R) -> Prop) p : NoDup L -> (forall a, In a L -> chance k (E a) (p a)) ->
  (forall a b d, In a L -> In b L -> (forall i, unit_draw (d i)) -> E a d -> E b d -> a = b) -> chance k (fun d => exists a, In a L /\ E a d) (sumL L p).
Proof.
  intros N C X. induction L as [|a L IH].
  - apply chance_boxes. exists []. split; [intros b []|]. split; [constructor|]. split; [reflexivity|]. intros d _. split; [intros (x & [] & _)|intros (b & [] & _)].
  - inversion N as [|? ? NI N']; subst. destruct (proj1 (chance_boxes _ _ _) (C a (or_introl eq_refl))) as (B & U & D & V & H).
    destruct (proj1 (chance_boxes _ _ _) (IH N' (fun x I => C x (or_intror I)) (fun x y d I J => X x y d (or_intror I) (or_intror J)))) as (B' & U' & D' & V' & H').
    apply chance_boxes. exists (B ++ B'). split; [intros b I; apply in_app_or in I as [I|I]; auto|]. split; [|split].
    + apply FOP_app; [exact D|exact D'|]. intros x y Ix Iy d Ud Bx By. assert (Ea : E a d) by (apply (H d Ud); eauto).
      assert (Eb : exists b, In b L /\ E b d) by (apply (H' d Ud); eauto). destruct Eb as (b & Ib & Eb). assert (a = b) by (apply (X a b d); [left; reflexivity|right; exact Ib|exact Ud|exact Ea|exact Eb]). subst. contradiction.
    + rewrite sumL_cons, <- V, <- V'. unfold sumL. rewrite map_app, rsum_app. reflexivity.
    + intros d Ud. split.
      * intros (x & [<-|I] & Ex); [apply (H d Ud) in Ex as (b & Ib & Bb); exists b; split; [apply in_or_app; left; exact Ib|exact Bb]|].
        destruct (proj1 (H' d Ud) (ex_intro _ x (conj I Ex))) as (b & Ib & Bb). exists b. split; [apply in_or_app; right; exact Ib|exact Bb].
      * intros (b & Ib & Bb). apply in_app_or in Ib as [Ib|Ib].
        -- exists a. split; [left; reflexivity|]. apply (H d Ud). eauto.
        -- destruct (proj2 (H' d Ud) (ex_intro _ b (conj Ib Bb))) as (x & Ix & Ex). exists x. split; [right; exact Ix|exact Ex].
Qed.

(** *** The probability is determined by the event *)
(** Grid points below [t]. *)
Definition below (M : nat) (t : R) : R := Sum M (fun j => if Rle_dec (INR j + 1/2) t then 1 else 0).
Lemma below_near M t : 0 <= t <= INR M -> Rabs (below M t - t) <= 1/2.
Proof.
  induction M as [|M IH]; intros H.
  - cbn in H. unfold below, Sum, sumL. cbn. apply Rabs_le. lra.
  - rewrite S_INR in H. unfold below. rewrite Sum_S. fold (below M t). destruct (Rle_dec (INR M) t) as [G|L].
    + assert (B : below M t = INR M).
      { unfold below. rewrite (Sum_ext M _ (fun _ => 1)); [rewrite Sum_const; ring|]. intros j Hj. destruct (Rle_dec _ _) as [|N]; [reflexivity|].
        exfalso. apply N. assert (INR (S j) <= INR M) by (apply le_INR; lia). rewrite S_INR in *. lra. }
      rewrite B. destruct (Rle_dec _ _); apply Rabs_le; lra.
    + specialize (IH ltac:(lra)). destruct (Rle_dec (INR M + 1/2) t); [lra|]. rewrite Rplus_0_r. exact IH.
Qed.
(** Is the number in the interval. *)
Definition inside (ab : R * R) (x : R) : bool := if Rlt_dec (fst ab) x then if Rle_dec x (snd ab) then true else false else false.
Lemma inside_within ab x : 0 < x -> inside ab x = true <-> within ab x.
Proof. intros P. unfold inside, within. destruct (Rlt_dec (fst ab) x); [destruct (Rle_dec x (snd ab))|]; split; intros H; try reflexivity; try discriminate; try lra. Qed.
Definition point (M j : nat) : R := (INR j + 1/2) / INR M.
Lemma point_unit M j : (j < M)%nat -> 0 < point M j < 1.
Proof.
  intros L. assert (0 <= INR j) by apply pos_INR. assert (INR (S j) <= INR M) by (apply le_INR; lia). rewrite S_INR in *. unfold point. split.
  - apply Rdiv_lt_0_compat; lra.
  - apply (Rmult_lt_reg_r (INR M)); [lra|]. unfold Rdiv. rewrite Rmult_assoc, Rinv_l by lra. lra.
Qed.
Lemma count_near M ab : (0 < M)%nat -> 0 <= fst ab <= snd ab -> snd ab <= 1 ->
  Rabs (Sum M (fun j => if inside ab (point M j) then 1 else 0) - INR M * (snd ab - fst ab)) <= 1.
Proof.
  intros HM H1 H2. assert (PM : 0 < INR M) by (apply lt_0_INR; lia).
  assert (E : Sum M (fun j => if inside ab (point M j) then 1 else 0) = below M (INR M * snd ab) - below M (INR M * fst ab)).
  { unfold below, Sum. rewrite <- sumL_minus. apply sumL_ext. intros j _. unfold inside.
    assert (T : forall t, point M j <= t <-> INR j + 1/2 <= INR M * t).
    { intros t. unfold point. split; intros X.
      - apply (Rmult_le_compat_l (INR M)) in X; [|lra]. replace (INR M * ((INR j + 1/2) / INR M)) with (INR j + 1/2) in X by (field; lra). exact X.
      - apply (Rmult_le_reg_l (INR M)); [lra|]. replace (INR M * ((INR j + 1/2) / INR M)) with (INR j + 1/2) by (field; lra). exact X. }
    assert (INR M * fst ab <= INR M * snd ab) by (apply Rmult_le_compat_l; lra).
    pose proof (T (fst ab)) as T1. pose proof (T (snd ab)) as T2.
    destruct (Rlt_dec (fst ab) (point M j)) as [L|L]; destruct (Rle_dec (INR j + 1/2) (INR M * fst ab)) as [G|G]; try (exfalso; destruct T1; lra);
      destruct (Rle_dec (point M j) (snd ab)) as [L'|L']; destruct (Rle_dec (INR j + 1/2) (INR M * snd ab)) as [G'|G']; try lra; exfalso; destruct T2; lra. }
  rewrite E. assert (A : 0 <= INR M * fst ab <= INR M) by (split; [apply Rmult_le_pos; lra|]; rewrite <- (Rmult_1_r (INR M)) at 2; apply Rmult_le_compat_l; lra).
  assert (B : 0 <= INR M * snd ab <= INR M) by (split; [apply Rmult_le_pos; lra|]; rewrite <- (Rmult_1_r (INR M)) at 2; apply Rmult_le_compat_l; lra).
  apply below_near in A, B. apply Rabs_le. pose proof (Rabs_def2 (below M (INR M * fst ab) - INR M * fst ab) (1/2 + 1)) as _.
  unfold Rabs in A, B. destruct (Rcase_abs _), (Rcase_abs _); lra.
Qed.
Lemma steps_le (L L' : list ((R * R) * R)) : (forall x, In x L \/ In x L' -> (0 <= fst (fst x) <= snd (fst x) /\ snd (fst x) <= 1) /\ 0 <= snd x) ->
  (forall x, 0 < x < 1 -> sumL L (fun s => if inside (fst s) x then snd s else 0) <= sumL L' (fun s => if inside (fst s) x then snd s else 0)) ->
  sumL L (fun s => (snd (fst s) - fst (fst s)) * snd s) <= sumL L' (fun s => (snd (fst s) - fst (fst s)) * snd s).
Proof.
  intros U H. set (T := sumL L (fun s => snd s) + sumL L' (fun s => snd s)).
  assert (G : forall l M, (0 < M)%nat -> (forall x, In x l -> (0 <= fst (fst x) <= snd (fst x) /\ snd (fst x) <= 1) /\ 0 <= snd x) ->
    Rabs (Sum M (fun j => sumL l (fun s => if inside (fst s) (point M j) then snd s else 0)) - INR M * sumL l (fun s => (snd (fst s) - fst (fst s)) * snd s)) <= sumL l (fun s => snd s)).
  { clear. intros l M HM. induction l as [|[ab c] l IH]; intros U.
    - unfold sumL at 1 2 3. cbn. rewrite Sum_zero_ext by reflexivity. rewrite Rmult_0_r, Rminus_0_r, Rabs_R0. lra.
    - specialize (IH (fun x I => U x (or_intror I))). destruct (U (ab, c) (or_introl eq_refl)) as [[U1 U2] U3]. cbn [fst snd] in *.
      rewrite !sumL_cons. cbn [fst snd].
      rewrite (Sum_ext M _ (fun j => c * (if inside ab (point M j) then 1 else 0) + sumL l (fun s => if inside (fst s) (point M j) then snd s else 0))).
      2:{ intros j _. rewrite sumL_cons. cbn [fst snd]. destruct (inside ab (point M j)); ring. }
      rewrite Sum_plus, Sum_scal_l. pose proof (count_near M ab HM U1 U2) as CN.
      set (X := Sum M (fun j => if inside ab (point M j) then 1 else 0)) in *. set (Y := Sum M _) in *. set (Z := sumL l (fun s => (snd (fst s) - fst (fst s)) * snd s)) in *.
      replace (c * X + Y - INR M * ((snd ab - fst ab) * c + Z)) with (c * (X - INR M * (snd ab - fst ab)) + (Y - INR M * Z)) by ring.
      eapply Rle_trans; [apply Rabs_triang|]. apply Rplus_le_compat; [|exact IH]. rewrite Rabs_mult, (Rabs_pos_eq c) by exact U3.
      rewrite <- (Rmult_1_r c) at 2. apply Rmult_le_compat_l; assumption. }
  set (V := sumL L (fun s => (snd (fst s) - fst (fst s)) * snd s)). set (V' := sumL L' (fun s => (snd (fst s) - fst (fst s)) * snd s)).
  assert (T0 : 0 <= T) by (unfold T; apply Rplus_le_le_0_compat; apply sumL_nonneg; intros x I; apply U; auto).
  assert (K : forall M, (0 < M)%nat -> INR M * V <= INR M * V' + T).
  { intros M HM. pose proof (G L M HM (fun x I => U x (or_introl I))) as G1. pose proof (G L' M HM (fun x I => U x (or_intror I))) as G2. fold V in G1. fold V' in G2.
    assert (S12 : Sum M (fun j => sumL L (fun s => if inside (fst s) (point M j) then snd s else 0)) <= Sum M (fun j => sumL L' (fun s => if inside (fst s) (point M j) then snd s else 0))).
    { apply sumL_le. intros j I. apply in_seq in I. apply H, point_unit. lia. }
    pose proof (Rle_abs (Sum M (fun j => sumL L' (fun s => if inside (fst s) (point M j) then snd s else 0)) - INR M * V')) as A2.
    pose proof (Rle_abs (- (Sum M (fun j => sumL L (fun s => if inside (fst s) (point M j) then snd s else 0)) - INR M * V))) as A1. rewrite Rabs_Ropp in A1. unfold T. lra. }
  destruct (Rle_dec V V') as [|N]; [assumption|exfalso]. apply Rnot_le_lt in N.
  destruct (archimed (T / (V - V'))) as [Up _]. set (u := up (T / (V - V'))) in *.
  assert (Q : 0 <= T / (V - V')) by (apply Rmult_le_pos; [exact T0|apply Rlt_le, Rinv_0_lt_compat; lra]).
  assert (Pu : (0 < u)%Z) by (apply lt_IZR; lra). specialize (K (Z.to_nat u) ltac:(lia)). rewrite INR_IZR_INZ, Z2Nat.id in K by lia.
  assert (T < IZR u * (V - V')); [|lra]. apply (Rmult_lt_compat_r (V - V')) in Up; [|lra]. replace (T / (V - V') * (V - V')) with T in Up by (field; lra). exact Up.
Qed.
Definition slice (x : R) (B : list (list (R * R))) : list (list (R * R)) := map (@tl (R * R)) (filter (fun b => inside (hd (0, 0) b) x) B).
Lemma FOP_filter {A} (P : A -> A -> Prop) f l : ForallOrdPairs P l -> ForallOrdPairs P (filter f l).
Proof.
  induction 1 as [|a l Fa F IH]; [constructor|]. cbn. destruct (f a); [|exact IH]. constructor; [|exact IH]. rewrite Forall_forall in *. intros x I. apply filter_In in I as [I _]. auto.
Qed.
Lemma FOP_map_in {A B} (P : A -> A -> Prop) (Q : B -> B -> Prop) (f : A -> B) l : ForallOrdPairs P l -> (forall x y, In x l -> In y l -> P x y -> Q (f x) (f y)) -> ForallOrdPairs Q (map f l).
Proof.
  induction 1 as [|a l Fa F IH]; intros H; [constructor|]. cbn. constructor.
  - rewrite Forall_forall in *. intros z I. apply in_map_iff in I as (y & <- & I). apply H; [left; reflexivity|right; exact I|apply Fa, I].
  - apply IH. intros x y I J. apply H; right; assumption.
Qed.
Lemma slice_inbox x B d k : 0 < x -> (forall b, In b B -> unit_box (S k) b) ->
  (exists b, In b (slice x B) /\ inbox b d 0) <-> (exists b, In b B /\ inbox b (fun j => match j with O => x | S i => d i end) 0).
Proof.
  intros Px U. assert (Sh : forall b i, inbox b (fun j => match j with O => x | S i => d i end) (S i) <-> inbox b d i).
  { induction b as [|ab b IH]; intros i; cbn [inbox]; [tauto|]. rewrite IH. tauto. }
  split.
  - intros (c & I & Bc). unfold slice in I. apply in_map_iff in I as (b & <- & I). apply filter_In in I as [I In1]. exists b. split; [exact I|].
    destruct (U b I) as [L _]. destruct b as [|ab b]; [discriminate|]. cbn [hd tl] in *. split; [apply inside_within; assumption|apply Sh, Bc].
  - intros (b & I & Bb). destruct (U b I) as [L _]. destruct b as [|ab b]; [discriminate|]. destruct Bb as [W Bb]. exists b. split; [|apply Sh, Bb].
    unfold slice. apply in_map_iff. exists (ab :: b). split; [reflexivity|]. apply filter_In. split; [exact I|]. cbn. apply inside_within; assumption.
Qed.
Lemma boxes_le k : forall B B', (forall b, In b B \/ In b B' -> unit_box k b) -> ForallOrdPairs (apart 0) B ->
  (forall d, (forall i, unit_draw (d i)) -> (exists b, In b B /\ inbox b d 0) -> exists b, In b B' /\ inbox b d 0) -> sumL B volume <= sumL B' volume.
Proof.
  induction k as [|k IH]; intros B B' U D H.
  - destruct B as [|b B]; [apply sumL_nonneg; intros b I; apply (volume_nonneg 0), U; auto|].
    assert (b = []) as -> by (destruct (U b (or_introl (or_introl eq_refl))) as [L _]; destruct b; [reflexivity|discriminate]).
    assert (B = []) as ->.
    { destruct B as [|c B]; [reflexivity|exfalso]. assert (c = []) as -> by (destruct (U c (or_introl (or_intror (or_introl eq_refl)))) as [L _]; destruct c; [reflexivity|discriminate]).
      inversion D as [|? ? Fa _]; subst. inversion Fa as [|? ? Ap _]; subst. apply (Ap (fun _ => 0)); [intros; unfold unit_draw; lra|exact I|exact I]. }
    destruct (H (fun _ => 0)) as (c & Ic & _); [intros; unfold unit_draw; lra|exists []; split; [left; reflexivity|exact I]|].
    assert (c = []) as -> by (destruct (U c (or_intror Ic)) as [L _]; destruct c; [reflexivity|discriminate]).
    pose proof (sumL_ge_term B' volume [] Ic (fun x J => volume_nonneg 0 x (U x (or_intror J)))) as G. rewrite sumL_cons. unfold sumL at 1. cbn [volume map rsum fold_right] in *. cbn in *. lra.
  - set (w := fun b : list (R * R) => (hd (0, 0) b, volume (tl b))).
    assert (Ev : forall l, (forall b, In b l -> unit_box (S k) b) -> sumL l volume = sumL (map w l) (fun s => (snd (fst s) - fst (fst s)) * snd s)).
    { intros l Ul. rewrite sumL_map. apply sumL_ext. intros b I. destruct (Ul b I) as [L _]. destruct b as [|ab b]; [discriminate|]. reflexivity. }
    assert (Es : forall l x, sumL (map w l) (fun s => if inside (fst s) x then snd s else 0) = sumL (slice x l) volume).
    { intros l x. unfold slice. rewrite !sumL_map, sumL_filter. reflexivity. }
    rewrite (Ev B), (Ev B') by (intros; apply U; auto). apply steps_le.
    + assert (Q : forall b, unit_box (S k) b -> (0 <= fst (fst (w b)) <= snd (fst (w b)) /\ snd (fst (w b)) <= 1) /\ 0 <= snd (w b)).
      { intros b [L Ub]. destruct b as [|ab b]; [discriminate|]. cbn [w hd tl fst snd]. split; [apply Ub; left; reflexivity|]. apply (volume_nonneg k). split; [cbn in L; lia|]. intros; apply Ub; right; assumption. }
      intros x [I|I]; apply in_map_iff in I as (b & <- & I); apply Q, U; auto.
    + intros x Hx. rewrite !Es. apply IH.
      * assert (Q : forall l, (forall b, In b l -> unit_box (S k) b) -> forall c, In c (slice x l) -> unit_box k c).
        { intros l Ul c I. unfold slice in I. apply in_map_iff in I as (b & <- & I). apply filter_In in I as [I _]. destruct (Ul b I) as [L Ub]. destruct b as [|ab b]; [discriminate|].
          split; [cbn in *; lia|]. intros cd J. apply Ub. right. exact J. }
        intros c [I|I]; [apply (Q B)|apply (Q B')]; auto.
      * unfold slice. apply (FOP_map_in (apart 0)); [apply FOP_filter, D|]. intros b c Ib Ic A d Ud Xb Xc. apply filter_In in Ib as [Ib Nb], Ic as [Ic Nc].
        destruct (U b (or_introl Ib)) as [Lb _], (U c (or_introl Ic)) as [Lc _]. destruct b as [|ab b], c as [|cd c]; try discriminate. cbn [hd tl] in *.
        assert (Sh : forall b i, inbox b d i -> inbox b (fun j => match j with O => x | S i => d i end) (S i)).
        { clear. induction b as [|ab b IH]; intros i; cbn [inbox]; [tauto|]. intros [W X]. split; [exact W|apply IH, X]. }
        apply (A (fun j => match j with O => x | S i => d i end)).
        -- intros [|j]; [unfold unit_draw; lra|apply Ud].
        -- split; [apply inside_within; [apply Hx|exact Nb]|apply Sh, Xb].
        -- split; [apply inside_within; [apply Hx|exact Nc]|apply Sh, Xc].
      * intros d Ud. rewrite !(slice_inbox x _ d k) by (try apply Hx; intros; apply U; auto). apply H. intros [|j]; [unfold unit_draw; lra|apply Ud].
Qed.
Lemma chance_le k E E' p p' : chance k E p -> chance k E' p' -> (forall d, (forall i, unit_draw (d i)) -> E d -> E' d) -> p <= p'.
Proof.
  rewrite !chance_boxes. intros (B & U & D & V & H) (B' & U' & D' & V' & H') X. rewrite <- V, <- V'. apply (boxes_le k); [intros b [I|I]; auto|exact D|].
  intros d Ud Ex. apply (H' d Ud), (X d Ud), (H d Ud), Ex.
Qed.
Lemma chance_unique k E p p' : chance k E p -> chance k E p' -> p = p'.
Proof. intros A B. apply Rle_antisym; [apply (chance_le k E E)|apply (chance_le k E E)]; auto. Qed.

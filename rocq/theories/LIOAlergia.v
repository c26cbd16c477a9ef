(** Lemmas about the states of IOAlergia. *)
From Coq Require Import String ZArith Lia Bool List Permutation.
From Verif Require Import Num Py MTools MSet MModels MCtor SSet LSet LCtor MAlergia LAlergia LAlergia2 MIOAlergia.
Import ListNotations.

(** ** Updates *)
Lemma io_upd h n x m : (n < length h)%nat -> io (upd h n x) m = if (n =? m)%nat then x else io h m.
Proof. intros L. unfold io. apply upd_nth, L. Qed.
Definition cnt (h : ioheap) (s : nat) : Z := io_cnt (io h s).
Definition lbl (h : ioheap) (s : nat) : list string := io_lbl (io h s).
Lemma length_set_trans h s t : length (set_trans h s t) = length h. Proof. apply upd_length. Qed.
Lemma length_set_counter h s c : length (set_counter h s c) = length h. Proof. apply upd_length. Qed.
Lemma trans_set_trans h s t x : (s < length h)%nat -> trans (set_trans h s t) x = if (s =? x)%nat then t else trans h x.
Proof. intros L. unfold trans, set_trans. rewrite io_upd by exact L. destruct (s =? x)%nat; reflexivity. Qed.
Lemma obs_set_trans h s t x : (s < length h)%nat -> obs (set_trans h s t) x = obs h x.
Proof. intros L. unfold obs, set_trans. rewrite io_upd by exact L. destruct (Nat.eqb_spec s x) as [->|]; reflexivity. Qed.
Lemma cnt_set_trans h s t x : (s < length h)%nat -> cnt (set_trans h s t) x = cnt h x.
Proof. intros L. unfold cnt, set_trans. rewrite io_upd by exact L. destruct (Nat.eqb_spec s x) as [->|]; reflexivity. Qed.
Lemma trans_set_counter h s c x : (s < length h)%nat -> trans (set_counter h s c) x = trans h x.
Proof. intros L. unfold trans, set_counter. rewrite io_upd by exact L. destruct (Nat.eqb_spec s x) as [->|]; reflexivity. Qed.
Lemma obs_set_counter h s c x : (s < length h)%nat -> obs (set_counter h s c) x = obs h x.
Proof. intros L. unfold obs, set_counter. rewrite io_upd by exact L. destruct (Nat.eqb_spec s x) as [->|]; reflexivity. Qed.
Lemma cnt_set_counter h s c x : (s < length h)%nat -> cnt (set_counter h s c) x = if (s =? x)%nat then c else cnt h x.
Proof. intros L. unfold cnt, set_counter. rewrite io_upd by exact L. destruct (Nat.eqb_spec s x) as [->|]; reflexivity. Qed.

(** ** Association lists of transitions *)
Lemma tr_get_In t a dp : In dp (tr_get t a) -> exists e, In (a, e) t /\ In dp e.
Proof.
  induction t as [|(b, e) t IH]; cbn; [intros []|]. destruct (String.eqb_spec a b) as [->|]; [intros I; exists e; auto|].
  intros I. destruct (IH I) as (e' & J & Q). exists e'. auto.
Qed.
Lemma tr_get_key t a e : NoDup (map fst t) -> In (a, e) t -> tr_get t a = e.
Proof.
  induction t as [|(b, e') t IH]; cbn; [intros _ []|]. intros ND. inversion ND as [|? ? NI ND']; subst. intros [[= -> ->]|I].
  - rewrite String.eqb_refl. reflexivity.
  - destruct (String.eqb_spec a b) as [->|]; [|apply IH; assumption]. exfalso. apply NI. apply In_fst. eauto.
Qed.
Lemma tr_get_none t a : ~ In a (map fst t) -> tr_get t a = [].
Proof.
  induction t as [|(b, e) t IH]; cbn; [reflexivity|]. intros N. destruct (String.eqb_spec a b) as [->|]; [exfalso; apply N; left; reflexivity|].
  apply IH. intros I. apply N. right; exact I.
Qed.
Lemma tr_ext t t' : NoDup (map fst t) -> map fst t' = map fst t -> (forall a, tr_get t' a = tr_get t a) -> t' = t.
Proof.
  revert t'. induction t as [|(b, e) t IH]; intros [|(b', e') t'] ND E G; cbn in E; try discriminate; [reflexivity|].
  injection E as -> E. cbn in ND. inversion ND as [|? ? NI ND']; subst. f_equal.
  - specialize (G b). cbn in G. rewrite String.eqb_refl in G. congruence.
  - apply IH; [exact ND'|exact E|]. intros k. specialize (G k). cbn in G. destruct (String.eqb_spec k b) as [Q|]; [|exact G].
    rewrite Q, !tr_get_none; [reflexivity|exact NI|rewrite E; exact NI].
Qed.
Definition map_e (f : nat -> nat) (e : list (nat * Z)) : list (nat * Z) := map (fun dp => (f (fst dp), snd dp)) e.
Definition map_t (f : nat -> nat) (t : iotrans) : iotrans := map (fun ae => (fst ae, map_e f (snd ae))) t.
Lemma map_t_keys f t : map fst (map_t f t) = map fst t.
Proof. unfold map_t. rewrite map_map. reflexivity. Qed.
Lemma tr_get_map_t f t a : tr_get (map_t f t) a = map_e f (tr_get t a).
Proof. induction t as [|(b, e) t IH]; [reflexivity|]. cbn. destruct (String.eqb a b); [reflexivity|exact IH]. Qed.
Lemma dests_map_t f t : dests (map_t f t) = map f (dests t).
Proof.
  induction t as [|(b, e) t IH]; [reflexivity|]. unfold dests in *. cbn [map_t map flat_map fst snd]. rewrite map_app.
  fold (map_t f t).
  rewrite IH. f_equal. unfold map_e. rewrite !map_map. reflexivity.
Qed.
Lemma map_e_id f e : (forall d, In d (map fst e) -> f d = d) -> map_e f e = e.
Proof. intros E. unfold map_e. rewrite <- (map_id e) at 2. apply map_ext_in. intros (d, p) I. cbn. rewrite E; [reflexivity|]. apply In_fst. eauto. Qed.
Lemma map_t_id f t : (forall d, In d (dests t) -> f d = d) -> map_t f t = t.
Proof.
  intros E. unfold map_t. rewrite <- (map_id t) at 2. apply map_ext_in. intros (a, e) I. cbn [fst snd]. rewrite map_e_id; [reflexivity|].
  intros d J. apply E. unfold dests. apply in_flat_map. exists (a, e). auto.
Qed.
Lemma map_e_comp f g e : map_e g (map_e f e) = map_e (fun x => g (f x)) e.
Proof. unfold map_e. rewrite map_map. reflexivity. Qed.
Lemma map_t_comp f g t : map_t g (map_t f t) = map_t (fun x => g (f x)) t.
Proof. unfold map_t. rewrite map_map. apply map_ext. intros (a, e). cbn [fst snd]. rewrite map_e_comp. reflexivity. Qed.
Lemma In_map_e f e z c : In (z, c) (map_e f e) <-> exists z0, f z0 = z /\ In (z0, c) e.
Proof.
  unfold map_e. rewrite in_map_iff. split.
  - intros ((z0, c0) & [= <- <-] & I). eauto.
  - intros (z0 & <- & I). exists (z0, c). auto.
Qed.
Lemma map_fst_map_e f e : map fst (map_e f e) = map f (map fst e).
Proof. unfold map_e. rewrite !map_map. reflexivity. Qed.

Lemma In_dests t d : NoDup (map fst t) -> In d (dests t) <-> exists a c, In (d, c) (tr_get t a).
Proof.
  intros ND. unfold dests. rewrite in_flat_map. split.
  - intros ((a, e) & I & J). cbn in J. apply In_fst in J as (c & J). exists a, c. rewrite (tr_get_key t a e ND I). exact J.
  - intros (a & c & J). apply tr_get_In in J as (e & I & J). exists (a, e). split; [exact I|]. cbn. apply In_fst. eauto.
Qed.

Lemma tr_add_keys t a p d : map fst (tr_add t a p d) = map fst t ++ (if memb String.eqb a (map fst t) then [] else [a]).
Proof.
  induction t as [|(b, e) t IH]; [reflexivity|]. cbn [tr_add]. unfold memb in *. cbn [map fst existsb]. destruct (String.eqb_spec a b) as [->|].
  - cbn. rewrite app_nil_r. reflexivity.
  - cbn [map fst orb app]. f_equal. exact IH.
Qed.
Lemma tr_add_NoDup t a p d : NoDup (map fst t) -> NoDup (map fst (tr_add t a p d)).
Proof.
  intros ND. rewrite tr_add_keys. destruct (memb String.eqb a (map fst t)) eqn:M; [rewrite app_nil_r; exact ND|].
  apply LAlergia.NoDup_app_intro; [exact ND|constructor; [intros []|constructor]|]. intros x I [<-|[]]. apply memb_str_false in M. contradiction.
Qed.
Lemma tr_get_add t a p d b : tr_get (tr_add t a p d) b = tr_get t b ++ (if String.eqb b a then [(d, p)] else []).
Proof.
  induction t as [|(k, e) t IH]; cbn [tr_add tr_get].
  - destruct (String.eqb b a); reflexivity.
  - destruct (String.eqb_spec a k) as [->|N]; cbn [tr_get].
    + destruct (String.eqb b k); [reflexivity|rewrite app_nil_r; reflexivity].
    + rewrite IH. destruct (String.eqb_spec b k) as [Q|]; [|reflexivity]. destruct (String.eqb_spec b a) as [Q2|]; [congruence|]. rewrite app_nil_r. reflexivity.
Qed.
(** The new destination is inserted somewhere. *)
Lemma dests_add t a p d : exists i, dests (tr_add t a p d) = firstn i (dests t) ++ d :: skipn i (dests t).
Proof.
  induction t as [|(k, e) t IH]; [exists O; reflexivity|]. cbn [tr_add]. unfold dests in *. destruct (String.eqb_spec a k) as [->|].
  - exists (length e). cbn [flat_map snd]. rewrite map_app, <- app_assoc. cbn [map fst app].
    rewrite <- (map_length fst e). rewrite firstn_app, skipn_app, Nat.sub_diag, firstn_all, skipn_all. cbn [firstn skipn app]. rewrite app_nil_r. reflexivity.
  - destruct IH as (i & IH). exists (length (map fst e) + i)%nat. cbn [flat_map snd]. rewrite IH.
    set (l := flat_map _ t). set (m := map fst e). rewrite (firstn_app_2 i m l). rewrite (skipn_app (length m + i) m l), (skipn_all2 m) by lia.
    replace (length m + i - length m)%nat with i by lia. rewrite <- app_assoc. reflexivity.
Qed.

(** ** [redirect] replaces s2 everywhere *)
Definition sub (s2 s1 d : nat) : nat := if (d =? s2)%nat then s1 else d.
Lemma tr_change_keys t a s2 s1 : map fst (tr_change t a s2 s1) = map fst t.
Proof. induction t as [|(b, e) t IH]; [reflexivity|]. cbn. destruct (String.eqb a b); cbn; [reflexivity|]. rewrite IH. reflexivity. Qed.
Lemma tr_get_change t a s2 s1 b : tr_get (tr_change t a s2 s1) b = if String.eqb b a then change_first (tr_get t a) s2 s1 else tr_get t b.
Proof.
  induction t as [|(k, e) t IH]; cbn [tr_change tr_get]; [destruct (String.eqb b a); reflexivity|].
  destruct (String.eqb_spec a k) as [->|N]; cbn [tr_get].
  - destruct (String.eqb b k); reflexivity.
  - rewrite IH. destruct (String.eqb_spec b k) as [Q|N2]; [|reflexivity].
    destruct (String.eqb_spec b a) as [Q2|]; [congruence|reflexivity].
Qed.
Definition occs (s2 : nat) (e : list (nat * Z)) : nat := length (filter (fun j => (j =? s2)%nat) (map fst e)).
Lemma change_first_occs e s2 s1 : s1 <> s2 -> occs s2 (change_first e s2 s1) = pred (occs s2 e).
Proof.
  intros N. unfold occs. induction e as [|(d, p) e IH]; [reflexivity|]. cbn [change_first]. destruct (Nat.eqb_spec d s2) as [->|M]; cbn [map fst filter].
  - destruct (Nat.eqb_spec s1 s2); [contradiction|]. rewrite Nat.eqb_refl. reflexivity.
  - rewrite (proj2 (Nat.eqb_neq d s2) M). exact IH.
Qed.
Lemma change_first_sub e s2 s1 : s1 <> s2 -> map_e (sub s2 s1) (change_first e s2 s1) = map_e (sub s2 s1) e.
Proof.
  intros N. induction e as [|(d, p) e IH]; [reflexivity|]. cbn [change_first]. destruct (Nat.eqb_spec d s2) as [->|M]; cbn [map_e map fst snd].
  - f_equal. unfold sub. rewrite Nat.eqb_refl. destruct (Nat.eqb_spec s1 s2); [contradiction|reflexivity].
  - f_equal. exact IH.
Qed.
Lemma occs_0_sub e s2 s1 : occs s2 e = O -> map_e (sub s2 s1) e = e.
Proof.
  intros O. apply map_e_id. intros d I. unfold sub. destruct (Nat.eqb_spec d s2) as [->|]; [|reflexivity]. exfalso.
  unfold occs in O. apply length_zero_iff_nil in O. assert (J : In s2 (filter (fun j => (j =? s2)%nat) (map fst e))) by (apply filter_In; rewrite Nat.eqb_refl; auto). rewrite O in J. destruct J.
Qed.

Definition cp (x : nat) (a : string) (ps : list (nat * string)) : nat := length (filter (fun p => (fst p =? x)%nat && String.eqb (snd p) a) ps).
Lemma cp_app x a l l' : cp x a (l ++ l') = (cp x a l + cp x a l')%nat.
Proof. unfold cp. rewrite filter_app, app_length. reflexivity. Qed.
Lemma cp_flat_map {A} x a (g : A -> list (nat * string)) l : cp x a (flat_map g l) = fold_right (fun b n => (cp x a (g b) + n)%nat) O l.
Proof. induction l as [|b l IH]; [reflexivity|]. cbn [flat_map fold_right]. rewrite cp_app, IH. reflexivity. Qed.
Lemma sum_one {A} (dec : forall a b : A, {a = b} + {a <> b}) (g : A -> nat) l x : NoDup l -> (forall b, In b l -> b <> x -> g b = O) ->
  fold_right (fun b n => (g b + n)%nat) O l = if in_dec dec x l then g x else O.
Proof.
  intros ND Z. induction ND as [|b l NI ND IH]; [reflexivity|]. cbn [fold_right]. rewrite IH by (intros c I; apply Z; right; exact I).
  destruct (dec b x) as [->|N].
  - destruct (in_dec dec x l); [contradiction|]. destruct (in_dec dec x (x :: l)) as [|M]; [lia|]. exfalso. apply M. left; reflexivity.
  - rewrite (Z b (or_introl eq_refl) N). destruct (in_dec dec x l) as [J|J]; destruct (in_dec dec x (b :: l)) as [M|M]; try reflexivity.
    + exfalso. apply M. right; exact J.
    + destruct M; contradiction.
Qed.
Lemma findPredec_count h s2 x a : (forall y, NoDup (map fst (trans h y))) -> cp x a (findPredec h s2) = occs s2 (edges h x a).
Proof.
  intros ND. unfold findPredec. rewrite cp_flat_map.
  assert (B : forall i b, cp x a (flat_map (fun j : nat => if (j =? s2)%nat then [(i, b)] else []) (successorsAction h i b)) =
              if ((i =? x)%nat && String.eqb b a)%bool then occs s2 (edges h i b) else O).
  { intros i b. unfold successorsAction, occs. induction (map fst (edges h i b)) as [|j l IH]; [destruct (_ && _)%bool; reflexivity|].
    cbn [flat_map filter]. rewrite cp_app, IH. destruct (j =? s2)%nat.
    - unfold cp. cbn [filter fst snd]. destruct ((i =? x)%nat && String.eqb b a)%bool; reflexivity.
    - destruct ((i =? x)%nat && String.eqb b a)%bool; reflexivity. }
  rewrite (sum_one Nat.eq_dec (fun i => cp x a (flat_map (fun b => flat_map (fun j : nat => if (j =? s2)%nat then [(i, b)] else []) (successorsAction h i b)) (actionsAllowed h i))) _ x).
  - rewrite cp_flat_map. rewrite (sum_one string_dec (fun b => cp x a (flat_map (fun j : nat => if (j =? s2)%nat then [(x, b)] else []) (successorsAction h x b))) _ a); [|apply ND|].
    + rewrite B, Nat.eqb_refl, String.eqb_refl. cbn [andb].
      destruct (in_dec Nat.eq_dec x (seq 0 (length h))) as [I|I].
      * destruct (in_dec string_dec a (actionsAllowed h x)) as [J|J]; [reflexivity|]. unfold edges. rewrite tr_get_none by exact J. reflexivity.
      * unfold edges, trans, io. rewrite nth_overflow; [reflexivity|]. rewrite in_seq in I. lia.
    + intros b _ N. rewrite B. destruct (String.eqb_spec b a); [contradiction|]. rewrite andb_false_r. reflexivity.
  - apply seq_NoDup.
  - intros i _ N. rewrite cp_flat_map. induction (actionsAllowed h i) as [|b l IH]; [reflexivity|]. cbn [fold_right]. rewrite IH, B.
    destruct (Nat.eqb_spec i x); [contradiction|reflexivity].
Qed.

Lemma redirect_fold s2 s1 : s1 <> s2 -> forall ps h, (forall y, NoDup (map fst (trans h y))) ->
  (forall x a, occs s2 (edges h x a) = cp x a ps) ->
  let h' := fold_left (fun h sa => transitionChange h (fst sa) (snd sa) s2 s1) ps h in
  length h' = length h /\ (forall x, obs h' x = obs h x) /\ (forall x, cnt h' x = cnt h x) /\ forall x, trans h' x = map_t (sub s2 s1) (trans h x).
Proof.
  intros N. induction ps as [|(i, a) ps IH]; intros h ND O; cbn zeta.
  - cbn. split; [reflexivity|]. split; [reflexivity|]. split; [reflexivity|]. intros x. symmetry.
    apply tr_ext; [apply ND|apply map_t_keys|]. intros a. rewrite tr_get_map_t. apply occs_0_sub. apply (O x a).
  - cbn [fold_left fst snd]. set (h1 := transitionChange h i a s2 s1).
    assert (Oi : (0 < occs s2 (edges h i a))%nat).
    { rewrite O. unfold cp. cbn [filter fst snd]. rewrite Nat.eqb_refl, String.eqb_refl. cbn. lia. }
    assert (Li : (i < length h)%nat).
    { destruct (Nat.lt_ge_cases i (length h)) as [L|L]; [exact L|]. exfalso. unfold edges, trans, io in Oi. rewrite nth_overflow in Oi by exact L. cbn in Oi. lia. }
    assert (T1 : forall x, trans h1 x = if (i =? x)%nat then tr_change (trans h i) a s2 s1 else trans h x) by (intros x; apply trans_set_trans, Li).
    assert (E1 : forall x b, edges h1 x b = if ((i =? x)%nat && String.eqb a b)%bool then change_first (edges h x b) s2 s1 else edges h x b).
    { intros x b. unfold edges. rewrite T1. destruct (Nat.eqb_spec i x) as [->|]; [|reflexivity]. rewrite tr_get_change, String.eqb_sym. cbn [andb].
      destruct (String.eqb_spec a b) as [->|]; reflexivity. }
    destruct (IH h1) as (A & B & C & D).
    + intros y. rewrite T1. destruct (i =? y)%nat; [rewrite tr_change_keys|]; apply ND.
    + intros x b. rewrite E1. specialize (O x b). unfold cp in O |- *. cbn [filter fst snd] in O. destruct ((i =? x)%nat && String.eqb a b)%bool.
      * rewrite change_first_occs by exact N. rewrite O. reflexivity.
      * exact O.
    + cbn zeta in A, B, C, D. split; [rewrite A; apply length_set_trans|]. split; [intros x; rewrite B; apply obs_set_trans, Li|]. split; [intros x; rewrite C; apply cnt_set_trans, Li|].
      intros x. rewrite D, T1. destruct (Nat.eqb_spec i x) as [->|]; [|reflexivity].
      apply tr_ext; [rewrite map_t_keys; apply ND|rewrite !map_t_keys; apply tr_change_keys|]. intros b. rewrite !tr_get_map_t, tr_get_change.
      destruct (String.eqb_spec b a) as [->|]; [apply change_first_sub, N|reflexivity].
Qed.
Lemma redirect_spec h s1 s2 : s1 <> s2 -> (forall y, NoDup (map fst (trans h y))) ->
  length (redirect h s1 s2) = length h /\ (forall x, obs (redirect h s1 s2) x = obs h x) /\ (forall x, cnt (redirect h s1 s2) x = cnt h x) /\
  forall x, trans (redirect h s1 s2) x = map_t (sub s2 s1) (trans h x).
Proof. intros N ND. apply (redirect_fold s2 s1 N); [exact ND|]. intros x a. symmetry. apply findPredec_count, ND. Qed.

(** ** Trees *)
Definition sons (h : ioheap) (n : nat) : list nat := dests (trans h n).
Inductive tree (h : ioheap) : nat -> list nat -> Prop :=
| tnode n D : forest h (sons h n) D -> ~ In n D -> tree h n (n :: D)
with forest (h : ioheap) : list nat -> list nat -> Prop :=
| fnil : forest h [] []
| fcons k ks D1 D2 : tree h k D1 -> forest h ks D2 -> (forall x, In x D1 -> ~ In x D2) -> forest h (k :: ks) (D1 ++ D2).
Scheme tree_mind := Minimality for tree Sort Prop
  with forest_mind := Minimality for forest Sort Prop.
Combined Scheme tree_forest_mind from tree_mind, forest_mind.

Lemma tree_inv h n D : tree h n D -> exists D', D = n :: D' /\ ~ In n D' /\ forest h (sons h n) D'.
Proof. intros T. inversion T; subst. eauto. Qed.
Lemma tree_In h n D : tree h n D -> In n D.
Proof. intros T. apply tree_inv in T as (D' & -> & _). left; reflexivity. Qed.
Lemma tree_nodup h : (forall n D, tree h n D -> NoDup D) /\ (forall ks D, forest h ks D -> NoDup D).
Proof.
  apply tree_forest_mind.
  - intros n D F ND NI. constructor; assumption.
  - constructor.
  - intros k ks D1 D2 T N1 F N2 DJ. apply NoDup_app_intro; assumption.
Qed.
Lemma forest_roots h ks D : forest h ks D -> incl ks D /\ NoDup ks.
Proof.
  induction 1 as [|k ks D1 D2 T F (IH1 & IH2) DJ]; [split; [intros x []|constructor]|]. split.
  - intros x [<-|I]; apply in_or_app; [left; apply (tree_In h k), T|right; apply IH1, I].
  - constructor; [|exact IH2]. intros I. apply (DJ k (tree_In h k D1 T)). apply IH1, I.
Qed.
Lemma forest_split h ks D : forest h ks D -> exists T : nat -> list nat,
  (forall k, In k ks -> tree h k (T k) /\ incl (T k) D /\ (length (T k) <= length D)%nat) /\
  (forall k k' x, In k ks -> In k' ks -> k <> k' -> In x (T k) -> ~ In x (T k')) /\
  (forall x, In x D -> exists k, In k ks /\ In x (T k)).
Proof.
  induction 1 as [|k ks D1 D2 Tk F IH DJ].
  - exists (fun _ => []). split; [intros k []|]. split; [intros k k' x []|intros x []].
  - destruct IH as (T & A & B & C). assert (NK : ~ In k ks).
    { intros I. apply (DJ k (tree_In h k D1 Tk)). apply (forest_roots h ks D2 F), I. }
    exists (fun y => if (y =? k)%nat then D1 else T y).
    assert (E : forall y, In y ks -> (y =? k)%nat = false) by (intros y I; apply Nat.eqb_neq; intros ->; contradiction).
    split; [|split].
    + intros y [<-|I].
      * rewrite Nat.eqb_refl. split; [exact Tk|]. split; [intros x J; apply in_or_app; left; exact J|rewrite app_length; lia].
      * rewrite (E y I). destruct (A y I) as (P & Q & R). split; [exact P|]. split; [intros x J; apply in_or_app; right; apply Q, J|rewrite app_length; lia].
    + intros y y' x [<-|I] [<-|I'] Ny J J'; try congruence.
      * rewrite Nat.eqb_refl in J. rewrite (E y' I') in J'. apply (DJ x J). apply (A y' I'), J'.
      * rewrite (E y I) in J. rewrite Nat.eqb_refl in J'. apply (DJ x J'). apply (A y I), J.
      * rewrite (E y I) in J. rewrite (E y' I') in J'. apply (B y y' x I I' Ny J J').
    + intros x I. apply in_app_or in I as [I|I].
      * exists k. split; [left; reflexivity|]. rewrite Nat.eqb_refl. exact I.
      * destruct (C x I) as (y & Iy & J). exists y. split; [right; exact Iy|]. rewrite (E y Iy). exact J.
Qed.
(** The sons of the nodes of a tree are in it, and none is the root. *)
Lemma tree_sons h :
  (forall n D, tree h n D -> forall x d, In x D -> In d (sons h x) -> In d D /\ d <> n) /\
  (forall ks D, forest h ks D -> forall x d, In x D -> In d (sons h x) -> In d D).
Proof.
  apply tree_forest_mind.
  - intros n D F IH NI x d [<-|I] J.
    + pose proof (proj1 (forest_roots h _ D F) d J) as Id. split; [right; exact Id|]. intros ->. contradiction.
    + pose proof (IH x d I J) as Id. split; [right; exact Id|]. intros ->. contradiction.
  - intros x d [].
  - intros k ks D1 D2 T IH1 F IH2 DJ x d I J. apply in_or_app. apply in_app_or in I as [I|I]; [left; apply (IH1 x d I J)|right; apply (IH2 x d I J)].
Qed.
Lemma tree_same h h' :
  (forall n D, tree h n D -> (forall x, In x D -> sons h' x = sons h x) -> tree h' n D) /\
  (forall ks D, forest h ks D -> (forall x, In x D -> sons h' x = sons h x) -> forest h' ks D).
Proof.
  apply tree_forest_mind.
  - intros n D F IH NI A. constructor; [|exact NI]. rewrite A by (left; reflexivity). apply IH. intros x I. apply A. right; exact I.
  - constructor.
  - intros k ks D1 D2 T IH1 F IH2 DJ A. constructor; [apply IH1|apply IH2|exact DJ]; intros; apply A, in_or_app; auto.
Qed.
Lemma forest_app h ks D ks' D' : forest h ks D -> forest h ks' D' -> (forall x, In x D -> ~ In x D') -> forest h (ks ++ ks') (D ++ D').
Proof.
  induction 1 as [|k ks D1 D2 T F IH DJ]; intros F' DJ'; [exact F'|]. cbn. rewrite <- app_assoc. constructor; [exact T| |].
  - apply IH; [exact F'|]. intros x I. apply DJ', in_or_app. right; exact I.
  - intros x I J. apply in_app_or in J as [J|J]; [apply (DJ x I J)|]. apply (DJ' x); [apply in_or_app; left; exact I|exact J].
Qed.
Lemma forest_one h k D : tree h k D -> forest h [k] D.
Proof. intros T. rewrite <- (app_nil_r D). constructor; [exact T|constructor|intros x _ []]. Qed.
Lemma forest_ins h ks D k D1 i : forest h ks D -> tree h k D1 -> (forall x, In x D1 -> ~ In x D) ->
  exists D', forest h (firstn i ks ++ k :: skipn i ks) D' /\ forall x, In x D' <-> In x D \/ In x D1.
Proof.
  intros F T. revert D F. revert i. induction ks as [|k' ks IH]; intros i D F DJ.
  - inversion F; subst. destruct i; cbn; (exists (D1 ++ []); split; [constructor; [exact T|constructor|intros x _ []]|intros x; rewrite app_nil_r; cbn; tauto]).
  - destruct i as [|i]; cbn [firstn skipn app].
    + exists (D1 ++ D). split; [constructor; assumption|]. intros x. rewrite in_app_iff. tauto.
    + inversion F as [|? ? Da Db Ta Fb DJab]; subst. destruct (IH i Db Fb) as (D' & F' & E').
      { intros x I J. apply (DJ x I). apply in_or_app; right; exact J. }
      exists (Da ++ D'). split.
      * constructor; [exact Ta|exact F'|]. intros x I J. apply E' in J as [J|J]; [apply (DJab x I J)|]. apply (DJ x J). apply in_or_app; left; exact I.
      * intros x. rewrite !in_app_iff, E'. tauto.
Qed.
Lemma forest_perm h ks ks' D : Permutation ks ks' -> forest h ks D -> exists D', forest h ks' D' /\ Permutation D D'.
Proof.
  intros P. revert D. induction P as [|k ks ks' P IH|k k' ks|ks ks1 ks2 P1 IH1 P2 IH2]; intros D F.
  - exists D. auto.
  - inversion F as [|? ? D1 D2 T F2 DJ]; subst. destruct (IH D2 F2) as (D' & F' & Q). exists (D1 ++ D'). split; [|apply Permutation_app_head, Q].
    constructor; [exact T|exact F'|]. intros x I J. apply (DJ x I). apply (Permutation_in x (Permutation_sym Q) J).
  - inversion F as [|? ? D1 D2 T F2 DJ]; subst. inversion F2 as [|? ? D3 D4 T' F4 DJ']; subst.
    exists (D3 ++ D1 ++ D4). split; [|rewrite !app_assoc; apply Permutation_app_tail, Permutation_app_comm]. constructor; [exact T'| |].
    + constructor; [exact T|exact F4|]. intros x I J. apply (DJ x I), in_or_app. right; exact J.
    + intros x I J. apply in_app_or in J as [J|J]; [|apply (DJ' x I J)]. apply (DJ x J), in_or_app. left; exact I.
  - destruct (IH1 D F) as (D' & F' & Q1). destruct (IH2 D' F') as (D'' & F'' & Q2). exists D''. split; [exact F''|]. etransitivity; eassumption.
Qed.
(** A tree becomes a son of the node [s]. *)
Lemma tree_graft h h' s k D2 i :
  (forall x, x <> s -> sons h' x = sons h x) -> sons h' s = firstn i (sons h s) ++ k :: skipn i (sons h s) ->
  tree h k D2 -> ~ In s D2 ->
  (forall n D, tree h n D -> (forall x, In x D2 -> ~ In x D) -> exists D', tree h' n D' /\ forall x, In x D' <-> In x D \/ (In s D /\ In x D2)) /\
  (forall ks D, forest h ks D -> (forall x, In x D2 -> ~ In x D) -> exists D', forest h' ks D' /\ forall x, In x D' <-> In x D \/ (In s D /\ In x D2)).
Proof.
  intros K Ks T2 NS.
  assert (T2' : tree h' k D2) by (apply (proj1 (tree_same h h') k D2 T2); intros x I; apply K; intros ->; contradiction).
  apply tree_forest_mind.
  - intros n D F IH NI DJ. destruct (IH (fun x I J => DJ x I (or_intror J))) as (D' & F' & S).
    destruct (Nat.eq_dec n s) as [->|N].
    + destruct (forest_ins h' _ D' k D2 i F' T2') as (D'' & F'' & E).
      { intros x I J. apply S in J as [J|[J _]]; [apply (DJ x I (or_intror J))|contradiction]. }
      exists (s :: D''). split.
      * constructor; [rewrite Ks; exact F''|]. intros I. apply E in I as [I|I]; [|contradiction]. apply S in I as [I|[I _]]; contradiction.
      * intros x. cbn. rewrite E, S. tauto.
    + exists (n :: D'). split.
      * constructor; [rewrite K by exact N; exact F'|]. intros I. apply S in I as [I|[_ I]]; [contradiction|]. apply (DJ n I (or_introl eq_refl)).
      * intros x. cbn. rewrite S. split; [tauto|]. intros [[I|I]|[[I|I] J]]; [left; exact I|right; left; exact I|congruence|right; right; split; assumption].
  - intros _. exists []. split; [constructor|]. intros x. cbn. tauto.
  - intros k0 ks Da Db Ta IHa F IHb DJab DJ.
    destruct IHa as (Da' & Ta' & Sa). { intros x I J. apply (DJ x I). apply in_or_app; left; exact J. }
    destruct IHb as (Db' & Fb' & Sb). { intros x I J. apply (DJ x I). apply in_or_app; right; exact J. }
    exists (Da' ++ Db'). split.
    + constructor; [exact Ta'|exact Fb'|].
      intros x I J. apply Sa in I. apply Sb in J. destruct I as [I|[I1 I2]], J as [J|[J1 J2]].
      * apply (DJab x I J).
      * apply (DJ x J2). apply in_or_app; left; exact I.
      * apply (DJ x I2). apply in_or_app; right; exact J.
      * apply (DJab s I1 J1).
    + intros x. rewrite !in_app_iff, Sa, Sb. tauto.
Qed.

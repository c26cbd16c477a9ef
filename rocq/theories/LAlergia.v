(** Lemmas about the merging of tree nodes in Alergia (MAlergia.v). *)
From Coq Require Import String ZArith Lia Bool List Sorting Permutation.
From Verif Require Import Num Py MTools MSet MModels MCtor LCtor MAlergia.
Import ListNotations.

(** ** Sums of integers *)
Definition zs {A} (l : list A) (f : A -> Z) : Z := fold_right (fun a acc => (f a + acc)%Z) 0%Z l.
Section ZS.
  Context {A : Type}.
  Implicit Types (l : list A) (f g : A -> Z).
  Lemma zs_cons a l f : zs (a :: l) f = (f a + zs l f)%Z.
  Proof. reflexivity. Qed.
  Lemma zs_app l1 l2 f : zs (l1 ++ l2) f = (zs l1 f + zs l2 f)%Z.
  Proof. induction l1; cbn [app]; rewrite ?zs_cons; [reflexivity|lia]. Qed.
  Lemma zs_ext l f g : (forall a, In a l -> f a = g a) -> zs l f = zs l g.
  Proof. induction l as [|a l IH]; intros E; [reflexivity|]. rewrite !zs_cons, (E a (or_introl eq_refl)), IH; [reflexivity|]. intros; apply E; right; assumption. Qed.
  Lemma zs_zero l f : (forall a, In a l -> f a = 0%Z) -> zs l f = 0%Z.
  Proof. induction l as [|a l IH]; intros E; [reflexivity|]. rewrite zs_cons, (E a (or_introl eq_refl)), IH; [reflexivity|]. intros; apply E; right; assumption. Qed.
  Lemma zs_plus l f g : zs l (fun a => f a + g a)%Z = (zs l f + zs l g)%Z.
  Proof. induction l; rewrite ?zs_cons; [reflexivity|lia]. Qed.
  Lemma zs_scal l f c : zs l (fun a => c * f a)%Z = (c * zs l f)%Z.
  Proof. induction l; rewrite ?zs_cons; [cbn; lia|lia]. Qed.
  Lemma zs_nonneg l f : (forall a, In a l -> 0 <= f a)%Z -> (0 <= zs l f)%Z.
  Proof. induction l as [|a l IH]; intros E; [cbn; lia|]. rewrite zs_cons. pose proof (E a (or_introl eq_refl)). assert (0 <= zs l f)%Z by (apply IH; intros; apply E; right; assumption). lia. Qed.
  Lemma zs_pos l f a : (forall a, In a l -> 0 <= f a)%Z -> In a l -> (0 < f a)%Z -> (0 < zs l f)%Z.
  Proof.
    induction l as [|b l IH]; intros E I P; [destruct I|]. rewrite zs_cons. pose proof (E b (or_introl eq_refl)).
    assert (0 <= zs l f)%Z by (apply zs_nonneg; intros; apply E; right; assumption).
    destruct I as [->|I]; [lia|]. assert (0 < zs l f)%Z by (apply IH; auto; intros; apply E; right; assumption). lia.
  Qed.
  Lemma zs_pos_inv l f : (0 < zs l f)%Z -> exists a, In a l /\ (0 < f a)%Z.
  Proof.
    induction l as [|b l IH]; [cbn; lia|]. rewrite zs_cons. intros P. destruct (Z.lt_ge_cases 0 (f b)) as [Q|Q]; [exists b; split; [left; reflexivity|exact Q]|].
    destruct IH as (a & I & Pa); [lia|]. exists a. split; [right; exact I|exact Pa].
  Qed.
  Lemma zs_map {B} (h : B -> A) (l : list B) f : zs (map h l) f = zs l (fun b => f (h b)).
  Proof. induction l as [|b l IH]; [reflexivity|]. cbn [map zs fold_right]. f_equal. exact IH. Qed.
  Lemma zs_perm l l' f : Permutation l l' -> zs l f = zs l' f.
  Proof. induction 1; rewrite ?zs_cons; lia. Qed.
End ZS.
Lemma zs_swap {A B} (l : list A) (m : list B) (f : A -> B -> Z) : zs l (fun a => zs m (f a)) = zs m (fun b => zs l (fun a => f a b)).
  Proof.
    induction l as [|a l IH]; [symmetry; induction m as [|b m IHm]; [reflexivity|exact IHm]|].
    rewrite zs_cons, IH, <- zs_plus. apply zs_ext. intros b _. reflexivity.
  Qed.
Lemma zs_single (l : list nat) x v : NoDup l -> zs l (fun a => if (a =? x)%nat then v else 0%Z) = if in_dec Nat.eq_dec x l then v else 0%Z.
Proof.
  induction l as [|a l IH]; intros ND; [reflexivity|]. inversion ND as [|? ? NI ND']; subst. rewrite zs_cons, IH by exact ND'.
  destruct (Nat.eqb_spec a x) as [->|N].
  - destruct (in_dec Nat.eq_dec x l); [contradiction|]. destruct (in_dec Nat.eq_dec x (x :: l)) as [_|N]; [lia|exfalso; apply N; left; reflexivity].
  - destruct (in_dec Nat.eq_dec x l) as [I|NI'], (in_dec Nat.eq_dec x (a :: l)) as [I'|NI'']; try lia.
    + exfalso; apply NI''; right; exact I.
    + exfalso. destruct I' as [E|I']; [congruence|contradiction].
Qed.

(** ** The heap *)
Lemma nd_upd h n x m : (n < length h)%nat -> nd (upd h n x) m = if (n =? m)%nat then x else nd h m.
Proof. intros L. apply upd_nth, L. Qed.
Definition parent (h : pheap) (n : nat) : option nat := nd_parent (nd h n).

Ltac heap_upd := intros L; unfold kids, label, parent, set_kids, set_parent, set_count, set_label; rewrite nd_upd by exact L;
  match goal with |- context [Nat.eqb ?a ?b] => destruct (Nat.eqb_spec a b) end; subst; reflexivity.
Lemma kids_set_kids h n ks m : (n < length h)%nat -> kids (set_kids h n ks) m = if (n =? m)%nat then ks else kids h m.
Proof. heap_upd. Qed.
Lemma label_set_kids h n ks m : (n < length h)%nat -> label (set_kids h n ks) m = label h m.
Proof. heap_upd. Qed.
Lemma parent_set_kids h n ks m : (n < length h)%nat -> parent (set_kids h n ks) m = parent h m.
Proof. heap_upd. Qed.
Lemma kids_set_parent h n p m : (n < length h)%nat -> kids (set_parent h n p) m = kids h m.
Proof. heap_upd. Qed.
Lemma label_set_parent h n p m : (n < length h)%nat -> label (set_parent h n p) m = label h m.
Proof. heap_upd. Qed.
Lemma parent_set_parent h n p m : (n < length h)%nat -> parent (set_parent h n p) m = if (n =? m)%nat then p else parent h m.
Proof. heap_upd. Qed.
Lemma kids_set_count h n c m : (n < length h)%nat -> kids (set_count h n c) m = kids h m.
Proof. heap_upd. Qed.
Lemma label_set_count h n c m : (n < length h)%nat -> label (set_count h n c) m = label h m.
Proof. heap_upd. Qed.
Lemma parent_set_count h n c m : (n < length h)%nat -> parent (set_count h n c) m = parent h m.
Proof. heap_upd. Qed.
Lemma length_set_kids h n ks : length (set_kids h n ks) = length h.
Proof. apply upd_length. Qed.
Lemma length_set_parent h n ks : length (set_parent h n ks) = length h.
Proof. apply upd_length. Qed.
Lemma length_set_count h n ks : length (set_count h n ks) = length h.
Proof. apply upd_length. Qed.

(** Weight of the edges from [n] to the nodes satisfying [g]. *)
Definition wt (h : pheap) (n : nat) (g : nat -> bool) : Z := zs (kids h n) (fun kc => if g (fst kc) then snd kc else 0%Z).

(** findKid *)
Lemma findKid_Some h n l k : findKid h n l = Some k -> label h k = l /\ exists c, In (k, c) (kids h n).
Proof.
  unfold findKid. induction (kids h n) as [|[j w] ks IH]; cbn; [discriminate|].
  destruct (String.eqb_spec (label h j) l).
  - intros [= <-]. split; [exact e|]. eauto.
  - intros E. destruct (IH E) as (A & c & I). split; [exact A|]. eauto.
Qed.
Lemma findKid_None h n l : findKid h n l = None -> forall k c, In (k, c) (kids h n) -> label h k <> l.
Proof.
  unfold findKid. induction (kids h n) as [|[j w] ks IH]; cbn; [intros _ ? ? []|].
  destruct (String.eqb_spec (label h j) l); [discriminate|]. intros E k c [[= <- <-]|I]; [assumption|]. apply (IH E k c I).
Qed.

(** Inserting a kid *)
Lemma addKid_kids h n k c : exists i, addKid h n k c = set_kids h n (firstn i (kids h n) ++ (k, c) :: skipn i (kids h n)).
Proof. eexists. reflexivity. Qed.

(** Increasing a weight *)
Lemma inc_in_spec test ks c k0 w0 : In (k0, w0) ks -> test k0 = true ->
  exists ks' k w, inc_in test ks c = Some (ks', k) /\ test k = true /\ In (k, w) ks /\ map fst ks' = map fst ks /\
    (forall g : nat -> bool, zs ks' (fun kc => if g (fst kc) then snd kc else 0%Z) = (zs ks (fun kc => if g (fst kc) then snd kc else 0%Z) + if g k then c else 0)%Z) /\
    (forall j x, In (j, x) ks' -> In (j, x) ks \/ (j = k /\ exists y, In (j, y) ks /\ x = (y + c)%Z)).
Proof.
  induction ks as [|[j w] ks IH]; cbn [inc_in]; [intros []|]. intros I T. destruct (test j) eqn:Tj.
  - exists ((j, (w + c)%Z) :: ks), j, w. split; [reflexivity|]. split; [exact Tj|]. split; [left; reflexivity|]. split; [reflexivity|]. split.
    + intros g. rewrite !zs_cons. cbn [fst snd]. destruct (g j); lia.
    + intros a x [[= <- <-]|J]; [right; split; [reflexivity|]; exists w; split; [left; reflexivity|reflexivity]|left; right; exact J].
  - destruct I as [[= <- <-]|I]; [congruence|]. destruct (IH I T) as (ks' & k & w' & -> & Tk & Ik & M & G & F).
    exists ((j, w) :: ks'), k, w'. split; [reflexivity|]. split; [exact Tk|]. split; [right; exact Ik|]. split; [cbn; f_equal; exact M|]. split.
    + intros g. rewrite !zs_cons, G. cbn [fst snd]. lia.
    + intros a x [E|J]; [left; left; exact E|]. destruct (F a x J) as [Q|(-> & y & Iy & ->)]; [left; right; exact Q|].
      right. split; [reflexivity|]. exists y. split; [right; exact Iy|reflexivity].
Qed.

(** ** Trees in the heap *)
Inductive tree_at (h : pheap) : nat -> list nat -> Prop :=
| tree_node n D : forest_at h n (map fst (kids h n)) D -> ~ In n D -> tree_at h n (n :: D)
with forest_at (h : pheap) : nat -> list nat -> list nat -> Prop :=
| forest_nil p : forest_at h p [] []
| forest_cons p k ks D1 D2 : tree_at h k D1 -> parent h k = Some p -> forest_at h p ks D2 ->
    (forall x, In x D1 -> ~ In x D2) -> forest_at h p (k :: ks) (D1 ++ D2).
Scheme tree_ind2 := Minimality for tree_at Sort Prop
  with forest_ind2 := Minimality for forest_at Sort Prop.
Combined Scheme tree_forest_ind from tree_ind2, forest_ind2.

Lemma tree_root h n D : tree_at h n D -> exists D', D = n :: D' /\ ~ In n D' /\ forest_at h n (map fst (kids h n)) D'.
Proof. intros T. inversion T; subst. eauto. Qed.
Lemma tree_root_In h n D : tree_at h n D -> In n D.
Proof. intros T. apply tree_root in T as (D' & -> & _). left; reflexivity. Qed.
Lemma NoDup_app_intro {A} (l1 l2 : list A) : NoDup l1 -> NoDup l2 -> (forall x, In x l1 -> ~ In x l2) -> NoDup (l1 ++ l2).
Proof.
  induction 1 as [|x l N ND IH]; intros ND2 D; [exact ND2|]. cbn. constructor.
  - intros I. apply in_app_or in I as [I|I]; [contradiction|]. apply (D x (or_introl eq_refl) I).
  - apply IH; [exact ND2|]. intros y I. apply D. right; exact I.
Qed.
Lemma tree_NoDup h : (forall n D, tree_at h n D -> NoDup D) /\ (forall p ks D, forest_at h p ks D -> NoDup D).
Proof.
  apply tree_forest_ind.
  - intros n D F ND NI. constructor; assumption.
  - intros p. constructor.
  - intros p k ks D1 D2 T N1 P F N2 DJ. apply NoDup_app_intro; assumption.
Qed.
(** The trees of the kids. *)
Lemma forest_kid h p ks D k : forest_at h p ks D -> In k ks ->
  exists D', tree_at h k D' /\ (forall x, In x D' -> In x D) /\ parent h k = Some p /\ (length D' <= length D)%nat.
Proof.
  induction 1 as [|p k' ks D1 D2 T P F IH DJ]; intros I; [destruct I|]. destruct I as [->|I].
  - exists D1. split; [exact T|]. split; [intros x J; apply in_or_app; left; exact J|]. split; [exact P|]. rewrite app_length. lia.
  - destruct (IH I) as (D' & T' & S & Q & Le). exists D'. split; [exact T'|]. split; [intros x J; apply in_or_app; right; apply S, J|].
    split; [exact Q|]. rewrite app_length. lia.
Qed.
(** Every node of the tree is the root of a subtree; its kids are in the tree. *)
Lemma tree_sub h :
  (forall n D, tree_at h n D -> forall x, In x D -> exists Dx, tree_at h x Dx /\ forall y, In y Dx -> In y D) /\
  (forall p ks D, forest_at h p ks D -> forall x, In x D -> exists Dx, tree_at h x Dx /\ forall y, In y Dx -> In y D).
Proof.
  apply tree_forest_ind.
  - intros n D F IH NI x [<-|I].
    + exists (n :: D). split; [constructor; assumption|auto].
    + destruct (IH x I) as (Dx & T & S). exists Dx. split; [exact T|]. intros y J. right. apply S, J.
  - intros p x [].
  - intros p k ks D1 D2 T IH1 P F IH2 DJ x I. apply in_app_or in I as [I|I].
    + destruct (IH1 x I) as (Dx & T' & S). exists Dx. split; [exact T'|]. intros y J. apply in_or_app; left; apply S, J.
    + destruct (IH2 x I) as (Dx & T' & S). exists Dx. split; [exact T'|]. intros y J. apply in_or_app; right; apply S, J.
Qed.
Lemma tree_kid h n D x k c : tree_at h n D -> In x D -> In (k, c) (kids h x) -> In k D /\ parent h k = Some x.
Proof.
  intros T I J. destruct (proj1 (tree_sub h) n D T x I) as (Dx & Tx & S). apply tree_root in Tx as (D' & -> & _ & F).
  destruct (forest_kid h x _ D' k F) as (Dk & Tk & Sk & P & _). { apply in_map_iff. exists (k, c). auto. }
  split; [|exact P]. apply S. right. apply Sk, (tree_root_In h k), Tk.
Qed.
(** Every node but the root has its parent in the tree. *)
Lemma tree_parent h :
  (forall n D, tree_at h n D -> forall x, In x D -> x <> n -> exists p, In p D /\ parent h x = Some p) /\
  (forall q ks D, forest_at h q ks D -> forall x, In x D -> exists p, (p = q \/ In p D) /\ parent h x = Some p).
Proof.
  apply tree_forest_ind.
  - intros n D F IH NI x [<-|I] N; [congruence|]. destruct (IH x I) as (p & [->|J] & P).
    + exists n. split; [left; reflexivity|exact P].
    + exists p. split; [right; exact J|exact P].
  - intros q x [].
  - intros q k ks D1 D2 T IH1 P F IH2 DJ x I. apply in_app_or in I as [I|I].
    + destruct (Nat.eq_dec x k) as [->|N]; [exists q; auto|]. destruct (IH1 x I N) as (p & J & Q). exists p. split; [right; apply in_or_app; left; exact J|exact Q].
    + destruct (IH2 x I) as (p & [->|J] & Q); [exists q; auto|]. exists p. split; [right; apply in_or_app; right; exact J|exact Q].
Qed.

(** Trees only depend on the part of the heap they occupy. *)
Lemma tree_frame h h' :
  (forall n D, tree_at h n D -> (forall x, In x D -> map fst (kids h' x) = map fst (kids h x)) ->
     (forall x, In x D -> x <> n -> parent h' x = parent h x) -> tree_at h' n D) /\
  (forall p ks D, forest_at h p ks D -> (forall x, In x D -> map fst (kids h' x) = map fst (kids h x)) ->
     (forall x, In x D -> parent h' x = parent h x) -> forest_at h' p ks D).
Proof.
  apply tree_forest_ind.
  - intros n D F IH NI A B. constructor; [|exact NI]. rewrite A by (left; reflexivity). apply IH.
    + intros x I. apply A. right; exact I.
    + intros x I. apply B; [right; exact I|]. intros ->. contradiction.
  - intros p _ _. constructor.
  - intros p k ks D1 D2 T IH1 P F IH2 DJ A B. constructor.
    + apply IH1; intros; [apply A|apply B]; apply in_or_app; left; assumption.
    + rewrite B; [exact P|]. apply in_or_app; left; apply (tree_root_In h k), T.
    + apply IH2; intros; [apply A|apply B]; apply in_or_app; right; assumption.
    + exact DJ.
Qed.

(** Inserting a tree among the kids of a node. *)
Lemma forest_insert h p ks D k D1 i : forest_at h p ks D -> tree_at h k D1 -> parent h k = Some p -> (forall x, In x D1 -> ~ In x D) ->
  exists D', forest_at h p (firstn i ks ++ k :: skipn i ks) D' /\ forall x, In x D' <-> In x D \/ In x D1.
Proof.
  intros F T P. revert D F. revert i. induction ks as [|k' ks IH]; intros i D F DJ.
  - inversion F; subst. destruct i; cbn; (exists (D1 ++ []); split; [apply forest_cons; [exact T|exact P|constructor|intros x _ []]|intros x; rewrite app_nil_r; cbn; tauto]).
  - destruct i as [|i]; cbn [firstn skipn app].
    + exists (D1 ++ D). split; [constructor; assumption|]. intros x. rewrite in_app_iff. tauto.
    + inversion F as [|? ? ? Da Db Ta Pa Fb DJab]; subst. destruct (IH i Db Fb) as (D' & F' & E').
      { intros x I J. apply (DJ x I). apply in_or_app; right; exact J. }
      exists (Da ++ D'). split.
      * constructor; [exact Ta|exact Pa|exact F'|]. intros x I J. apply E' in J as [J|J]; [apply (DJab x I J)|]. apply (DJ x J). apply in_or_app; left; exact I.
      * intros x. rewrite !in_app_iff, E'. tauto.
Qed.
Lemma tree_add h h' s k2 D2 i :
  (forall x, x <> s -> map fst (kids h' x) = map fst (kids h x)) ->
  map fst (kids h' s) = firstn i (map fst (kids h s)) ++ k2 :: skipn i (map fst (kids h s)) ->
  (forall x, x <> k2 -> parent h' x = parent h x) -> parent h' k2 = Some s ->
  tree_at h' k2 D2 -> ~ In s D2 ->
  (forall n D, tree_at h n D -> (forall x, In x D2 -> ~ In x D) -> exists D', tree_at h' n D' /\ forall x, In x D' -> In x D \/ (In s D /\ In x D2)) /\
  (forall p ks D, forest_at h p ks D -> (forall x, In x D2 -> ~ In x D) -> exists D', forest_at h' p ks D' /\ forall x, In x D' -> In x D \/ (In s D /\ In x D2)).
Proof.
  intros K Ks Pa Pk T2 NS. apply tree_forest_ind.
  - intros n D F IH NI DJ. destruct (IH (fun x I J => DJ x I (or_intror J))) as (D' & F' & S).
    destruct (Nat.eq_dec n s) as [->|N].
    + destruct (forest_insert h' s _ D' k2 D2 i F' T2 Pk) as (D'' & F'' & E).
      { intros x I J. apply S in J as [J|[J _]]; [apply (DJ x I (or_intror J))|contradiction]. }
      exists (s :: D''). split.
      * constructor; [rewrite Ks; exact F''|]. intros I. apply E in I as [I|I]; [|contradiction]. apply S in I as [I|[I _]]; contradiction.
      * intros x [<-|I]; [left; left; reflexivity|]. apply E in I as [I|I].
        -- apply S in I as [I|[I J]]; [left; right; exact I|contradiction].
        -- right. split; [left; reflexivity|exact I].
    + exists (n :: D'). split.
      * constructor; [rewrite K by exact N; exact F'|]. intros I. apply S in I as [I|[_ I]]; [contradiction|]. apply (DJ n I (or_introl eq_refl)).
      * intros x [<-|I]; [left; left; reflexivity|]. apply S in I as [I|[I J]]; [left; right; exact I|right; split; [right; exact I|exact J]].
  - intros p _. exists []. split; [constructor|]. intros x [].
  - intros p k ks Da Db Ta IHa P F IHb DJab DJ.
    destruct IHa as (Da' & Ta' & Sa). { intros x I J. apply (DJ x I). apply in_or_app; left; exact J. }
    destruct IHb as (Db' & Fb' & Sb). { intros x I J. apply (DJ x I). apply in_or_app; right; exact J. }
    assert (Ik : In k Da) by (apply (tree_root_In h k), Ta).
    exists (Da' ++ Db'). split.
    + constructor; [exact Ta'| |exact Fb'|].
      * rewrite Pa; [exact P|]. intros ->. apply (DJ k2); [apply (tree_root_In h' k2), T2|]. apply in_or_app; left; exact Ik.
      * intros x I J. apply Sa in I. apply Sb in J. destruct I as [I|[I1 I2]], J as [J|[J1 J2]].
        -- apply (DJab x I J).
        -- apply (DJ x J2). apply in_or_app; left; exact I.
        -- apply (DJ x I2). apply in_or_app; right; exact J.
        -- apply (DJab s I1 J1).
    + intros x I. rewrite !in_app_iff in *. destruct I as [I|I]; [apply Sa in I|apply Sb in I]; destruct I as [I|[I J]]; auto.
Qed.

(** ** The invariant of the merging phase: [L] are the nodes in use, [R] the red ones. *)
Definition labels_of (h : pheap) (n : nat) : list string := map (fun kc => label h (fst kc)) (kids h n).
Record LInv (h : pheap) (L R : nat -> bool) : Prop := {
  li_range : forall x, L x = true -> (x < length h)%nat;
  li_red : forall x, R x = true -> L x = true;
  li_closed : forall n k c, L n = true -> In (k, c) (kids h n) -> L k = true;
  li_det : forall n, L n = true -> NoDup (labels_of h n);
  li_pos : forall n k c, L n = true -> In (k, c) (kids h n) -> (0 < c)%Z;
  li_par : forall n k c, L n = true -> In (k, c) (kids h n) -> R k = false -> parent h k = Some n;
  li_tree : forall n, L n = true -> R n = false -> exists D, tree_at h n D /\ forall x, In x D -> L x = true /\ R x = false }.
Record DInv (h : pheap) (L R : nat -> bool) (D : list nat) : Prop := {
  di_range : forall x, In x D -> (x < length h)%nat;
  di_out : forall x, In x D -> L x = false;
  di_det : forall x, In x D -> NoDup (labels_of h x);
  di_pos : forall x k c, In x D -> In (k, c) (kids h x) -> (0 < c)%Z }.

Lemma In_fst {A B} (k : A) (l : list (A * B)) : In k (map fst l) <-> exists c, In (k, c) l.
Proof.
  rewrite in_map_iff. split.
  - intros [[a b] [<- I]]. exists b. exact I.
  - intros [c I]. exists (k, c). auto.
Qed.
Lemma labels_of_fst h n : labels_of h n = map (label h) (map fst (kids h n)).
Proof. unfold labels_of. rewrite map_map. reflexivity. Qed.
Lemma labels_of_same h h' n n' : (forall x, label h' x = label h x) -> map fst (kids h' n') = map fst (kids h n) -> labels_of h' n' = labels_of h n.
Proof. intros A B. rewrite !labels_of_fst, B. apply map_ext, A. Qed.

Lemma LInv_same h h' L R : LInv h L R -> length h' = length h -> (forall x, label h' x = label h x) -> (forall x, parent h' x = parent h x) ->
  (forall x, map fst (kids h' x) = map fst (kids h x)) -> (forall n k c, L n = true -> In (k, c) (kids h' n) -> (0 < c)%Z) -> LInv h' L R.
Proof.
  intros [A0 A1 A2 A3 A4 A5 A6] E1 E2 E3 E4 P. 
  assert (KK : forall n k c, In (k, c) (kids h' n) -> exists c', In (k, c') (kids h n)).
  { intros n k c I. apply In_fst. rewrite <- E4. apply In_fst. eauto. }
  constructor.
  - intros x. rewrite E1. apply A0.
  - exact A1.
  - intros n k c Ln I. apply KK in I as [c' I]. apply (A2 n k c' Ln I).
  - intros n Ln. rewrite (labels_of_same h h' n n E2 (E4 n)). apply A3, Ln.
  - exact P.
  - intros n k c Ln I Rk. rewrite E3. apply KK in I as [c' I]. apply (A5 n k c' Ln I Rk).
  - intros n Ln Rn. destruct (A6 n Ln Rn) as (D & T & S). exists D. split; [|exact S].
    apply (proj1 (tree_frame h h') n D T); auto.
Qed.

(** More weight on an edge. *)
Definition inc_step (h : pheap) (s1 k1 k2 : nat) (c : Z) : pheap :=
  let h1 := set_count h k1 (nd_count (nd h k1) + nd_count (nd h k2))%Z in
  match incKid_node h1 s1 k1 c with Some (h2, _) => h2 | None => h1 end.
Lemma inc_step_spec h s1 k1 k2 c w : (s1 < length h)%nat -> (k1 < length h)%nat -> In (k1, w) (kids h s1) -> (0 < c)%Z ->
  let h' := inc_step h s1 k1 k2 c in
  length h' = length h /\ (forall x, label h' x = label h x) /\ (forall x, parent h' x = parent h x) /\
  (forall x, map fst (kids h' x) = map fst (kids h x)) /\ (forall x, x <> s1 -> x <> k1 -> nd h' x = nd h x) /\
  (forall x, x <> s1 -> kids h' x = kids h x) /\
  (forall n k x, In (k, x) (kids h' n) -> exists y, In (k, y) (kids h n) /\ (y <= x)%Z) /\
  (forall n g, wt h' n g = (wt h n g + if (s1 =? n)%nat && g k1 then c else 0)%Z).
Proof.
  intros Ls Lk I Pc. cbn zeta. unfold inc_step, incKid_node, incKid. set (h1 := set_count h k1 _).
  assert (L1 : length h1 = length h) by apply length_set_count.
  assert (K1 : forall x, kids h1 x = kids h x) by (intros; apply kids_set_count, Lk).
  rewrite K1. destruct (inc_in_spec (Nat.eqb k1) (kids h s1) c k1 w I (Nat.eqb_refl k1)) as (ks & k & w' & E & Tk & Ik & M & G & F).
  apply Nat.eqb_eq in Tk. subst k. rewrite E.
  assert (Ls1 : (s1 < length h1)%nat) by (rewrite L1; exact Ls).
  assert (KS : forall x, kids (set_kids h1 s1 ks) x = if (s1 =? x)%nat then ks else kids h x).
  { intros x. rewrite kids_set_kids by exact Ls1. rewrite K1. reflexivity. }
  repeat split.
  - rewrite length_set_kids. exact L1.
  - intros x. rewrite label_set_kids by exact Ls1. apply label_set_count, Lk.
  - intros x. rewrite parent_set_kids by exact Ls1. apply parent_set_count, Lk.
  - intros x. rewrite KS. destruct (Nat.eqb_spec s1 x) as [<-|N]; [exact M|reflexivity].
  - intros x N1 N2. unfold set_kids. rewrite nd_upd by exact Ls1. destruct (Nat.eqb_spec s1 x); [congruence|].
    unfold h1, set_count. rewrite nd_upd by exact Lk. destruct (Nat.eqb_spec k1 x); [congruence|reflexivity].
  - intros x N. rewrite KS. destruct (Nat.eqb_spec s1 x); [congruence|reflexivity].
  - intros n k x J. rewrite KS in J. destruct (Nat.eqb_spec s1 n) as [<-|N].
    + apply F in J as [J|(-> & y & J & ->)]; [exists x; split; [exact J|lia]|exists y; split; [exact J|lia]].
    + exists x. split; [exact J|lia].
  - intros n g. unfold wt. rewrite KS. destruct (Nat.eqb_spec s1 n) as [<-|N]; cbn [andb]; [apply G|lia].
Qed.

(** A new kid. *)
Definition add_step (h : pheap) (s1 k2 : nat) (c : Z) : pheap := set_parent (addKid h s1 k2 c) k2 (Some s1).
Lemma zs_insert {A} (l : list A) i a f : zs (firstn i l ++ a :: skipn i l) f = (zs l f + f a)%Z.
Proof. rewrite zs_app, zs_cons. rewrite <- (firstn_skipn i l) at 3. rewrite zs_app. lia. Qed.
Lemma add_step_spec h s1 k2 c : (s1 < length h)%nat -> (k2 < length h)%nat ->
  let h' := add_step h s1 k2 c in
  length h' = length h /\ (forall x, label h' x = label h x) /\ (forall x, x <> k2 -> parent h' x = parent h x) /\ parent h' k2 = Some s1 /\
  (forall x, x <> s1 -> kids h' x = kids h x) /\
  (exists i, kids h' s1 = firstn i (kids h s1) ++ (k2, c) :: skipn i (kids h s1)) /\
  (forall x, x <> s1 -> x <> k2 -> nd h' x = nd h x) /\
  (forall n g, wt h' n g = (wt h n g + if (s1 =? n)%nat && g k2 then c else 0)%Z).
Proof.
  intros Ls Lk. cbn zeta. unfold add_step. destruct (addKid_kids h s1 k2 c) as (i & ->).
  set (ks := firstn i _ ++ _). assert (Lk' : (k2 < length (set_kids h s1 ks))%nat) by (rewrite length_set_kids; exact Lk).
  assert (KS : forall x, kids (set_parent (set_kids h s1 ks) k2 (Some s1)) x = if (s1 =? x)%nat then ks else kids h x).
  { intros x. rewrite kids_set_parent by exact Lk'. apply kids_set_kids, Ls. }
  repeat split.
  - rewrite length_set_parent. apply length_set_kids.
  - intros x. rewrite label_set_parent by exact Lk'. apply label_set_kids, Ls.
  - intros x N. rewrite parent_set_parent by exact Lk'. destruct (Nat.eqb_spec k2 x); [congruence|]. apply parent_set_kids, Ls.
  - rewrite parent_set_parent by exact Lk'. rewrite Nat.eqb_refl. reflexivity.
  - intros x N. rewrite KS. destruct (Nat.eqb_spec s1 x); [congruence|reflexivity].
  - exists i. rewrite KS, Nat.eqb_refl. reflexivity.
  - intros x N1 N2. unfold set_parent. rewrite nd_upd by exact Lk'. destruct (Nat.eqb_spec k2 x); [congruence|].
    unfold set_kids. rewrite nd_upd by exact Ls. destruct (Nat.eqb_spec s1 x); [congruence|reflexivity].
  - intros n g. unfold wt. rewrite KS. destruct (Nat.eqb_spec s1 n) as [<-|N]; cbn [andb]; [|lia].
    unfold ks. rewrite zs_insert. cbn [fst snd]. reflexivity.
Qed.

Definition union (L : nat -> bool) (D : list nat) (x : nat) : bool := L x || if in_dec Nat.eq_dec x D then true else false.
Lemma union_spec L D x : union L D x = true <-> L x = true \/ In x D.
Proof. unfold union. rewrite orb_true_iff. destruct (in_dec Nat.eq_dec x D); intuition congruence. Qed.

Lemma NoDup_insert {A} (l : list A) i a : NoDup l -> ~ In a l -> NoDup (firstn i l ++ a :: skipn i l).
Proof.
  intros N NI. apply NoDup_Add with (a := a) (l := l); [|split; assumption].
  rewrite <- (firstn_skipn i l) at 1. apply Add_app.
Qed.
Lemma In_insert {A} (l : list A) i a x : In x (firstn i l ++ a :: skipn i l) <-> x = a \/ In x l.
Proof.
  rewrite <- (firstn_skipn i l) at 3. rewrite !in_app_iff. cbn. intuition.
Qed.

Lemma LInv_add h L R s1 k2 c D1 : LInv h L R -> L s1 = true -> tree_at h k2 D1 -> DInv h L R D1 -> (0 < c)%Z ->
  (forall k w, In (k, w) (kids h s1) -> label h k <> label h k2) -> LInv (add_step h s1 k2 c) (union L D1) R.
Proof.
  intros I Ls T [D0 DO DD DP] Pc NL. pose proof (tree_root_In _ _ _ T) as IkD.
  assert (Ss : (s1 < length h)%nat) by apply (li_range _ _ _ I s1 Ls).
  assert (Sk : (k2 < length h)%nat) by apply (D0 k2 IkD).
  assert (NsD : ~ In s1 D1) by (intros J; rewrite (DO s1 J) in Ls; discriminate).
  assert (Nsk : s1 <> k2) by (intros ->; contradiction).
  destruct (add_step_spec h s1 k2 c Ss Sk) as (EL & Elab & Epar & Epk & Ek & (i & Eks) & Efr & _). set (h' := add_step h s1 k2 c) in *.
  assert (T' : tree_at h' k2 D1).
  { apply (proj1 (tree_frame h h') k2 D1 T).
    - intros x J. rewrite Ek; [reflexivity|]. intros ->. contradiction.
    - intros x _ N. apply Epar, N. }
  assert (RD : forall x, In x D1 -> R x = false).
  { intros x J. destruct (R x) eqn:E; [|reflexivity]. apply (li_red _ _ _ I) in E. rewrite (DO x J) in E. discriminate. }
  constructor.
  - intros x U. rewrite EL. apply union_spec in U as [U|U]; [apply (li_range _ _ _ I x U)|apply D0, U].
  - intros x Rx. apply union_spec. left. apply (li_red _ _ _ I x Rx).
  - intros n k w U J. apply union_spec. apply union_spec in U as [U|U].
    + destruct (Nat.eq_dec n s1) as [->|N].
      * rewrite Eks in J. apply In_insert in J as [J|J]; [injection J as -> _; right; exact IkD|]. left. apply (li_closed _ _ _ I s1 k w U J).
      * rewrite Ek in J by exact N. left. apply (li_closed _ _ _ I n k w U J).
    + right. rewrite Ek in J by (intros ->; contradiction). apply (tree_kid h k2 D1 n k w T U J).
  - intros n U. destruct (Nat.eq_dec n s1) as [->|N].
    + unfold labels_of. rewrite Eks, map_app. cbn [map fst].
      rewrite <- firstn_map, <- skipn_map. rewrite (map_ext _ (fun kc : nat * Z => label h (fst kc))) by (intros; apply Elab).
      rewrite Elab. apply NoDup_insert; [apply (li_det _ _ _ I s1 Ls)|]. intros J. apply in_map_iff in J as ([k w] & E & J). apply (NL k w J E).
    + rewrite (labels_of_same h h' n n Elab) by (rewrite Ek by exact N; reflexivity).
      apply union_spec in U as [U|U]; [apply (li_det _ _ _ I n U)|apply DD, U].
  - intros n k w U J. destruct (Nat.eq_dec n s1) as [->|N].
    + rewrite Eks in J. apply In_insert in J as [J|J]; [injection J as _ ->; exact Pc|]. apply (li_pos _ _ _ I s1 k w Ls J).
    + rewrite Ek in J by exact N. apply union_spec in U as [U|U]; [apply (li_pos _ _ _ I n k w U J)|apply (DP n k w U J)].
  - intros n k w U J Rk. destruct (Nat.eq_dec n s1) as [->|N].
    + rewrite Eks in J. apply In_insert in J as [J|J]; [injection J as -> _; exact Epk|].
      rewrite Epar; [apply (li_par _ _ _ I s1 k w Ls J Rk)|]. intros ->. apply (NL k2 w J eq_refl).
    + rewrite Ek in J by exact N. apply union_spec in U as [U|U].
      * rewrite Epar; [apply (li_par _ _ _ I n k w U J Rk)|]. intros ->. pose proof (li_closed _ _ _ I n k2 w U J) as C. rewrite (DO k2 IkD) in C. discriminate.
      * destruct (tree_kid h k2 D1 n k w T U J) as (Ik & Pk). rewrite Epar; [exact Pk|]. intros ->.
        apply tree_root in T as (D' & E & NI & F). subst D1. (* the root is no kid of a node of its tree *)
        destruct U as [->|U].
        -- destruct (forest_kid h n _ D' n F) as (Dn & Tn & Sn & _). { apply In_fst. eauto. }
           apply NI, Sn, (tree_root_In h n), Tn.
        -- destruct (proj2 (tree_sub h) k2 _ D' F n U) as (Dn & Tn & Sn). destruct (tree_kid h n Dn n k2 w Tn (tree_root_In _ _ _ Tn) J) as (J' & _).
           apply NI, Sn, J'.
  - intros n U Rn. apply union_spec in U as [U|U].
    + destruct (li_tree _ _ _ I n U Rn) as (D & TD & S).
      destruct (proj1 (tree_add h h' s1 k2 D1 i (fun x N => f_equal (map fst) (Ek x N)) ltac:(rewrite Eks, map_app; cbn [map fst]; rewrite <- firstn_map, <- skipn_map; reflexivity) Epar Epk T' NsD) n D TD) as (D' & TD' & S').
      { intros x J1 J2. apply S in J2 as [J2 _]. rewrite (DO x J1) in J2. discriminate. }
      exists D'. split; [exact TD'|]. intros x J. apply S' in J as [J|[_ J]].
      * destruct (S x J) as (A & B). split; [apply union_spec; left; exact A|exact B].
      * split; [apply union_spec; right; exact J|apply RD, J].
    + destruct (proj1 (tree_sub h') k2 D1 T' n U) as (Dn & Tn & Sn). exists Dn. split; [exact Tn|].
      intros x J. apply Sn in J. split; [apply union_spec; right; exact J|apply RD, J].
Qed.

(** ** Folding a tree into a node *)
Definition fold_step (fuel : nat) (s1 : nat) (oh : option pheap) (kc : nat * Z) : option pheap :=
  match oh with
  | None => None
  | Some h =>
    match findKid h s1 (label h (fst kc)) with
    | None => Some (add_step h s1 (fst kc) (snd kc))
    | Some k1 => pfold fuel (inc_step h s1 k1 (fst kc) (snd kc)) k1 (fst kc)
    end
  end.
Lemma fold_left_ext {A B} (f g : A -> B -> A) l a : (forall a b, f a b = g a b) -> fold_left f l a = fold_left g l a.
Proof. intros E. revert a. induction l as [|b l IH]; intros a; [reflexivity|]. cbn. rewrite E. apply IH. Qed.
Lemma pfold_S fuel h s1 s2 : pfold (S fuel) h s1 s2 = fold_left (fold_step fuel s1) (kids h s2) (Some h).
Proof.
  cbn [pfold]. apply fold_left_ext. intros [h1|] [k c]; reflexivity.
Qed.

Record post (h h' : pheap) (L L' R : nat -> bool) (D : list nat) (f : nat -> nat) : Prop := {
  po_len : length h' = length h;
  po_lab : forall x, label h' x = label h x;
  po_frame : forall x, L x = false -> ~ In x D -> nd h' x = nd h x;
  po_up : forall x, L x = true -> L' x = true;
  po_down : forall x, L' x = true -> L x = true \/ In x D;
  po_inv : LInv h' L' R;
  po_map : forall x, In x D -> L' (f x) = true /\ label h (f x) = label h x;
  po_out : forall x, ~ In x D -> f x = x;
  po_fix : forall x, L' x = true -> f x = x }.

Lemma nd_kids_eq h h' x : nd h' x = nd h x -> kids h' x = kids h x /\ parent h' x = parent h x.
Proof. unfold kids, parent. intros ->. auto. Qed.
Lemma wt_kids h h' x g : kids h' x = kids h x -> wt h' x g = wt h x g.
Proof. unfold wt. intros ->. reflexivity. Qed.
Lemma DInv_sub h h' L L' R D D' : DInv h L R D -> length h' = length h -> (forall x, label h' x = label h x) ->
  (forall x, In x D' -> In x D) -> (forall x, In x D' -> kids h' x = kids h x) -> (forall x, In x D' -> L' x = false) -> DInv h' L' R D'.
Proof.
  intros [A B C E] EL El S Ek O. constructor.
  - intros x I. rewrite EL. apply A, S, I.
  - exact O.
  - intros x I. rewrite (labels_of_same h h' x x El) by (rewrite Ek by exact I; reflexivity). apply C, S, I.
  - intros x k c I J. rewrite Ek in J by exact I. apply (E x k c (S x I) J).
Qed.

Lemma fold_spec h0 R :
  (forall s2 D, tree_at h0 s2 D -> forall fuel h L s1,
     (forall x, In x D -> kids h x = kids h0 x /\ (x <> s2 -> parent h x = parent h0 x)) -> DInv h L R D -> LInv h L R -> L s1 = true ->
     label h s1 = label h s2 -> (length D <= fuel)%nat ->
     exists h' L' f, pfold fuel h s1 s2 = Some h' /\ post h h' L L' R D f /\ f s2 = s1 /\
       forall n g, L' n = true -> wt h' n g = ((if L n then wt h n g else 0) + zs D (fun x => if (f x =? n)%nat then wt h x (fun y => g (f y)) else 0))%Z) /\
  (forall p ksf D, forest_at h0 p ksf D -> forall ks fuel h L s1, map fst ks = ksf -> (forall k c, In (k, c) ks -> (0 < c)%Z) ->
     (forall x, In x D -> kids h x = kids h0 x /\ parent h x = parent h0 x) -> DInv h L R D -> LInv h L R -> L s1 = true ->
     (length D <= fuel)%nat ->
     exists h' L' f, fold_left (fold_step fuel s1) ks (Some h) = Some h' /\ post h h' L L' R D f /\
       forall n g, L' n = true -> wt h' n g = ((if L n then wt h n g else 0) + (if (s1 =? n)%nat then zs ks (fun kc => if g (f (fst kc)) then snd kc else 0) else 0)
                                              + zs D (fun x => if (f x =? n)%nat then wt h x (fun y => g (f y)) else 0))%Z).
Proof.
  apply tree_forest_ind.
  - (* a tree *)
    intros s2 D F IH NI fuel h L s1 A DI I Ls El Fu. destruct fuel as [|fuel]; [cbn in Fu; lia|]. rewrite pfold_S.
    destruct (IH (kids h s2) fuel h L s1) as (h' & L' & f & E & P & W).
    + f_equal. apply A. left; reflexivity.
    + intros k c J. apply (di_pos _ _ _ _ DI s2 k c); [left; reflexivity|exact J].
    + intros x J. split; [apply A; right; exact J|]. apply A; [right; exact J|]. intros ->. contradiction.
    + apply (DInv_sub h h L L R (s2 :: D) D DI); auto; [intros x J; right; exact J|]. intros x J. apply (di_out _ _ _ _ DI). right; exact J.
    + exact I.
    + exact Ls.
    + cbn [length] in Fu. lia.
    + assert (L2 : L s2 = false) by (apply (di_out _ _ _ _ DI); left; reflexivity).
      assert (N12 : s1 <> s2) by (intros ->; congruence).
      assert (L2' : L' s2 = false). { destruct (L' s2) eqn:Q; [|reflexivity]. apply (po_down _ _ _ _ _ _ _ P) in Q as [Q|Q]; [congruence|contradiction]. }
      set (f' := fun x => if (x =? s2)%nat then s1 else f x).
      assert (Ef : forall x, x <> s2 -> f' x = f x). { intros x N. unfold f'. destruct (Nat.eqb_spec x s2); [contradiction|reflexivity]. }
      assert (Ef2 : f' s2 = s1) by (unfold f'; rewrite Nat.eqb_refl; reflexivity).
      assert (KD : forall x y c, In x (s2 :: D) -> In (y, c) (kids h x) -> y <> s2).
      { intros x y c J Jy ->. assert (T0 : tree_at h0 s2 (s2 :: D)) by (constructor; assumption).
        destruct (A x J) as (Ak & _). rewrite Ak in Jy. destruct J as [<-|J].
        - destruct (forest_kid h0 s2 _ D s2 F) as (Dn & Tn & Sn & _). { apply In_fst. eauto. } apply NI, Sn, (tree_root_In h0 s2), Tn.
        - destruct (proj2 (tree_sub h0) s2 _ D F x J) as (Dn & Tn & Sn). destruct (tree_kid h0 x Dn x s2 c Tn (tree_root_In _ _ _ Tn) Jy) as (J' & _). apply NI, Sn, J'. }
      exists h', L', f'. split; [exact E|]. split; [constructor; try apply P|split; [exact Ef2|]].
      * intros x Lx NIx. apply (po_frame _ _ _ _ _ _ _ P); [exact Lx|]. intros J. apply NIx. right; exact J.
      * intros x Lx. destruct (po_down _ _ _ _ _ _ _ P x Lx) as [Q|Q]; [left; exact Q|right; right; exact Q].
      * intros x [<-|J].
        -- rewrite Ef2. split; [apply P, Ls|exact El].
        -- rewrite Ef by (intros ->; contradiction). apply P, J.
      * intros x NIx. rewrite Ef by (intros ->; apply NIx; left; reflexivity). apply P. intros J. apply NIx; right; exact J.
      * intros x Lx. rewrite Ef by (intros ->; congruence). apply (po_fix _ _ _ _ _ _ _ P), Lx.
      * intros n g Ln. rewrite (W n g Ln). rewrite zs_cons. rewrite Ef2. rewrite <- Z.add_assoc. f_equal. f_equal.
        -- destruct (s1 =? n)%nat; [|reflexivity]. unfold wt. apply zs_ext. intros [y c] J. cbn [fst snd].
           rewrite Ef; [reflexivity|]. apply (KD s2 y c); [left; reflexivity|exact J].
        -- apply zs_ext. intros x J. rewrite Ef by (intros ->; contradiction). destruct (f x =? n)%nat; [|reflexivity].
           unfold wt. apply zs_ext. intros [y c] Jy. cbn [fst snd]. rewrite Ef; [reflexivity|]. apply (KD x y c); [right; exact J|exact Jy].
  - (* no more kid *)
    intros p ks fuel h L s1 E _ _ _ I Ls _. destruct ks; [|discriminate]. exists h, L, (fun x => x). split; [reflexivity|]. split.
    + constructor; auto.
    + intros n g Ln. rewrite Ln. cbn [zs fold_right]. destruct (s1 =? n)%nat; lia.
  - (* a kid and the others *)
    intros p k2 ksf D1 D2 T IH1 Pk F IH2 DJ ks fuel h L s1 E Pos A DI I Ls Fu.
    destruct ks as [|[k2' c] ks]; [discriminate|]. cbn [map fst] in E. injection E as -> E. cbn [fold_left]. 
    pose proof (tree_root_In _ _ _ T) as Ik.
    assert (Pc : (0 < c)%Z) by (apply (Pos k2 c); left; reflexivity).
    assert (Pos' : forall k c, In (k, c) ks -> (0 < c)%Z) by (intros k c' J; apply (Pos k c'); right; exact J).
    rewrite app_length in Fu.
    assert (ND : NoDup (D1 ++ D2)) by (apply NoDup_app_intro; [apply (proj1 (tree_NoDup h0) k2 D1 T)|apply (proj2 (tree_NoDup h0) p _ D2 F)|exact DJ]).
    assert (O1 : forall x, In x D1 -> L x = false) by (intros x J; apply (di_out _ _ _ _ DI); apply in_or_app; left; exact J).
    assert (O2 : forall x, In x D2 -> L x = false) by (intros x J; apply (di_out _ _ _ _ DI); apply in_or_app; right; exact J).
    assert (DI1 : DInv h L R D1) by (apply (DInv_sub h h L L R _ D1 DI); auto; intros x J; apply in_or_app; left; exact J).
    assert (Ss : (s1 < length h)%nat) by apply (li_range _ _ _ I s1 Ls).
    assert (Sk : (k2 < length h)%nat) by (apply (di_range _ _ _ _ DI1), Ik).
    assert (T1 : tree_at h k2 D1).
    { apply (proj1 (tree_frame h0 h) k2 D1 T).
      - intros x J. f_equal. apply A. apply in_or_app; left; exact J.
      - intros x J _. apply A. apply in_or_app; left; exact J. }
    assert (FK : forall k c, In (k, c) ks -> In k D2).
    { intros k c' J. destruct (forest_kid h0 p ksf D2 k F) as (Dk & Tk & Sk' & _). { rewrite <- E. apply In_fst. eauto. }
      apply Sk', (tree_root_In h0 k), Tk. }
    (* the first kid *)
    assert (STEP : exists h1 L1 f1, fold_step fuel s1 (Some h) (k2, c) = Some h1 /\ post h h1 L L1 R D1 f1 /\
       forall n g, L1 n = true -> wt h1 n g = ((if L n then wt h n g else 0) + (if (s1 =? n)%nat then if g (f1 k2) then c else 0 else 0)
                                              + zs D1 (fun x => if (f1 x =? n)%nat then wt h x (fun y => g (f1 y)) else 0))%Z).
    { cbn [fold_step fst snd]. destruct (findKid h s1 (label h k2)) as [k1|] eqn:FKd.
      - (* an existing kid with this label *)
        apply findKid_Some in FKd as (El & w & J). assert (Lk1 : L k1 = true) by apply (li_closed _ _ _ I s1 k1 w Ls J).
        destruct (inc_step_spec h s1 k1 k2 c w Ss (li_range _ _ _ I k1 Lk1) J Pc) as (EL & Elab & Epar & Emap & Efr & Ekd & Epos & Ewt).
        set (h2 := inc_step h s1 k1 k2 c) in *.
        assert (I2 : LInv h2 L R).
        { apply (LInv_same h h2 L R I EL Elab Epar Emap). intros n k x Ln Jx. apply Epos in Jx as (y & Jy & Le). pose proof (li_pos _ _ _ I n k y Ln Jy). lia. }
        assert (FR : forall x, In x D1 -> nd h2 x = nd h x).
        { intros x Jx. apply Efr; intros ->; rewrite (O1 _ Jx) in *; discriminate. }
        destruct (IH1 fuel h2 L k1) as (h3 & L3 & f3 & E3 & P3 & F3 & W3).
        + intros x Jx. destruct (nd_kids_eq h h2 x (FR x Jx)) as (Q1 & Q2). destruct (A x) as (A1 & A2); [apply in_or_app; left; exact Jx|].
          split; [congruence|]. intros _. congruence.
        + apply (DInv_sub h h2 L L R D1 D1 DI1 EL Elab); auto. intros x Jx. apply (nd_kids_eq h h2 x (FR x Jx)).
        + exact I2.
        + exact Lk1.
        + rewrite !Elab. exact El.
        + lia.
        + exists h3, L3, f3. split; [exact E3|]. split.
          * constructor; try apply P3.
            -- rewrite (po_len _ _ _ _ _ _ _ P3). exact EL.
            -- intros x. rewrite (po_lab _ _ _ _ _ _ _ P3). apply Elab.
            -- intros x Lx NIx. rewrite (po_frame _ _ _ _ _ _ _ P3 x Lx NIx). apply Efr; intros ->; congruence.
            -- intros x Jx. destruct (po_map _ _ _ _ _ _ _ P3 x Jx) as (Q1 & Q2). split; [exact Q1|]. rewrite <- !Elab. exact Q2.
          * intros n g Ln. rewrite (W3 n g Ln), F3. rewrite Ewt. 
            rewrite (zs_ext D1 _ (fun x => if (f3 x =? n)%nat then wt h x (fun y => g (f3 y)) else 0%Z)).
            2:{ intros x Jx. destruct (f3 x =? n)%nat; [|reflexivity]. apply wt_kids, (nd_kids_eq h h2 x (FR x Jx)). }
            destruct (Nat.eqb_spec s1 n) as [<-|N]; cbn [andb]; [rewrite Ls; lia|]. destruct (L n); lia.
      - (* a new kid *)
        pose proof (findKid_None _ _ _ FKd) as NL.
        destruct (add_step_spec h s1 k2 c Ss Sk) as (EL & Elab & Epar & Epk & Ek & (i & Eks) & Efr & Ewt).
        pose proof (LInv_add h L R s1 k2 c D1 I Ls T1 DI1 Pc (fun k w J => NL k w J)) as I1.
        set (h1 := add_step h s1 k2 c) in *. exists h1, (union L D1), (fun x => x). split; [reflexivity|]. split.
        + constructor; auto.
          * intros x Lx NIx. apply Efr; intros ->; [congruence|]. apply NIx, Ik.
          * intros x Lx. apply union_spec. left; exact Lx.
          * intros x Lx. apply union_spec, Lx.
          * intros x Jx. split; [apply union_spec; right; exact Jx|reflexivity].
        + intros n g Ln. rewrite Ewt. change (wt h n (fun y => g y)) with (wt h n g).
          rewrite (zs_ext D1 _ (fun x => if (x =? n)%nat then wt h n g else 0%Z)).
          2:{ intros x Jx. destruct (Nat.eqb_spec x n) as [->|]; reflexivity. }
          rewrite zs_single by apply (proj1 (tree_NoDup h) k2 D1 T1).
          apply union_spec in Ln as [Ln|Ln].
          * rewrite Ln. destruct (in_dec Nat.eq_dec n D1) as [Jn|_]; [rewrite (O1 n Jn) in Ln; discriminate|].
            destruct (s1 =? n)%nat; cbn [andb]; lia.
          * rewrite (O1 n Ln). destruct (in_dec Nat.eq_dec n D1) as [_|Jn]; [|contradiction].
            destruct (Nat.eqb_spec s1 n) as [<-|]; [rewrite (O1 s1 Ln) in Ls; discriminate|]. cbn [andb]. lia. }
    destruct STEP as (h1 & L1 & f1 & E1 & P1 & W1). rewrite E1.
    assert (N2 : forall x, In x D2 -> ~ In x D1) by (intros x J2 J1; apply (DJ x J1 J2)).
    assert (FR : forall x, In x D2 -> nd h1 x = nd h x) by (intros x J; apply (po_frame _ _ _ _ _ _ _ P1); [apply O2, J|apply N2, J]).
    assert (O2' : forall x, In x D2 -> L1 x = false).
    { intros x J. destruct (L1 x) eqn:Q; [|reflexivity]. apply (po_down _ _ _ _ _ _ _ P1) in Q as [Q|Q]; [rewrite (O2 x J) in Q; discriminate|exfalso; apply (N2 x J Q)]. }
    destruct (IH2 ks fuel h1 L1 s1) as (h2 & L2 & f2 & E2 & P2 & W2).
    + exact E.
    + exact Pos'.
    + intros x J. destruct (nd_kids_eq h h1 x (FR x J)) as (Q1 & Q2). destruct (A x) as (A1 & A2); [apply in_or_app; right; exact J|]. split; congruence.
    + apply (DInv_sub h h1 L L1 R _ D2 DI (po_len _ _ _ _ _ _ _ P1) (po_lab _ _ _ _ _ _ _ P1)).
      * intros x J. apply in_or_app; right; exact J.
      * intros x J. apply (nd_kids_eq h h1 x (FR x J)).
      * exact O2'.
    + apply P1.
    + apply P1, Ls.
    + lia.
    + set (f := fun x => if in_dec Nat.eq_dec x D1 then f1 x else f2 x).
      assert (f_1 : forall x, In x D1 -> f x = f1 x) by (intros x J; unfold f; destruct (in_dec Nat.eq_dec x D1); [reflexivity|contradiction]).
      assert (f_2 : forall x, ~ In x D1 -> f x = f2 x) by (intros x J; unfold f; destruct (in_dec Nat.eq_dec x D1); [contradiction|reflexivity]).
      exists h2, L2, f. split; [exact E2|]. split.
      * constructor; try apply P2.
        -- rewrite (po_len _ _ _ _ _ _ _ P2). apply P1.
        -- intros x. rewrite (po_lab _ _ _ _ _ _ _ P2). apply P1.
        -- intros x Lx NIx. assert (NI1 : ~ In x D1) by (intros J; apply NIx, in_or_app; left; exact J).
           assert (NI2 : ~ In x D2) by (intros J; apply NIx, in_or_app; right; exact J).
           rewrite (po_frame _ _ _ _ _ _ _ P2); [apply P1; assumption| |exact NI2].
           destruct (L1 x) eqn:Q; [|reflexivity]. apply (po_down _ _ _ _ _ _ _ P1) in Q as [Q|Q]; [congruence|contradiction].
        -- intros x Lx. apply (po_up _ _ _ _ _ _ _ P2), (po_up _ _ _ _ _ _ _ P1), Lx.
        -- intros x Lx. rewrite in_app_iff. apply (po_down _ _ _ _ _ _ _ P2) in Lx as [Lx|Lx]; [|auto]. apply (po_down _ _ _ _ _ _ _ P1) in Lx as [Lx|Lx]; auto.
        -- intros x J. apply in_app_or in J as [J|J].
           ++ rewrite f_1 by exact J. destruct (po_map _ _ _ _ _ _ _ P1 x J) as (Q1 & Q2). split; [apply (po_up _ _ _ _ _ _ _ P2), Q1|exact Q2].
           ++ rewrite f_2 by (apply N2, J). destruct (po_map _ _ _ _ _ _ _ P2 x J) as (Q1 & Q2). split; [exact Q1|].
              rewrite !(po_lab _ _ _ _ _ _ _ P1) in Q2. exact Q2.
        -- intros x NIx. rewrite f_2 by (intros J; apply NIx, in_or_app; left; exact J). apply P2. intros J. apply NIx, in_or_app; right; exact J.
        -- intros x Lx. destruct (in_dec Nat.eq_dec x D1) as [J|J]; [|rewrite f_2 by exact J; apply (po_fix _ _ _ _ _ _ _ P2), Lx].
           rewrite f_1 by exact J. apply (po_fix _ _ _ _ _ _ _ P1). apply (po_down _ _ _ _ _ _ _ P2) in Lx as [Lx|Lx]; [exact Lx|]. exfalso. apply (N2 x Lx J).
      * intros n g Ln. rewrite (W2 n g Ln). rewrite zs_app, zs_cons. cbn [fst snd]. rewrite (f_1 k2 Ik).
        assert (Q1 : zs ks (fun kc => if g (f2 (fst kc)) then snd kc else 0%Z) = zs ks (fun kc => if g (f (fst kc)) then snd kc else 0%Z)).
        { apply zs_ext. intros [k c'] J. cbn [fst snd]. rewrite f_2; [reflexivity|]. apply N2, (FK k c' J). }
        assert (Q2 : zs D2 (fun x => if (f2 x =? n)%nat then wt h1 x (fun y => g (f2 y)) else 0%Z) = zs D2 (fun x => if (f x =? n)%nat then wt h x (fun y => g (f y)) else 0%Z)).
        { apply zs_ext. intros x J. rewrite f_2 by (apply N2, J). destruct (f2 x =? n)%nat; [|reflexivity].
          rewrite (wt_kids h h1 x) by apply (nd_kids_eq h h1 x (FR x J)). unfold wt. apply zs_ext. intros [y w] Jy. cbn [fst snd]. rewrite f_2; [reflexivity|].
          apply N2. destruct (A x) as (A1 & _); [apply in_or_app; right; exact J|]. rewrite A1 in Jy.
          destruct (proj2 (tree_sub h0) p _ D2 F x J) as (Dx & Tx & Sx). apply Sx, (tree_kid h0 x Dx x y w Tx (tree_root_In _ _ _ Tx) Jy). }
        assert (Q3 : zs D1 (fun x => if (f1 x =? n)%nat then wt h x (fun y => g (f1 y)) else 0%Z) = zs D1 (fun x => if (f x =? n)%nat then wt h x (fun y => g (f y)) else 0%Z)).
        { apply zs_ext. intros x J. rewrite f_1 by exact J. destruct (f1 x =? n)%nat; [|reflexivity].
          unfold wt. apply zs_ext. intros [y w] Jy. cbn [fst snd]. rewrite f_1; [reflexivity|]. apply (tree_kid h k2 D1 x y w T1 J Jy). }
        rewrite Q1, Q2. destruct (L1 n) eqn:L1n.
        -- rewrite (W1 n g L1n), Q3. destruct (s1 =? n)%nat; lia.
        -- assert (Ln0 : L n = false). { destruct (L n) eqn:Q; [|reflexivity]. rewrite (po_up _ _ _ _ _ _ _ P1 n Q) in L1n. discriminate. }
           rewrite Ln0. rewrite <- Q3. rewrite (zs_zero D1).
           ++ destruct (Nat.eqb_spec s1 n) as [<-|]; [congruence|]. lia.
           ++ intros x J. destruct (Nat.eqb_spec (f1 x) n) as [Q|]; [|reflexivity]. destruct (po_map _ _ _ _ _ _ _ P1 x J) as (Q4 & _). congruence.
Qed.

(** The merging loop of Alergia: the current graph is always a quotient of the
    prefix tree. *)
From Coq Require Import String ZArith Lia Bool List Sorting Permutation.
From Verif Require Import Num Py MTools MSet MModels MCtor LCtor MAlergia LAlergia.
Import ListNotations.

Lemma memb_nat x l : memb Nat.eqb x l = true <-> In x l.
Proof. apply memb_In. intros a b. apply Nat.eqb_eq. Qed.
Lemma memb_nat_false x l : memb Nat.eqb x l = false <-> ~ In x l.
Proof. rewrite <- memb_nat. destruct (memb Nat.eqb x l); split; congruence. Qed.

Lemma tree_avoid h (S : nat -> Prop) :
  (forall n D, tree_at h n D -> (forall x p, In x D -> parent h x = Some p -> S x -> S p) -> ~ S n -> forall x, In x D -> ~ S x) /\
  (forall q ks D, forest_at h q ks D -> (forall x p, In x D -> parent h x = Some p -> S x -> S p) -> ~ S q -> forall x, In x D -> ~ S x).
Proof.
  apply tree_forest_ind.
  - intros n D F IH NI U Sn x [<-|I]; [exact Sn|]. apply IH; auto. intros y p J. apply U. right; exact J.
  - intros q _ _ x [].
  - intros q k ks D1 D2 T IH1 P F IH2 DJ U Sq x I. apply in_app_or in I as [I|I].
    + apply IH1; auto; [intros y p J; apply U, in_or_app; left; exact J|]. intros Sk. apply Sq, (U k q); auto. apply in_or_app; left. apply (tree_root_In h k), T.
    + apply IH2; auto. intros y p J. apply U, in_or_app; right; exact J.
Qed.

Lemma replace_in_map ks s1 s2 : NoDup (map fst ks) -> 
  replace_in ks s1 s2 = map (fun kc => (if (fst kc =? s1)%nat then s2 else fst kc, snd kc)) ks.
Proof.
  induction ks as [|[k c] ks IH]; intros N; [reflexivity|]. cbn [replace_in map fst snd]. inversion N as [|? ? NI N']; subst.
  destruct (Nat.eqb_spec k s1) as [->|NE].
  - f_equal. rewrite <- (map_id ks) at 1. apply map_ext_in. intros [j w] J. cbn [fst snd].
    destruct (Nat.eqb_spec j s1) as [->|]; [|reflexivity]. exfalso. apply NI, In_fst. eauto.
  - f_equal. apply IH, N'.
Qed.

Lemma filter_length_lt {A} (P Q : A -> bool) l a : (forall x, In x l -> P x = true -> Q x = true) -> In a l -> Q a = true -> P a = false ->
  (length (filter P l) < length (filter Q l))%nat.
Proof.
  intros PQ. revert PQ. induction l as [|b l IH]; intros PQ I Qa Pa; [destruct I|].
  assert (LE : forall l, (forall x, In x l -> P x = true -> Q x = true) -> (length (filter P l) <= length (filter Q l))%nat).
  { clear. induction l as [|b l IH]; intros H; [reflexivity|]. cbn. pose proof (H b (or_introl eq_refl)) as Hb.
    assert (length (filter P l) <= length (filter Q l))%nat by (apply IH; intros; apply H; [right|]; assumption).
    destruct (P b); [rewrite Hb by reflexivity; cbn; lia|]. destruct (Q b); cbn; lia. }
  cbn. pose proof (PQ b (or_introl eq_refl)) as Hb.
  destruct I as [->|I].
  - rewrite Pa, Qa. cbn. apply le_n_S, LE. intros; apply PQ; [right|]; assumption.
  - assert (length (filter P l) < length (filter Q l))%nat by (apply IH; auto; intros; apply PQ; [right|]; assumption).
    destruct (P b); [rewrite Hb by reflexivity; cbn; lia|]. destruct (Q b); cbn; lia.
Qed.

Section Main.
  Variable h0 : pheap.
  Let N := length h0.
  Variable par0 : nat -> nat.
  Variable W0 : nat -> Z.

  Definition redb (red : list nat) (x : nat) : bool := memb Nat.eqb x red.
  Record MInv (h : pheap) (L : nat -> bool) (red : list nat) (F : nat -> nat) : Prop := {
    mi_len : length h = N;
    mi_lab : forall x, label h x = label h0 x;
    mi_inv : LInv h L (redb red);
    mi_root : In O red /\ F O = O;
    mi_map : forall y, (y < N)%nat -> L (F y) = true /\ label h0 (F y) = label h0 y;
    mi_fix : forall x, L x = true -> F x = x;
    mi_wt : forall n g, L n = true -> wt h n g = zs (seq 1 (N - 1)) (fun y => if (F (par0 y) =? n)%nat && g (F y) then W0 y else 0%Z) }.
  Definition measure (L : nat -> bool) (red : list nat) : nat := length (filter (fun x => L x && negb (redb red x)) (seq 0 N)).
  Hypothesis par_lt : forall y, (0 < y < N)%nat -> (par0 y < y)%nat.

  Lemma tree_measure h L red F n D : MInv h L red F -> tree_at h n D -> (forall x, In x D -> L x = true /\ redb red x = false) -> (length D <= measure L red)%nat.
  Proof.
    intros M T S. apply NoDup_incl_length; [apply (proj1 (tree_NoDup h) n D T)|]. intros x I. apply filter_In. destruct (S x I) as (A & B).
    split; [|rewrite A, B; reflexivity]. apply in_seq. pose proof (li_range _ _ _ (mi_inv _ _ _ _ M) x A) as Lt. rewrite (mi_len _ _ _ _ M) in Lt. lia.
  Qed.

  Lemma merge_step fuel h L red F r s1 s2 c : MInv h L red F -> In r red -> In (s1, c) (kids h r) -> ~ In s1 red -> In s2 red ->
    label h0 s1 = label h0 s2 -> (measure L red <= fuel)%nat ->
    exists h' L' F', pmerge fuel h s2 s1 = Some h' /\ MInv h' L' red F' /\ (measure L' red < measure L red)%nat.
  Proof.
    intros M Ir Is1 N1 I2 El Fu. pose proof (mi_inv _ _ _ _ M) as I. set (R := redb red) in *.
    assert (Rr : R r = true) by (apply memb_nat, Ir). assert (R2 : R s2 = true) by (apply memb_nat, I2).
    assert (R1 : R s1 = false) by (apply memb_nat_false, N1).
    assert (Lr : L r = true) by apply (li_red _ _ _ I r Rr). assert (L2 : L s2 = true) by apply (li_red _ _ _ I s2 R2).
    assert (L1 : L s1 = true) by apply (li_closed _ _ _ I r s1 c Lr Is1).
    assert (P1 : parent h s1 = Some r) by apply (li_par _ _ _ I r s1 c Lr Is1 R1).
    destruct (li_tree _ _ _ I s1 L1 R1) as (D & T & SD). pose proof (tree_root_In _ _ _ T) as ID.
    assert (RD : forall x, In x D -> R x = false) by (intros x J; apply SD, J).
    assert (NrD : ~ In r D) by (intros J; rewrite (RD r J) in Rr; discriminate).
    assert (N2D : ~ In s2 D) by (intros J; rewrite (RD s2 J) in R2; discriminate).
    assert (Sr : (r < length h)%nat) by apply (li_range _ _ _ I r Lr). assert (S2 : (s2 < length h)%nat) by apply (li_range _ _ _ I s2 L2).
    unfold pmerge. set (h1 := set_count h s2 _).
    assert (EL1 : length h1 = length h) by apply length_set_count.
    change (nd_parent (nd h1 s1)) with (parent h1 s1). unfold h1 at 1. rewrite (parent_set_count h s2 _ s1 S2), P1.
    set (h2 := replaceKid h1 r s1 s2).
    assert (Sr1 : (r < length h1)%nat) by (rewrite EL1; exact Sr).
    assert (NDr : NoDup (map fst (kids h r))).
    { apply (NoDup_map_inv (label h)). rewrite <- labels_of_fst. apply (li_det _ _ _ I r Lr). }
    assert (E2len : length h2 = length h) by (unfold h2, replaceKid; rewrite length_set_kids; exact EL1).
    assert (E2lab : forall x, label h2 x = label h x) by (intros x; unfold h2, replaceKid; rewrite label_set_kids by exact Sr1; apply label_set_count, S2).
    assert (E2par : forall x, parent h2 x = parent h x) by (intros x; unfold h2, replaceKid; rewrite parent_set_kids by exact Sr1; apply parent_set_count, S2).
    set (mv := fun kc : nat * Z => (if (fst kc =? s1)%nat then s2 else fst kc, snd kc)).
    assert (E2k : forall x, kids h2 x = if (r =? x)%nat then map mv (kids h r) else kids h x).
    { intros x. unfold h2, replaceKid. rewrite kids_set_kids by exact Sr1. unfold h1 at 1 2. rewrite !kids_set_count by exact S2.
      rewrite (replace_in_map (kids h r) s1 s2 NDr). reflexivity. }
    assert (E2kD : forall x, x <> r -> kids h2 x = kids h x) by (intros x NE; rewrite E2k; destruct (Nat.eqb_spec r x); [congruence|reflexivity]).
    assert (E2kr : kids h2 r = map mv (kids h r)) by (rewrite E2k, Nat.eqb_refl; reflexivity).
    set (L' := fun x => L x && negb (if in_dec Nat.eq_dec x D then true else false)).
    assert (L'_spec : forall x, L' x = true <-> L x = true /\ ~ In x D).
    { intros x. unfold L'. rewrite andb_true_iff. destruct (in_dec Nat.eq_dec x D); cbn; intuition congruence. }
    assert (T2 : tree_at h2 s1 D).
    { apply (proj1 (tree_frame h h2) s1 D T); [|intros; apply E2par]. intros x J. rewrite E2kD; [reflexivity|]. intros ->. contradiction. }
    assert (Out : forall n k w, L' n = true -> In (k, w) (kids h n) -> k <> s1 -> ~ In k D).
    { intros n k w Ln J NE Jk. apply L'_spec in Ln as (Ln & NIn). destruct (proj1 (tree_parent h) s1 D T k Jk NE) as (p & Jp & Pp).
      rewrite (li_par _ _ _ I n k w Ln J (RD k Jk)) in Pp. injection Pp as ->. contradiction. }
    assert (Only : forall n w, L' n = true -> In (s1, w) (kids h n) -> n = r).
    { intros n w Ln J. apply L'_spec in Ln as (Ln & _). pose proof (li_par _ _ _ I n s1 w Ln J R1) as Q. congruence. }
    assert (I' : LInv h2 L' R).
    { constructor.
      - intros x Lx. rewrite E2len. apply (li_range _ _ _ I). apply L'_spec, Lx.
      - intros x Rx. apply L'_spec. split; [apply (li_red _ _ _ I x Rx)|]. intros J. rewrite (RD x J) in Rx. discriminate.
      - intros n k w Ln J. destruct (Nat.eq_dec n r) as [->|NE].
        + rewrite E2kr in J. apply in_map_iff in J as ([k' w'] & E & J). unfold mv in E. cbn [fst snd] in E. injection E as E _.
          destruct (Nat.eqb_spec k' s1) as [->|NE]; [subst k; apply L'_spec; auto|]. subst k'.
          apply L'_spec. split; [apply (li_closed _ _ _ I r k w' Lr J)|apply (Out r k w' Ln J NE)].
        + rewrite E2kD in J by exact NE. apply L'_spec. split; [apply L'_spec in Ln as (Ln & _); apply (li_closed _ _ _ I n k w Ln J)|].
          apply (Out n k w Ln J). intros ->. apply NE, (Only n w Ln J).
      - intros n Ln. apply L'_spec in Ln as (Ln & _). destruct (Nat.eq_dec n r) as [->|NE].
        + assert (EE : labels_of h2 r = labels_of h r); [|rewrite EE; apply (li_det _ _ _ I r Ln)].
          unfold labels_of. rewrite E2kr, map_map. apply map_ext. intros [k w]. unfold mv. cbn [fst snd]. rewrite E2lab.
          destruct (Nat.eqb_spec k s1) as [->|]; [|reflexivity]. rewrite !(mi_lab _ _ _ _ M). symmetry; exact El.
        + rewrite (labels_of_same h h2 n n E2lab) by (rewrite E2kD by exact NE; reflexivity). apply (li_det _ _ _ I n Ln).
      - intros n k w Ln J. apply L'_spec in Ln as (Ln & _). destruct (Nat.eq_dec n r) as [->|NE].
        + rewrite E2kr in J. apply in_map_iff in J as ([k' w'] & E & J). unfold mv in E. cbn [fst snd] in E. injection E as _ <-. apply (li_pos _ _ _ I r k' w' Ln J).
        + rewrite E2kD in J by exact NE. apply (li_pos _ _ _ I n k w Ln J).
      - intros n k w Ln J Rk. rewrite E2par. apply L'_spec in Ln as (Ln & _). destruct (Nat.eq_dec n r) as [->|NE].
        + rewrite E2kr in J. apply in_map_iff in J as ([k' w'] & E & J). unfold mv in E. cbn [fst snd] in E. injection E as E _.
          destruct (Nat.eqb_spec k' s1) as [->|NE]; [congruence|]. subst k'. apply (li_par _ _ _ I r k w' Ln J Rk).
        + rewrite E2kD in J by exact NE. apply (li_par _ _ _ I n k w Ln J Rk).
      - intros n Ln Rn. apply L'_spec in Ln as (Ln & NIn). destruct (li_tree _ _ _ I n Ln Rn) as (Dn & Tn & Sn). exists Dn. split.
        + apply (proj1 (tree_frame h h2) n Dn Tn); [|intros; apply E2par]. intros x J. rewrite E2kD; [reflexivity|]. intros ->. destruct (Sn r J). congruence.
        + intros x J. destruct (Sn x J) as (A & B). split; [|exact B]. apply L'_spec. split; [exact A|]. intros JD.
          apply (proj1 (tree_avoid h (fun x => In x Dn)) s1 D T) with (x := x); auto.
          * intros y p Jy Py Jn. destruct (proj1 (tree_parent h) n Dn Tn y Jn) as (p' & Jp & Pp); [intros ->; contradiction|]. congruence.
          * intros J1. destruct (proj1 (tree_parent h) n Dn Tn s1 J1) as (p' & Jp & Pp); [intros ->; contradiction|].
            rewrite P1 in Pp. injection Pp as <-. destruct (Sn r Jp). congruence. }
    assert (DI : DInv h2 L' R D).
    { assert (KD : forall x, In x D -> kids h2 x = kids h x) by (intros x J; apply E2kD; intros ->; contradiction).
      constructor.
      - intros x J. rewrite E2len. apply (li_range _ _ _ I), SD, J.
      - intros x J. destruct (L' x) eqn:E; [|reflexivity]. apply L'_spec in E as (_ & E). contradiction.
      - intros x J. rewrite (labels_of_same h h2 x x E2lab) by (rewrite KD by exact J; reflexivity). apply (li_det _ _ _ I), SD, J.
      - intros x k w J Jk. rewrite KD in Jk by exact J. apply (li_pos _ _ _ I x k w); [apply SD, J|exact Jk]. }
    destruct (proj1 (fold_spec h2 R) s1 D T2 fuel h2 L' s2) as (h3 & L3 & f & E3 & P3 & F3 & W3).
    { auto. } { exact DI. } { exact I'. } { apply L'_spec. auto. } { rewrite !E2lab, !(mi_lab _ _ _ _ M). symmetry; exact El. }
    { apply (Nat.le_trans _ (measure L red)); [|exact Fu]. apply (tree_measure h L red F s1 D M T SD). }
    exists h3, L3, (fun y => f (F y)). split; [exact E3|]. split.
    - constructor.
      + rewrite (po_len _ _ _ _ _ _ _ P3), E2len. apply M.
      + intros x. rewrite (po_lab _ _ _ _ _ _ _ P3), E2lab. apply M.
      + apply P3.
      + split; [apply M|]. rewrite (proj2 (mi_root _ _ _ _ M)). apply (po_out _ _ _ _ _ _ _ P3). intros J. apply RD in J.
        unfold R, redb in J. apply memb_nat_false in J. apply J, (mi_root _ _ _ _ M).
      + intros y Ly. destruct (mi_map _ _ _ _ M y Ly) as (A & B). destruct (in_dec Nat.eq_dec (F y) D) as [J|J].
        * destruct (po_map _ _ _ _ _ _ _ P3 (F y) J) as (Q1 & Q2). split; [exact Q1|]. rewrite !E2lab, !(mi_lab _ _ _ _ M) in Q2. congruence.
        * rewrite (po_out _ _ _ _ _ _ _ P3) by exact J. split; [apply (po_up _ _ _ _ _ _ _ P3), L'_spec; auto|exact B].
      + intros x Lx. rewrite (mi_fix _ _ _ _ M); [apply (po_fix _ _ _ _ _ _ _ P3), Lx|].
        apply (po_down _ _ _ _ _ _ _ P3) in Lx as [Lx|Lx]; [apply L'_spec, Lx|apply SD, Lx].
      + intros n g Ln. rewrite (W3 n g Ln).
        set (g' := fun y => g (f y)).
        assert (Q1 : (if L' n then wt h2 n g else 0%Z) = if L' n then wt h n g' else 0%Z).
        { destruct (L' n) eqn:L'n; [|reflexivity]. unfold wt, g'. 
          assert (Fx : forall k w, In (k, w) (kids h n) -> f k = if (k =? s1)%nat then s2 else k).
          { intros k w J. destruct (Nat.eqb_spec k s1) as [->|NE]; [exact F3|]. apply (po_out _ _ _ _ _ _ _ P3), (Out n k w L'n J NE). }
          destruct (Nat.eq_dec n r) as [->|NE].
          - rewrite E2kr, zs_map. apply zs_ext. intros [k w] J. unfold mv. cbn [fst snd]. rewrite (Fx k w J). reflexivity.
          - rewrite E2kD by exact NE. apply zs_ext. intros [k w] J. cbn [fst snd]. rewrite (Fx k w J).
            destruct (Nat.eqb_spec k s1) as [->|]; [|reflexivity]. exfalso. apply NE, (Only n w L'n J). }
        rewrite Q1.
        rewrite (zs_ext D _ (fun x => zs (seq 1 (N - 1)) (fun y => if (F (par0 y) =? x)%nat then if (f x =? n)%nat && g' (F y) then W0 y else 0%Z else 0%Z))).
        2:{ intros x J. destruct (SD x J) as (Lx & _). rewrite (wt_kids h h2 x) by (apply E2kD; intros ->; contradiction). fold g'.
            rewrite (mi_wt _ _ _ _ M x g' Lx). destruct (f x =? n)%nat; cbn [andb].
            - apply zs_ext. intros y _. destruct (F (par0 y) =? x)%nat; reflexivity.
            - symmetry. apply zs_zero. intros y _. destruct (F (par0 y) =? x)%nat; reflexivity. }
        rewrite zs_swap.
        replace (if L' n then wt h n g' else 0%Z) with (zs (seq 1 (N - 1)) (fun y => if L' n && ((F (par0 y) =? n)%nat && g' (F y)) then W0 y else 0%Z)).
        2:{ destruct (L' n) eqn:L'n; cbn [andb]; [symmetry; apply (mi_wt _ _ _ _ M); apply L'_spec, L'n|apply zs_zero; reflexivity]. }
        rewrite <- zs_plus. apply zs_ext. intros y Jy. apply in_seq in Jy. unfold g'. cbn beta.
        destruct (mi_map _ _ _ _ M (par0 y)) as (LP & _). { pose proof (par_lt y). lia. }
        set (P := F (par0 y)) in *.
        rewrite (zs_ext D _ (fun x => if (x =? P)%nat then if (f P =? n)%nat && g (f (F y)) then W0 y else 0%Z else 0%Z)).
        2:{ intros x _. rewrite (Nat.eqb_sym x P). destruct (Nat.eqb_spec P x) as [->|]; reflexivity. }
        rewrite zs_single by apply (proj1 (tree_NoDup h) s1 D T).
        destruct (in_dec Nat.eq_dec P D) as [J|J].
        * destruct (Nat.eqb_spec P n) as [E|NE]; [|rewrite andb_false_r; reflexivity].
          replace (L' n) with false; [reflexivity|]. symmetry. destruct (L' n) eqn:Q; [|reflexivity]. apply L'_spec in Q as (_ & Q). congruence.
        * rewrite (po_out _ _ _ _ _ _ _ P3 P J). destruct (Nat.eqb_spec P n) as [E|NE].
          -- replace (L' n) with true; [cbn [andb]; lia|]. symmetry. apply L'_spec. split; congruence.
          -- cbn [andb]. rewrite andb_false_r. reflexivity.
    - unfold measure. apply (filter_length_lt _ _ _ s1).
      + intros x _ Q. apply andb_true_iff in Q as (Q1 & Q2). rewrite Q2, andb_true_r.
        apply (po_down _ _ _ _ _ _ _ P3) in Q1 as [Q1|Q1]; [apply L'_spec, Q1|apply SD, Q1].
      + apply in_seq. pose proof (li_range _ _ _ I s1 L1). rewrite (mi_len _ _ _ _ M) in *. lia.
      + rewrite L1. fold R. rewrite R1. reflexivity.
      + destruct (L3 s1) eqn:Q; [|reflexivity]. exfalso. apply (po_fix _ _ _ _ _ _ _ P3) in Q. rewrite F3 in Q. subst s2. congruence.
  Qed.

  (** A blue node becomes red. *)
  Lemma promote_step h L red F r s1 c : MInv h L red F -> In r red -> In (s1, c) (kids h r) -> ~ In s1 red ->
    MInv h L (red ++ [s1]) F /\ (measure L (red ++ [s1]) < measure L red)%nat.
  Proof.
    intros M Ir Is N1. pose proof (mi_inv _ _ _ _ M) as I.
    assert (Rr : redb red r = true) by (apply memb_nat, Ir). assert (Lr : L r = true) by apply (li_red _ _ _ I r Rr).
    assert (R1 : redb red s1 = false) by (apply memb_nat_false, N1).
    assert (L1 : L s1 = true) by apply (li_closed _ _ _ I r s1 c Lr Is).
    assert (P1 : parent h s1 = Some r) by apply (li_par _ _ _ I r s1 c Lr Is R1).
    assert (RR : forall x, redb (red ++ [s1]) x = true <-> redb red x = true \/ x = s1).
    { intros x. unfold redb. rewrite !memb_nat, in_app_iff. cbn. intuition. }
    assert (RF : forall x, redb (red ++ [s1]) x = false <-> redb red x = false /\ x <> s1).
    { intros x. destruct (redb (red ++ [s1]) x) eqn:E.
      - apply RR in E. split; [discriminate|]. intros (A & B). destruct E; congruence.
      - split; [intros _|reflexivity]. split.
        + destruct (redb red x) eqn:Q; [|reflexivity]. assert (redb (red ++ [s1]) x = true) by (apply RR; auto). congruence.
        + intros ->. assert (redb (red ++ [s1]) s1 = true) by (apply RR; auto). congruence. }
    split.
    - constructor; try apply M.
      + constructor; try apply I.
        * intros x Rx. apply RR in Rx as [Rx| ->]; [apply (li_red _ _ _ I x Rx)|exact L1].
        * intros n k w Ln J Rk. apply RF in Rk as (Rk & _). apply (li_par _ _ _ I n k w Ln J Rk).
        * intros n Ln Rn. apply RF in Rn as (Rn & NE). destruct (li_tree _ _ _ I n Ln Rn) as (D & T & S). exists D. split; [exact T|].
          intros x J. destruct (S x J) as (A & B). split; [exact A|]. apply RF. split; [exact B|]. intros ->.
          destruct (proj1 (tree_parent h) n D T s1 J) as (p & Jp & Pp); [congruence|]. rewrite P1 in Pp. injection Pp as <-. destruct (S r Jp). congruence.
      + split; [apply in_or_app; left; apply M|apply M].
    - apply (filter_length_lt _ _ _ s1).
      + intros x _ Q. apply andb_true_iff in Q as (Q1 & Q2). rewrite Q1. cbn [andb]. apply negb_true_iff in Q2. apply RF in Q2 as (Q2 & _). rewrite Q2. reflexivity.
      + apply in_seq. pose proof (li_range _ _ _ I s1 L1). rewrite (mi_len _ _ _ _ M) in *. lia.
      + rewrite L1, R1. reflexivity.
      + assert (Q : redb (red ++ [s1]) s1 = true) by (apply RR; auto). rewrite Q. apply andb_false_r.
  Qed.

  Lemma blue_of_spec h red s : In s (blue_of h red) -> exists r c, In r red /\ In (s, c) (kids h r) /\ ~ In s red.
  Proof.
    unfold blue_of. 
    assert (G : forall l acc, (forall s, In s acc -> exists r c, In r red /\ In (s, c) (kids h r) /\ ~ In s red) -> (forall r, In r l -> In r red) ->
       forall s, In s (fold_left (fun blue s => blue ++ filter (fun k => negb (memb Nat.eqb k red || memb Nat.eqb k blue)) (map fst (kids h s))) l acc) ->
       exists r c, In r red /\ In (s, c) (kids h r) /\ ~ In s red).
    { induction l as [|r l IH]; intros acc A S x I; [apply A, I|]. cbn [fold_left] in I. apply IH in I; auto; [|intros; apply S; right; assumption].
      intros y J. apply in_app_or in J as [J|J]; [apply A, J|]. apply filter_In in J as (J & Q). apply In_fst in J as (c & J).
      apply negb_true_iff, orb_false_iff in Q as (Q & _). exists r, c. split; [apply S; left; reflexivity|]. split; [exact J|]. apply memb_nat_false, Q. }
    apply G; auto. intros x [].
  Qed.

  Section Loop.
    Context {K : Type} `{Num K} `{Trans K}.
    Lemma compatible_label fuel h al (alpha : K) n m : compatible fuel h al alpha (Some n) (Some m) = Some true -> label h n = label h m.
    Proof.
      destruct fuel as [|fuel]; cbn [compatible]; [discriminate|]. destruct (String.eqb_spec (label h n) (label h m)); [auto|]. discriminate.
    Qed.
    Lemma all_opt_total l : (forall x, In x l -> exists b : bool, x = Some b) -> exists b, all_opt l = Some b.
    Proof.
      induction l as [|a l IH]; intros A; [exists true; reflexivity|]. cbn. destruct (A a (or_introl eq_refl)) as ([] & ->); [|exists false; reflexivity].
      apply IH. intros x J. apply A. right; exact J.
    Qed.
    Lemma compatible_total h al (alpha : K) : forall fuel n D m, tree_at h n D -> (length D < fuel)%nat -> exists b, compatible fuel h al alpha (Some n) m = Some b.
    Proof.
      induction fuel as [|fuel IH]; intros n D m T Lt; [lia|]. cbn [compatible]. destruct m as [m|]; [|exists true; reflexivity].
      destruct (negb _); [exists false; reflexivity|]. destruct (_ =? 0)%Z; [exists true; reflexivity|]. destruct (negb _); [exists false; reflexivity|].
      apply all_opt_total. intros x J. apply in_map_iff in J as (ch & <- & _). destruct (findKid h n ch) as [k|] eqn:E.
      - apply findKid_Some in E as (_ & c & J). apply tree_root in T as (D' & -> & _ & F). cbn [length] in Lt.
        destruct (forest_kid h n _ D' k F) as (Dk & Tk & _ & _ & Le); [apply In_fst; eauto|]. apply (IH k Dk _ Tk). lia.
      - destruct fuel; [|exists true; reflexivity]. apply tree_root in T as (D' & -> & _). cbn in Lt. lia.
    Qed.
    Lemma first_compatible_spec fuel h al (alpha : K) n D red : tree_at h n D -> (length D < fuel)%nat ->
      exists o, first_compatible fuel h al alpha n red = Some o /\ forall m, o = Some m -> In m red /\ label h n = label h m.
    Proof.
      intros T Lt. induction red as [|r red (o & E & S)]; cbn [first_compatible]; [exists None; split; [reflexivity|discriminate]|].
      destruct (compatible_total h al alpha fuel n D (Some r) T Lt) as (b & Eb). rewrite Eb. destruct b.
      - exists (Some r). split; [reflexivity|]. intros m [= <-]. split; [left; reflexivity|]. apply (compatible_label fuel h al alpha), Eb.
      - exists o. split; [exact E|]. intros m Em. destruct (S m Em). split; [right; assumption|assumption].
    Qed.

    Lemma loop_spec al (alpha : K) : forall fuel h L red F blue, MInv h L red F ->
      (forall s, In s blue -> exists r c, In r red /\ In (s, c) (kids h r) /\ ~ In s red) -> (measure L red < fuel)%nat ->
      exists h' L' red' F', alergia_loop fuel h al alpha red blue = Some h' /\ MInv h' L' red' F'.
    Proof.
      induction fuel as [|fuel IH]; intros h L red F blue M B Lt; [lia|]. destruct blue as [|s1 blue]; [exists h, L, red, F; auto|].
      destruct (B s1 (or_introl eq_refl)) as (r & c & Ir & Is & Nr). cbn [alergia_loop].
      pose proof (mi_inv _ _ _ _ M) as I. assert (Rr : redb red r = true) by (apply memb_nat, Ir).
      assert (R1 : redb red s1 = false) by (apply memb_nat_false, Nr).
      assert (L1 : L s1 = true) by apply (li_closed _ _ _ I r s1 c (li_red _ _ _ I r Rr) Is).
      destruct (li_tree _ _ _ I s1 L1 R1) as (D & T & SD). pose proof (tree_measure h L red F s1 D M T SD) as Le.
      destruct (first_compatible_spec (S fuel) h al alpha s1 D red T) as (o & -> & So); [lia|]. destruct o as [s2|].
      - destruct (So s2 eq_refl) as (I2 & El). rewrite !(mi_lab _ _ _ _ M) in El.
        destruct (merge_step (S fuel) h L red F r s1 s2 c M Ir Is Nr I2 El) as (h' & L' & F' & E & M' & Lt'); [lia|]. rewrite E.
        apply (IH h' L' red F'); [exact M'|intros s; apply blue_of_spec|lia].
      - destruct (promote_step h L red F r s1 c M Ir Is Nr) as (M' & Lt').
        apply (IH h L (red ++ [s1]) F); [exact M'|intros s; apply blue_of_spec|lia].
    Qed.
  End Loop.
End Main.

(** The Markov chain returned by Alergia. *)
From Coq Require Import String ZArith Reals Lra Lia Bool List Sorting Permutation.
From Verif Require Import Num Py SNum LSum MTools MSet MModels MCtor SSet SBW SCtor LSet LCtor MAlergia SAlergia LAlergia LAlergia2 LAlergia3 LAlergia4 PCtor.
Import ListNotations.
Local Open Scope R_scope.

Lemma row_fill states : NoDup states -> forall ks (row : list R), length row = length states -> NoDup (map fst ks) ->
  (forall j, (j < length states)%nat -> In (nth j states O) (map fst ks) -> nth j row 0 = 0) ->
  let res := fold_left (fun row kc => match index_of Nat.eqb (fst kc) states with Some j => upd row j (IZR (snd kc)) | None => row end) ks row in
  length res = length states /\
  forall j, (j < length states)%nat -> nth j res 0 = nth j row 0 + IZR (zs ks (fun kc => if (nth j states O =? fst kc)%nat then snd kc else 0%Z)).
Proof.
  intros NS. induction ks as [|[k c] ks IH]; intros row L ND Z; cbn [fold_left fst snd].
  - split; [exact L|]. intros j Lj. cbn. ring.
  - cbn [map fst] in ND, Z. inversion ND as [|? ? NI ND']; subst.
    destruct (index_of Nat.eqb k states) as [i|] eqn:E.
    + apply (index_of_Some Nat.eqb Nat.eqb_eq) in E. pose proof (nth_error_nth _ _ O E) as Ei. assert (Li : (i < length states)%nat) by (apply nth_error_Some; congruence).
      assert (Lu : length (upd row i (IZR c)) = length states) by (rewrite upd_length; exact L).
      destruct (IH (upd row i (IZR c)) Lu ND') as (A & B).
      * intros j Lj J. rewrite upd_nth by lia. destruct (Nat.eqb_spec i j) as [<-|N]; [exfalso; apply NI; rewrite <- Ei; exact J|]. apply Z; [exact Lj|right; exact J].
      * split; [exact A|]. intros j Lj. rewrite B by exact Lj. rewrite upd_nth by lia. rewrite zs_cons. cbn [fst snd]. destruct (Nat.eqb_spec i j) as [<-|N].
        -- rewrite Ei, Nat.eqb_refl, (Z i Li (or_introl (eq_sym Ei))). rewrite plus_IZR. ring_simplify.
           rewrite (zs_zero ks); [ring|]. intros [k' c'] J. cbn [fst snd]. destruct (Nat.eqb_spec k k') as [->|]; [|reflexivity]. exfalso. apply NI, In_fst. eauto.
        -- destruct (Nat.eqb_spec (nth j states O) k) as [Q|Q]; [exfalso; apply N; apply (proj1 (NoDup_nth states O) NS i j Li Lj); congruence|].
           rewrite Z.add_0_l. reflexivity.
    + destruct (IH row L ND') as (A & B); [intros j Lj J; apply Z; [exact Lj|right; exact J]|]. split; [exact A|]. intros j Lj. rewrite B by exact Lj.
      rewrite zs_cons. cbn [fst snd]. destruct (Nat.eqb_spec (nth j states O) k) as [Q|Q]; [|rewrite Z.add_0_l; reflexivity].
      exfalso. destruct (index_of_In Nat.eqb Nat.eqb_eq k states) as (i & E'); [rewrite <- Q; apply nth_In, Lj|congruence].
Qed.

Lemma wt_split h s states : NoDup states -> (forall k c, In (k, c) (kids h s) -> In k states) ->
  zs states (fun x => wt h s (Nat.eqb x)) = wt h s (fun _ => true).
Proof.
  intros NS A. unfold wt. rewrite zs_swap. apply zs_ext. intros [k c] J. cbn [fst snd].
  rewrite zs_single by exact NS. destruct (in_dec Nat.eq_dec k states) as [_|N]; [reflexivity|]. exfalso. apply N, (A k c J).
Qed.
Lemma rsum_zs {A} (l : list A) (f : A -> Z) d : rsum (map (fun x => IZR (f x) / d) l) = IZR (zs l f) / d.
Proof.
  induction l as [|a l IH]; [cbn; unfold Rdiv; ring|]. cbn [map rsum fold_right]. fold (rsum (map (fun x => IZR (f x) / d) l)).
  change (fold_right Rplus 0 (map (fun x => IZR (f x) / d) l)) with (rsum (map (fun x => IZR (f x) / d) l)). rewrite IH, zs_cons, plus_IZR. unfold Rdiv. ring.
Qed.

Lemma mc_row_eq h states s : NoDup states -> NoDup (map fst (kids h s)) -> (forall k c, In (k, c) (kids h s) -> In k states /\ (0 < c)%Z) ->
  mc_row (K := R) h states s = map (fun x => IZR (wt h s (Nat.eqb x)) / IZR (wt h s (fun _ => true))) states.
Proof.
  intros NS ND A. unfold mc_row.
  destruct (row_fill states NS (kids h s) (vzeros (length states))) as (L & E).
  { unfold vzeros. apply repeat_length. } { exact ND. }
  { intros j _ _. unfold vzeros. apply nth_repeat. }
  change (@nofZ R RNum) with IZR in *. set (row := fold_left _ (kids h s) _) in *.
  assert (ER : row = map (fun x => IZR (wt h s (Nat.eqb x))) states).
  { apply (nth_ext _ _ 0 0); [rewrite map_length; exact L|]. intros j Lj. rewrite L in Lj. rewrite E by exact Lj.
    rewrite (nth_indep (map _ states) 0 (IZR (wt h s (Nat.eqb O)))) by (rewrite map_length; exact Lj). rewrite (map_nth (fun x => IZR (wt h s (Nat.eqb x)))).
    replace (nth j (vzeros (length states)) 0) with 0; [unfold wt; ring|]. unfold vzeros. symmetry. apply nth_repeat. }
  clearbody row. subst row. clear E L.
  assert (POS : forall x, (0 <= wt h s (Nat.eqb x))%Z).
  { intros x. unfold wt. apply zs_nonneg. intros [k c] J. cbn [fst snd]. destruct (x =? k)%nat; [|lia]. pose proof (proj2 (A k c J)). lia. }
  assert (SUM : nsum (map (fun x => IZR (wt h s (Nat.eqb x))) states) = IZR (wt h s (fun _ => true))).
  { rewrite <- (wt_split h s states NS (fun k c J => proj1 (A k c J))). clear. induction states as [|a l IH]; [reflexivity|].
    cbn [map nsum fold_right]. fold (nsum (map (fun x => IZR (wt h s (Nat.eqb x))) l)). rewrite IH, zs_cons, plus_IZR. reflexivity. }
  destruct (existsb _ _) eqn:X.
  - rewrite map_map. apply map_ext. intros x. rewrite SUM. reflexivity.
  - apply map_ext_in. intros x J. assert (Z0 : wt h s (Nat.eqb x) = 0%Z).
    { destruct (Z.eq_dec (wt h s (Nat.eqb x)) 0) as [Q|Q]; [exact Q|]. exfalso.
      assert (existsb (fun x : R => nltb n0 x) (map (fun x => IZR (wt h s (Nat.eqb x))) states) = true); [|congruence].
      apply existsb_exists. exists (IZR (wt h s (Nat.eqb x))). split; [apply in_map_iff; eauto|]. apply Rltb_true. toR. apply IZR_lt. pose proof (POS x). lia. }
    rewrite Z0. toR. unfold Rdiv. ring.
Qed.

Lemma zs_filter {A} (l : list A) (b : A -> bool) : zs l (fun x => if b x then 1%Z else 0%Z) = Z.of_nat (length (filter b l)).
Proof. induction l as [|a l IH]; [reflexivity|]. rewrite zs_cons, IH. cbn [filter]. destruct (b a); cbn [length]; lia. Qed.

Definition flow (G : list string -> nat) (T : list (list string * Z)) (x : nat) (g : nat -> bool) : Z :=
  zs T (fun tm => snd tm * zs (seq 1 (length (fst tm) - 1)) (fun p => if (G (firstn p (fst tm)) =? x)%nat && g (G (firstn (S p) (fst tm))) then 1 else 0))%Z.

(** Facts about a graph of nodes that make it a quotient of the traces. *)
Section Quotient.
  Variables (hh : pheap) (r N : nat) (Q : nat -> Prop) (T : list (list string * Z)) (G : list string -> nat).
  Hypothesis Q_r : Q r.
  Hypothesis Q_range : forall x, Q x -> (x < N)%nat.
  Hypothesis Q_kids : forall x k c, Q x -> In (k, c) (kids hh x) -> Q k /\ (0 < c)%Z.
  Hypothesis Q_det : forall x, Q x -> NoDup (labels_of hh x).
  Hypothesis Q_onto : forall x, Q x -> x = r \/ exists t n w, In (t, n) T /\ w <> [] /\ starts w t = true /\ G w = x.
  Hypothesis lab_r : label hh r = "init"%string.
  Hypothesis T_pos : forall t n, In (t, n) T -> (1 <= n)%Z.
  Hypothesis T_init : forall t n, In (t, n) T -> hd EmptyString t = "init"%string.
  Hypothesis G_start : G ["init"%string] = r.
  Hypothesis G_lab : forall t n w o, In (t, n) T -> starts (w ++ [o]) t = true -> label hh (G (w ++ [o])) = o.
  Hypothesis G_wt : forall x g, Q x -> wt hh x g = flow G T x g.

  Lemma T_nonempty t n : In (t, n) T -> exists u, t = "init"%string :: u.
  Proof. intros I. pose proof (T_init t n I) as E. destruct t as [|a u]; [discriminate|]. cbn in E. subst a. eauto. Qed.

  Lemma graph_quotient fuel name : (N <= fuel)%nat ->
    exists states m f, bfs fuel hh [r] [r] = Some states /\ MC_new (map (mc_row hh states) states) (map (label hh) states) name = Ok m /\
      mc_name m = name /\ wf_mc m /\ stochastic01 (mc_mat m) /\ uniform_on_init (mc_lab m) (mc_ini m) /\ quotient T m f.
  Proof.
    intros Fu.
    destruct (bfs_spec hh N Q Q_range (fun x k c q j => proj1 (Q_kids x k c q j)) fuel [r] [r]) as (l & EB & ND & QS & CL).
    { constructor; [intros []|constructor]. }
    { intros x [<-|[]]. exact Q_r. }
    { auto. }
    { intros x k c [<-|[]] J. exfalso. apply J. left; reflexivity. }
    { cbn [length]. lia. }
    set (states := [r] ++ l) in *. 
    assert (RowE : forall s, In s states -> mc_row (K := R) hh states s = map (fun x => IZR (wt hh s (Nat.eqb x)) / IZR (wt hh s (fun _ => true))) states).
    { intros s J. apply mc_row_eq; [exact ND|apply NoDup_kids, Q_det, QS, J|]. intros k c Jk. split; [apply (CL s k c J Jk)|apply (Q_kids s k c (QS s J) Jk)]. }
    assert (WP : forall s g, In s states -> (0 <= wt hh s g)%Z).
    { intros s g J. unfold wt. apply zs_nonneg. intros [k c] Jk. cbn [fst snd]. destruct (g k); [|lia]. pose proof (proj2 (Q_kids s k c (QS s J) Jk)). lia. }
    assert (RowS : forall s, In s states -> rsum (mc_row (K := R) hh states s) = IZR (wt hh s (fun _ => true)) / IZR (wt hh s (fun _ => true))).
    { intros s J. rewrite RowE by exact J. rewrite rsum_zs. rewrite wt_split; [reflexivity|exact ND|]. intros k c Jk. apply (CL s k c J Jk). }
    assert (Row01 : forall s, In s states -> rsum (mc_row (K := R) hh states s) = 0 \/ rsum (mc_row (K := R) hh states s) = 1).
    { intros s J. rewrite RowS by exact J. destruct (Z.eq_dec (wt hh s (fun _ => true)) 0) as [E|E].
      - left. rewrite E. unfold Rdiv. ring.
      - right. apply Rinv_r. apply not_0_IZR, E. }
    destruct (C16_MC_constructor (map (mc_row (K := R) hh states) states) (map (label hh) states) name) as (C1 & C2 & _).
    destruct (proj2 C1) as (m & Em).
    { split; [|split].
      - apply in_map_iff. exists r. split; [exact lab_r|left; reflexivity].
      - rewrite !map_length. reflexivity.
      - intros row J. apply in_map_iff in J as (s & <- & J). destruct (Row01 s J) as [E|E]; rewrite E; [apply row_ok_zero|apply row_ok_one]; lra. }
    destruct (C2 m Em) as (M1 & M2 & M3 & M4).
    set (f := fun w => match index_of Nat.eqb (G w) states with Some i => i | None => O end).
    assert (Mn : mc_n m = length states) by (unfold mc_n; rewrite M1; apply map_length).
    assert (Fi : forall w i, In (G w) states -> (i < length states)%nat -> f w = i <-> G w = nth i states O).
    { intros w i J Li. unfold f. destruct (index_of_In Nat.eqb Nat.eqb_eq (G w) states J) as (j & E). rewrite E. pose proof (index_of_Some Nat.eqb Nat.eqb_eq _ _ _ E) as E'.
      pose proof (nth_error_nth _ _ O E') as Ej. assert (Lj : (j < length states)%nat) by (apply nth_error_Some; congruence). split; [intros <-; symmetry; exact Ej|].
      intros Ei. apply (proj1 (NoDup_nth states O) ND j i Lj Li). congruence. }
    assert (Flt : forall w, In (G w) states -> (f w < length states)%nat /\ nth (f w) states O = G w).
    { intros w J. unfold f. destruct (index_of_In Nat.eqb Nat.eqb_eq (G w) states J) as (j & E). rewrite E. pose proof (index_of_Some Nat.eqb Nat.eqb_eq _ _ _ E) as E'.
      split; [apply nth_error_Some; congruence|apply (nth_error_nth _ _ O E')]. }
    (* the prefixes are mapped to states *)
    assert (GS : forall t n, In (t, n) T -> forall p, (1 <= p <= length t)%nat -> In (G (firstn p t)) states).
    { intros t n It. induction p as [|p IH]; [lia|]. intros Lp. destruct p as [|p].
      - destruct (T_nonempty t n It) as (u & ->). cbn [firstn]. rewrite G_start. left; reflexivity.
      - assert (J : In (G (firstn (S p) t)) states) by (apply IH; lia).
        assert (W : (0 < wt hh (G (firstn (S p) t)) (Nat.eqb (G (firstn (S (S p)) t))))%Z).
        { rewrite (G_wt _ _ (QS _ J)). unfold flow. apply (zs_pos _ _ (t, n)).
          - intros [t' n'] J'. cbn [fst snd]. apply Z.mul_nonneg_nonneg; [pose proof (T_pos t' n' J'); lia|]. apply zs_nonneg. intros q _. destruct (_ && _); lia.
          - exact It.
          - cbn [fst snd]. apply Z.mul_pos_pos; [pose proof (T_pos t n It); lia|]. apply (zs_pos _ _ (S p)).
            + intros q _. destruct (_ && _); lia.
            + apply in_seq. lia.
            + rewrite !Nat.eqb_refl. reflexivity. }
        unfold wt in W. apply zs_pos_inv in W as ([k c] & Jk & W). cbn [fst snd] in W. destruct (Nat.eqb_spec (G (firstn (S (S p)) t)) k) as [->|]; [|lia].
        apply (CL _ k c J Jk). }
    assert (GP : forall t n w, In (t, n) T -> w <> [] -> starts w t = true -> In (G w) states).
    { intros t n w It Nw S. apply starts_firstn in S as (E & L). rewrite E. apply (GS t n It). destruct w; [congruence|cbn [length] in *; lia]. }
    assert (V : forall i j, (i < length states)%nat -> (j < length states)%nat -> visits f T i j = wt hh (nth i states O) (Nat.eqb (nth j states O))).
    { intros i j Li Lj. rewrite (G_wt _ _ (QS _ (nth_In states O Li))). unfold flow.
      change (visits f T i j) with (zs T (fun tm => snd tm * Z.of_nat (moves f (fst tm) i j))%Z). apply zs_ext. intros [t n] It. cbn [fst snd]. f_equal.
      unfold moves. rewrite <- zs_filter. apply zs_ext. intros p Jp. apply in_seq in Jp.
      assert (J1 : In (G (firstn p t)) states) by (apply (GS t n It); lia). assert (J2 : In (G (firstn (S p) t)) states) by (apply (GS t n It); lia).
      assert (E1 : (f (firstn p t) =? i)%nat = (G (firstn p t) =? nth i states O)%nat).
      { apply eq_true_iff_eq. rewrite !Nat.eqb_eq. apply Fi; assumption. }
      assert (E2 : (f (firstn (S p) t) =? j)%nat = (nth j states O =? G (firstn (S p) t))%nat).
      { apply eq_true_iff_eq. rewrite !Nat.eqb_eq. rewrite (Fi _ j J2 Lj). split; congruence. }
      rewrite E1, E2. reflexivity. }
    assert (VF : forall i, (i < length states)%nat -> visits_from f T (length states) i = wt hh (nth i states O) (fun _ => true)).
    { intros i Li. rewrite <- (wt_split hh _ states ND) by (intros k c Jk; apply (CL (nth i states O) k c (nth_In states O Li) Jk)).
      change (visits_from f T (length states) i) with (zs (seq 0 (length states)) (fun j => visits f T i j)).
      transitivity (zs (map (fun j => nth j states O) (seq 0 (length states))) (fun x => wt hh (nth i states O) (Nat.eqb x))).
      { rewrite zs_map. apply zs_ext. intros j J; apply in_seq in J; apply V; lia. }
      f_equal. clear. induction states as [|a q IH]; [reflexivity|]. cbn [length seq map nth]. f_equal. rewrite <- seq_shift, map_map. exact IH. }
    assert (MAT : forall i j, (i < length states)%nat -> (j < length states)%nat ->
      matR (mc_mat m) i j = IZR (wt hh (nth i states O) (Nat.eqb (nth j states O))) / IZR (wt hh (nth i states O) (fun _ => true))).
    { intros i j Li Lj. rewrite M1. unfold matR. rewrite (nth_indep _ [] (mc_row (K := R) hh states O)) by (rewrite map_length; exact Li).
      rewrite map_nth. rewrite RowE by (apply nth_In, Li). set (g := fun x => IZR (wt hh (nth i states O) (Nat.eqb x)) / IZR (wt hh (nth i states O) (fun _ => true))).
      rewrite (nth_indep _ 0 (g O)) by (rewrite map_length; exact Lj). rewrite (map_nth g). reflexivity. }
    exists states, m, f. split; [exact EB|]. split; [exact Em|]. split; [exact M3|]. split; [|split; [|split]].
    - (* shapes *)
      split; [|split; [|split]].
      + rewrite Mn, M1. split; [apply map_length|]. intros row J. apply in_map_iff in J as (s & <- & J). rewrite RowE by exact J. apply map_length.
      + rewrite Mn, M2. apply map_length.
      + rewrite Mn. rewrite (proj1 M4). rewrite map_length. reflexivity.
      + intros x J. apply (proj1 (proj1 (proj2 M4)) x J).
    - split.
      + intros row J. rewrite M1 in J. apply in_map_iff in J as (s & <- & J). rewrite RowE by exact J. intros x Jx. apply in_map_iff in Jx as (y & <- & _).
        destruct (Z.eq_dec (wt hh s (fun _ => true)) 0) as [E|E]; [rewrite E; unfold Rdiv; rewrite Rinv_0; lra|].
        apply Rmult_le_pos; [apply IZR_le, WP, J|]. apply Rlt_le, Rinv_0_lt_compat, IZR_lt. pose proof (WP s (fun _ => true) J). lia.
      + intros row J. rewrite M1 in J. apply in_map_iff in J as (s & <- & J). apply Row01, J.
    - rewrite M2. exact M4.
    - constructor.
      + split; [|split; [rewrite Mn; cbn; lia|rewrite M2; exact lab_r]].
        apply Fi; [rewrite G_start; left; reflexivity|cbn; lia|]. rewrite G_start. reflexivity.
      + intros t n w o It S. assert (J : In (G (w ++ [o])) states) by (apply (GP t n _ It); [destruct w; discriminate|exact S]).
        rewrite Mn. destruct (Flt _ J) as (A & B). split; [exact A|]. rewrite M2.
        rewrite (nth_indep _ EmptyString (label hh O)) by (rewrite map_length; exact A). rewrite map_nth, B. apply (G_lab t n w o It S).
      + intros i Li. rewrite Mn in Li. destruct (Q_onto (nth i states O) (QS _ (nth_In states O Li))) as [E|(t & n & w & It & Nw & S & E)].
        * left. apply (proj1 (NoDup_nth states O) ND i O Li); [cbn; lia|]. rewrite E. reflexivity.
        * right. exists t, n, w. split; [exact It|]. split; [exact Nw|]. split; [exact S|]. apply Fi; [apply (GP t n w It Nw S)|exact Li|exact E].
      + intros i j Li Lj. rewrite Mn in *. rewrite (VF i Li), (V i j Li Lj), (MAT i j Li Lj). split; [|reflexivity].
        intros E. rewrite E. unfold Rdiv. rewrite Rinv_0. ring.
      + intros i j k Li Lj Lk Pj Pk. rewrite Mn in *. rewrite (MAT i j Li Lj) in Pj. rewrite (MAT i k Li Lk) in Pk. rewrite M2.
        rewrite !(nth_indep (map (label hh) states) EmptyString (label hh O)) by (rewrite map_length; assumption). rewrite !map_nth.
        set (s := nth i states O) in *. assert (Js : In s states) by (apply nth_In, Li).
        assert (EX : forall x, 0 < IZR (wt hh s (Nat.eqb x)) / IZR (wt hh s (fun _ => true)) -> exists c, In (x, c) (kids hh s)).
        { intros x Px. assert (W : (0 < wt hh s (Nat.eqb x))%Z).
          { pose proof (WP s (Nat.eqb x) Js). destruct (Z.eq_dec (wt hh s (Nat.eqb x)) 0) as [E|]; [|lia]. rewrite E in Px. unfold Rdiv in Px. rewrite Rmult_0_l in Px. lra. }
          unfold wt in W. apply zs_pos_inv in W as ([y c] & Jy & W). cbn [fst snd] in W. destruct (Nat.eqb_spec x y) as [->|]; [eauto|lia]. }
        destruct (EX _ Pj) as (cj & Jj). destruct (EX _ Pk) as (ck & Jk). intros El.
        apply (proj1 (NoDup_nth states O) ND j k Lj Lk).
        pose proof (Q_det s (QS s Js)) as NDs. rewrite labels_of_fst in NDs.
        assert (INJ : forall (l : list nat) a b, NoDup (map (label hh) l) -> In a l -> In b l -> label hh a = label hh b -> a = b).
        { clear. induction l as [|c l IH]; intros a b N Ia Ib E; [destruct Ia|]. cbn in N. inversion N as [|? ? NI N']; subst.
          destruct Ia as [->|Ia], Ib as [->|Ib]; auto.
          - exfalso. apply NI. rewrite E. apply in_map, Ib.
          - exfalso. apply NI. rewrite <- E. apply in_map, Ia. }
        apply (INJ (map fst (kids hh s))); [exact NDs|apply In_fst; eauto|apply In_fst; eauto|exact El].
  Qed.
End Quotient.

(** Lemmas about the constructors and create functions. *)
From Coq Require Import String ZArith Bool Reals List Lra Lia Sorting Permutation.
From Verif Require Import Num Py SNum LSum MTools LTools MModels MCtor SCtor.
Import ListNotations.
Local Open Scope R_scope.

(** ** Python helpers *)
Lemma pyget_nat {A} (l : list A) i : pyget l (Z.of_nat i) = match nth_error l i with Some x => Ok x | None => Err IndexError end.
Proof.
  unfold pyget. destruct (Z.ltb_spec (Z.of_nat i) 0); [lia|].
  destruct (Z.leb_spec (Z.of_nat (length l)) (Z.of_nat i)).
  - rewrite orb_true_r. destruct (nth_error l i) eqn:E; [|reflexivity].
    assert (i < length l)%nat by (apply nth_error_Some; congruence). lia.
  - rewrite orb_false_r. destruct (Z.ltb_spec (Z.of_nat i) 0); [lia|]. rewrite Nat2Z.id. reflexivity.
Qed.
Lemma upd_length {A} (l : list A) i x : length (upd l i x) = length l.
Proof. revert i; induction l; intros [|i]; cbn; congruence. Qed.
Lemma upd_nth {A} (l : list A) i j x d : (i < length l)%nat ->
  nth j (upd l i x) d = if Nat.eqb i j then x else nth j l d.
Proof.
  revert i j; induction l as [|a l IH]; intros [|i] [|j] L; cbn in *; try lia; try reflexivity.
  apply IH; lia.
Qed.
Lemma pyset_ok {A} (l : list A) z x : (0 <= z < Z.of_nat (length l))%Z -> pyset l z x = Ok (upd l (Z.to_nat z) x).
Proof.
  intros B. unfold pyset. destruct (Z.ltb_spec z 0); [lia|].
  destruct (Z.ltb_spec z 0); [lia|]. destruct (Z.leb_spec (Z.of_nat (length l)) z); [lia|]. reflexivity.
Qed.
Lemma pyset_err {A} (l : list A) z x : (z < - Z.of_nat (length l) \/ Z.of_nat (length l) <= z)%Z -> pyset l z x = Err IndexError.
Proof.
  intros B. unfold pyset. destruct (Z.ltb_spec z 0).
  - destruct (Z.ltb_spec (z + Z.of_nat (length l)) 0); [reflexivity|].
    destruct (Z.leb_spec (Z.of_nat (length l)) (z + Z.of_nat (length l))); [reflexivity|lia].
  - destruct (Z.ltb_spec z 0); [reflexivity|].
    destruct (Z.leb_spec (Z.of_nat (length l)) z); [reflexivity|lia].
Qed.
Lemma mfold_app {A S} (f : S -> A -> res S) l1 l2 s :
  mfold f (l1 ++ l2) s = do s' <- mfold f l1 s; mfold f l2 s'.
Proof.
  revert s; induction l1 as [|a l1 IH]; intros s; cbn; [reflexivity|].
  destruct (f s a); cbn; [apply IH|reflexivity].
Qed.
Lemma memb_In {A} (eqb : A -> A -> bool) (D : forall x y, eqb x y = true <-> x = y) x l :
  memb eqb x l = true <-> In x l.
Proof.
  unfold memb. rewrite existsb_exists. split.
  - intros [y [I E]]. apply D in E. subst; exact I.
  - intros I. exists x. split; [exact I|]. apply D; reflexivity.
Qed.
Lemma memb_str x l : memb String.eqb x l = true <-> In x l.
Proof. apply memb_In, String.eqb_eq. Qed.
Lemma memb_str_false x l : memb String.eqb x l = false <-> ~ In x l.
Proof. rewrite <- not_true_iff_false, memb_str. reflexivity. Qed.
Lemma index_of_Some {A} (eqb : A -> A -> bool) (D : forall x y, eqb x y = true <-> x = y) x l i :
  index_of eqb x l = Some i -> nth_error l i = Some x.
Proof.
  revert i; induction l as [|y l IH]; intros i; cbn; [discriminate|].
  destruct (eqb x y) eqn:E; [apply D in E; intros [= <-]; subst; reflexivity|].
  destruct (index_of eqb x l) eqn:E2; [|discriminate]. intros [= <-]. cbn. apply IH; reflexivity.
Qed.
Lemma index_of_In {A} (eqb : A -> A -> bool) (D : forall x y, eqb x y = true <-> x = y) x l :
  In x l -> exists i, index_of eqb x l = Some i.
Proof.
  induction l as [|y l IH]; cbn; [tauto|]. intros I.
  destruct (eqb x y) eqn:E; [eauto|]. destruct I as [->|I].
  { assert (eqb x x = true) by (apply D; reflexivity). congruence. }
  destruct (IH I) as [i ->]. eauto.
Qed.
Lemma index_of_None {A} (eqb : A -> A -> bool) (D : forall x y, eqb x y = true <-> x = y) x l :
  ~ In x l -> index_of eqb x l = None.
Proof.
  induction l as [|y l IH]; cbn; [reflexivity|]. intros N.
  destruct (eqb x y) eqn:E; [apply D in E; subst; tauto|]. rewrite IH by tauto. reflexivity.
Qed.
Lemma index_of_nth {A} (eqb : A -> A -> bool) (D : forall x y, eqb x y = true <-> x = y) l i d :
  NoDup l -> (i < length l)%nat -> index_of eqb (nth i l d) l = Some i.
Proof.
  intros N L. destruct (index_of_In eqb D (nth i l d) l (nth_In l d L)) as [j E].
  rewrite E. f_equal. pose proof (index_of_Some eqb D _ _ _ E) as E2.
  assert (Lj : (j < length l)%nat) by (apply nth_error_Some; congruence).
  apply (NoDup_nth l d) ; try assumption. apply nth_error_nth with (d := d) in E2. congruence.
Qed.

(** ** dedup and sorted sets *)
Section Sets.
  Context {A : Type} (eqb leb : A -> A -> bool) (D : forall x y, eqb x y = true <-> x = y).
  Lemma dedup_into_spec l r : NoDup r -> NoDup (dedup_into eqb r l) /\ forall x, In x (dedup_into eqb r l) <-> In x r \/ In x l.
  Proof.
    revert r; induction l as [|a l IH]; intros r N; cbn; [split; [exact N|tauto]|].
    destruct (memb eqb a r) eqn:E.
    - apply memb_In in E; [|exact D]. destruct (IH r N) as [N' I']. split; [exact N'|].
      intros x. rewrite I'. split; [tauto|]. intros [?|[->|?]]; tauto.
    - assert (E' : ~ In a r) by (intros I; apply (memb_In eqb D) in I; congruence).
      destruct (IH (r ++ [a])) as [N' I'].
      { clear -N E'. induction r as [|b r IHr]; cbn; [constructor; [tauto|constructor]|].
        inversion N; subst. constructor; [rewrite in_app_iff; cbn; cbn in E'; intuition congruence|]. apply IHr; [assumption|cbn in E'; tauto]. }
      split; [exact N'|]. intros x. rewrite I', in_app_iff. cbn. tauto.
  Qed.
  Lemma dedup_spec l : NoDup (dedup eqb l) /\ forall x, In x (dedup eqb l) <-> In x l.
  Proof. destruct (dedup_into_spec l [] (NoDup_nil _)) as [N I]. split; [exact N|]. intros x. unfold dedup. rewrite I. cbn. tauto. Qed.
  Lemma ins_perm x l : Permutation (x :: l) (ins leb x l).
  Proof.
    induction l as [|y l IH]; cbn; [reflexivity|]. destruct (leb x y); [reflexivity|].
    rewrite perm_swap. constructor. exact IH.
  Qed.
  Lemma isort_perm l : Permutation l (isort_list leb l).
  Proof. induction l as [|x l IH]; cbn; [reflexivity|]. rewrite <- ins_perm. constructor. exact IH. Qed.
  Lemma sorted_set_NoDup l : NoDup (sorted_set eqb leb l).
  Proof. unfold sorted_set. eapply Permutation_NoDup; [apply isort_perm|apply dedup_spec]. Qed.
  Lemma sorted_set_In l x : In x (sorted_set eqb leb l) <-> In x l.
  Proof.
    unfold sorted_set. rewrite <- (proj2 (dedup_spec l) x). split; apply Permutation_in; [symmetry|]; apply isort_perm.
  Qed.
  (** Sorted for a strict order [lt] when [leb] is total. *)
  Context (lt : A -> A -> Prop) (LT : forall x y, leb x y = true -> x <> y -> lt x y)
          (GT : forall x y, leb x y = false -> lt y x) (TR : forall x y z, lt x y -> lt y z -> lt x z).
  Lemma ins_sorted x l : ~ In x l -> StronglySorted lt l -> StronglySorted lt (ins leb x l).
  Proof.
    intros NI S. induction S as [|y l S IH F]; cbn; [repeat constructor|].
    destruct (leb x y) eqn:E.
    - assert (lt x y) by (apply LT; [exact E|intros ->; apply NI; left; reflexivity]).
      constructor; [constructor; assumption|]. constructor; [assumption|].
      rewrite Forall_forall in *. intros z I. eapply TR; [eassumption|]. apply F, I.
    - apply GT in E. constructor; [apply IH; intros I; apply NI; right; exact I|].
      rewrite Forall_forall in *. intros z I.
      apply (Permutation_in z (Permutation_sym (ins_perm x l))) in I. destruct I as [<-|I]; [exact E|]. apply F, I.
  Qed.
  Lemma sorted_set_sorted l : StronglySorted lt (sorted_set eqb leb l).
  Proof.
    unfold sorted_set. pose proof (proj1 (dedup_spec l)) as N. induction N as [|x r NI N IH]; cbn; [constructor|].
    apply ins_sorted; [|exact IH]. intros I. apply NI. apply (Permutation_in x (Permutation_sym (isort_perm r))), I.
  Qed.
End Sets.

Lemma StronglySorted_lt_unique (l m : list Z) :
  StronglySorted Z.lt l -> StronglySorted Z.lt m -> (forall z, In z l <-> In z m) -> l = m.
Proof.
  intros S; revert m; induction S as [|x l S IH F]; intros m S2 E.
  - destruct m as [|y m]; [reflexivity|]. exfalso. apply (E y). left; reflexivity.
  - destruct S2 as [|y m S2 F2]; [exfalso; apply (proj1 (E x)); left; reflexivity|].
    rewrite Forall_forall in F, F2.
    assert (x = y).
    { assert (I1 : In x (y :: m)) by (apply E; left; reflexivity).
      assert (I2 : In y (x :: l)) by (apply E; left; reflexivity).
      destruct I1 as [->|I1]; [reflexivity|]. destruct I2 as [->|I2]; [reflexivity|].
      apply F2 in I1. apply F in I2. lia. }
    subst y. f_equal. apply IH; [assumption|]. intros z. specialize (E z). cbn in E. split; intros I.
    + assert (H : x = z \/ In z m) by (apply E; right; exact I). destruct H as [<-|H]; [|exact H].
      apply F in I. lia.
    + assert (H : x = z \/ In z l) by (apply E; right; exact I). destruct H as [<-|H]; [|exact H].
      apply F2 in I. lia.
Qed.
Lemma sorted_ids l sts : ids_of l sts -> sorted_set Z.eqb Z.leb l = sts.
Proof.
  intros [S I]. apply StronglySorted_lt_unique; [|exact S|].
  - apply (sorted_set_sorted Z.eqb Z.leb Z.eqb_eq Z.lt).
    + intros x y L N. apply Z.leb_le in L. lia.
    + intros x y L. apply Z.leb_gt in L. exact L.
    + intros; lia.
  - intros z. rewrite sorted_set_In by apply Z.eqb_eq. symmetry. apply I.
Qed.
Lemma ids_exist l : exists sts, ids_of l sts.
Proof.
  exists (sorted_set Z.eqb Z.leb l). split.
  - apply (sorted_set_sorted Z.eqb Z.leb Z.eqb_eq Z.lt).
    + intros x y L N. apply Z.leb_le in L. lia.
    + intros x y L. apply Z.leb_gt in L. exact L.
    + intros; lia.
  - intros z. apply sorted_set_In, Z.eqb_eq.
Qed.
Lemma SSorted_NoDup l : StronglySorted Z.lt l -> NoDup l.
Proof.
  induction 1 as [|x l S IH F]; constructor; [|exact IH]. intros I. rewrite Forall_forall in F. apply F in I. lia.
Qed.

(** ** Rounding, initial distributions *)
Lemma round0_one x : round0 x = 1%Z <-> 1/2 < x < 3/2.
Proof.
  unfold round0. nR. pose proof (Int_part_spec x) as B. set (f := Int_part x) in *.
  destruct (nltb (2 * (x - IZR f)) 1) eqn:E1; [apply Rltb_true in E1|apply Rltb_false in E1].
  - split; [intros ->; lra|]. intros L. assert (f = 1%Z); [|assumption].
    assert (IZR f < IZR 2) by lra. assert (IZR 0 < IZR f) by lra. apply lt_IZR in H, H0. lia.
  - destruct (nltb 1 (2 * (x - IZR f))) eqn:E2; [apply Rltb_true in E2|apply Rltb_false in E2].
    + split; [intros E; assert (f = 0%Z) by lia; rewrite H in *; lra|]. intros L.
      assert (IZR f < IZR 1) by lra. assert (IZR (-1) < IZR f) by lra. apply lt_IZR in H, H0. lia.
    + split.
      * destruct (Z.even f) eqn:Ev; intros E; [subst f; rewrite E in Ev; discriminate|].
        assert (f = 0%Z) by lia. rewrite H in Ev. discriminate.
      * intros L. exfalso. assert (IZR f < IZR 1) by lra. assert (IZR (-1) < IZR f) by lra.
        apply lt_IZR in H, H0. assert (f = 0%Z) by lia. rewrite H1 in *. lra.
Qed.

Lemma countb_label l : countb String.eqb "init"%string l = label_count "init" l.
Proof. unfold label_count. induction l as [|x l IH]; cbn [countb filter]; [reflexivity|]. destruct (String.eqb "init" x); cbn; rewrite IH; reflexivity. Qed.
Lemma label_count_pos l : In "init"%string l -> (0 < label_count "init" l)%nat.
Proof.
  intros I. unfold label_count. assert (In "init"%string (filter (String.eqb "init") l)) by (apply filter_In; split; [exact I|reflexivity]).
  destruct (filter (String.eqb "init") l); [contradiction|cbn; lia].
Qed.
Lemma init_row_sum c l : rsum (map (fun x => if String.eqb x "init" then c else 0) l) = INR (label_count "init" l) * c.
Proof.
  unfold label_count. induction l as [|x l IH]; cbn [map filter]; [cbn; lra|]. rewrite rsum_cons, IH.
  rewrite (String.eqb_sym x "init"). destruct (String.eqb "init" x); cbn [length]; rewrite ?S_INR; lra.
Qed.

Lemma base_mc_init_ok n labels ini :
  base_mc_init (K:=R) n labels = Ok ini <->
  In "init"%string labels /\ length labels = n /\
  ini = map (fun x => if String.eqb x "init" then 1 / INR (label_count "init" labels) else 0) labels.
Proof.
  unfold base_mc_init. destruct (memb String.eqb "init"%string labels) eqn:M; cbn [negb].
  2:{ apply memb_str_false in M. split; [discriminate|tauto]. }
  apply memb_str in M. unfold model_init. nR.
  rewrite countb_label. rewrite <- INR_IZR_INZ.
  pose proof (label_count_pos _ M) as P. apply lt_INR in P. cbn [INR] in P.
  toR. rewrite init_row_sum.
  replace (INR (label_count "init" labels) * (1 / INR (label_count "init" labels))) with 1 by (field; lra).
  assert (R1 : round0 1 = 1%Z) by (apply round0_one; lra). rewrite R1. cbn [Z.eqb negb Pos.eqb bind].
  destruct (Nat.eqb_spec (length labels) n); cbn [negb].
  - split; [intros [= <-]; auto|intros (_ & _ & ->); reflexivity].
  - split; [discriminate|tauto].
Qed.
Lemma base_mc_init_err n labels e : base_mc_init (K:=R) n labels = Err e -> e = ValueError.
Proof.
  unfold base_mc_init, model_init, bind. destruct (negb _); [congruence|].
  destruct (negb _); [congruence|]. destruct (negb _); congruence.
Qed.
Lemma base_mc_init_cases n labels :
  (In "init"%string labels /\ length labels = n /\ exists ini, base_mc_init (K:=R) n labels = Ok ini) \/
  (~ (In "init"%string labels /\ length labels = n) /\ base_mc_init (K:=R) n labels = Err ValueError).
Proof.
  destruct (base_mc_init n labels) as [ini|e] eqn:E.
  - left. pose proof E as E0. apply base_mc_init_ok in E0 as (I & L & _). eauto.
  - right. pose proof (base_mc_init_err _ _ _ E) as ->. split; [|reflexivity].
    intros [I L]. assert (X : base_mc_init (K:=R) n labels = Ok (map (fun x => if String.eqb x "init" then 1 / INR (label_count "init" labels) else 0) labels))
      by (apply base_mc_init_ok; auto). congruence.
Qed.

Lemma check_rows (matrix : list (list R)) :
  forallb checkProbabilities matrix = true <-> forall r, In r matrix -> row_ok (rsum r).
Proof. rewrite forallb_forall. split; intros F r I; apply (checkProbabilities_iff r), F, I. Qed.

(** ** Filling the matrix *)
Lemma last_value_snoc {T} (sel : T -> Prop) (val : T -> R) ts t v :
  (sel t -> last_value sel val (ts ++ [t]) (val t)) /\
  (~ sel t -> last_value sel val ts v -> last_value sel val (ts ++ [t]) v).
Proof.
  split.
  - intros S. left. exists ts, t, []. split; [reflexivity|]. split; [exact S|]. split; [intros u []|reflexivity].
  - intros N [(l1 & x & l2 & -> & S & F & ->)|[F ->]].
    + left. exists l1, x, (l2 ++ [t]). split; [rewrite <- app_assoc; reflexivity|]. split; [exact S|]. split; [|reflexivity].
      intros u I. apply in_app_or in I as [I|[<-|[]]]; [apply F, I|exact N].
    + right. split; [|reflexivity]. intros u I. apply in_app_or in I as [I|[<-|[]]]; [apply F, I|exact N].
Qed.
Lemma last_value_unique {T} (sel : T -> Prop) (val : T -> R) ts v w :
  last_value sel val ts v -> last_value sel val ts w -> v = w.
Proof.
  intros [(l1 & x & l2 & E & S & F & ->)|[F ->]] [(m1 & y & m2 & E2 & S2 & F2 & ->)|[F2 ->]]; [| | |reflexivity].
  - f_equal. rewrite E in E2. clear E ts. revert m1 E2; induction l1 as [|a l1 IH]; intros [|b m1] E2; cbn in E2.
    + injection E2; auto.
    + injection E2 as _ E2. subst l2. exfalso. apply (F y); [apply in_or_app; right; left; reflexivity|exact S2].
    + injection E2 as _ E2. subst m2. exfalso. apply (F2 x); [apply in_or_app; right; left; reflexivity|exact S].
    + injection E2 as _ E2. apply (IH m1 E2).
  - exfalso. apply (F2 x); [rewrite E; apply in_or_app; right; left; reflexivity|exact S].
  - exfalso. apply (F y); [rewrite E2; apply in_or_app; right; left; reflexivity|exact S2].
Qed.

Definition rect (r c : nat) (m : list (list R)) : Prop :=
  length m = r /\ forall i, (i < r)%nat -> length (nth i m []) = c.
Lemma mat_set_rect r c m i j x : rect r c m -> rect r c (mat_set m i j x).
Proof.
  intros [L C]. unfold mat_set. split; [rewrite upd_length; exact L|]. intros k Hk.
  destruct (Nat.lt_ge_cases i r).
  - rewrite upd_nth by lia. destruct (Nat.eqb_spec i k); [|apply C, Hk]. rewrite upd_length. subst; apply C, Hk.
  - replace (upd m i _) with m; [apply C, Hk|]. clear -L H. revert i r L H; induction m as [|y m IH]; intros [|i] r L H; cbn in *; try reflexivity; try lia.
    f_equal. destruct r; [lia|]. apply IH with (r := r); lia.
Qed.
Lemma mat_set_get r c m i j x a b : rect r c m -> (i < r)%nat -> (j < c)%nat ->
  matR (mat_set m i j x) a b = if (Nat.eqb i a && Nat.eqb j b)%bool then x else matR m a b.
Proof.
  intros [L C] Hi Hj. unfold matR, mat_set. rewrite upd_nth by lia.
  destruct (Nat.eqb_spec i a); cbn [andb]; [|reflexivity]. subst a. rewrite upd_nth by (rewrite C; assumption). reflexivity.
Qed.
Lemma zeros2_rect r c : rect r c (zeros2 r c).
Proof. split; [apply repeat_length|]. intros i L. unfold zeros2. rewrite (nth_indep _ [] (vzeros c)) by (rewrite repeat_length; exact L). rewrite nth_repeat. apply repeat_length. Qed.
Lemma nth_repeat0 n i : nth i (repeat 0 n) 0 = 0.
Proof. apply nth_repeat. Qed.
Lemma zeros2_get r c a b : matR (zeros2 r c) a b = 0.
Proof.
  unfold matR, zeros2, vzeros. nR. destruct (Nat.lt_ge_cases a r).
  - rewrite (nth_indep _ [] (repeat 0 c)) by (rewrite repeat_length; assumption). rewrite nth_repeat. apply nth_repeat0.
  - rewrite (nth_overflow _ []) by (rewrite repeat_length; assumption). destruct b; reflexivity.
Qed.

(** Generic table filling: keys looked up in two lists. *)
Section Fill.
  Context {A B T : Type} (eqA : A -> A -> bool) (eqB : B -> B -> bool)
    (DA : forall x y, eqA x y = true <-> x = y) (DB : forall x y, eqB x y = true <-> x = y).
  Context (ka : T -> A) (kb : T -> B) (val : T -> R) (rows : list A) (cols : list B) (NR : NoDup rows) (NC : NoDup cols) (da : A) (db : B).
  Definition gfill (ts : list T) (m : list (list R)) : res (list (list R)) :=
    mfold (fun m t => do i <- index_err eqA (ka t) rows; do j <- index_err eqB (kb t) cols; Ok (mat_set m i j (val t))) ts m.
  Lemma gfill_ok ts :
    (forall t, In t ts -> In (ka t) rows /\ In (kb t) cols) ->
    exists m, gfill ts (zeros2 (length rows) (length cols)) = Ok m /\ rect (length rows) (length cols) m /\
      forall a b, (a < length rows)%nat -> (b < length cols)%nat ->
        last_value (fun t => ka t = nth a rows da /\ kb t = nth b cols db) val ts (matR m a b).
  Proof.
    induction ts as [|t ts IH] using rev_ind; intros I.
    - exists (zeros2 (length rows) (length cols)). split; [reflexivity|]. split; [apply zeros2_rect|].
      intros a b _ _. right. split; [intros t []|apply zeros2_get].
    - destruct IH as (m & E & RC & G). { intros u Iu. apply I, in_or_app. left; exact Iu. }
      destruct (I t) as [Ia Ib]; [apply in_or_app; right; left; reflexivity|].
      destruct (index_of_In eqA DA _ _ Ia) as [i Ei]. destruct (index_of_In eqB DB _ _ Ib) as [j Ej].
      pose proof (index_of_Some eqA DA _ _ _ Ei) as Ni. pose proof (index_of_Some eqB DB _ _ _ Ej) as Nj.
      assert (Li : (i < length rows)%nat) by (apply nth_error_Some; congruence).
      assert (Lj : (j < length cols)%nat) by (apply nth_error_Some; congruence).
      exists (mat_set m i j (val t)). split.
      { unfold gfill in *. rewrite mfold_app, E. cbn. unfold index_err. rewrite Ei, Ej. reflexivity. }
      split; [apply mat_set_rect, RC|]. intros a b La Lb.
      rewrite (mat_set_get _ _ _ _ _ _ _ _ RC Li Lj).
      apply nth_error_nth with (d := da) in Ni. apply nth_error_nth with (d := db) in Nj.
      destruct (Nat.eqb_spec i a) as [<-|Na]; [destruct (Nat.eqb_spec j b) as [<-|Nb]|]; cbn [andb].
      + apply (proj1 (last_value_snoc _ _ _ _ 0)). auto.
      + apply (proj2 (last_value_snoc _ _ _ _ _)); [|apply G; assumption]. intros [_ X]. apply Nb. apply (NoDup_nth cols db); [exact NC|lia|lia|congruence].
      + apply (proj2 (last_value_snoc _ _ _ _ _)); [|apply G; assumption]. intros [X _]. apply Na. apply (NoDup_nth rows da); [exact NR|lia|lia|congruence].
  Qed.
End Fill.

(** Proofs about jajapy/base/Set.py *)
From Coq Require Import String ZArith List Bool Permutation Lia Arith.
From Verif Require Import Py MSet SSet.
Import ListNotations.

Section Basics.
Context {A : Type} (eqb : A -> A -> bool) (Heq : decides_eq eqb).

Lemma eqb_refl x : eqb x x = true.
Proof. apply Heq; reflexivity. Qed.
Lemma eqb_neq x y : eqb x y = false <-> x <> y.
Proof. rewrite <- (Heq x y). destruct (eqb x y); split; congruence. Qed.
Lemma eqb_sym x y : eqb x y = eqb y x.
Proof. apply eq_true_iff_eq. rewrite (Heq x y), (Heq y x). split; congruence. Qed.

Lemma memb_In x l : memb eqb x l = true <-> In x l.
Proof.
  unfold memb. rewrite existsb_exists. split.
  - intros [y [I E]]. apply Heq in E. subst; exact I.
  - intros I; exists x; split; [exact I|apply eqb_refl].
Qed.
Lemma memb_notIn x l : memb eqb x l = false <-> ~ In x l.
Proof. rewrite <- memb_In. destruct (memb eqb x l); split; congruence. Qed.

Lemma index_of_Some x l i : index_of eqb x l = Some i -> nth_error l i = Some x.
Proof.
  revert i; induction l as [|y l IH]; intros i; cbn; [discriminate|].
  destruct (eqb x y) eqn:E.
  - intros [= <-]. apply Heq in E. subst; reflexivity.
  - destruct (index_of eqb x l) as [j|]; [|discriminate]. intros [= <-]. apply IH; reflexivity.
Qed.
Lemma index_of_In x l : In x l -> exists i, index_of eqb x l = Some i /\ i < length l.
Proof.
  induction l as [|y l IH]; intros I; [destruct I|]. cbn.
  destruct (eqb x y) eqn:E; [exists 0; split; [reflexivity|lia]|].
  destruct I as [->|I]; [rewrite eqb_refl in E; discriminate|].
  destruct (IH I) as [i [-> L]]. exists (S i); split; [reflexivity|lia].
Qed.
Lemma index_of_None x l : index_of eqb x l = None <-> ~ In x l.
Proof.
  split.
  - intros E I. destruct (index_of_In x l I) as [i [E' _]]. congruence.
  - intros N. destruct (index_of eqb x l) as [i|] eqn:E; [|reflexivity].
    apply index_of_Some in E. apply nth_error_In in E. contradiction.
Qed.
Lemma index_of_NoDup l i x : NoDup l -> nth_error l i = Some x -> index_of eqb x l = Some i.
Proof.
  revert i; induction l as [|y l IH]; intros i N E; [destruct i; discriminate|].
  inversion N as [|? ? N1 N2]; subst. destruct i as [|i]; cbn in E |- *.
  - injection E as ->. rewrite eqb_refl; reflexivity.
  - destruct (eqb x y) eqn:Exy.
    + apply Heq in Exy; subst. apply nth_error_In in E. contradiction.
    + rewrite (IH i N2 E). reflexivity.
Qed.
Lemma index_of_first x l i : index_of eqb x l = Some i -> forall j y, j < i -> nth_error l j = Some y -> y <> x.
Proof.
  revert i; induction l as [|z l IH]; intros i; cbn; [discriminate|].
  destruct (eqb x z) eqn:E; [intros [= <-]; lia|].
  destruct (index_of eqb x l) as [k|]; [|discriminate]. intros [= <-] [|j] y L Y.
  - injection Y as ->. apply eqb_neq in E. congruence.
  - apply (IH k eq_refl j); [lia|exact Y].
Qed.

Lemma dedup_into_spec l res :
  dedup_into eqb res l = res ++ filter (fun y => negb (memb eqb y res)) (first_occ eqb l).
Proof.
  revert res; induction l as [|x l IH]; intros res; cbn; [rewrite app_nil_r; reflexivity|].
  rewrite IH. destruct (memb eqb x res) eqn:M; cbn.
  - f_equal. clear IH. induction (first_occ eqb l) as [|y m IHm]; [reflexivity|]. cbn.
    destruct (eqb x y) eqn:E; cbn.
    + apply Heq in E; subst y. rewrite M. cbn. exact IHm.
    + destruct (memb eqb y res); cbn; rewrite IHm; reflexivity.
  - rewrite <- app_assoc. cbn. f_equal. f_equal.
    clear IH. induction (first_occ eqb l) as [|y m IHm]; [reflexivity|]. cbn.
    assert (Hm : memb eqb y (res ++ [x]) = memb eqb y res || eqb x y).
    { unfold memb. rewrite existsb_app. cbn. rewrite orb_false_r, (eqb_sym y x). reflexivity. }
    rewrite Hm. destruct (eqb x y); cbn.
    + rewrite orb_true_r. cbn. exact IHm.
    + rewrite orb_false_r. destruct (memb eqb y res); cbn; rewrite IHm; reflexivity.
Qed.

Lemma dedup_first_occ l : dedup eqb l = first_occ eqb l.
Proof.
  unfold dedup. rewrite dedup_into_spec. cbn. induction (first_occ eqb l); cbn; [reflexivity|]. f_equal; assumption.
Qed.

Lemma first_occ_In l x : In x (first_occ eqb l) <-> In x l.
Proof.
  induction l as [|y l IH]; cbn; [tauto|]. rewrite filter_In, IH.
  destruct (eqb y x) eqn:E; [apply Heq in E|apply eqb_neq in E]; cbn; split; intros; intuition congruence.
Qed.
Lemma NoDup_filter' (p : A -> bool) l : NoDup l -> NoDup (filter p l).
Proof. apply NoDup_filter. Qed.
Lemma first_occ_NoDup l : NoDup (first_occ eqb l).
Proof.
  induction l as [|x l IH]; cbn; constructor.
  - rewrite filter_In. intros [_ E]. rewrite eqb_refl in E. discriminate.
  - apply NoDup_filter, IH.
Qed.
Lemma first_occ_snoc l x :
  first_occ eqb (l ++ [x]) = if memb eqb x l then first_occ eqb l else first_occ eqb l ++ [x].
Proof.
  induction l as [|y l IH]; cbn; [reflexivity|].
  rewrite IH. destruct (eqb x y) eqn:E; cbn.
  - apply Heq in E; subst y. destruct (memb eqb x l); [reflexivity|].
    rewrite filter_app. cbn. rewrite eqb_refl. cbn. rewrite app_nil_r. reflexivity.
  - destruct (memb eqb x l) eqn:M; fold (memb eqb x l); rewrite M; [reflexivity|].
    rewrite filter_app. cbn. rewrite eqb_sym, E. cbn. reflexivity.
Qed.

(** ** setFromList *)
Lemma occ_snoc x l y : occ eqb x (l ++ [y]) = occ eqb x l + (if eqb x y then 1 else 0).
Proof. unfold occ. rewrite filter_app, app_length. cbn. destruct (eqb x y); reflexivity. Qed.

Lemma upd_map_eq (f g : A -> Z) l i x :
  NoDup l -> nth_error l i = Some x -> (forall y, y <> x -> f y = g y) ->
  upd (map f l) i (g x) = map g l.
Proof.
  revert i; induction l as [|y l IH]; intros i N E H; [destruct i; discriminate|].
  inversion N as [|? ? N1 N2]; subst. destruct i as [|i]; cbn in *.
  - injection E as ->. f_equal. apply map_ext_in. intros z Iz. apply H. intros ->. contradiction.
  - rewrite (IH i N2 E H). f_equal. apply H. intros ->. apply nth_error_In in E. contradiction.
Qed.
Lemma upd_length {B} (l : list B) i x : length (upd l i x) = length l.
Proof. revert i; induction l; intros [|i]; cbn; auto. Qed.
Lemma upd_nth_same {B} (l : list B) i x d : i < length l -> nth i (upd l i x) d = x.
Proof. revert i; induction l; intros [|i] L; cbn in *; try lia; [reflexivity|]. apply IHl; lia. Qed.
Lemma upd_nth_other {B} (l : list B) i j x d : i <> j -> nth j (upd l i x) d = nth j l d.
Proof. revert i j; induction l; intros [|i] [|j] L; cbn in *; try congruence; auto. Qed.
Lemma upd_nth_error_other {B} (l : list B) i j x : i <> j -> nth_error (upd l i x) j = nth_error l j.
Proof. revert i j; induction l; intros [|i] [|j] L; cbn in *; try congruence; auto. Qed.
Lemma upd_nth_error_same {B} (l : list B) i x : i < length l -> nth_error (upd l i x) i = Some x.
Proof. revert i; induction l; intros [|i] L; cbn in *; try lia; [reflexivity|]. apply IHl; lia. Qed.

Lemma setFromList_spec l :
  setFromList eqb l = (first_occ eqb l, map (fun x => Z.of_nat (occ eqb x l)) (first_occ eqb l)).
Proof.
  unfold setFromList. induction l as [|s l IH] using rev_ind; [reflexivity|].
  rewrite fold_left_app. cbn [fold_left]. rewrite IH. unfold setFromList_step.
  rewrite first_occ_snoc.
  assert (Mm : memb eqb s (first_occ eqb l) = memb eqb s l).
  { apply eq_true_iff_eq. rewrite !memb_In. apply first_occ_In. }
  rewrite Mm. destruct (memb eqb s l) eqn:M.
  - apply memb_In in M. apply first_occ_In in M.
    destruct (index_of_In _ _ M) as [i [E L]]. rewrite E. f_equal.
    pose proof (index_of_Some _ _ _ E) as E'.
    replace (nth i (map (fun x => Z.of_nat (occ eqb x l)) (first_occ eqb l)) 0 + 1)%Z
      with ((fun x => Z.of_nat (occ eqb x (l ++ [s]))) s).
    2:{ cbn beta. rewrite occ_snoc, eqb_refl.
        rewrite (nth_indep _ 0%Z ((fun x => Z.of_nat (occ eqb x l)) s)) by (rewrite map_length; exact L).
        rewrite (map_nth (fun x => Z.of_nat (occ eqb x l))).
        rewrite (nth_error_nth _ _ _ E'). lia. }
    apply (upd_map_eq (fun x => Z.of_nat (occ eqb x l)) (fun x => Z.of_nat (occ eqb x (l ++ [s])))); [apply first_occ_NoDup|exact E'|].
    intros y N. rewrite occ_snoc. apply eqb_neq in N. rewrite N. f_equal. lia.
  - apply memb_notIn in M.
    assert (M' : ~ In s (first_occ eqb l)) by (rewrite first_occ_In; exact M).
    assert (E : index_of eqb s (first_occ eqb l ++ [s]) = Some (length (first_occ eqb l))).
    { apply index_of_NoDup.
      - assert (P : Permutation (s :: first_occ eqb l) (first_occ eqb l ++ [s])) by apply Permutation_cons_append.
        eapply Permutation_NoDup; [exact P|]. constructor; [exact M'|apply first_occ_NoDup].
      - rewrite nth_error_app2, Nat.sub_diag by lia. reflexivity. }
    rewrite E. f_equal.
    assert (O : occ eqb s l = 0).
    { unfold occ. destruct (filter (eqb s) l) eqn:F; [reflexivity|].
      assert (In a (filter (eqb s) l)) by (rewrite F; left; reflexivity).
      apply filter_In in H as [I Ea]. apply Heq in Ea. subst. contradiction. }
    rewrite map_app. cbn [map].
    assert (Eq : map (fun x => Z.of_nat (occ eqb x (l ++ [s]))) (first_occ eqb l) =
                 map (fun x => Z.of_nat (occ eqb x l)) (first_occ eqb l)).
    { apply map_ext_in. intros y I. rewrite occ_snoc.
      assert (eqb y s = false) as ->; [|f_equal; lia]. apply eqb_neq. intros ->. contradiction. }
    rewrite Eq. rewrite occ_snoc, eqb_refl, O.
    set (ts := map (fun x => Z.of_nat (occ eqb x l)) (first_occ eqb l)).
    replace (length (first_occ eqb l)) with (length ts) by (unfold ts; apply map_length).
    generalize ts; clear. induction ts as [|t ts IH]; [reflexivity|]. cbn. f_equal. exact IH.
Qed.

(** ** Multiplicities *)
Lemma wmult_app x l m : wmult eqb x (l ++ m) = (wmult eqb x l + wmult eqb x m)%Z.
Proof. induction l as [|[y t] l IH]; cbn; [reflexivity|]. rewrite IH. lia. Qed.
Lemma wmult_notin x l : ~ In x (map fst l) -> wmult eqb x l = 0%Z.
Proof.
  induction l as [|[y t] l IH]; cbn; [reflexivity|]. intros N.
  assert (eqb x y = false) as -> by (apply eqb_neq; intros ->; apply N; left; reflexivity).
  rewrite IH; [reflexivity|]. intros I; apply N; right; exact I.
Qed.
Lemma wmult_perm x l m : Permutation l m -> wmult eqb x l = wmult eqb x m.
Proof. induction 1 as [|[y t] l m P IH|[y t] [z u] l|l m k P1 IH1 P2 IH2]; cbn in *; lia. Qed.

Lemma combine_map_fst {B} (l : list A) (m : list B) : length m = length l -> map fst (combine l m) = l.
Proof. revert m; induction l; intros [|b m] L; cbn in *; try discriminate; [reflexivity|]. f_equal; apply IHl; lia. Qed.
Lemma combine_map_snd {B} (l : list A) (m : list B) : length m = length l -> map snd (combine l m) = m.
Proof. revert m; induction l; intros [|b m] L; cbn in *; try discriminate; [reflexivity|]. f_equal; apply IHl; lia. Qed.

Lemma wmult_nth l i x t : NoDup (map fst l) -> nth_error l i = Some (x, t) -> wmult eqb x l = t.
Proof.
  revert i; induction l as [|[y u] l IH]; intros i N E; [destruct i; discriminate|].
  cbn in N. inversion N as [|? ? N1 N2]; subst. destruct i as [|i]; cbn in *.
  - injection E as -> ->. rewrite eqb_refl, wmult_notin by exact N1. lia.
  - assert (eqb x y = false) as ->.
    { apply eqb_neq. intros ->. apply N1. apply (in_map fst) with (x := (y, t)), nth_error_In with i, E. }
    apply (IH i N2 E).
Qed.

(** ** to_list *)
Lemma occ_app x l m : occ eqb x (l ++ m) = occ eqb x l + occ eqb x m.
Proof. unfold occ; rewrite filter_app, app_length; reflexivity. Qed.
Lemma occ_repeat x y n : occ eqb x (repeat y n) = if eqb x y then n else 0.
Proof. unfold occ. induction n; cbn; [destruct (eqb x y); reflexivity|]. destruct (eqb x y); cbn; lia. Qed.
Lemma occ_perm l m : (forall x, occ eqb x l = occ eqb x m) -> Permutation l m.
Proof.
  revert m; induction l as [|x l IH]; intros m H.
  - destruct m as [|y m]; [constructor|]. specialize (H y). unfold occ in H; cbn in H. rewrite eqb_refl in H. discriminate.
  - assert (I : In x m).
    { specialize (H x). unfold occ in H. cbn in H. rewrite eqb_refl in H. cbn in H.
      destruct (filter (eqb x) m) as [|z k] eqn:F; [discriminate|].
      assert (In z (filter (eqb x) m)) by (rewrite F; left; reflexivity).
      apply filter_In in H0 as [I E]. apply Heq in E. subst; exact I. }
    apply in_split in I as [m1 [m2 ->]]. apply Permutation_cons_app, IH. intros y.
    specialize (H y). change (x :: l) with ([x] ++ l) in H. change (x :: m2) with ([x] ++ m2) in H.
    rewrite !occ_app in *. lia.
Qed.

Lemma to_list_occ s x :
  length (times s) = length (seqs s) -> pos_set s ->
  Z.of_nat (occ eqb x (to_list s)) = mult eqb s x.
Proof.
  destruct s as [ss ts t]. unfold to_list, mult, pos_set. cbn [seqs times].
  intros L P. rewrite occ_app.
  revert ts L P; induction ss as [|y ss IH]; intros [|u ts] L P; try discriminate; [reflexivity|].
  cbn [combine flat_map wmult]. rewrite occ_app, occ_repeat.
  assert (P' : forall t, In t ts -> (1 <= t)%Z) by (intros; apply P; right; assumption).
  assert (U : (1 <= u)%Z) by (apply P; left; reflexivity).
  specialize (IH ts ltac:(cbn in L; lia) P').
  unfold occ at 1. cbn [filter]. fold (occ eqb x ss).
  destruct (eqb x y); cbn [length]; fold (occ eqb x ss); lia.
Qed.

Lemma setFromList_times_pos l : pos_set (mkset (fst (setFromList eqb l)) (snd (setFromList eqb l)) None).
Proof.
  rewrite setFromList_spec. unfold pos_set. cbn. intros t I. apply in_map_iff in I as [x [<- I]].
  apply (proj1 (first_occ_In _ _)) in I. unfold occ.
  assert (F : In x (filter (eqb x) l)) by (apply filter_In; split; [exact I|apply eqb_refl]).
  destruct (filter (eqb x) l); [destruct F|cbn; lia].
Qed.

Lemma wmult_map_diag (f : A -> Z) l x : NoDup l ->
  wmult eqb x (combine l (map f l)) = if memb eqb x l then f x else 0%Z.
Proof.
  induction l as [|y l IH]; intros N; [reflexivity|]. inversion N as [|? ? N1 N2]; subst.
  cbn. fold (memb eqb x l). rewrite (IH N2). destruct (eqb x y) eqn:E; cbn.
  - apply Heq in E; subst y. apply memb_notIn in N1. rewrite N1. lia.
  - reflexivity.
Qed.

Lemma setFromList_mult l x t :
  mult eqb (mkset (fst (setFromList eqb l)) (snd (setFromList eqb l)) t) x = Z.of_nat (occ eqb x l).
Proof.
  rewrite setFromList_spec. unfold mult. cbn [fst snd seqs times]. rewrite wmult_map_diag by apply first_occ_NoDup.
  destruct (memb eqb x (first_occ eqb l)) eqn:M; [reflexivity|].
  apply memb_notIn in M. rewrite first_occ_In in M. unfold occ.
  destruct (filter (eqb x) l) eqn:F; [reflexivity|].
  assert (In a (filter (eqb x) l)) by (rewrite F; left; reflexivity).
  apply filter_In in H as [I E]. apply Heq in E. subst; contradiction.
Qed.

Lemma setFromList_wf l t : wf_set (mkset (fst (setFromList eqb l)) (snd (setFromList eqb l)) t).
Proof. rewrite setFromList_spec. split; cbn; [apply map_length|apply first_occ_NoDup]. Qed.

Lemma to_list_setFromList l t :
  Permutation (to_list (mkset (fst (setFromList eqb l)) (snd (setFromList eqb l)) t)) l.
Proof.
  apply occ_perm. intros x. apply Nat2Z.inj. rewrite to_list_occ.
  - apply setFromList_mult.
  - apply setFromList_wf with (t := t).
  - exact (setFromList_times_pos l).
Qed.

Lemma zsum_setFromList l : zsum (snd (setFromList eqb l)) = Z.of_nat (length l).
Proof.
  rewrite setFromList_spec. cbn [snd].
  assert (G : forall ss, NoDup ss -> (forall x, In x l -> In x ss) ->
     zsum (map (fun x => Z.of_nat (occ eqb x l)) ss) = Z.of_nat (length l)).
  { clear - Heq. induction l as [|y l IH]; intros ss N I.
    - cbn. clear. induction ss; cbn; [reflexivity|exact IHss].
    - specialize (IH ss N (fun x H => I x (or_intror H))).
      assert (In y ss) by (apply I; left; reflexivity).
      change (length (y :: l)) with (S (length l)). rewrite Nat2Z.inj_succ, <- IH.
      clear IH I. revert N H. induction ss as [|z ss IHs]; intros N H; [destruct H|].
      inversion N as [|? ? N1 N2]; subst. cbn [map zsum].
      change (y :: l) with ([y] ++ l). rewrite occ_app. 
      destruct H as [->|H].
      + assert (E : map (fun x => Z.of_nat (occ eqb x ([y] ++ l))) ss = map (fun x => Z.of_nat (occ eqb x l)) ss).
        { apply map_ext_in. intros x Ix. rewrite occ_app. unfold occ at 1. cbn.
          assert (eqb x y = false) as ->; [|reflexivity]. apply eqb_neq. intros ->; contradiction. }
        rewrite E. unfold occ at 1. cbn [filter]. rewrite eqb_refl. cbn [length]. lia.
      + unfold occ at 1. cbn [filter]. assert (eqb z y = false) as ->.
        { apply eqb_neq. intros ->. contradiction. }
        cbn [length]. specialize (IHs N2 H). change (y :: l) with ([y] ++ l) in IHs. lia. }
  apply G; [apply first_occ_NoDup|]. intros x; apply first_occ_In.
Qed.

(** ** addSet *)
Lemma addSet_step_wf ss ts x t ss' ts' :
  length ts = length ss -> NoDup ss ->
  addSet_step eqb (ss, ts) (x, t) = (ss', ts') ->
  length ts' = length ss' /\ NoDup ss' /\
  (exists tl, ss' = ss ++ tl) /\
  (forall y, In y ss' <-> In y ss \/ y = x) /\
  (forall y, wmult eqb y (combine ss' ts') = (wmult eqb y (combine ss ts) + if eqb y x then t else 0)%Z).
Proof.
  intros L N. unfold addSet_step. destruct (memb eqb x ss) eqn:M.
  - apply memb_In in M. destruct (index_of_In _ _ M) as [i [E Li]]. rewrite E. intros [= <- <-].
    split; [rewrite upd_length; exact L|]. split; [exact N|]. split; [exists []; rewrite app_nil_r; reflexivity|].
    split; [intros y; split; [auto|intros [I| ->]; assumption]|].
    intros y. apply index_of_Some in E. clear M Li. revert i ts L E.
    induction ss as [|z ss IH]; intros i ts L E; [destruct i; discriminate|].
    inversion N as [|? ? N1 N2]; subst. destruct ts as [|u ts]; [discriminate|]. destruct i as [|i]; cbn in E |- *.
    + injection E as ->. destruct (eqb y x); lia.
    + specialize (IH N2 i ts ltac:(cbn in L; lia) E). rewrite IH. lia.
  - apply memb_notIn in M. intros [= <- <-].
    split; [rewrite !app_length; cbn; lia|]. split.
    { assert (P : Permutation (x :: ss) (ss ++ [x])) by apply Permutation_cons_append.
      eapply Permutation_NoDup; [exact P|]. constructor; assumption. }
    split; [exists [x]; reflexivity|]. split.
    { intros y. rewrite in_app_iff. cbn. intuition. }
    intros y. assert (C : combine (ss ++ [x]) (ts ++ [t]) = combine ss ts ++ [(x, t)]).
    { clear - L. revert ts L; induction ss; intros [|u ts] L; cbn in *; try discriminate; [reflexivity|].
      f_equal. apply IHss. lia. }
    rewrite C, wmult_app. cbn. lia.
Qed.

Lemma addSet_fold l ss ts :
  length ts = length ss -> NoDup ss ->
  let '(ss', ts') := fold_left (addSet_step eqb) l (ss, ts) in
  length ts' = length ss' /\ NoDup ss' /\
  (exists tl, ss' = ss ++ tl) /\
  (forall y, In y ss' <-> In y ss \/ In y (map fst l)) /\
  (forall y, wmult eqb y (combine ss' ts') = (wmult eqb y (combine ss ts) + wmult eqb y l)%Z).
Proof.
  revert ss ts; induction l as [|[x t] l IH]; intros ss ts L N.
  - cbn [fold_left]. split; [exact L|]. split; [exact N|]. split; [exists []; rewrite app_nil_r; reflexivity|].
    split; [intros y; cbn; tauto|]. intros y; cbn [wmult]; lia.
  - cbn [fold_left]. destruct (addSet_step eqb (ss, ts) (x, t)) as [ss1 ts1] eqn:E.
    destruct (addSet_step_wf _ _ _ _ _ _ L N E) as (L1 & N1 & [tl1 T1] & M1 & W1).
    specialize (IH ss1 ts1 L1 N1). destruct (fold_left (addSet_step eqb) l (ss1, ts1)) as [ss2 ts2].
    destruct IH as (L2 & N2 & [tl2 T2] & M2 & W2).
    split; [exact L2|]. split; [exact N2|]. split; [exists (tl1 ++ tl2); rewrite T2, T1, app_assoc; reflexivity|].
    split; [intros y; rewrite M2, M1; cbn; intuition|]. intros y. rewrite W2, W1. cbn [wmult]. lia.
Qed.

Lemma addSet_spec s1 s2 : wf_set s1 -> length (times s2) = length (seqs s2) -> ty s1 = ty s2 ->
  exists s, addSet eqb s1 s2 = Ok s /\ wf_set s /\ ty s = ty s1 /\
    (exists tl, seqs s = seqs s1 ++ tl) /\
    (forall x, In x (seqs s) <-> In x (seqs s1) \/ In x (seqs s2)) /\
    (forall x, mult eqb s x = (mult eqb s1 x + mult eqb s2 x)%Z).
Proof.
  intros [L N] L2 T. unfold addSet. rewrite <- T.
  assert (optZ_eqb (ty s1) (ty s1) = true) as -> by (destruct (ty s1); cbn; [apply Z.eqb_refl|reflexivity]).
  cbn [negb]. pose proof (addSet_fold (combine (seqs s2) (times s2)) (seqs s1) (times s1) L N) as F.
  destruct (fold_left (addSet_step eqb) (combine (seqs s2) (times s2)) (seqs s1, times s1)) as [ss ts].
  destruct F as (F1 & F2 & F3 & F4 & F5).
  eexists; split; [reflexivity|]. cbn. split; [split; assumption|]. split; [reflexivity|]. split; [exact F3|].
  split; [|exact F5]. intros x. rewrite F4, combine_map_fst by exact L2. reflexivity.
Qed.

Lemma optZ_eqb_iff a b : optZ_eqb a b = true <-> a = b.
Proof. destruct a, b; cbn; rewrite ?Z.eqb_eq; split; congruence. Qed.
Lemma addSet_type_error s1 s2 : ty s1 <> ty s2 -> addSet eqb s1 s2 = Err TypeError.
Proof.
  intros T. unfold addSet. destruct (optZ_eqb (ty s1) (ty s2)) eqn:E; [|reflexivity].
  apply optZ_eqb_iff in E. contradiction.
Qed.

(** ** isEqual *)
Lemma isEqual_loop_spec l s2 :
  wf_set s2 -> NoDup (map fst l) ->
  (exists b, isEqual_loop eqb l s2 = Ok b) /\
  (isEqual_loop eqb l s2 = Ok true <->
   forall x t, In (x, t) l -> In x (seqs s2) /\ mult eqb s2 x = t).
Proof.
  intros [L2 N2]. induction l as [|[x t] l IH]; intros N.
  - cbn. split; [eauto|]. split; [intros _ x t []|reflexivity].
  - cbn in N. inversion N as [|? ? Nx Nl]; subst. destruct (IH Nl) as [[b Hb] IH']. cbn [isEqual_loop].
    destruct (index_of eqb x (seqs s2)) as [i|] eqn:E.
    + pose proof (index_of_Some _ _ _ E) as E'.
      assert (Li : i < length (seqs s2)) by (apply nth_error_Some; congruence).
      destruct (nth_error (times s2) i) as [t2|] eqn:T2; [|apply nth_error_None in T2; lia].
      assert (M : mult eqb s2 x = t2).
      { unfold mult. apply wmult_nth with i.
        - rewrite combine_map_fst by exact L2. exact N2.
        - clear - E' T2. revert i E' T2. generalize (times s2). induction (seqs s2) as [|y ss IH]; intros [|u ts] [|i] E T; cbn in *; try discriminate.
          + congruence.
          + apply IH; assumption. }
      destruct (t =? t2)%Z eqn:Et.
      * apply Z.eqb_eq in Et. rewrite <- Et in M. split; [eauto|]. rewrite IH'. split.
        -- intros H y u [[= <- <-]|I]; [split; [apply nth_error_In with i; exact E'|exact M]|apply H; exact I].
        -- intros H y u I. apply H. right; exact I.
      * apply Z.eqb_neq in Et. split; [eauto|]. split; [discriminate|]. intros H.
        destruct (H x t (or_introl eq_refl)) as [_ H']. congruence.
    + apply index_of_None in E. split; [eauto|]. split; [discriminate|]. intros H.
      destruct (H x t (or_introl eq_refl)) as [H' _]. contradiction.
Qed.

Lemma NoDup_incl_length_eq (l m : list A) : NoDup l -> incl l m -> length m <= length l -> incl m l.
Proof. intros N I L. apply NoDup_length_incl; assumption. Qed.

Lemma zsum_mult ss ts : NoDup ss -> length ts = length ss ->
  zsum ts = zsum (map (fun x => wmult eqb x (combine ss ts)) ss).
Proof.
  intros N L. f_equal. symmetry.
  assert (G : forall i, nth_error (map (fun x => wmult eqb x (combine ss ts)) ss) i = nth_error ts i).
  { intros i. destruct (nth_error ss i) as [x|] eqn:E.
    - rewrite (map_nth_error _ _ _ E).
      destruct (nth_error ts i) as [t|] eqn:T.
      + f_equal. apply wmult_nth with i; [rewrite combine_map_fst; assumption|].
        clear N L. revert ts i E T. induction ss as [|y ss IH]; intros [|u ts] [|i] E T; cbn in *; try discriminate; [congruence|apply IH; assumption].
      + apply nth_error_None in T. assert (i < length ss) by (apply nth_error_Some; congruence). lia.
    - apply nth_error_None in E. assert (nth_error ts i = None) as -> by (apply nth_error_None; lia).
      apply nth_error_None. rewrite map_length. exact E. }
  clear N L. revert G. generalize (map (fun x => wmult eqb x (combine ss ts)) ss) as l. generalize ts as m. clear.
  induction m as [|a m IH]; intros [|b l] G; [reflexivity|specialize (G 0); discriminate|specialize (G 0); discriminate|].
  f_equal; [specialize (G 0); cbn in G; congruence|]. apply IH. intros i. exact (G (S i)).
Qed.
Lemma zsum_perm l m : Permutation l m -> zsum l = zsum m.
Proof. induction 1; cbn; lia. Qed.

Lemma isEqual_spec s1 s2 : wf_set s1 -> wf_set s2 ->
  (exists b, isEqual eqb s1 s2 = Ok b) /\
  (isEqual eqb s1 s2 = Ok true <->
   ty s1 = ty s2 /\ (forall x, In x (seqs s1) <-> In x (seqs s2)) /\
   (forall x, mult eqb s1 x = mult eqb s2 x)).
Proof.
  intros [L1 N1] [L2 N2]. unfold isEqual.
  destruct (optZ_eqb (ty s1) (ty s2)) eqn:ET; cbn [negb].
  2:{ split; [eauto|]. split; [discriminate|]. intros [T _]. apply optZ_eqb_iff in T. congruence. }
  apply optZ_eqb_iff in ET.
  assert (NC : NoDup (map fst (combine (seqs s1) (times s1)))) by (rewrite combine_map_fst; assumption).
  destruct (isEqual_loop_spec (combine (seqs s1) (times s1)) s2 (conj L2 N2) NC) as [Tot Loop].
  assert (Cond : (forall x t, In (x, t) (combine (seqs s1) (times s1)) -> In x (seqs s2) /\ mult eqb s2 x = t) <->
                 (forall x, In x (seqs s1) -> In x (seqs s2) /\ mult eqb s2 x = mult eqb s1 x)).
  { split; intros H.
    - intros x I. apply In_nth_error in I as [i E].
      destruct (nth_error (times s1) i) as [t|] eqn:T.
      2:{ apply nth_error_None in T. assert (i < length (seqs s1)) by (apply nth_error_Some; congruence). lia. }
      assert (C : nth_error (combine (seqs s1) (times s1)) i = Some (x, t)).
      { clear - E T. revert i E T. generalize (times s1). induction (seqs s1) as [|y ss IH]; intros [|u ts] [|i] E T; cbn in *; try discriminate; [congruence|apply IH; assumption]. }
      destruct (H x t (nth_error_In _ _ C)) as [I2 M]. split; [exact I2|]. rewrite M.
      symmetry. apply wmult_nth with i; assumption.
    - intros x t I. destruct (H x) as [I2 M].
      { apply (in_map fst) in I. rewrite combine_map_fst in I by exact L1. exact I. }
      split; [exact I2|]. rewrite M. apply In_nth_error in I as [i E]. apply wmult_nth with i; assumption. }
  assert (Fwd : (ty s1 = ty s2 /\ (forall x, In x (seqs s1) <-> In x (seqs s2)) /\ (forall x, mult eqb s1 x = mult eqb s2 x)) ->
    zsum (times s1) = zsum (times s2) /\ length (seqs s1) = length (seqs s2) /\
    length (filter (fun i => memb eqb i (seqs s2)) (seqs s1)) = length (seqs s2)).
  { intros (_ & I & M).
    assert (P : Permutation (seqs s1) (seqs s2)) by (apply NoDup_Permutation; assumption).
    split; [|split].
    - rewrite (zsum_mult (seqs s1) (times s1) N1 L1), (zsum_mult (seqs s2) (times s2) N2 L2).
      erewrite map_ext by (intros x; exact (M x)). apply zsum_perm, Permutation_map, P.
    - apply Permutation_length, P.
    - rewrite <- (Permutation_length P). f_equal.
      assert (F : forall l, (forall x, In x l -> In x (seqs s2)) -> filter (fun i => memb eqb i (seqs s2)) l = l).
      { induction l as [|y l IH]; intros Hl; [reflexivity|]. cbn.
        assert (memb eqb y (seqs s2) = true) as -> by (apply memb_In, Hl; left; reflexivity).
        f_equal. apply IH. intros; apply Hl; right; assumption. }
      apply F. intros x; apply I. }
  destruct (zsum (times s1) =? zsum (times s2))%Z eqn:EZ; cbn [negb].
  2:{ split; [eauto|]. split; [discriminate|]. intros H. apply Fwd in H as [H _]. apply Z.eqb_neq in EZ. contradiction. }
  destruct (length (seqs s1) =? length (seqs s2)) eqn:EL; cbn [negb].
  2:{ split; [eauto|]. split; [discriminate|]. intros H. apply Fwd in H as [_ [H _]]. apply Nat.eqb_neq in EL. contradiction. }
  destruct (length (filter (fun i => memb eqb i (seqs s2)) (seqs s1)) =? length (seqs s2)) eqn:EF; cbn [negb].
  2:{ split; [eauto|]. split; [discriminate|]. intros H. apply Fwd in H as [_ [_ H]]. apply Nat.eqb_neq in EF. contradiction. }
  split; [exact Tot|]. rewrite Loop, Cond. apply Nat.eqb_eq in EL.
  split.
  - intros H. split; [exact ET|].
    assert (I12 : incl (seqs s1) (seqs s2)) by (intros x I; apply H; exact I).
    assert (I21 : incl (seqs s2) (seqs s1)) by (apply NoDup_incl_length_eq; [exact N1|exact I12|lia]).
    split; [intros x; split; [apply I12|apply I21]|].
    intros x. destruct (memb eqb x (seqs s1)) eqn:M.
    + apply memb_In in M. symmetry; apply H, M.
    + apply memb_notIn in M. unfold mult. rewrite !wmult_notin; [reflexivity| |].
      * rewrite combine_map_fst by exact L2. intros I; apply M, I21, I.
      * rewrite combine_map_fst by exact L1. exact M.
  - intros (_ & I & M) x Ix. split; [apply I, Ix|symmetry; apply M].
Qed.

Lemma pos_mult_In s x : wf_set s -> pos_set s -> (In x (seqs s) <-> mult eqb s x <> 0%Z).
Proof.
  intros [L N] P. split.
  - intros I. apply In_nth_error in I as [i E].
    destruct (nth_error (times s) i) as [t|] eqn:T.
    2:{ apply nth_error_None in T. assert (i < length (seqs s)) by (apply nth_error_Some; congruence). lia. }
    assert (C : nth_error (combine (seqs s) (times s)) i = Some (x, t)).
    { clear - E T. revert i E T. generalize (times s). induction (seqs s) as [|y ss IH]; intros [|u ts] [|i] E T; cbn in *; try discriminate; [congruence|apply IH; assumption]. }
    unfold mult. rewrite (wmult_nth _ i x t); [|rewrite combine_map_fst by exact L; exact N|exact C].
    apply nth_error_In in T. specialize (P t T). lia.
  - intros M. destruct (memb eqb x (seqs s)) eqn:E; [apply memb_In; exact E|].
    apply memb_notIn in E. exfalso; apply M. apply wmult_notin. rewrite combine_map_fst by exact L. exact E.
Qed.

Lemma isEqual_pos s1 s2 : wf_set s1 -> wf_set s2 -> pos_set s1 -> pos_set s2 ->
  (isEqual eqb s1 s2 = Ok true <-> ty s1 = ty s2 /\ forall x, mult eqb s1 x = mult eqb s2 x).
Proof.
  intros W1 W2 P1 P2. rewrite (proj2 (isEqual_spec s1 s2 W1 W2)). split.
  - intros (T & _ & M); split; assumption.
  - intros [T M]. split; [exact T|]. split; [|exact M]. intros x.
    rewrite (pos_mult_In s1 x W1 P1), (pos_mult_In s2 x W2 P2), M. reflexivity.
Qed.

(** ** sort *)
Context (leb : A -> A -> bool).
Hypothesis leb_total : forall x y, leb x y = true \/ leb y x = true.
Hypothesis leb_trans : forall x y z, leb x y = true -> leb y z = true -> leb x z = true.
Hypothesis leb_antisym : forall x y, leb x y = true -> leb y x = true -> x = y.

Lemma insert_perm p l : Permutation (p :: l) (insert eqb leb p l).
Proof.
  induction l as [|q l IH]; cbn; [apply Permutation_refl|]. destruct (pair_leb eqb leb p q); [apply Permutation_refl|].
  eapply Permutation_trans; [apply perm_swap|]. constructor; exact IH.
Qed.
Lemma isort_perm l : Permutation l (isort eqb leb l).
Proof.
  induction l as [|p l IH]; cbn; [constructor|]. eapply Permutation_trans; [|apply insert_perm]. constructor; exact IH.
Qed.
Lemma pair_leb_total p q : pair_leb eqb leb p q = true \/ pair_leb eqb leb q p = true.
Proof.
  unfold pair_leb. rewrite (eqb_sym (fst q) (fst p)). destruct (eqb (fst p) (fst q)).
  - rewrite !Z.leb_le. lia.
  - apply leb_total.
Qed.
Lemma pair_leb_trans p q r : pair_leb eqb leb p q = true -> pair_leb eqb leb q r = true -> pair_leb eqb leb p r = true.
Proof.
  destruct p as [p tp], q as [q tq], r as [r tr]. unfold pair_leb; cbn.
  destruct (eqb p q) eqn:E1, (eqb q r) eqn:E2; intros H1 H2;
    try (apply Heq in E1; subst q); try (apply Heq in E2; subst r).
  - rewrite eqb_refl. apply Z.leb_le in H1, H2. apply Z.leb_le. lia.
  - rewrite E2. exact H2.
  - rewrite E1. exact H1.
  - destruct (eqb p r) eqn:E3; [|eapply leb_trans; eassumption].
    apply Heq in E3; subst r. assert (p = q) by (apply leb_antisym; assumption). subst. rewrite eqb_refl in E1. discriminate.
Qed.
Lemma pair_leb_fst p q : pair_leb eqb leb p q = true -> leb (fst p) (fst q) = true.
Proof.
  unfold pair_leb. destruct (eqb (fst p) (fst q)) eqn:E; [|auto]. apply Heq in E. rewrite E. intros _.
  destruct (leb_total (fst q) (fst q)); assumption.
Qed.
Lemma insert_sorted p l : sorted_by (pair_leb eqb leb) l -> sorted_by (pair_leb eqb leb) (insert eqb leb p l).
Proof.
  induction l as [|q l IH]; cbn [insert sorted_by]; [intros _; split; [intros y []|exact I]|]. intros [H S].
  destruct (pair_leb eqb leb p q) eqn:E; cbn [sorted_by].
  - split; [|split; assumption]. intros y [<-|I]; [exact E|]. eapply pair_leb_trans; [exact E|apply H, I].
  - split; [|apply IH, S]. intros y I.
    apply (Permutation_in _ (Permutation_sym (insert_perm p l))) in I as [<-|I]; [|apply H, I].
    destruct (pair_leb_total p q); [congruence|assumption].
Qed.
Lemma isort_sorted l : sorted_by (pair_leb eqb leb) (isort eqb leb l).
Proof. induction l; cbn; [exact I|]. apply insert_sorted, IHl. Qed.
Lemma sorted_by_map_fst l : sorted_by (pair_leb eqb leb) l -> sorted_by leb (map fst l).
Proof.
  induction l as [|p l IH]; cbn; [tauto|]. intros [H S]. split; [|apply IH, S].
  intros y I. apply in_map_iff in I as [q [<- I]]. apply pair_leb_fst, H, I.
Qed.

Lemma combine_fst_snd {B} (l : list (A * B)) : combine (map fst l) (map snd l) = l.
Proof. induction l as [|[a b] l IH]; cbn; [reflexivity|]. rewrite IH; reflexivity. Qed.

Lemma sort_spec s : length (times s) = length (seqs s) ->
  let s' := sort eqb leb s in
  ty s' = ty s /\ length (times s') = length (seqs s') /\
  sorted_by leb (seqs s') /\
  Permutation (combine (seqs s) (times s)) (combine (seqs s') (times s')) /\
  Permutation (seqs s) (seqs s') /\
  (forall x, mult eqb s' x = mult eqb s x).
Proof.
  intros L. unfold sort. cbn.
  assert (P := isort_perm (combine (seqs s) (times s))).
  split; [reflexivity|]. split; [rewrite !map_length; reflexivity|].
  split; [apply sorted_by_map_fst, isort_sorted|].
  rewrite combine_fst_snd. split; [exact P|]. split.
  - rewrite <- (combine_map_fst (seqs s) (times s) L) at 1. apply Permutation_map, P.
  - intros x. unfold mult. cbn [seqs times]. rewrite ?combine_fst_snd. apply wmult_perm, Permutation_sym, P.
Qed.
End Basics.

(** ** Lexicographic order on traces *)
Section Lex.
Context {E : Type} (eqb leb : E -> E -> bool) (Heq : decides_eq eqb).
Hypothesis leb_total : forall x y, leb x y = true \/ leb y x = true.
Hypothesis leb_trans : forall x y z, leb x y = true -> leb y z = true -> leb x z = true.
Hypothesis leb_antisym : forall x y, leb x y = true -> leb y x = true -> x = y.

Lemma lex_eqb_decides : decides_eq (lex_eqb eqb).
Proof.
  intros l; induction l as [|a l IH]; intros [|b m]; cbn; try (split; congruence).
  rewrite andb_true_iff, (Heq a b), (IH m). split; [intros [-> ->]; reflexivity|intros [= -> ->]; split; reflexivity].
Qed.
Lemma lex_total l m : lex_leb eqb leb l m = true \/ lex_leb eqb leb m l = true.
Proof.
  revert m; induction l as [|a l IH]; intros [|b m]; cbn; auto.
  rewrite (eqb_sym eqb Heq b a). destruct (eqb a b); auto.
Qed.
Lemma lex_antisym l m : lex_leb eqb leb l m = true -> lex_leb eqb leb m l = true -> l = m.
Proof.
  revert m; induction l as [|a l IH]; intros [|b m]; cbn; auto; try discriminate.
  rewrite (eqb_sym eqb Heq b a). destruct (eqb a b) eqn:Eab.
  - apply Heq in Eab. subst b. intros H1 H2. f_equal. apply IH; assumption.
  - intros H1 H2. assert (a = b) by (apply leb_antisym; assumption). subst. rewrite (eqb_refl eqb Heq) in Eab. discriminate.
Qed.
Lemma lex_trans l m k : lex_leb eqb leb l m = true -> lex_leb eqb leb m k = true -> lex_leb eqb leb l k = true.
Proof.
  revert m k; induction l as [|a l IH]; intros [|b m] [|c k]; cbn; auto; try discriminate.
  destruct (eqb a b) eqn:Eab, (eqb b c) eqn:Ebc; intros H1 H2.
  - apply Heq in Eab, Ebc. subst. rewrite (eqb_refl eqb Heq). eapply IH; eassumption.
  - apply Heq in Eab. subst. rewrite Ebc. exact H2.
  - apply Heq in Ebc. subst. rewrite Eab. exact H1.
  - destruct (eqb a c) eqn:Eac; [|eapply leb_trans; eassumption].
    apply Heq in Eac. subst c. assert (a = b) by (apply leb_antisym; assumption). subst.
    rewrite (eqb_refl eqb Heq) in Eab. discriminate.
Qed.
End Lex.

Lemma string_eqb_decides : decides_eq String.eqb.
Proof. intros x y; apply String.eqb_eq. Qed.
Lemma string_leb_total x y : String.leb x y = true \/ String.leb y x = true.
Proof. destruct (String.leb_total x y); auto. Qed.
Lemma string_leb_antisym x y : String.leb x y = true -> String.leb y x = true -> x = y.
Proof. apply String.leb_antisym. Qed.
Lemma ascii_compare_lt_trans a b c : Ascii.compare a b = Lt -> Ascii.compare b c = Lt -> Ascii.compare a c = Lt.
Proof. unfold Ascii.compare. rewrite !N.compare_lt_iff. apply N.lt_trans. Qed.
Lemma string_compare_lt_trans x y z : String.compare x y = Lt -> String.compare y z = Lt -> String.compare x z = Lt.
Proof.
  revert y z; induction x as [|a x IH]; intros [|b y] [|c z]; cbn; try discriminate; auto.
  destruct (Ascii.compare a b) eqn:E1; try discriminate; destruct (Ascii.compare b c) eqn:E2; try discriminate.
  - apply Ascii.compare_eq_iff in E1, E2. subst. unfold Ascii.compare. rewrite N.compare_refl. apply IH.
  - apply Ascii.compare_eq_iff in E1. subst. rewrite E2. reflexivity.
  - apply Ascii.compare_eq_iff in E2. subst. rewrite E1. reflexivity.
  - rewrite (ascii_compare_lt_trans _ _ _ E1 E2). reflexivity.
Qed.
Lemma string_leb_trans x y z : String.leb x y = true -> String.leb y z = true -> String.leb x z = true.
Proof.
  unfold String.leb. destruct (String.compare x y) eqn:E1; try discriminate; destruct (String.compare y z) eqn:E2; try discriminate; intros _ _.
  - apply String.compare_eq_iff in E1, E2. subst.
    destruct (String.compare z z) eqn:E; [reflexivity|reflexivity|].
    pose proof (String.compare_antisym z z) as H. rewrite E in H. discriminate.
  - apply String.compare_eq_iff in E1. subst. rewrite E2. reflexivity.
  - apply String.compare_eq_iff in E2. subst. rewrite E1. reflexivity.
  - rewrite (string_compare_lt_trans _ _ _ E1 E2). reflexivity.
Qed.

(** ** Alphabets *)
Section Alpha.
Context {E : Type} (eqb : E -> E -> bool) (Heq : decides_eq eqb).

Lemma range2_In m i : In i (range2 m) <-> exists k, i = 2 * k /\ 2 * k < m.
Proof.
  unfold range2. rewrite in_map_iff. split.
  - intros [k [<- I]]. apply in_seq in I. exists k. split; [reflexivity|].
    assert (k < (m + 1) / 2) by lia. pose proof (Nat.div_mod (m + 1) 2 ltac:(lia)). lia.
  - intros [k [-> L]]. exists k. split; [reflexivity|]. apply in_seq.
    pose proof (Nat.div_mod (m + 1) 2 ltac:(lia)). pose proof (Nat.mod_upper_bound (m + 1) 2 ltac:(lia)). lia.
Qed.
Lemma pick2_In (l : list E) m d x :
  In x (pick2 l m d) <-> exists k, 2 * k < m /\ nth_error l (2 * k + d) = Some x.
Proof.
  unfold pick2. rewrite in_flat_map. split.
  - intros [i [I X]]. apply range2_In in I as [k [-> L]]. exists k. split; [exact L|].
    destruct (nth_error l (2 * k + d)); [destruct X as [->|[]]; reflexivity|destruct X].
  - intros [k [L X]]. exists (2 * k). split; [apply range2_In; eauto|]. rewrite X. left; reflexivity.
Qed.

Lemma dedup_exact l : NoDup (dedup eqb l) /\ forall x, In x (dedup eqb l) <-> In x l.
Proof.
  rewrite (dedup_first_occ eqb Heq). split; [apply (first_occ_NoDup eqb Heq)|]. intros x; apply (first_occ_In eqb Heq).
Qed.

Lemma ao_fold (ss : list (list E)) acc :
  (forall s, In s ss -> Nat.odd (length s) = true) ->
  exists r, mfold (fun (acc : list E * list E) (s : list E) =>
                   match nth_error s (length s - 1) with
                   | None => Err IndexError
                   | Some last =>
                       Ok (fst acc ++ pick2 s (length s - 1) 1,
                           snd acc ++ pick2 s (length s - 1) 0 ++ [last])
                   end) ss acc = Ok r /\
    (forall x, In x (fst r) <-> In x (fst acc) \/ at_odd ss x) /\
    (forall x, In x (snd r) <-> In x (snd acc) \/ at_even ss x).
Proof.
  revert acc; induction ss as [|s ss IH]; intros acc O.
  - exists acc. split; [reflexivity|]. split; intros x; split; auto; intros [I|(s & k & [] & _)]; assumption.
  - assert (Os : Nat.odd (length s) = true) by (apply O; left; reflexivity).
    apply Nat.odd_spec in Os as [h Hh]. cbn [mfold].
    destruct (nth_error s (length s - 1)) as [last|] eqn:El; [|apply nth_error_None in El; lia].
    cbn [bind].
    destruct (IH (fst acc ++ pick2 s (length s - 1) 1, snd acc ++ pick2 s (length s - 1) 0 ++ [last])) as [r [Er [R1 R2]]].
    { intros t I; apply O; right; exact I. }
    exists r. split; [exact Er|]. cbn [fst snd] in *. split; intros x.
    + rewrite R1, in_app_iff, pick2_In. split.
      * intros [[I|[k [L X]]]|[t [k [I X]]]]; [left; exact I| |].
        -- right; exists s, k; split; [left; reflexivity|exact X].
        -- right; exists t, k; split; [right; exact I|exact X].
      * intros [I|[t [k [[<-|I] X]]]]; [left; left; exact I| |].
        -- left; right; exists k. split; [|exact X]. assert (2 * k + 1 < length s) by (apply nth_error_Some; congruence). lia.
        -- right; exists t, k; auto.
    + rewrite R2, !in_app_iff, pick2_In. split.
      * intros [[I|[[k [L X]]|[<-|[]]]]|[t [k [I X]]]]; [left; exact I| | |].
        -- right; exists s, k; split; [left; reflexivity|]. rewrite Nat.add_0_r in X. exact X.
        -- right; exists s, h; split; [left; reflexivity|]. replace (length s - 1) with (2 * h) in El by lia. exact El.
        -- right; exists t, k; split; [right; exact I|exact X].
      * intros [I|[t [k [[<-|I] X]]]]; [left; left; exact I| |].
        -- left; right. assert (2 * k < length s) by (apply nth_error_Some; congruence).
           destruct (Nat.eq_dec (2 * k) (length s - 1)) as [e|n].
           ++ right; left. rewrite e in X. congruence.
           ++ left. exists k. rewrite Nat.add_0_r. split; [lia|exact X].
        -- right; exists t, k; auto.
Qed.

Lemma actions_observations_exact (ss : list (list E)) :
  (forall s, In s ss -> Nat.odd (length s) = true) ->
  exists acts obs, actions_observations eqb ss = Ok (acts, obs) /\
    NoDup acts /\ NoDup obs /\
    (forall x, In x acts <-> at_odd ss x) /\ (forall x, In x obs <-> at_even ss x).
Proof.
  intros O. unfold actions_observations. destruct (ao_fold ss ([], []) O) as [r [-> [R1 R2]]].
  cbn [bind]. exists (dedup eqb (fst r)), (dedup eqb (snd r)).
  destruct (dedup_exact (fst r)) as [N1 D1], (dedup_exact (snd r)) as [N2 D2].
  split; [reflexivity|]. split; [exact N1|]. split; [exact N2|]. split; intros x.
  - rewrite D1, R1. cbn. tauto.
  - rewrite D2, R2. cbn. tauto.
Qed.

Lemma getAlphabet_timed (s : tset (list E)) : ty s = Some 4%Z ->
  exists al, getAlphabet eqb s = Ok al /\ NoDup al /\ forall x, In x al <-> at_even (seqs s) x.
Proof.
  intros T. unfold getAlphabet. rewrite T. eexists; split; [reflexivity|].
  match goal with |- context [dedup eqb ?l] => destruct (dedup_exact l) as [N D] end.
  split; [exact N|]. intros x. rewrite D, in_flat_map. split.
  - intros [t [I X]]. apply pick2_In in X as [k [_ X]]. rewrite Nat.add_0_r in X. exists t, k. auto.
  - intros [t [k [I X]]]. exists t. split; [exact I|]. apply pick2_In. exists k. rewrite Nat.add_0_r.
    split; [|exact X]. apply nth_error_Some. congruence.
Qed.
Lemma getAlphabet_untimed (s : tset (list E)) : ty s = Some 0%Z ->
  exists al, getAlphabet eqb s = Ok al /\ NoDup al /\
    forall x, In x al <-> exists t, In t (seqs s) /\ In x t.
Proof.
  intros T. unfold getAlphabet. rewrite T. eexists; split; [reflexivity|].
  match goal with |- context [dedup eqb ?l] => destruct (dedup_exact l) as [N D] end.
  split; [exact N|]. intros x. rewrite D, in_concat. reflexivity.
Qed.
Lemma getAlphabet_mdp (s : tset (list E)) : ty s = Some 1%Z ->
  (forall t, In t (seqs s) -> Nat.odd (length t) = true) ->
  exists al, getAlphabet eqb s = Ok al /\ NoDup al /\ forall x, In x al <-> at_even (seqs s) x.
Proof.
  intros T O. unfold getAlphabet. rewrite T.
  destruct (actions_observations_exact (seqs s) O) as (acts & obs & -> & _ & N & _ & D).
  cbn [bind snd]. exists obs. auto.
Qed.
End Alpha.

(** ** Type inference *)
Lemma infer_type_ok {F} (v0 v1 : pv F) rest :
  infer_type (v0 :: v1 :: rest) =
  Ok (match v0, v1 with VStr _, VFlt _ => 4 | VVec _, _ => 3 | _, _ => 0 end)%Z.
Proof. destruct v0, v1; reflexivity. Qed.

(** The tree built by IOAlergia. *)
From Coq Require Import String ZArith Reals Lia Bool List Permutation Sorted.
From Verif Require Import Num Py MTools MSet MModels MCtor SSet LSet LCtor SAlergia MAlergia LAlergia LAlergia2 LAlergia3 LAlergia4 MIOAlergia LIOAlergia LIOAlergia2 LIOAlergia3.
Import ListNotations.

Lemma trace_eqb_iff x y : trace_eqb x y = true <-> x = y.
Proof. apply (lex_eqb_decides String.eqb string_eqb_decides). Qed.
Lemma trace_eqb_refl x : trace_eqb x x = true.
Proof. apply trace_eqb_iff. reflexivity. Qed.
Lemma trace_eqb_false x y : trace_eqb x y = false <-> x <> y.
Proof. rewrite <- trace_eqb_iff. destruct (trace_eqb x y); split; congruence. Qed.

(** ** Counting the prefixes *)
Definition mass (l : list (list string * Z)) (w : list string) : Z := zs l (fun vc => if trace_eqb (fst vc) w then snd vc else 0%Z).
Lemma mass_In l v c : NoDup (map fst l) -> In (v, c) l -> mass l v = c.
Proof.
  unfold mass. induction l as [|(u, d) l IH]; cbn [map fst]; [intros _ []|]. intros ND. inversion ND as [|? ? NI ND']; subst. rewrite zs_cons. cbn [fst snd].
  intros [[= -> ->]|I].
  - rewrite trace_eqb_refl. rewrite zs_zero; [lia|]. intros (u, d) I. cbn [fst snd]. destruct (trace_eqb u v) eqn:E; [|reflexivity]. apply trace_eqb_iff in E. subst. exfalso. apply NI. apply in_map_iff. exists (v, d). auto.
  - destruct (trace_eqb u v) eqn:E; [|rewrite (IH ND' I); lia]. apply trace_eqb_iff in E. subst. exfalso. apply NI. apply in_map_iff. exists (v, c). auto.
Qed.
Lemma count_in_spec w n l : NoDup (map fst l) -> NoDup (map fst (count_in trace_eqb w n l)) /\
  (forall v, In v (map fst (count_in trace_eqb w n l)) <-> v = w \/ In v (map fst l)) /\
  forall v, mass (count_in trace_eqb w n l) v = (mass l v + if trace_eqb w v then n else 0)%Z.
Proof.
  unfold mass. induction l as [|(u, d) l IH]; intros ND.
  - cbn. split; [constructor; [intros []|constructor]|]. split; [intros v; intuition congruence|]. intros v. lia.
  - cbn [map fst] in ND. inversion ND as [|? ? NI ND']; subst. destruct (IH ND') as (A & B & C). cbn [count_in]. destruct (trace_eqb w u) eqn:E.
    + apply trace_eqb_iff in E. subst u. cbn [map fst]. split; [exact ND|]. split; [cbn; intros v; intuition congruence|].
      intros v. rewrite !zs_cons. cbn [fst snd]. destruct (trace_eqb w v); lia.
    + apply trace_eqb_false in E. cbn [map fst]. split.
      * constructor; [|exact A]. rewrite B. intros [Q|Q]; [congruence|contradiction].
      * split; [intros v; cbn; rewrite B; tauto|]. intros v. rewrite !zs_cons, C. cbn [fst snd]. lia.
Qed.
Lemma count_fold l (n : Z) (t : list string) : forall acc, NoDup (map fst acc) ->
  let acc' := fold_left (fun acc i => count_in trace_eqb (firstn (i + 1) t) n acc) l acc in
  NoDup (map fst acc') /\ (forall v, In v (map fst acc') <-> (exists i, In i l /\ v = firstn (i + 1) t) \/ In v (map fst acc)) /\
  forall v, mass acc' v = (mass acc v + zs l (fun i => if trace_eqb (firstn (i + 1) t) v then n else 0))%Z.
Proof.
  induction l as [|i l IH]; intros acc ND; cbn zeta; cbn [fold_left].
  - split; [exact ND|]. split; [|intros v; cbn; lia]. intros v. split; [auto|intros [(i & [] & _)|I]; exact I].
  - destruct (count_in_spec (firstn (i + 1) t) n acc ND) as (A & B & C). destruct (IH _ A) as (A' & B' & C'). split; [exact A'|]. split.
    + intros v. rewrite B', B. split.
      * intros [(j & I & E)|[E|I]]; [left; exists j; split; [right|]; auto|left; exists i; split; [left|]; auto|auto].
      * intros [(j & [<-|I] & E)|I]; [auto|left; eauto|auto].
    + intros v. rewrite C', C, zs_cons. lia.
Qed.
Lemma seq_range2 m : NoDup (range2 m).
Proof. unfold range2. apply FinFun.Injective_map_NoDup; [intros x y E; lia|apply seq_NoDup]. Qed.
Lemma odd_prefixes t n v : Nat.odd (length v) = true ->
  zs (range2 (length t)) (fun i => if trace_eqb (firstn (i + 1) t) v then n else 0%Z) = if starts v t then n else 0%Z.
Proof.
  intros O. apply Nat.odd_spec in O as (k & Ek).
  transitivity (zs (range2 (length t)) (fun i => if (i =? 2 * k)%nat then if starts v t then n else 0%Z else 0%Z)).
  - apply zs_ext. intros i I. apply range2_In in I as (j & -> & Lj). destruct (trace_eqb (firstn (2 * j + 1) t) v) eqn:E.
    + apply trace_eqb_iff in E. assert (L : length v = (2 * j + 1)%nat) by (rewrite <- E, firstn_length; lia). replace k with j by lia. rewrite Nat.eqb_refl.
      assert (starts v t = true) as ->; [|reflexivity]. apply starts_firstn. rewrite L, E. split; [reflexivity|]. lia.
    + apply trace_eqb_false in E. destruct (Nat.eqb_spec (2 * j) (2 * k)) as [Q|]; [|reflexivity]. destruct (starts v t) eqn:S; [|reflexivity]. exfalso. apply E.
      apply starts_firstn in S as (S & L). transitivity (firstn (length v) t); [f_equal; lia|symmetry; exact S].
  - rewrite zs_single by apply seq_range2. destruct (in_dec _ _ _) as [|NI]; [reflexivity|]. destruct (starts v t) eqn:S; [|reflexivity]. exfalso. apply NI, range2_In.
    exists k. split; [reflexivity|]. apply starts_firstn in S as (_ & L). lia.
Qed.
Lemma prefix_counts_spec T : NoDup (map fst (prefix_counts trace_eqb T)) /\
  (forall v, In v (map fst (prefix_counts trace_eqb T)) <-> Nat.odd (length v) = true /\ exists t n, In (t, n) T /\ starts v t = true) /\
  forall v c, In (v, c) (prefix_counts trace_eqb T) -> c = pcount T v.
Proof.
  assert (G : forall T2 T1 acc, NoDup (map fst acc) -> (forall v, In v (map fst acc) <-> Nat.odd (length v) = true /\ exists t n, In (t, n) T1 /\ starts v t = true) ->
    (forall v, Nat.odd (length v) = true -> mass acc v = pcount T1 v) ->
    let acc' := fold_left (fun acc tm => fold_left (fun acc i => count_in trace_eqb (firstn (i + 1) (fst tm)) (snd tm) acc) (range2 (length (fst tm))) acc) T2 acc in
    NoDup (map fst acc') /\ (forall v, In v (map fst acc') <-> Nat.odd (length v) = true /\ exists t n, In (t, n) (T1 ++ T2) /\ starts v t = true) /\
    (forall v, Nat.odd (length v) = true -> mass acc' v = pcount (T1 ++ T2) v)).
  { induction T2 as [|(t, n) T2 IH]; intros T1 acc A B C; cbn zeta; cbn [fold_left]; [rewrite app_nil_r; auto|].
    destruct (count_fold (range2 (length t)) n t acc A) as (A' & B' & C'). cbn [fst snd].
    replace (T1 ++ (t, n) :: T2) with ((T1 ++ [(t, n)]) ++ T2) by (rewrite <- app_assoc; reflexivity). apply IH; [exact A'| |].
    - intros v. rewrite B', B. split.
      + intros [(i & I & ->)|(O & u & m & I & S)].
        * apply range2_In in I as (k & -> & L). split.
          -- apply Nat.odd_spec. exists k. rewrite firstn_length. lia.
          -- exists t, n. split; [apply in_or_app; right; left; reflexivity|]. apply starts_firstn. rewrite firstn_length, Nat.min_l by lia. split; [reflexivity|]. lia.
        * split; [exact O|]. exists u, m. split; [apply in_or_app; left; exact I|exact S].
      + intros (O & u & m & I & S). apply in_app_or in I as [I|[[= <- <-]|[]]]; [right; eauto 6|left].
        apply Nat.odd_spec in O as (k & Ek). apply starts_firstn in S as (S & L). exists (2 * k)%nat. split; [apply range2_In; exists k; split; [reflexivity|lia]|]. rewrite S at 1. f_equal. lia.
    - intros v O. rewrite C', (C v O), (odd_prefixes t n v O), pcount_app. cbn. lia. }
  destruct (G T [] []) as (A & B & C).
  - constructor.
  - intros v. split; [intros []|intros (_ & t & n & [] & _)].
  - intros v _. reflexivity.
  - cbn [app] in *. split; [exact A|]. split; [exact B|]. intros v c I. rewrite <- (mass_In _ v c A I). apply C. apply (B v). apply in_map_iff. exists (v, c). auto.
Qed.

(** ** Sorting *)
Section Sort.
  Context {A} (leb : A -> A -> bool) (TOT : forall x y, leb x y = true \/ leb y x = true) (TRA : forall x y z, leb x y = true -> leb y z = true -> leb x z = true).
  Lemma ins_sorted_by x l : sorted_by leb l -> sorted_by leb (ins leb x l).
  Proof.
    induction l as [|y l IH]; cbn [ins sorted_by]; [intros _; split; [intros y []|exact I]|]. intros (P & S). destruct (leb x y) eqn:E; cbn [sorted_by].
    - split; [|auto]. intros z [<-|J]; [exact E|apply (TRA x y z E), P, J].
    - split; [|apply IH, S]. intros z J. apply (Permutation_in z (Permutation_sym (ins_perm leb x l))) in J. destruct J as [<-|J]; [destruct (TOT x y); [congruence|assumption]|apply P, J].
  Qed.
  Lemma isort_sorted_by l : sorted_by leb (isort_list leb l).
  Proof. induction l as [|x l IH]; [exact I|]. cbn. apply ins_sorted_by, IH. Qed.
  Lemma sorted_by_nth l d : sorted_by leb l -> forall i j, (i < j < length l)%nat -> leb (nth i l d) (nth j l d) = true.
  Proof.
    induction l as [|x l IH]; intros S i j L; [cbn in L; lia|]. destruct S as (P & S). destruct j as [|j]; [lia|]. cbn in L. destruct i as [|i]; cbn.
    - apply P, nth_In. lia.
    - apply IH; [exact S|lia].
  Qed.
End Sort.

Lemma starts_leb w u : trace_leb w (w ++ u) = true.
Proof. induction w as [|a w IH]; [reflexivity|]. cbn. assert (String.eqb a a = true) as -> by apply String.eqb_refl. exact IH. Qed.

Lemma fold_left_in {A B} (f g : A -> B -> A) l : (forall a x, In x l -> f a x = g a x) -> forall a, fold_left f l a = fold_left g l a.
Proof. induction l as [|x l IH]; intros H a; [reflexivity|]. cbn. rewrite H by (left; reflexivity). apply IH. intros b y I. apply H. right; exact I. Qed.
Lemma fold_filter {A B} (f : A -> B -> A) (p : B -> bool) l : forall a, fold_left f (filter p l) a = fold_left (fun a x => if p x then f a x else a) l a.
Proof. induction l as [|x l IH]; intros a; [reflexivity|]. cbn. destruct (p x); cbn; apply IH. Qed.

(** ** The tree *)
Section Build.
  Context (T : list (list string * Z)).
  Let ls := label_sort trace_leb (prefix_counts trace_eqb T).
  Let ps := map fst ls.
  Let N := length ls.
  Let h := fst (buildIOFPTA trace_eqb trace_leb T).

  Lemma ps_nth s : (s < N)%nat -> nth s ps [] = fst (nth s ls ([], 0%Z)).
  Proof. intros L. exact (map_nth fst ls ([], 0%Z) s). Qed.
  Lemma ps_length : length ps = N.
  Proof. apply map_length. Qed.
  Lemma ps_NoDup : NoDup ps.
  Proof. eapply Permutation_NoDup; [apply Permutation_map, isort_perm|apply prefix_counts_spec]. Qed.
  Lemma ps_In w : In w ps <-> Nat.odd (length w) = true /\ exists t n, In (t, n) T /\ starts w t = true.
  Proof.
    rewrite <- (proj1 (proj2 (prefix_counts_spec T)) w). unfold ps, ls, label_sort. split; apply Permutation_in; [symmetry|]; apply Permutation_map, isort_perm.
  Qed.
  Lemma ls_count s : (s < N)%nat -> snd (nth s ls ([], 0%Z)) = pcount T (nth s ps []).
  Proof.
    intros L. rewrite (ps_nth s L). destruct (nth s ls ([], 0%Z)) as (v, c) eqn:E. cbn [fst snd]. apply (proj2 (proj2 (prefix_counts_spec T)) v c).
    apply (Permutation_in (v, c) (Permutation_sym (isort_perm (fun x y => trace_leb (fst x) (fst y)) _))). rewrite <- E. apply nth_In, L.
  Qed.
  Lemma ps_inj i j : (i < N)%nat -> (j < N)%nat -> nth i ps [] = nth j ps [] -> i = j.
  Proof. intros L1 L2 E. rewrite <- ps_length in L1, L2. apply (proj1 (NoDup_nth ps []) ps_NoDup i j L1 L2 E). Qed.
  Lemma ps_prefix_lt i j u : (i < N)%nat -> (j < N)%nat -> u <> [] -> nth j ps [] = nth i ps [] ++ u -> (i < j)%nat.
  Proof.
    intros L1 L2 NE E. destruct (Nat.lt_trichotomy i j) as [L|[->|L]]; [exact L| |].
    - exfalso. apply (f_equal (@length string)) in E. rewrite app_length in E. destruct u; [congruence|]. cbn in E. lia.
    - exfalso. assert (Q : trace_leb (nth j ps []) (nth i ps []) = true).
      { rewrite !ps_nth by assumption. apply (sorted_by_nth (fun x y => trace_leb (fst x) (fst y)) ls ([], 0%Z)); [|unfold N in *; lia].
        apply isort_sorted_by.
        - intros x y. apply (lex_total String.eqb String.leb string_eqb_decides string_leb_total).
        - intros x y z. apply (lex_trans String.eqb String.leb string_eqb_decides string_leb_trans string_leb_antisym). }
      assert (P : trace_leb (nth i ps []) (nth j ps []) = true) by (rewrite E; apply starts_leb).
      pose proof (lex_antisym String.eqb String.leb string_eqb_decides string_leb_antisym _ _ P Q). apply ps_inj in H; auto. lia.
  Qed.
  Lemma ps_odd i : (i < N)%nat -> Nat.odd (length (nth i ps [])) = true.
  Proof. intros L. apply ps_In, nth_In. rewrite ps_length. exact L. Qed.
  Lemma ps_down w u : Nat.odd (length w) = true -> In (w ++ u) ps -> In w ps.
  Proof.
    intros O I. apply ps_In in I as (_ & t & n & I & S). apply ps_In. split; [exact O|]. exists t, n. split; [exact I|].
    apply (starts_trans w (w ++ u) t); [apply starts_app|exact S].
  Qed.

  Lemma h_length : length h = N.
  Proof. unfold h, buildIOFPTA. cbn [fst]. rewrite map_length, seq_length. reflexivity. Qed.
  Lemma h_nth s : (s < N)%nat -> io h s = mkIO (last (nth s ps []) EmptyString) (pcount T (nth s ps [])) (nth s ps []) (tree_trans trace_eqb ls s).
  Proof.
    intros L. unfold io, h, buildIOFPTA. cbn [fst]. fold ls. fold N.
    set (F := fun s0 : nat => _). rewrite (nth_indep _ no_io (F O)) by (rewrite map_length, seq_length; exact L).
    rewrite (map_nth F). rewrite seq_nth by exact L. unfold F. cbn [Nat.add]. rewrite (ls_count s L), <- (ps_nth s L). reflexivity.
  Qed.
  Lemma h_out s : (N <= s)%nat -> io h s = no_io.
  Proof. intros L. unfold io. apply nth_overflow. rewrite h_length. exact L. Qed.

  Definition sonb (s1 s2 : nat) : bool :=
    ((length (nth s2 ps []) =? length (nth s1 ps []) + 2)%nat && trace_eqb (drop2 (nth s2 ps [])) (nth s1 ps []))%bool.
  Definition act_of (s2 : nat) : string := nth (length (nth s2 ps []) - 2) (nth s2 ps []) EmptyString.
  Lemma sonb_spec s1 s2 : sonb s1 s2 = true <-> exists o, nth s2 ps [] = nth s1 ps [] ++ [act_of s2; o].
  Proof.
    unfold sonb, act_of, drop2. set (w := nth s2 ps []). set (v := nth s1 ps []). rewrite andb_true_iff, Nat.eqb_eq, trace_eqb_iff. split.
    - intros (L & E). assert (W : w = v ++ skipn (length w - 2) w) by (rewrite <- E at 1; symmetry; apply firstn_skipn).
      assert (LS : length (skipn (length w - 2) w) = 2%nat) by (rewrite skipn_length; lia).
      destruct (skipn (length w - 2) w) as [|a [|o [|]]]; try discriminate LS. exists o.
      assert (A : nth (length w - 2) w EmptyString = a); [|rewrite A; exact W].
      replace (length w - 2)%nat with (length v) by lia. rewrite W, app_nth2, Nat.sub_diag by lia. reflexivity.
    - intros (o & E). rewrite E, app_length. cbn [length]. split; [reflexivity|]. replace (length v + 2 - 2)%nat with (length v + 0)%nat by lia. rewrite firstn_app_2. cbn. apply app_nil_r.
  Qed.
  Definition kid_list (s : nat) : list nat := filter (sonb s) (seq (s + 1) (N - (s + 1))).
  Lemma tree_trans_fold s : (s < N)%nat -> forall l t, (forall x, In x l -> (x < N)%nat) ->
    fold_left (fun t s2 =>
      let l1 := fst (nth s ls ([], 0%Z)) in
      let l2 := fst (nth s2 ls ([], 0%Z)) in
      if ((length l2 =? length l1 + 2)%nat && trace_eqb (drop2 l2) l1)%bool
      then tr_add t (nth (length l2 - 2) l2 EmptyString) (snd (nth s2 ls ([], 0%Z))) s2 else t) l t =
    fold_left (fun t s2 => tr_add t (act_of s2) (pcount T (nth s2 ps [])) s2) (filter (sonb s) l) t.
  Proof.
    intros Ls l t Hl. rewrite fold_filter. apply fold_left_in. intros t' x I. cbn zeta. rewrite <- (ps_nth s Ls), <- (ps_nth x (Hl x I)), (ls_count x (Hl x I)). reflexivity.
  Qed.
  Lemma add_fold l (w : nat -> Z) : forall t, let t' := fold_left (fun t s2 => tr_add t (act_of s2) (w s2) s2) l t in
    (NoDup (map fst t) -> NoDup (map fst t')) /\
    (forall a, In a (map fst t') <-> In a (map fst t) \/ exists s2, In s2 l /\ act_of s2 = a) /\
    (forall a, tr_get t' a = tr_get t a ++ map (fun s2 => (s2, w s2)) (filter (fun s2 => String.eqb a (act_of s2)) l)) /\
    Permutation (l ++ dests t) (dests t').
  Proof.
    induction l as [|x l IH]; intros t; cbn zeta; cbn [fold_left].
    - split; [auto|]. split; [intros a; split; [auto|intros [I|(s & [] & _)]; exact I]|]. split; [intros a; cbn; rewrite app_nil_r; reflexivity|reflexivity].
    - destruct (IH (tr_add t (act_of x) (w x) x)) as (A & B & C & D). split; [intros ND; apply A, tr_add_NoDup, ND|]. split; [|split].
      + intros a. rewrite B, tr_add_keys, in_app_iff. destruct (memb String.eqb (act_of x) (map fst t)) eqn:M.
        * apply memb_str in M. cbn. split; [intros [[I|[]]|(s & I & E)]; [auto|right; eauto]|]. intros [I|(s & [<-|I] & E)]; [auto|subst a; auto|right; eauto].
        * cbn. split; [intros [[I|[<-|[]]]|(s & I & E)]; [auto|right; eauto|right; eauto]|]. intros [I|(s & [<-|I] & E)]; [auto|subst a; auto|right; eauto].
      + intros a. rewrite C, tr_get_add, <- app_assoc. f_equal. cbn [filter]. destruct (String.eqb a (act_of x)); reflexivity.
      + rewrite <- D. destruct (dests_add t (act_of x) (w x) x) as (i & ->). cbn [app]. rewrite app_assoc. rewrite <- Permutation_middle. constructor. rewrite <- app_assoc, firstn_skipn. reflexivity.
  Qed.
  Lemma kid_list_In s x : (s < N)%nat -> In x (kid_list s) <-> (x < N)%nat /\ exists a o, nth x ps [] = nth s ps [] ++ [a; o].
  Proof.
    intros Ls. unfold kid_list. rewrite filter_In, in_seq, sonb_spec. split.
    - intros (L & o & E). split; [lia|eauto].
    - intros (L & a & o & E). pose proof (ps_prefix_lt s x [a; o] Ls L ltac:(discriminate) E) as Q. split; [lia|]. exists o. rewrite E. f_equal. f_equal.
      unfold act_of. rewrite E, app_length. cbn [length]. replace (length (nth s ps []) + 2 - 2)%nat with (length (nth s ps [])) by lia. rewrite app_nth2, Nat.sub_diag by lia. reflexivity.
  Qed.
  Lemma act_of_eq s x a o : nth x ps [] = nth s ps [] ++ [a; o] -> act_of x = a.
  Proof.
    intros E. unfold act_of. rewrite E, app_length. cbn [length]. replace (length (nth s ps []) + 2 - 2)%nat with (length (nth s ps [])) by lia. rewrite app_nth2, Nat.sub_diag by lia. reflexivity.
  Qed.
  Lemma h_trans s : (s < N)%nat ->
    NoDup (map fst (trans h s)) /\
    (forall a, In a (map fst (trans h s)) <-> exists x, In x (kid_list s) /\ act_of x = a) /\
    (forall a, edges h s a = map (fun s2 => (s2, pcount T (nth s2 ps []))) (filter (fun s2 => String.eqb a (act_of s2)) (kid_list s))) /\
    Permutation (kid_list s) (sons h s).
  Proof.
    intros L. unfold edges, sons, trans. rewrite (h_nth s L). cbn [io_tr]. unfold tree_trans. rewrite (tree_trans_fold s L) by (intros x I; apply in_seq in I; unfold N in *; lia).
    fold N. fold (kid_list s). destruct (add_fold (kid_list s) (fun s2 => pcount T (nth s2 ps [])) []) as (A & B & C & D).
    split; [apply A; constructor|]. split; [intros a; rewrite B; cbn; split; [intros [[]|I]; exact I|auto]|]. split; [intros a; rewrite C; reflexivity|]. rewrite <- D. cbn. rewrite app_nil_r. reflexivity.
  Qed.
  Lemma h_edges s z a c : In (z, c) (edges h s a) <-> (s < N)%nat /\ (z < N)%nat /\ (exists o, nth z ps [] = nth s ps [] ++ [a; o]) /\ c = pcount T (nth z ps []).
  Proof.
    destruct (Nat.lt_ge_cases s N) as [L|L].
    - rewrite (proj1 (proj2 (proj2 (h_trans s L))) a), in_map_iff. split.
      + intros (x & [= <- <-] & I). apply filter_In in I as (I & E). apply String.eqb_eq in E. apply (kid_list_In s x L) in I as (Lx & b & o & Eb).
        rewrite (act_of_eq _ _ _ _ Eb) in E. subst b. split; [exact L|]. split; [exact Lx|]. split; [eauto|reflexivity].
      + intros (_ & Lz & (o & E) & ->). exists z. split; [reflexivity|]. apply filter_In. split; [apply (kid_list_In s z L); split; [exact Lz|eauto]|]. apply String.eqb_eq. symmetry. apply (act_of_eq _ _ _ _ E).
    - unfold edges, trans. rewrite (h_out s L). cbn. split; [intros []|intros (Q & _); lia].
  Qed.
  Lemma h_obs s : (s < N)%nat -> obs h s = last (nth s ps []) EmptyString.
  Proof. intros L. unfold obs. rewrite (h_nth s L). reflexivity. Qed.
  Lemma h_cnt s : (s < N)%nat -> cnt h s = pcount T (nth s ps []).
  Proof. intros L. unfold cnt. rewrite (h_nth s L). reflexivity. Qed.

  Lemma NoDup_map_in {A B} (f : A -> B) l : NoDup l -> (forall x y, In x l -> In y l -> f x = f y -> x = y) -> NoDup (map f l).
  Proof.
    induction l as [|a l IH]; cbn; intros ND Inj; [constructor|]. inversion ND as [|? ? NI ND']; subst. constructor.
    - intros I. apply in_map_iff in I as (b & E & I). apply NI. rewrite <- (Inj b a); auto.
    - apply IH; [exact ND'|]. auto.
  Qed.
  Lemma last_app2 {A} (l : list A) a o d : last (l ++ [a; o]) d = o.
  Proof. change [a; o] with ([a] ++ [o]). rewrite app_assoc. apply last_last. Qed.

  Lemma h_wf obss : (forall w, In w ps -> In (last w EmptyString) obss) -> iwf obss h.
  Proof.
    intros HO. constructor.
    - intros x. destruct (Nat.lt_ge_cases x N) as [L|L]; [apply (h_trans x L)|]. unfold trans. rewrite (h_out x L). constructor.
    - intros x a I. destruct (Nat.lt_ge_cases x N) as [L|L].
      + destruct (h_trans x L) as (_ & B & C & _). apply B in I as (z & I & E). intros Q. rewrite C in Q. apply map_eq_nil in Q.
        assert (J : In z (filter (fun s2 => String.eqb a (act_of s2)) (kid_list x))) by (apply filter_In; split; [exact I|apply String.eqb_eq; auto]). rewrite Q in J. exact J.
      + unfold trans in I. rewrite (h_out x L) in I. destruct I.
    - intros x a. destruct (Nat.lt_ge_cases x N) as [L|L].
      + rewrite (proj1 (proj2 (proj2 (h_trans x L))) a), !map_map. cbn [fst].
        apply NoDup_map_in; [apply NoDup_filter; unfold kid_list; apply NoDup_filter, seq_NoDup|].
        intros y z I J E. apply filter_In in I as (I & Ey). apply filter_In in J as (J & Ez). apply String.eqb_eq in Ey, Ez.
        apply (kid_list_In x y L) in I as (Ly & b & o & Eb). apply (kid_list_In x z L) in J as (Lz & b' & o' & Eb').
        rewrite (act_of_eq _ _ _ _ Eb) in Ey. rewrite (act_of_eq _ _ _ _ Eb') in Ez. rewrite (h_obs y Ly), (h_obs z Lz), Eb, Eb', !last_app2 in E. subst. apply ps_inj; congruence.
      + unfold edges, trans. rewrite (h_out x L). constructor.
    - intros x d I. rewrite h_length. destruct (Nat.lt_ge_cases x N) as [L|L].
      + apply (Permutation_in d (Permutation_sym (proj2 (proj2 (proj2 (h_trans x L)))))) in I. apply (kid_list_In x d L) in I. apply I.
      + unfold sons, trans in I. rewrite (h_out x L) in I. destruct I.
    - intros x L. rewrite h_length in L. rewrite (h_obs x L). apply HO, nth_In. rewrite ps_length. exact L.
  Qed.

  (** The states below [s]. *)
  Definition below (s x : nat) : Prop := (x < N)%nat /\ starts (nth s ps []) (nth x ps []) = true.
  Lemma forest_of l k : NoDup l -> (forall s, In s l -> (s < N)%nat /\ length (nth s ps []) = k /\ exists D, tree h s D /\ forall x, In x D <-> below s x) ->
    exists D, forest h l D /\ forall x, In x D <-> exists s, In s l /\ below s x.
  Proof.
    induction l as [|s l IH]; intros ND Hl.
    - exists []. split; [constructor|]. intros x. split; [intros []|intros (s & [] & _)].
    - inversion ND as [|? ? NI ND']; subst. destruct (Hl s (or_introl eq_refl)) as (Ls & Ek & D & TD & ID).
      destruct IH as (D2 & F2 & I2); [exact ND'|intros r I; apply Hl; right; exact I|].
      exists (D ++ D2). split.
      + constructor; [exact TD|exact F2|]. intros x I J. apply ID in I as (Lx & S1). apply I2 in J as (r & Ir & _ & S2). destruct (Hl r (or_intror Ir)) as (Lr & Er & _).
        apply starts_firstn in S1 as (S1 & _). apply starts_firstn in S2 as (S2 & _). assert (s = r) by (apply ps_inj; [assumption|assumption|congruence]). subst. contradiction.
      + intros x. rewrite in_app_iff, ID, I2. split; [intros [B|(r & Ir & B)]; [exists s; split; [left|]; auto|exists r; split; [right|]; auto]|].
        intros (r & [<-|Ir] & B); [auto|right; eauto].
  Qed.
  Lemma below_step s x : (s < N)%nat -> below s x <-> x = s \/ exists r, In r (kid_list s) /\ below r x.
  Proof.
    intros Ls. split.
    - intros (Lx & S). apply starts_spec in S as (u & E). pose proof (ps_odd s Ls) as O1. pose proof (ps_odd x Lx) as O2. rewrite E, app_length in O2.
      destruct u as [|a [|o u]].
      + left. rewrite app_nil_r in E. apply ps_inj; auto.
      + exfalso. cbn [length] in O2. rewrite Nat.odd_add, O1 in O2. discriminate.
      + right. assert (I : In (nth s ps [] ++ [a; o]) ps).
        { apply (ps_down _ u); [rewrite app_length; cbn [length]; rewrite Nat.odd_add, O1; reflexivity|]. rewrite <- app_assoc. cbn [app]. rewrite <- E. apply nth_In. rewrite ps_length. exact Lx. }
        apply (In_nth _ _ []) in I as (r & Lr & Er). rewrite ps_length in Lr. exists r. split; [apply (kid_list_In s r Ls); split; [exact Lr|eauto]|]. split; [exact Lx|].
        apply starts_spec. exists u. rewrite Er, <- app_assoc. exact E.
    - intros [->|(r & Ir & Lx & S)]; [split; [exact Ls|apply starts_refl]|]. apply (kid_list_In s r Ls) in Ir as (Lr & a & o & Er). split; [exact Lx|].
      apply (starts_trans _ (nth r ps [])); [rewrite Er; apply starts_app|exact S].
  Qed.
  Lemma tree_of : forall d s, (N <= s + d)%nat -> (s < N)%nat -> exists D, tree h s D /\ forall x, In x D <-> below s x.
  Proof.
    induction d as [|d IH]; intros s Ld Ls; [lia|]. destruct (h_trans s Ls) as (_ & _ & _ & P).
    destruct (forest_of (sons h s) (length (nth s ps []) + 2)) as (D & F & ID).
    - apply (Permutation_NoDup P). unfold kid_list. apply NoDup_filter, seq_NoDup.
    - intros r I. apply (Permutation_in r (Permutation_sym P)) in I. apply (kid_list_In s r Ls) in I as (Lr & a & o & E). split; [exact Lr|]. split; [rewrite E, app_length; reflexivity|].
      pose proof (ps_prefix_lt s r [a; o] Ls Lr ltac:(discriminate) E). apply IH; lia.
    - exists (s :: D). assert (K : forall x, (exists r, In r (sons h s) /\ below r x) <-> exists r, In r (kid_list s) /\ below r x).
      { intros x. split; intros (r & I & B); exists r; (split; [|exact B]); [exact (Permutation_in r (Permutation_sym P) I)|exact (Permutation_in r P I)]. }
      split.
      + constructor; [exact F|]. intros I. apply ID, K in I as (r & Ir & _ & S). apply (kid_list_In s r Ls) in Ir as (Lr & a & o & E). apply starts_firstn in S as (_ & S). rewrite E, app_length in S. cbn in S. lia.
      + intros x. cbn [In]. rewrite ID, K, (below_step s x Ls). intuition auto.
  Qed.

  Lemma initial_In i : In i (snd (buildIOFPTA trace_eqb trace_leb T)) <-> (i < N)%nat /\ length (nth i ps []) = 1%nat.
  Proof.
    unfold buildIOFPTA. cbn [snd]. fold ls. fold N. rewrite filter_In, in_seq, Nat.eqb_eq. split.
    - intros (L & E). rewrite (ps_nth i) by lia. split; [lia|exact E].
    - intros (L & E). rewrite (ps_nth i L) in E. split; [lia|exact E].
  Qed.
  Lemma first_state : (0 < N)%nat -> length (nth 0 ps []) = 1%nat.
  Proof.
    intros L. destruct (nth 0 ps []) as [|o u] eqn:E; [pose proof (ps_odd O L) as O; rewrite E in O; discriminate|].
    assert (I : In [o] ps) by (apply (ps_down [o] u); [reflexivity|]; cbn [app]; rewrite <- E; apply nth_In; rewrite ps_length; exact L).
    apply (In_nth _ _ []) in I as (r & Lr & Er). rewrite ps_length in Lr. destruct u as [|a u]; [reflexivity|].
    pose proof (ps_prefix_lt r O (a :: u) Lr L ltac:(discriminate)) as Q. rewrite Er, E in Q. specialize (Q eq_refl). lia.
  Qed.

  (** The nodes other than the unused initial ones. *)
  Definition live (x : nat) : Prop := (x < N)%nat /\ (x = O \/ length (nth x ps []) <> 1%nat).

  Lemma NoDup_flat_map_in {A B} (g : A -> list B) l : NoDup l -> (forall x, In x l -> NoDup (g x)) -> (forall x y z, In x l -> In y l -> In z (g x) -> In z (g y) -> x = y) -> NoDup (flat_map g l).
  Proof.
    induction l as [|a l IH]; intros ND HN HD; [constructor|]. inversion ND as [|? ? NI ND']; subst. cbn [flat_map]. apply NoDup_app_intro.
    - apply HN. left; reflexivity.
    - apply IH; [exact ND'| |]; [intros x I; apply HN; right; exact I|]. intros x y z I J. apply HD; right; assumption.
    - intros z I J. apply in_flat_map in J as (y & Iy & J). assert (a = y) by (apply (HD a y z); [left; reflexivity|right; exact Iy|exact I|exact J]). subst. contradiction.
  Qed.

  Theorem start_inv obss : (0 < N)%nat -> (forall w, In w ps -> In (last w EmptyString) obss) ->
    let blue := flat_map (successors h) (snd (buildIOFPTA trace_eqb trace_leb T)) in
    exists DB, inv obss h (O :: DB) h [O] blue DB (fun x => x) /\ (length DB < N)%nat /\ forall x, In x (O :: DB) <-> live x.
  Proof.
    intros L0 HO blue. pose proof (h_wf obss HO) as W. pose proof (first_state L0) as E0.
    assert (IB : forall x, In x blue <-> (x < N)%nat /\ length (nth x ps []) = 3%nat).
    { intros x. unfold blue. rewrite in_flat_map. split.
      - intros (i & Ii & J). apply initial_In in Ii as (Li & Ei). apply In_successors in J. apply (Permutation_in x (Permutation_sym (proj2 (proj2 (proj2 (h_trans i Li)))))) in J.
        apply (kid_list_In i x Li) in J as (Lx & a & o & E). split; [exact Lx|]. rewrite E, app_length, Ei. reflexivity.
      - intros (Lx & Ex). destruct (nth x ps []) as [|b [|a [|o [|]]]] eqn:E; try discriminate Ex.
        assert (I : In [b] ps) by (apply (ps_down [b] [a; o]); [reflexivity|]; cbn [app]; rewrite <- E; apply nth_In; rewrite ps_length; exact Lx).
        apply (In_nth _ _ []) in I as (i & Li & Ei). rewrite ps_length in Li. exists i. split; [apply initial_In; rewrite Ei; auto|]. apply In_successors.
        apply (Permutation_in x (proj2 (proj2 (proj2 (h_trans i Li))))). apply (kid_list_In i x Li). split; [exact Lx|]. exists a, o. rewrite Ei. exact E. }
    assert (NB : NoDup blue).
    { unfold blue. apply NoDup_flat_map_in.
      - unfold buildIOFPTA. cbn [snd]. apply NoDup_filter, seq_NoDup.
      - intros i _. unfold successors. apply sorted_NoDup.
      - intros i j x Ii Ij Ji Jj. apply initial_In in Ii as (Li & Ei). apply initial_In in Ij as (Lj & Ej). apply In_successors in Ji, Jj.
        apply (Permutation_in x (Permutation_sym (proj2 (proj2 (proj2 (h_trans i Li)))))) in Ji. apply (Permutation_in x (Permutation_sym (proj2 (proj2 (proj2 (h_trans j Lj)))))) in Jj.
        apply (kid_list_In i x Li) in Ji as (Lx & a & o & E). apply (kid_list_In j x Lj) in Jj as (_ & a' & o' & E'). apply ps_inj; [assumption|assumption|].
        rewrite E' in E. destruct (nth i ps []) as [|b [|]]; try discriminate Ei. destruct (nth j ps []) as [|b' [|]]; try discriminate Ej. cbn in E. congruence. }
    destruct (forest_of blue 3 NB) as (DB & F & ID).
    { intros s I. apply IB in I as (Ls & Es). split; [exact Ls|]. split; [exact Es|]. apply (tree_of N s); lia. }
    assert (IL : forall x, In x DB <-> (x < N)%nat /\ (3 <= length (nth x ps []))%nat).
    { intros x. rewrite ID. split.
      - intros (s & Is & Lx & S). apply IB in Is as (Ls & Es). split; [exact Lx|]. apply starts_firstn in S. lia.
      - intros (Lx & G). assert (I : In (firstn 3 (nth x ps [])) ps).
        { apply (ps_down _ (skipn 3 (nth x ps []))); [rewrite firstn_length, Nat.min_l by lia; reflexivity|]. rewrite firstn_skipn. apply nth_In. rewrite ps_length. exact Lx. }
        apply (In_nth _ _ []) in I as (s & Ls & Es). rewrite ps_length in Ls. exists s. split; [apply IB; split; [exact Ls|]; rewrite Es, firstn_length, Nat.min_l by lia; reflexivity|].
        split; [exact Lx|]. rewrite Es. apply starts_spec. exists (skipn 3 (nth x ps [])). symmetry. apply firstn_skipn. }
    assert (LV : forall x, In x (O :: DB) <-> live x).
    { intros x. cbn [In]. rewrite IL. unfold live. split.
      - intros [<-|(L & G)]; [auto|]. split; [exact L|]. right. lia.
      - intros (L & [->|G]); [auto|]. right. split; [exact L|]. pose proof (ps_odd x L) as O. destruct (length (nth x ps [])) as [|[|[|n]]]; try discriminate O; [contradiction|lia]. }
    assert (SONS : forall d x, In d (sons h x) -> (3 <= length (nth d ps []))%nat /\ (d < N)%nat).
    { intros d x I. apply In_sons in I as (a & c & I); [|apply W]. apply h_edges in I as (Lx & Ld & (o & E) & _). split; [|exact Ld]. rewrite E, app_length. pose proof (ps_odd x Lx) as O. destruct (length (nth x ps [])); [discriminate|]. cbn [length]. lia. }
    exists DB. split; [|split; [|exact LV]].
    - constructor; auto.
      + intros x [<-|[]] I. apply IL in I. lia.
      + intros r d [<-|[]] I. right. apply IB. destruct (SONS d O I) as (_ & Ld). split; [exact Ld|].
        apply (Permutation_in d (Permutation_sym (proj2 (proj2 (proj2 (h_trans O L0)))))) in I. apply (kid_list_In O d L0) in I as (_ & a & o & E). rewrite E, app_length, E0. reflexivity.
      + intros x I. rewrite h_length. destruct I as [[<-|[]]|I]; [exact L0|]. apply IL in I. apply I.
      + repeat constructor. intros [].
      + exists []. reflexivity.
      + intros d [<-|I]; [left; left; reflexivity|right; exact I].
      + intros x a z c [[<-|[]]|I] J; [exists O, z; split; [left; reflexivity|auto]|exists x, z; split; [right; exact I|auto]].
      + intros d a z0 c0 _ J. exists c0. exact J.
      + intros x [[<-|[]]|I]; split; [left; reflexivity|reflexivity|right; exact I|reflexivity].
    - assert (ND : NoDup (O :: DB)). { constructor; [intros I; apply IL in I; lia|]. apply (proj2 (tree_nodup h) blue DB F). }
      assert (Inc : incl (O :: DB) (seq 0 N)) by (intros x I; apply LV in I as (L & _); apply in_seq; lia).
      apply (NoDup_incl_length ND) in Inc. rewrite seq_length in Inc. cbn in Inc. lia.
  Qed.
End Build.

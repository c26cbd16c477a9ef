(** The prefix tree built by Alergia. *)
From Coq Require Import String ZArith Lia Bool List Sorting Permutation.
From Verif Require Import Num Py MTools MSet MModels MCtor SSet LSet LCtor MAlergia SAlergia LAlergia LAlergia2.
Import ListNotations.

Lemma starts_spec w t : starts w t = true <-> exists u, t = w ++ u.
Proof.
  revert t. induction w as [|a w IH]; intros [|b t]; cbn.
  - split; [exists []; reflexivity|reflexivity].
  - split; [eexists; reflexivity|reflexivity].
  - split; [discriminate|intros [u [=]]].
  - rewrite andb_true_iff, String.eqb_eq, IH. split.
    + intros [-> [u ->]]. exists u. reflexivity.
    + intros [u [= -> ->]]. split; [reflexivity|eauto].
Qed.
Lemma starts_firstn w t : starts w t = true <-> w = firstn (length w) t /\ (length w <= length t)%nat.
Proof.
  rewrite starts_spec. split.
  - intros [u ->]. rewrite app_length. split; [|lia]. rewrite firstn_app, Nat.sub_diag, firstn_all, firstn_O, app_nil_r. reflexivity.
  - intros [E L]. exists (skipn (length w) t). rewrite E at 1. symmetry. apply firstn_skipn.
Qed.

Record PInv (h : pheap) (ps : list (list string)) (W : list string -> Z) : Prop := {
  pi_len : length ps = length h;
  pi_0 : nth 0 ps [] = [] /\ (0 < length h)%nat;
  pi_nd : NoDup ps;
  pi_kids : forall n, (n < length h)%nat -> forall k c, In (k, c) (kids h n) <->
     (k < length h)%nat /\ k <> O /\ nth k ps [] = nth n ps [] ++ [label h k] /\ c = W (nth k ps []);
  pi_sorted : forall n, (n < length h)%nat -> sorted_by String.leb (labels_of h n) /\ NoDup (labels_of h n);
  pi_par : forall k, (0 < k < length h)%nat -> exists n, (n < k)%nat /\ parent h k = Some n /\ nth k ps [] = nth n ps [] ++ [label h k];
  pi_lab0 : label h 0 = EmptyString }.

Lemma pi_inj h ps W i j : PInv h ps W -> (i < length h)%nat -> (j < length h)%nat -> nth i ps [] = nth j ps [] -> i = j.
Proof. intros P Li Lj E. rewrite <- (pi_len _ _ _ P) in Li, Lj. apply (proj1 (NoDup_nth ps []) (pi_nd _ _ _ P) i j Li Lj E). Qed.
Lemma pi_nonempty h ps W k : PInv h ps W -> (k < length h)%nat -> k <> O -> nth k ps [] <> [].
Proof. intros P L N E. apply N. apply (pi_inj h ps W k O P L (proj2 (pi_0 _ _ _ P))). rewrite E. symmetry. apply P. Qed.

Lemma PInv_ext h ps W W' : PInv h ps W -> (forall w, In w ps -> w <> [] -> W' w = W w) -> PInv h ps W'.
Proof.
  intros P E. constructor; try apply P. intros n Ln k c. rewrite (pi_kids _ _ _ P n Ln k c).
  split; intros (A & B & C & D); (split; [exact A|]; split; [exact B|]; split; [exact C|]);
    assert (Ik : In (nth k ps []) ps) by (apply nth_In; rewrite (pi_len _ _ _ P); exact A);
    pose proof (E _ Ik (pi_nonempty h ps W k P A B)); congruence.
Qed.

(** Only counts change. *)
Lemma PInv_count h ps W n c : (n < length h)%nat -> PInv h ps W -> PInv (set_count h n c) ps W.
Proof.
  intros L P. constructor.
  - rewrite length_set_count. apply P.
  - rewrite length_set_count. apply P.
  - apply P.
  - intros m Lm k x. rewrite length_set_count in *. rewrite kids_set_count, label_set_count by exact L. apply P, Lm.
  - intros m Lm. rewrite length_set_count in Lm. rewrite (labels_of_same h (set_count h n c) m m); [apply P, Lm|intros; apply label_set_count, L|rewrite kids_set_count by exact L; reflexivity].
  - intros k Lk. rewrite length_set_count in Lk. destruct (pi_par _ _ _ P k Lk) as (m & A & B & C). exists m.
    rewrite parent_set_count, label_set_count by exact L. auto.
  - rewrite label_set_count by exact L. apply P.
Qed.

Lemma inc_in_map test ks c ks' k : NoDup (map fst ks) -> inc_in test ks c = Some (ks', k) ->
  test k = true /\ In k (map fst ks) /\ ks' = map (fun jw => (fst jw, if (fst jw =? k)%nat then (snd jw + c)%Z else snd jw)) ks.
Proof.
  revert ks'. induction ks as [|[j w] ks IH]; intros ks' ND; cbn [inc_in]; [discriminate|]. inversion ND as [|? ? NI ND']; subst.
  destruct (test j) eqn:T.
  - intros [= <- <-]. split; [exact T|]. split; [left; reflexivity|]. cbn [map fst snd]. rewrite Nat.eqb_refl. f_equal.
    rewrite <- (map_id ks) at 1. apply map_ext_in. intros [a b] I. cbn [fst snd]. destruct (Nat.eqb_spec a j) as [->|]; [|reflexivity].
    exfalso. apply NI, In_fst. eauto.
  - destruct (inc_in test ks c) as [[r a]|] eqn:E; [|discriminate]. intros [= <- <-]. destruct (IH r ND' eq_refl) as (A & B & C).
    split; [exact A|]. split; [right; exact B|]. cbn [map fst snd]. destruct (Nat.eqb_spec j a) as [->|]; [contradiction|]. f_equal. exact C.
Qed.
Lemma inc_in_None test ks c : inc_in test ks c = None -> forall k w, In (k, w) ks -> test k = false.
Proof.
  induction ks as [|[j w] ks IH]; cbn; [intros _ ? ? []|]. destruct (test j) eqn:T; [discriminate|]. destruct (inc_in test ks c) as [[r a]|]; [discriminate|].
  intros _ k x [[= <- <-]|I]; [exact T|]. apply (IH eq_refl k x I).
Qed.
Lemma NoDup_kids h n : NoDup (labels_of h n) -> NoDup (map fst (kids h n)).
Proof. rewrite labels_of_fst. apply NoDup_map_inv. Qed.

(** An existing edge gets more weight. *)
Lemma PInv_inc h ps W n ch m h' k W' : PInv h ps W -> (n < length h)%nat -> incKid_label h n ch m = Some (h', k) ->
  (forall w, W' w = W w + if trace_eqb w (nth n ps [] ++ [ch]) then m else 0)%Z ->
  (k < length h)%nat /\ nth k ps [] = nth n ps [] ++ [ch] /\ length h' = length h /\ PInv h' ps W'.
Proof.
  intros P Ln E HW. unfold incKid_label, incKid in E. destruct (inc_in _ (kids h n) m) as [[ks' k']|] eqn:EI; [|discriminate].
  injection E as <- <-. destruct (pi_sorted _ _ _ P n Ln) as (Srt & ND).
  destruct (inc_in_map _ _ _ _ _ (NoDup_kids h n ND) EI) as (T & I & ->). apply String.eqb_eq in T. apply In_fst in I as (c & I).
  apply (pi_kids _ _ _ P n Ln) in I as (A & B & C & D). rewrite T in C.
  assert (HWk : W' (nth k' ps []) = (W (nth k' ps []) + m)%Z).
  { rewrite HW, C. assert (trace_eqb (nth n ps [] ++ [ch]) (nth n ps [] ++ [ch]) = true) as -> by (apply (lex_eqb_decides _ string_eqb_decides); reflexivity). reflexivity. }
  assert (HWo : forall j, (j < length h)%nat -> j <> k' -> W' (nth j ps []) = W (nth j ps [])).
  { intros j Lj NE. rewrite HW, <- C. destruct (trace_eqb (nth j ps []) (nth k' ps [])) eqn:Q; [|lia].
    apply (lex_eqb_decides _ string_eqb_decides) in Q. exfalso. apply NE, (pi_inj h ps W j k' P Lj A Q). }
  split; [exact A|]. split; [exact C|]. split; [apply length_set_kids|]. set (ks' := map _ (kids h n)).
  assert (EM : forall x, map fst (kids (set_kids h n ks') x) = map fst (kids h x)).
  { intros x. rewrite kids_set_kids by exact Ln. destruct (Nat.eqb_spec n x) as [<-|]; [|reflexivity]. unfold ks'. rewrite map_map. reflexivity. }
  constructor.
  - rewrite length_set_kids. apply P.
  - rewrite length_set_kids. apply P.
  - apply P.
  - intros x Lx j w. rewrite length_set_kids in *. rewrite label_set_kids, kids_set_kids by exact Ln.
    assert (Other : forall j w, j <> k' -> In (j, w) (kids h x) <-> (j < length h)%nat /\ j <> O /\ nth j ps [] = nth x ps [] ++ [label h j] /\ w = W' (nth j ps [])).
    { intros j' w' NE. rewrite (pi_kids _ _ _ P x Lx j' w'). split; intros (Q1 & Q2 & Q3 & Q4); (split; [exact Q1|]; split; [exact Q2|]; split; [exact Q3|]); pose proof (HWo j' Q1 NE); congruence. }
    destruct (Nat.eqb_spec n x) as [<-|NE].
    + unfold ks'. rewrite in_map_iff. destruct (Nat.eq_dec j k') as [->|NJ].
      * split.
        -- intros ([a b] & Q & J). cbn [fst snd] in Q. injection Q as -> <-. rewrite Nat.eqb_refl.
           apply (pi_kids _ _ _ P n Ln) in J as (Q1 & Q2 & Q3 & Q4). rewrite HWk. split; [exact Q1|]. split; [exact Q2|]. split; [exact Q3|]. lia.
        -- intros (Q1 & Q2 & Q3 & Q4). exists (k', W (nth k' ps [])). cbn [fst snd]. rewrite Nat.eqb_refl. split; [f_equal; lia|].
           apply (pi_kids _ _ _ P n Ln). auto.
      * split.
        -- intros ([a b] & Q & J). cbn [fst snd] in Q. injection Q as -> <-. destruct (Nat.eqb_spec j k'); [contradiction|]. apply Other; assumption.
        -- intros Q. apply Other in Q; [|exact NJ]. exists (j, w). cbn [fst snd]. destruct (Nat.eqb_spec j k'); [contradiction|]. auto.
    + destruct (Nat.eq_dec j k') as [->|NJ]; [|apply Other, NJ].
      assert (XX : nth k' ps [] = nth x ps [] ++ [label h k'] -> False).
      { intros Q. rewrite C, T in Q. apply app_inj_tail in Q as (Q & _). apply NE, (pi_inj h ps W n x P Ln Lx Q). }
      split; [intros J; apply (pi_kids _ _ _ P x Lx) in J as (_ & _ & J & _); contradiction|intros (_ & _ & J & _); contradiction].
  - intros x Lx. rewrite length_set_kids in Lx. rewrite (labels_of_same h _ x x); [apply P, Lx|intros; apply label_set_kids, Ln|apply EM].
  - intros j Lj. rewrite length_set_kids in Lj. destruct (pi_par _ _ _ P j Lj) as (p & Q). exists p. rewrite parent_set_kids, label_set_kids by exact Ln. exact Q.
  - rewrite label_set_kids by exact Ln. apply P.
Qed.

(** ** A new node *)
Lemma isort_sorted l : sorted_by String.leb l -> isort_list String.leb l = l.
Proof.
  induction l as [|a l IH]; [reflexivity|]. intros (A & B). cbn. rewrite IH by exact B. destruct l as [|b l]; [reflexivity|]. cbn.
  rewrite A by (left; reflexivity). reflexivity.
Qed.
Lemma sorted_app_last l x : sorted_by String.leb l -> (forall y, In y l -> String.leb y x = true) -> sorted_by String.leb (l ++ [x]).
Proof.
  induction l as [|a l IH]; intros S A; cbn; [split; [intros y []|exact I]|]. destruct S as (S1 & S2). split.
  - intros y I. apply in_app_or in I as [I|[<-|[]]]; [apply S1, I|apply A; left; reflexivity].
  - apply IH; [exact S2|]. intros y I. apply A. right; exact I.
Qed.
Lemma index_of_last (l : list string) x : ~ In x l -> index_of String.eqb x (l ++ [x]) = Some (length l).
Proof.
  induction l as [|a l IH]; intros N; cbn.
  - rewrite String.eqb_refl. reflexivity.
  - destruct (String.eqb_spec x a) as [->|]; [exfalso; apply N; left; reflexivity|]. rewrite IH; [reflexivity|]. intros I. apply N. right; exact I.
Qed.
Lemma nd_snoc h x n : nd (h ++ [x]) n = if (n =? length h)%nat then x else nd h n.
Proof.
  unfold nd. destruct (Nat.eqb_spec n (length h)) as [->|N].
  - rewrite app_nth2, Nat.sub_diag by lia. reflexivity.
  - destruct (Nat.lt_ge_cases n (length h)); [apply app_nth1; assumption|]. rewrite !nth_overflow; [reflexivity|lia|rewrite app_length; cbn; lia].
Qed.

Lemma PInv_add h ps W n l m W' : PInv h ps W -> (n < length h)%nat ->
  (forall x, In x (labels_of h n) -> String.leb x l = true /\ x <> l) ->
  (forall w, In w ps -> W' w = W w) -> W' (nth n ps [] ++ [l]) = m ->
  let h' := addKid (h ++ [mkNode l 0 [] (Some n)]) n (length h) m in
  PInv h' (ps ++ [nth n ps [] ++ [l]]) W' /\ length h' = S (length h) /\ last (kids h' n) (O, 0%Z) = (length h, m) /\ kids h' (length h) = [].
Proof.
  intros P Ln Bl HW HWn. cbn zeta. set (h1 := h ++ [mkNode l 0 [] (Some n)]).
  assert (L1 : length h1 = S (length h)) by (unfold h1; rewrite app_length; cbn; lia).
  assert (K1 : forall x, kids h1 x = if (x =? length h)%nat then [] else kids h x).
  { intros x. unfold kids, h1. rewrite nd_snoc. destruct (x =? length h)%nat; reflexivity. }
  assert (Lb1 : forall x, label h1 x = if (x =? length h)%nat then l else label h x).
  { intros x. unfold label, h1. rewrite nd_snoc. destruct (x =? length h)%nat; reflexivity. }
  assert (P1 : forall x, parent h1 x = if (x =? length h)%nat then Some n else parent h x).
  { intros x. unfold parent, h1. rewrite nd_snoc. destruct (x =? length h)%nat; reflexivity. }
  assert (Nn : (n =? length h)%nat = false) by (apply Nat.eqb_neq; lia).
  assert (Kn : kids h1 n = kids h n) by (rewrite K1, Nn; reflexivity).
  assert (Klt : forall x j c, (x < length h)%nat -> In (j, c) (kids h x) -> (j < length h)%nat) by (intros x j c Lx J; apply (pi_kids _ _ _ P x Lx) in J; tauto).
  assert (Lbs : map (fun kc => label h1 (fst kc)) (kids h1 n) = labels_of h n).
  { rewrite Kn. apply map_ext_in. intros [j c] J. cbn [fst]. rewrite Lb1. pose proof (Klt n j c Ln J). destruct (Nat.eqb_spec j (length h)); [lia|reflexivity]. }
  destruct (pi_sorted _ _ _ P n Ln) as (Srt & ND).
  assert (NIl : ~ In l (labels_of h n)) by (intros J; apply (proj2 (Bl l J) eq_refl)).
  assert (E : addKid h1 n (length h) m = set_kids h1 n (kids h n ++ [(length h, m)])).
  { unfold addKid. rewrite Lbs, Kn. rewrite (Lb1 (length h)), Nat.eqb_refl.
    rewrite isort_sorted by (apply sorted_app_last; [exact Srt|intros y J; apply Bl, J]).
    rewrite index_of_last by exact NIl. unfold labels_of. rewrite map_length, firstn_all, skipn_all. reflexivity. }
  rewrite E. clear E. assert (Ln1 : (n < length h1)%nat) by lia. set (p := nth n ps []).
  assert (Lps : length ps = length h) by apply P.
  assert (NEW : ~ In (p ++ [l]) ps).
  { intros J. apply (In_nth _ _ []) in J as (k & Lk & Ek). rewrite Lps in Lk. assert (K0 : k <> O).
    { intros ->. rewrite (proj1 (pi_0 _ _ _ P)) in Ek. destruct p; discriminate. }
    destruct (pi_par _ _ _ P k) as (q & Lq & _ & Eq); [lia|]. rewrite Ek in Eq. apply app_inj_tail in Eq as (Q1 & Q2).
    assert (q = n) by (apply (pi_inj h ps W q n P); [lia|exact Ln|symmetry; exact Q1]). subst q.
    assert (J : In (k, W (nth k ps [])) (kids h n)) by (apply (pi_kids _ _ _ P n Ln); rewrite Ek, Q2; auto).
    apply NIl. rewrite Q2. unfold labels_of. apply in_map_iff. exists (k, W (nth k ps [])). auto. }
  assert (Nth : forall x, (x < length h)%nat -> nth x (ps ++ [p ++ [l]]) [] = nth x ps []) by (intros x Lx; apply app_nth1; lia).
  assert (NthN : nth (length h) (ps ++ [p ++ [l]]) [] = p ++ [l]) by (rewrite app_nth2, <- Lps, Nat.sub_diag by lia; reflexivity).
  set (h' := set_kids h1 n (kids h n ++ [(length h, m)])).
  assert (K' : forall x, kids h' x = if (n =? x)%nat then kids h n ++ [(length h, m)] else kids h1 x) by (intros; apply kids_set_kids, Ln1).
  assert (Lb' : forall x, label h' x = label h1 x) by (intros; apply label_set_kids, Ln1).
  assert (Lb'lt : forall x, (x < length h)%nat -> label h' x = label h x) by (intros x Lx; rewrite Lb', Lb1; destruct (Nat.eqb_spec x (length h)); [lia|reflexivity]).
  assert (L' : length h' = S (length h)) by (unfold h'; rewrite length_set_kids; exact L1).
  assert (K'n : kids h' n = kids h n ++ [(length h, m)]) by (rewrite K', Nat.eqb_refl; reflexivity).
  assert (K'N : kids h' (length h) = []) by (rewrite K', Nn, K1, Nat.eqb_refl; reflexivity).
  assert (K'o : forall x, (x < length h)%nat -> x <> n -> kids h' x = kids h x).
  { intros x Lx NE. rewrite K', K1. destruct (Nat.eqb_spec n x); [congruence|]. destruct (Nat.eqb_spec x (length h)); [lia|reflexivity]. }
  assert (Old : forall x j w, (x < length h)%nat -> In (j, w) (kids h x) <-> (j < length h)%nat /\ j <> O /\ nth j ps [] = nth x ps [] ++ [label h' j] /\ w = W' (nth j ps [])).
  { intros x j w Lx. rewrite (pi_kids _ _ _ P x Lx j w). split; intros (Q1 & Q2 & Q3 & Q4); (split; [exact Q1|]; split; [exact Q2|]);
      rewrite (Lb'lt j Q1) in *; (split; [exact Q3|]); assert (Jn : In (nth j ps []) ps) by (apply nth_In; lia); pose proof (HW _ Jn); congruence. }
  split; [constructor|].
  - rewrite app_length, L'. cbn. lia.
  - rewrite L', Nth by apply P. split; [apply P|lia].
  - apply NoDup_app_intro; [apply P|constructor; [intros []|constructor]|]. intros x J [<-|[]]. contradiction.
  - intros x Lx j w. rewrite L' in *. destruct (Nat.eq_dec x (length h)) as [->|Nx].
    + rewrite K'N, NthN. split; [intros []|]. intros (Q1 & Q2 & Q3 & _). exfalso.
      destruct (Nat.eq_dec j (length h)) as [->|Nj].
      * rewrite NthN in Q3. apply (f_equal (@length string)) in Q3. rewrite !app_length in Q3. cbn in Q3. lia.
      * rewrite Nth in Q3 by lia. destruct (pi_par _ _ _ P j) as (q & Lq & _ & Eq); [lia|]. rewrite Eq in Q3. apply app_inj_tail in Q3 as (Q3 & _).
        apply NEW. rewrite <- Q3. apply nth_In. lia.
    + assert (Lx' : (x < length h)%nat) by lia. rewrite (Nth x Lx'). destruct (Nat.eq_dec j (length h)) as [->|Nj].
      * rewrite NthN, Lb', Lb1, Nat.eqb_refl. destruct (Nat.eq_dec x n) as [->|NE].
        -- rewrite K'n, in_app_iff. fold p. split.
           ++ intros [J|[J|[]]]; [apply (Klt n) in J; [lia|exact Ln]|]. assert (w = m) as -> by congruence. split; [lia|]. split; [lia|]. split; [reflexivity|]. symmetry; exact HWn.
           ++ intros (_ & _ & _ & ->). right. left. f_equal. symmetry. exact HWn.
        -- rewrite K'o by assumption. split.
           ++ intros J. apply (Klt x) in J; [lia|exact Lx'].
           ++ intros (_ & _ & Q & _). exfalso. apply app_inj_tail in Q as (Q & _). apply NE. symmetry. apply (pi_inj h ps W n x P Ln Lx' Q).
      * assert (Jl : (j < S (length h))%nat <-> (j < length h)%nat) by lia.
        assert (Or : In (j, w) (kids h' x) <-> In (j, w) (kids h x)).
        { destruct (Nat.eq_dec x n) as [->|NE]; [|rewrite K'o by assumption; reflexivity]. rewrite K'n, in_app_iff. cbn.
          split; [intros [J|[J|[]]]; [exact J|congruence]|auto]. }
        rewrite Or, (Old x j w Lx'), Jl. split; intros (Q1 & Q2 & Q3 & Q4); rewrite (Nth j Q1) in *; auto.
  - intros x Lx. rewrite L' in Lx. destruct (Nat.eq_dec x (length h)) as [->|Nx].
    + unfold labels_of. rewrite K'N. split; [exact Logic.I|constructor].
    + assert (Lx' : (x < length h)%nat) by lia.
      assert (EQ : forall ks, (forall j c, In (j, c) ks -> (j < length h)%nat) -> map (fun kc : nat * Z => label h' (fst kc)) ks = map (fun kc => label h (fst kc)) ks).
      { intros ks H. apply map_ext_in. intros [j c] J. apply Lb'lt, (H j c J). }
      destruct (Nat.eq_dec x n) as [->|NE].
      * assert (EE : labels_of h' n = labels_of h n ++ [l]).
        { unfold labels_of. rewrite K'n, map_app, EQ by (intros j c J; apply (Klt n j c Ln J)). cbn [map fst]. rewrite Lb', Lb1, Nat.eqb_refl. reflexivity. }
        rewrite EE. split; [apply sorted_app_last; [exact Srt|intros y J; apply Bl, J]|].
        apply NoDup_app_intro; [exact ND|constructor; [intros []|constructor]|]. intros y J [<-|[]]. contradiction.
      * unfold labels_of. rewrite K'o by assumption. rewrite EQ by (intros j c J; apply (Klt x j c Lx' J)). apply P, Lx'.
  - intros k Lk. rewrite L' in Lk. assert (PP : parent h' k = parent h1 k) by apply parent_set_kids, Ln1. rewrite PP.
    destruct (Nat.eq_dec k (length h)) as [->|Nk].
    + exists n. split; [exact Ln|]. rewrite P1, Nat.eqb_refl, NthN, Nth by exact Ln. rewrite Lb', Lb1, Nat.eqb_refl. auto.
    + destruct (pi_par _ _ _ P k) as (q & Lq & Pq & Eq); [lia|]. exists q. split; [exact Lq|]. rewrite P1.
      destruct (Nat.eqb_spec k (length h)); [contradiction|]. rewrite !Nth by lia. rewrite Lb'lt by lia. auto.
  - rewrite Lb'lt by apply P. apply P.
  - split; [exact L'|]. split; [|exact K'N]. rewrite K'n. apply last_last.
Qed.

(** ** Reading a trace *)
Definition extra (t : list string) (p : list string) (m : Z) (w : list string) : Z :=
  if starts w t && (length p <? length w)%nat then m else 0%Z.
Lemma starts_refl w : starts w w = true.
Proof. apply starts_spec. exists []. symmetry. apply app_nil_r. Qed.
Lemma starts_app w u : starts w (w ++ u) = true.
Proof. apply starts_spec. eauto. Qed.
Lemma extra_step p ch tr m w : extra (p ++ ch :: tr) p m w =
  ((if trace_eqb w (p ++ [ch]) then m else 0) + extra (p ++ ch :: tr) (p ++ [ch]) m w)%Z.
Proof.
  unfold extra. rewrite app_length. cbn [length].
  destruct (starts w (p ++ ch :: tr)) eqn:E; cbn [andb].
  - apply starts_firstn in E as (E & L). destruct (trace_eqb w (p ++ [ch])) eqn:Q.
    + apply (lex_eqb_decides _ string_eqb_decides) in Q. subst w. rewrite app_length. cbn [length].
      destruct (Nat.ltb_spec (length p) (length p + 1)), (Nat.ltb_spec (length p + 1) (length p + 1)); lia.
    + destruct (Nat.ltb_spec (length p) (length w)), (Nat.ltb_spec (length p + 1) (length w)); try lia.
      exfalso. assert (Lw : length w = (length p + 1)%nat) by lia. rewrite Lw in E. rewrite firstn_app in E.
      replace (length p + 1 - length p)%nat with 1%nat in E by lia. rewrite firstn_all2 in E by lia. cbn [firstn] in E.
      assert (trace_eqb w (p ++ [ch]) = true) by (apply (lex_eqb_decides _ string_eqb_decides); exact E). congruence.
  - destruct (trace_eqb w (p ++ [ch])) eqn:Q; [|reflexivity]. apply (lex_eqb_decides _ string_eqb_decides) in Q. subst w. exfalso.
    replace (p ++ ch :: tr) with ((p ++ [ch]) ++ tr) in E by (rewrite <- app_assoc; reflexivity). rewrite starts_app in E. discriminate.
Qed.

Lemma addKids_spec : forall tr h ps W n c, PInv h ps W -> (n < length h)%nat -> (forall w, ~ In w ps -> W w = 0%Z) ->
  (forall l tr', tr = l :: tr' -> forall x, In x (labels_of h n) -> String.leb x l = true /\ x <> l) ->
  exists ps', let '(h', n') := addKids h n tr c in
    PInv h' ps' (fun w => (W w + extra (nth n ps [] ++ tr) (nth n ps []) c w)%Z) /\
    (n' < length h')%nat /\ (forall w, In w ps' <-> In w ps \/ (starts w (nth n ps [] ++ tr) && (length (nth n ps []) <? length w)%nat = true)).
Proof.
  induction tr as [|l tr IH]; intros h ps W n c P Ln W0 Bl.
  - exists ps. cbn [addKids]. rewrite app_nil_r.
    assert (NO : forall w, starts w (nth n ps []) && (length (nth n ps []) <? length w)%nat = false).
    { intros w. destruct (starts w (nth n ps [])) eqn:E; [|reflexivity]. apply starts_firstn in E as (_ & L). cbn. apply Nat.ltb_ge. exact L. }
    split; [|split; [exact Ln|]].
    + apply (PInv_ext h ps W _ P). intros w _ _. unfold extra. rewrite NO. lia.
    + intros w. rewrite NO. split; [auto|]. intros [A|A]; [exact A|discriminate].
  - cbn [addKids]. set (p := nth n ps []).
    set (W1 := fun w => (W w + if trace_eqb w (p ++ [l]) then c else 0)%Z).
    assert (REF : trace_eqb (p ++ [l]) (p ++ [l]) = true) by (apply (lex_eqb_decides _ string_eqb_decides); reflexivity).
    assert (NEW : ~ In (p ++ [l]) ps).
    { intros J. apply (In_nth _ _ []) in J as (k & Lk & Ek). rewrite (pi_len _ _ _ P) in Lk. assert (K0 : k <> O).
      { intros ->. rewrite (proj1 (pi_0 _ _ _ P)) in Ek. destruct p; discriminate. }
      destruct (pi_par _ _ _ P k) as (q & Lq & _ & Eq); [lia|]. rewrite Ek in Eq. apply app_inj_tail in Eq as (Q1 & Q2).
      assert (q = n) by (apply (pi_inj h ps W q n P); [lia|exact Ln|symmetry; exact Q1]). subst q.
      assert (J : In (k, W (nth k ps [])) (kids h n)) by (apply (pi_kids _ _ _ P n Ln); rewrite Ek, Q2; auto).
      assert (Jl : In l (labels_of h n)); [|apply (proj2 (Bl l tr eq_refl l Jl) eq_refl)]. rewrite Q2. unfold labels_of. apply in_map_iff. exists (k, W (nth k ps [])). auto. }
    destruct (PInv_add h ps W n l c W1 P Ln (Bl l tr eq_refl)) as (P1 & L1 & La & K1).
    { intros w J. unfold W1. destruct (trace_eqb w (p ++ [l])) eqn:Q; [|lia]. apply (lex_eqb_decides _ string_eqb_decides) in Q. subst w. contradiction. }
    { unfold W1. fold p. rewrite REF, (W0 _ NEW). lia. }
    fold p in P1. set (h1 := addKid _ n (length h) c) in *. rewrite La. cbn [fst].
    assert (Nth : nth (length h) (ps ++ [p ++ [l]]) [] = p ++ [l]) by (rewrite app_nth2, (pi_len _ _ _ P), Nat.sub_diag by (rewrite (pi_len _ _ _ P); lia); reflexivity).
    destruct (IH h1 (ps ++ [p ++ [l]]) W1 (length h) c P1) as (ps' & IHp).
    { lia. }
    { intros w NI. unfold W1. rewrite W0 by (intros J; apply NI, in_or_app; left; exact J). destruct (trace_eqb w (p ++ [l])) eqn:Q; [|lia].
      apply (lex_eqb_decides _ string_eqb_decides) in Q. subst w. exfalso. apply NI, in_or_app. right. left. reflexivity. }
    { intros l' tr' _ x J. unfold labels_of in J. rewrite K1 in J. destruct J. }
    exists ps'. destruct (addKids h1 (length h) tr c) as [h' n']. destruct IHp as (A & B & C). rewrite Nth in A, C.
    replace ((p ++ [l]) ++ tr) with (p ++ l :: tr) in A, C by (rewrite <- app_assoc; reflexivity).
    split; [|split; [exact B|]].
    + apply (PInv_ext h' ps' _ _ A). intros w _ _. unfold W1. rewrite extra_step. lia.
    + intros w. rewrite C, in_app_iff. cbn [In]. rewrite app_length. cbn [length]. split.
      * intros [[J|[<-|[]]]|J]; [left; exact J|right|right].
        -- replace (p ++ l :: tr) with ((p ++ [l]) ++ tr) by (rewrite <- app_assoc; reflexivity). rewrite starts_app, app_length. cbn. apply Nat.ltb_lt. lia.
        -- apply andb_true_iff in J as (J1 & J2). rewrite J1. cbn. apply Nat.ltb_lt in J2. apply Nat.ltb_lt. lia.
      * intros [J|J]; [auto|]. apply andb_true_iff in J as (J1 & J2). apply Nat.ltb_lt in J2.
        destruct (Nat.eq_dec (length w) (length p + 1)) as [E|NE].
        -- left. right. left. apply starts_firstn in J1 as (E1 & _). rewrite E, firstn_app in E1. replace (length p + 1 - length p)%nat with 1%nat in E1 by lia.
           rewrite firstn_all2 in E1 by lia. symmetry. exact E1.
        -- right. rewrite J1. cbn. apply Nat.ltb_lt. lia.
Qed.

Lemma lex_next p a u c tr : trace_leb (p ++ a :: u) (p ++ c :: tr) = true -> String.leb a c = true.
Proof.
  unfold trace_leb. induction p as [|b p IH]; cbn [app lex_leb].
  - destruct (String.eqb_spec a c) as [->|]; [|auto]. intros _. destruct (string_leb_total c c); assumption.
  - rewrite String.eqb_refl. exact IH.
Qed.

Lemma pta_trace_spec : forall tr h al ps W n m, PInv h ps W -> (n < length h)%nat -> (forall w, ~ In w ps -> W w = 0%Z) ->
  (forall w, In w ps -> exists u, trace_leb (w ++ u) (nth n ps [] ++ tr) = true) ->
  exists ps', PInv (fst (pta_trace h al n tr m)) ps' (fun w => (W w + extra (nth n ps [] ++ tr) (nth n ps []) m w)%Z) /\
    (forall w, In w ps' <-> In w ps \/ (starts w (nth n ps [] ++ tr) && (length (nth n ps []) <? length w)%nat = true)).
Proof.
  induction tr as [|ch tr IH]; intros h al ps W n m P Ln W0 Le; cbn [pta_trace].
  - exists ps. rewrite app_nil_r. cbn [fst].
    assert (NO : forall w, starts w (nth n ps []) && (length (nth n ps []) <? length w)%nat = false).
    { intros w. destruct (starts w (nth n ps [])) eqn:E; [|reflexivity]. apply starts_firstn in E as (_ & L). cbn. apply Nat.ltb_ge. exact L. }
    split.
    + apply PInv_count; [exact Ln|]. apply (PInv_ext h ps W _ P). intros w _ _. unfold extra. rewrite NO. lia.
    + intros w. rewrite NO. split; [auto|]. intros [A|A]; [exact A|discriminate].
  - destruct (incKid_label h n ch m) as [[h' k]|] eqn:E.
    + set (p := nth n ps []). set (W1 := fun w => (W w + if trace_eqb w (p ++ [ch]) then m else 0)%Z).
      destruct (PInv_inc h ps W n ch m h' k W1 P Ln E (fun w => eq_refl)) as (Lk & Ek & L' & P'). fold p in Ek.
      assert (Ik : In (p ++ [ch]) ps) by (rewrite <- Ek; apply nth_In; rewrite (pi_len _ _ _ P); exact Lk).
      destruct (IH h' (if memb String.eqb ch al then al else al ++ [ch]) ps W1 k m P') as (ps' & A & B).
      { lia. }
      { intros w NI. unfold W1. rewrite (W0 w NI). destruct (trace_eqb w (p ++ [ch])) eqn:Q; [|lia].
        apply (lex_eqb_decides _ string_eqb_decides) in Q. subst w. contradiction. }
      { intros w J. destruct (Le w J) as (u & Q). exists u. rewrite Ek, <- app_assoc. exact Q. }
      rewrite Ek in A, B. replace ((p ++ [ch]) ++ tr) with (p ++ ch :: tr) in A, B by (rewrite <- app_assoc; reflexivity).
      exists ps'. split.
      * apply (PInv_ext _ ps' _ _ A). intros w _ _. unfold W1. rewrite extra_step. lia.
      * intros w. rewrite B, app_length. cbn [length]. split.
        -- intros [J|J]; [auto|]. right. apply andb_true_iff in J as (J1 & J2). rewrite J1. cbn. apply Nat.ltb_lt in J2. apply Nat.ltb_lt. lia.
        -- intros [J|J]; [auto|]. apply andb_true_iff in J as (J1 & J2). apply Nat.ltb_lt in J2.
           destruct (Nat.eq_dec (length w) (length p + 1)) as [E1|NE].
           ++ left. replace w with (p ++ [ch]); [exact Ik|]. apply starts_firstn in J1 as (E2 & _). rewrite E1, firstn_app in E2.
              replace (length p + 1 - length p)%nat with 1%nat in E2 by lia. rewrite firstn_all2 in E2 by lia. symmetry. exact E2.
           ++ right. rewrite J1. cbn. apply Nat.ltb_lt. lia.
    + destruct (addKids_spec (ch :: tr) h ps W n m P Ln W0) as (ps' & A).
      { intros l tr' [= <- <-] x J. unfold labels_of in J. apply in_map_iff in J as ([k c] & <- & J). cbn [fst]. split.
        - pose proof J as J'. apply (pi_kids _ _ _ P n Ln) in J' as (Lk & _ & Ek & _).
          destruct (Le (nth k ps [])) as (u & Q); [apply nth_In; rewrite (pi_len _ _ _ P); exact Lk|]. rewrite Ek, <- app_assoc in Q. apply (lex_next _ _ _ _ _ Q).
        - unfold incKid_label, incKid in E. destruct (inc_in _ (kids h n) m) as [[? ?]|] eqn:EI; [discriminate|].
          pose proof (inc_in_None _ _ _ EI k c J) as Q. apply String.eqb_neq in Q. exact Q. }
      exists ps'. destruct (addKids h n (ch :: tr) m) as [h' n']. destruct A as (A & B & C). cbn [fst]. split; [apply PInv_count; assumption|exact C].
Qed.

(** ** The whole tree *)
Lemma PInv_root W : PInv pta_root [[]] W.
Proof.
  constructor.
  - reflexivity.
  - split; [reflexivity|cbn; lia].
  - constructor; [intros []|constructor].
  - intros n Ln k c. cbn in Ln. assert (n = O) as -> by lia. cbn. split; [intros []|]. intros (A & B & _). lia.
  - intros n Ln. cbn in Ln. assert (n = O) as -> by lia. split; [exact Logic.I|constructor].
  - intros k Lk. cbn in Lk. lia.
  - reflexivity.
Qed.

Lemma pcount_app T T' w : pcount (T ++ T') w = (pcount T w + pcount T' w)%Z.
Proof. induction T as [|x T IH]; cbn; [reflexivity|]. fold (pcount (T ++ T') w). fold (pcount T w). rewrite IH. lia. Qed.
Lemma pcount_zero T w : (forall t m, In (t, m) T -> starts w t = false) -> pcount T w = 0%Z.
Proof.
  induction T as [|[t m] T IH]; intros A; [reflexivity|]. cbn. fold (pcount T w). rewrite (A t m (or_introl eq_refl)), IH; [reflexivity|].
  intros t' m' J. apply (A t' m'). right; exact J.
Qed.
Lemma pcount_nonneg T w : (forall t m, In (t, m) T -> (1 <= m)%Z) -> (0 <= pcount T w)%Z.
Proof.
  induction T as [|[t m] T IH]; intros P; [cbn; lia|]. cbn. fold (pcount T w).
  assert (0 <= pcount T w)%Z by (apply IH; intros t' m' I'; apply (P t' m'); right; exact I').
  pose proof (P t m (or_introl eq_refl)). destruct (starts w t); lia.
Qed.
Lemma pcount_pos T w t m : (forall t m, In (t, m) T -> (1 <= m)%Z) -> In (t, m) T -> starts w t = true -> (0 < pcount T w)%Z.
Proof.
  induction T as [|[t' m'] T IH]; intros P I S; [destruct I|]. cbn. fold (pcount T w).
  assert (Pn : (0 <= pcount T w)%Z) by (apply pcount_nonneg; intros a b J; apply (P a b); right; exact J).
  destruct I as [[= -> ->]|I].
  - rewrite S. pose proof (P t m (or_introl eq_refl)). lia.
  - assert (0 < pcount T w)%Z by (apply IH; auto; intros a b J; apply (P a b); right; exact J).
    pose proof (P t' m' (or_introl eq_refl)). destruct (starts w t'); lia.
Qed.

Lemma pta_build_spec T : sorted_by trace_leb (map fst T) ->
  exists ps, PInv (fst (pta_build T)) ps (pcount T) /\ (forall w, In w ps <-> w = [] \/ exists t m, In (t, m) T /\ starts w t = true).
Proof.
  unfold pta_build.
  assert (G : forall T2 T1 h al ps, sorted_by trace_leb (map fst (T1 ++ T2)) -> PInv h ps (pcount T1) ->
    (forall w, In w ps <-> w = [] \/ exists t m, In (t, m) T1 /\ starts w t = true) ->
    exists ps', PInv (fst (fold_left (fun ha t => pta_trace (fst ha) (snd ha) 0 (fst t) (snd t)) T2 (h, al))) ps' (pcount (T1 ++ T2)) /\
      (forall w, In w ps' <-> w = [] \/ exists t m, In (t, m) (T1 ++ T2) /\ starts w t = true)).
  { induction T2 as [|[t m] T2 IH]; intros T1 h al ps S P I; [rewrite app_nil_r; exists ps; auto|]. cbn [fold_left fst snd].
    set (W := fun w => match w with [] => 0%Z | _ :: _ => pcount T1 w end).
    assert (P0 : PInv h ps W) by (apply (PInv_ext h ps (pcount T1) W P); intros [|] _ N; [congruence|reflexivity]).
    pose proof (proj1 (pi_0 _ _ _ P)) as Z0.
    destruct (pta_trace_spec t h al ps W O m P0) as (ps' & A & B).
    { apply P. }
    { intros [|a w] NI; [reflexivity|]. unfold W. apply pcount_zero. intros t' m' J. destruct (starts (a :: w) t') eqn:Q; [|reflexivity].
      exfalso. apply NI, I. right. eauto. }
    { rewrite Z0. intros w J. apply I in J as [->|(t' & m' & J & Q)].
      - exists t. cbn. destruct (lex_total String.eqb String.leb string_eqb_decides string_leb_total t t); assumption.
      - apply starts_spec in Q as (u & ->). exists u. cbn [app].
        clear - S J. induction T1 as [|[t1 m1] T1 IH1]; [destruct J|]. cbn in S. destruct S as (S1 & S2). destruct J as [J|J].
        + replace (w ++ u) with t1 in * by congruence. apply S1. rewrite map_app. cbn. apply in_or_app. right. left. reflexivity.
        + apply IH1; assumption. }
    rewrite Z0 in A, B. cbn [app] in A, B. destruct (pta_trace h al 0 t m) as [h' al'] eqn:ET. cbn [fst] in A.
    destruct (IH (T1 ++ [(t, m)]) h' al' ps') as (ps2 & A2 & B2).
    - rewrite <- app_assoc. exact S.
    - apply (PInv_ext h' ps' _ _ A). intros [|a w] _ N; [congruence|]. rewrite pcount_app. unfold W, extra. cbn [pcount fold_right fst snd length].
      replace (0 <? Datatypes.S (length w))%nat with true by reflexivity. rewrite andb_true_r. lia.
    - intros w. rewrite B, I. split.
      + intros [[->|(t' & m' & J & Q)]|Q].
        * left; reflexivity.
        * right. exists t', m'. split; [apply in_or_app; left; exact J|exact Q].
        * apply andb_true_iff in Q as (Q & _). right. exists t, m. split; [apply in_or_app; right; left; reflexivity|exact Q].
      + intros [->|(t' & m' & J & Q)]; [auto|]. apply in_app_or in J as [J|[[= <- <-]|[]]]; [left; right; eauto|].
        destruct w as [|a w]; [auto|]. right. rewrite Q. reflexivity.
    - rewrite <- app_assoc in A2, B2. exists ps2. auto. }
  intros S. destruct (G T [] pta_root [] [[]] S (PInv_root _)) as (ps & A & B).
  - intros w. cbn. split; [intros [<-|[]]; auto|]. intros [->|(t & m & [] & _)]. auto.
  - exists ps. auto.
Qed.

(** ** The tree meets the requirements of the merging phase *)
Section Start.
  Variables (h : pheap) (ps : list (list string)) (W : list string -> Z).
  Hypothesis P : PInv h ps W.
  Hypothesis Wpos : forall w, In w ps -> w <> [] -> (0 < W w)%Z.
  Definition par_of (y : nat) : nat := match parent h y with Some n => n | None => O end.
  Definition w_of (y : nat) : Z := W (nth y ps []).

  Lemma par_of_lt y : (0 < y < length h)%nat -> (par_of y < y)%nat /\ nth y ps [] = nth (par_of y) ps [] ++ [label h y].
  Proof. intros L. destruct (pi_par _ _ _ P y L) as (n & A & B & C). unfold par_of. rewrite B. auto. Qed.
  Lemma kids_parent n k c : (n < length h)%nat -> In (k, c) (kids h n) -> parent h k = Some n /\ (n < k)%nat /\ (k < length h)%nat.
  Proof.
    intros Ln I. apply (pi_kids _ _ _ P n Ln) in I as (Lk & K0 & E & _). destruct (pi_par _ _ _ P k) as (q & Lq & Pq & Eq); [lia|].
    rewrite E in Eq. apply app_inj_tail in Eq as (Eq & _). assert (n = q) by (apply (pi_inj h ps W n q P); [exact Ln|lia|exact Eq]). subst q. auto.
  Qed.

  Lemma start_trees : forall d n, (length h <= n + d)%nat -> (n < length h)%nat ->
    exists D, tree_at h n D /\ forall x, In x D -> (x < length h)%nat /\ starts (nth n ps []) (nth x ps []) = true.
  Proof.
    induction d as [|d IH]; intros n Ld Ln; [lia|].
    assert (F : exists D, forest_at h n (map fst (kids h n)) D /\ forall x, In x D -> exists k, In k (map fst (kids h n)) /\ (x < length h)%nat /\ starts (nth k ps []) (nth x ps []) = true).
    { assert (Sub : forall k, In k (map fst (kids h n)) -> exists c, In (k, c) (kids h n)) by (intros k J; apply In_fst, J).
      pose proof (NoDup_kids h n (proj2 (pi_sorted _ _ _ P n Ln))) as ND.
      induction (map fst (kids h n)) as [|k ks IHk]; [exists []; split; [constructor|intros x []]|].
      inversion ND as [|? ? NI ND']; subst. destruct IHk as (D2 & F2 & S2); [intros k' J; apply Sub; right; exact J|exact ND'|].
      destruct (Sub k (or_introl eq_refl)) as (c & I). destruct (kids_parent n k c Ln I) as (Pk & Lt & Lk).
      destruct (IH k) as (D1 & T1 & S1); [lia|exact Lk|]. exists (D1 ++ D2). split.
      - constructor; [exact T1|exact Pk|exact F2|]. intros x J1 J2. destruct (S1 x J1) as (_ & Q1). destruct (S2 x J2) as (k' & Jk & _ & Q2).
        destruct (Sub k' (or_intror Jk)) as (c' & I'). apply (pi_kids _ _ _ P n Ln) in I as (_ & _ & E & _). apply (pi_kids _ _ _ P n Ln) in I' as (Lk' & _ & E' & _).
        apply starts_firstn in Q1 as (Q1 & _). apply starts_firstn in Q2 as (Q2 & _).
        assert (Len : length (nth k ps []) = length (nth k' ps [])) by (rewrite E, E', !app_length; reflexivity).
        rewrite Len in Q1. assert (nth k ps [] = nth k' ps []) by congruence.
        assert (k = k') by (apply (pi_inj h ps W k k' P Lk Lk'); assumption). subst k'. contradiction.
      - intros x J. apply in_app_or in J as [J|J].
        + exists k. split; [left; reflexivity|apply S1, J].
        + destruct (S2 x J) as (k' & Jk & Q). exists k'. split; [right; exact Jk|exact Q]. }
    destruct F as (D & F & S). exists (n :: D).
    assert (ST : forall x, In x D -> exists l u, nth x ps [] = nth n ps [] ++ l :: u).
    { intros x J. destruct (S x J) as (k & Jk & _ & Q). apply In_fst in Jk as (c & I). apply (pi_kids _ _ _ P n Ln) in I as (_ & _ & E & _).
      apply starts_spec in Q as (u & Q). rewrite E, <- app_assoc in Q. eauto. }
    split.
    - constructor; [exact F|]. intros J. destruct (ST n J) as (l & u & Q). apply (f_equal (@length string)) in Q. rewrite app_length in Q. cbn in Q. lia.
    - intros x [<-|J]; [split; [exact Ln|apply starts_refl]|]. destruct (S x J) as (_ & _ & Lx & _). split; [exact Lx|].
      destruct (ST x J) as (l & u & Q). rewrite Q. apply starts_app.
  Qed.

  Lemma start_LInv : LInv h (fun x => (x <? length h)%nat) (redb [O]).
  Proof.
    constructor.
    - intros x L. apply Nat.ltb_lt, L.
    - intros x R. apply memb_nat in R as [<-|[]]. apply Nat.ltb_lt, P.
    - intros n k c Ln I. apply Nat.ltb_lt in Ln. apply Nat.ltb_lt. apply (kids_parent n k c Ln I).
    - intros n Ln. apply Nat.ltb_lt in Ln. apply P, Ln.
    - intros n k c Ln I. apply Nat.ltb_lt in Ln. apply (pi_kids _ _ _ P n Ln) in I as (Lk & K0 & _ & ->). apply Wpos; [apply nth_In; rewrite (pi_len _ _ _ P); exact Lk|].
      apply (pi_nonempty h ps W k P Lk K0).
    - intros n k c Ln I _. apply Nat.ltb_lt in Ln. apply (kids_parent n k c Ln I).
    - intros n Ln Rn. apply Nat.ltb_lt in Ln. destruct (start_trees (length h) n) as (D & T & S); [lia|exact Ln|]. exists D. split; [exact T|].
      intros x J. destruct (S x J) as (Lx & Q). split; [apply Nat.ltb_lt, Lx|]. apply memb_nat_false. intros [<-|[]].
      rewrite (proj1 (pi_0 _ _ _ P)) in Q. apply starts_spec in Q as (u & Q). symmetry in Q. apply app_eq_nil in Q as (Q & _).
      apply memb_nat_false in Rn. apply Rn. left. symmetry. destruct (Nat.eq_dec n 0) as [E|NE]; [exact E|]. exfalso. apply (pi_nonempty h ps W n P Ln NE Q).
  Qed.

  Lemma start_wt n g : (n < length h)%nat ->
    wt h n g = zs (seq 1 (length h - 1)) (fun y => if (par_of y =? n)%nat && g y then w_of y else 0%Z).
  Proof.
    intros Ln. unfold wt.
    rewrite (zs_ext (kids h n) _ (fun kc => if g (fst kc) then w_of (fst kc) else 0%Z)).
    2:{ intros [k c] I. cbn [fst snd]. apply (pi_kids _ _ _ P n Ln) in I as (_ & _ & _ & ->). reflexivity. }
    rewrite <- (zs_map fst (kids h n) (fun k => if g k then w_of k else 0%Z)).
    rewrite (zs_perm (map fst (kids h n)) (filter (fun y => (par_of y =? n)%nat) (seq 1 (length h - 1)))).
    - generalize (seq 1 (length h - 1)) as l. intros l. induction l as [|y l IH]; [reflexivity|]. cbn [filter]. rewrite zs_cons, <- IH.
      destruct (par_of y =? n)%nat; cbn [andb]; [apply zs_cons|lia].
    - apply NoDup_Permutation.
      + apply NoDup_kids. apply P, Ln.
      + apply NoDup_filter, seq_NoDup.
      + intros y. rewrite filter_In, in_seq, Nat.eqb_eq, In_fst. split.
        * intros (c & I). destruct (kids_parent n y c Ln I) as (A & B & C). split; [lia|]. unfold par_of. rewrite A. reflexivity.
        * intros (L & E). exists (w_of y). destruct (par_of_lt y) as (A & B); [lia|]. rewrite E in B. apply (pi_kids _ _ _ P n Ln). repeat split; [lia|lia|exact B].
  Qed.

  Lemma start_MInv : MInv h par_of w_of h (fun x => (x <? length h)%nat) [O] (fun y => y).
  Proof.
    constructor.
    - reflexivity.
    - reflexivity.
    - apply start_LInv.
    - split; [left; reflexivity|reflexivity].
    - intros y L. split; [apply Nat.ltb_lt, L|reflexivity].
    - reflexivity.
    - intros n g L. apply Nat.ltb_lt in L. apply start_wt, L.
  Qed.
  Lemma start_measure : (measure h (fun x => (x <? length h)%nat) [O] < length h)%nat.
  Proof.
    unfold measure. apply (Nat.lt_le_trans _ (length (filter (fun _ => true) (seq 0 (length h))))).
    - apply (filter_length_lt _ _ _ O); [auto|apply in_seq; split; [lia|apply P]|reflexivity|cbn; apply andb_false_r].
    - assert (E : forall l : list nat, filter (fun _ => true) l = l) by (induction l as [|a l IH]; [reflexivity|cbn; rewrite IH; reflexivity]).
      rewrite E, seq_length. lia.
  Qed.
End Start.

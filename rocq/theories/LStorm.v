(** Lemmas on the conversions from and to stormpy. *)
From Coq Require Import String Ascii ZArith Bool Reals Permutation List Lra Lia.
From Verif Require Import Num Py SNum LSum MTools LTools SSet LSet MModels MCtor SCtor LCtor MPctmc MStorm SStorm LIOAlergia4.
Import ListNotations.
Local Open Scope R_scope.

(** ** Labels *)

Lemma drop_first_In x l o : NoDup l -> (In o (drop_first x l) <-> In o l /\ o <> x).
Proof.
  induction l as [|y l IH]; intros N; cbn; [tauto|]. inversion N as [|? ? NI N']; subst. destruct (String.eqb_spec x y) as [->|NE].
  - split; [intros J; split; [right; exact J|intros ->; contradiction]|intros [[->|J] NE]; [congruence|exact J]].
  - cbn. rewrite (IH N'). split; [intros [->|[J NE']]; [split; [left; reflexivity|congruence]|auto]|intros [[->|J] NE']; auto].
Qed.
Lemma drop_first_NoDup x l : NoDup l -> NoDup (drop_first x l).
Proof.
  induction l as [|y l IH]; intros N; cbn; [constructor|]. inversion N as [|? ? NI N']; subst. destruct (String.eqb_spec x y); [exact N'|].
  constructor; [rewrite drop_first_In by exact N'; tauto|apply IH, N'].
Qed.
Lemma drop_first_sorted x l : NoDup l -> sorted_by String.leb l -> sorted_by String.leb (drop_first x l).
Proof.
  induction l as [|y l IH]; intros N S; cbn; [exact I|]. inversion N as [|? ? NI N']; subst. destruct S as [P S]. destruct (String.eqb_spec x y); [exact S|].
  cbn. split; [|apply IH; assumption]. intros z J. apply drop_first_In in J as [J _]; [apply P, J|exact N'].
Qed.
Lemma isort_str_sorted l : sorted_by String.leb (isort_list String.leb l).
Proof. apply isort_sorted_by; [apply string_leb_total|intros x y z; apply string_leb_trans]. Qed.
Lemma isort_In l x : In x (isort_list String.leb l) <-> In x l.
Proof. split; apply Permutation_in; [symmetry|]; apply isort_perm. Qed.
Lemma isort_NoDup l : NoDup l -> NoDup (isort_list String.leb l).
Proof. apply Permutation_NoDup, isort_perm. Qed.

Lemma state_label_spec L : NoDup L -> state_text L (fst (state_label L)) /\ (snd (state_label L) = true <-> marked L).
Proof.
  intros N. unfold state_label. set (temp := isort_list String.leb (drop_first "deadlock" L)).
  assert (ND : NoDup temp) by (apply isort_NoDup, drop_first_NoDup, N).
  assert (SO : sorted_by String.leb temp) by apply isort_str_sorted.
  assert (IN : forall o, In o temp <-> In o L /\ o <> "deadlock"%string) by (intros o; unfold temp; rewrite isort_In, drop_first_In by exact N; reflexivity).
  clearbody temp. destruct temp as [|x l] eqn:E.
  - cbn [fst snd]. split.
    + exists []. split; [constructor|]. split; [exact I|]. split; [|reflexivity]. intros o. split; [intros []|]. intros (J & D & _). apply (IN o); auto.
    + split; [discriminate|]. intros (J & _). exfalso. apply (IN "init"%string). split; [exact J|discriminate].
  - rewrite <- E in *. destruct (memb String.eqb "init"%string temp && (1 <? length temp)%nat) eqn:C; cbn [fst snd].
    + apply andb_true_iff in C as [C1 C2]. apply memb_str in C1. apply Nat.ltb_lt in C2.
      assert (M : marked L).
      { split; [apply IN, C1|]. pose proof (drop_first_In "init" temp) as DI.
        assert (LD : length temp = S (length (drop_first "init" temp))).
        { clear -C1. induction temp as [|y l IH]; [destruct C1|]. cbn [drop_first]. destruct (String.eqb_spec "init" y) as [<-|NE]; [reflexivity|].
          cbn. f_equal. apply IH. destruct C1; congruence. }
        destruct (drop_first "init" temp) as [|o l'] eqn:ED; [cbn in LD; lia|]. exists o.
        destruct (proj1 (DI o ND) (or_introl eq_refl)) as [J NE]. apply IN in J as [J D]. auto. }
      split; [|split; [intros _; exact M|reflexivity]].
      exists (drop_first "init" temp). split; [apply drop_first_NoDup, ND|]. split; [apply drop_first_sorted; assumption|]. split.
      * intros o. rewrite drop_first_In by exact ND. rewrite IN. unfold shown. split; [intros [[J D] NI]; split; [exact J|]; split; [exact D|congruence]|].
        intros (J & D & NI). split; [auto|]. intros ->. apply NI; [reflexivity|exact M].
      * destruct (drop_first "init" temp) eqn:ED; [|reflexivity]. exfalso. destruct M as (_ & o & J & NI & D).
        assert (X : In o (drop_first "init" temp)) by (apply drop_first_In; [exact ND|]; split; [apply IN; auto|exact NI]). rewrite ED in X. exact X.
    + assert (M : ~ marked L).
      { intros (J & o & J' & NI & D). apply andb_false_iff in C as [C|C].
        - apply memb_str_false in C. apply C, IN. split; [exact J|discriminate].
        - apply Nat.ltb_ge in C. assert (A : In "init"%string temp) by (apply IN; split; [exact J|discriminate]). assert (B : In o temp) by (apply IN; auto).
          destruct temp as [|y [|z r]]; [destruct A| |cbn in C; lia]. destruct A as [->|[]], B as [<-|[]]. congruence. }
      split; [|split; [discriminate|tauto]].
      exists temp. split; [exact ND|]. split; [exact SO|]. split; [|rewrite E; reflexivity].
      intros o. rewrite IN. unfold shown. split; [intros [J D]; auto|intros (J & D & _); auto].
Qed.

Lemma state_text_fun L t t' : state_text L t -> state_text L t' -> t = t'.
Proof.
  intros (l & N & S & I & ->) (l' & N' & S' & I' & ->). assert (l = l') as <-; [|reflexivity].
  assert (I2 : forall o, In o l <-> In o l') by (intros o; rewrite I, I'; reflexivity). clear I I'.
  revert l' N' S' I2. induction l as [|x l IH]; intros [|y l'] N' S' I2; [reflexivity| | |].
  - exfalso. apply (I2 y). left; reflexivity.
  - exfalso. apply (I2 x). left; reflexivity.
  - inversion N as [|? ? NI N1]; inversion N' as [|? ? NI' N1']; subst. destruct S as [P S], S' as [P' S'].
    assert (x = y) as <-.
    { destruct (proj1 (I2 x) (or_introl eq_refl)) as [<-|J]; [reflexivity|]. destruct (proj2 (I2 y) (or_introl eq_refl)) as [->|J']; [reflexivity|].
      apply string_leb_antisym; [apply P, J'|apply P', J]. }
    f_equal. apply IH; auto. intros o. split; intros J.
    + destruct (proj1 (I2 o) (or_intror J)) as [<-|]; [contradiction|assumption].
    + destruct (proj2 (I2 o) (or_intror J)) as [<-|]; [contradiction|assumption].
Qed.

(** the joined text is init only for the single label init *)
Fixpoint has_char (c : ascii) (s : string) : bool := match s with EmptyString => false | String a s' => Ascii.eqb a c || has_char c s' end.
Lemma has_char_app c s t : has_char c (s ++ t)%string = has_char c s || has_char c t.
Proof. induction s as [|a s IH]; cbn; [reflexivity|]. rewrite IH, orb_assoc. reflexivity. Qed.
Lemma concat_init l : String.concat "_" l = "init"%string -> l = ["init"%string].
Proof.
  destruct l as [|x [|y l]]; intros E; [discriminate|cbn in E; congruence|]. exfalso.
  assert (X : has_char "_" (String.concat "_" (x :: y :: l)) = true).
  { change (String.concat "_" (x :: y :: l)) with (x ++ "_" ++ String.concat "_" (y :: l))%string. rewrite !has_char_app. cbn. apply orb_true_r. }
  rewrite E in X. discriminate.
Qed.
Lemma state_text_init L : NoDup L -> (state_text L "init" <-> In "init"%string L /\ ~ marked L).
Proof.
  intros N. split.
  - intros (l & ND & S & I & E). destruct l as [|x l]; [discriminate|]. symmetry in E. apply concat_init in E. rewrite E in *.
    destruct (proj1 (I "init"%string) (or_introl eq_refl)) as (J & _ & M). auto.
  - intros (J & M). exists ["init"%string]. split; [repeat constructor; tauto|]. split; [split; [intros y []|exact I]|]. split; [|reflexivity].
    intros o. unfold shown. split.
    + intros [<-|[]]. split; [exact J|]. split; [discriminate|intros _; exact M].
    + intros (K & D & _). destruct (string_dec "init" o) as [<-|NE]; [left; reflexivity|]. exfalso. apply M. split; [exact J|]. exists o. auto.
Qed.

(** ** The marked state *)
Lemma marked_fold ls : forall k acc, 
  let r := fold_left (fun acc (ir : nat * (string * bool)) => if snd (snd ir) then Some (fst ir) else acc) (combine (seq k (length ls)) (map state_label ls)) acc in
  (filter snd (map state_label ls) = [] /\ r = acc) \/
  exists s, (s < length ls)%nat /\ snd (state_label (nth s ls [])) = true /\ r = Some (k + s)%nat /\ forall s', (s < s' < length ls)%nat -> snd (state_label (nth s' ls [])) = false.
Proof.
  induction ls as [|L ls IH]; intros k acc; cbn; [left; auto|].
  destruct (IH (S k) (if snd (state_label L) then Some k else acc)) as [[E1 E2]|(s & Hs & E1 & E2 & E3)].
  - destruct (snd (state_label L)) eqn:E.
    + right. exists O. split; [lia|]. split; [exact E|]. split; [rewrite Nat.add_0_r; exact E2|]. intros [|s'] Hs'; [lia|].
      destruct (snd (state_label (nth s' ls []))) eqn:F; [|reflexivity]. exfalso.
      assert (X : In (state_label (nth s' ls [])) (filter snd (map state_label ls))) by (apply filter_In; split; [apply in_map, nth_In; lia|exact F]). rewrite E1 in X. exact X.
    + left. auto.
  - right. exists (S s). split; [lia|]. split; [exact E1|]. split; [rewrite E2; f_equal; lia|]. intros [|s'] Hs'; [lia|]. apply E3. lia.
Qed.
Lemma filter_one {A} (p : A -> bool) l d : (length (filter p l) <= 1)%nat -> forall i j, (i < length l)%nat -> (j < length l)%nat -> p (nth i l d) = true -> p (nth j l d) = true -> i = j.
Proof.
  induction l as [|x l IH]; intros L i j Hi Hj P Q; [cbn in Hi; lia|]. cbn in L.
  assert (NO : p x = true -> forall k, (k < length l)%nat -> p (nth k l d) = true -> False).
  { intros Px k Hk Pk. rewrite Px in L. cbn in L. assert (X : In (nth k l d) (filter p l)) by (apply filter_In; split; [apply nth_In, Hk|exact Pk]).
    destruct (filter p l); [destruct X|cbn in L; lia]. }
  destruct i as [|i], j as [|j]; [reflexivity| | |f_equal]; cbn in *.
  - exfalso. apply (NO P j); [lia|exact Q].
  - exfalso. apply (NO Q i); [lia|exact P].
  - apply IH; auto; try lia. destruct (p x); cbn in L; lia.
Qed.
Lemma filter_le1 {A} (p : A -> bool) l d : (forall i j, (i < length l)%nat -> (j < length l)%nat -> p (nth i l d) = true -> p (nth j l d) = true -> i = j) -> (length (filter p l) <= 1)%nat.
Proof.
  induction l as [|x l IH]; intros H; [cbn; lia|]. cbn. destruct (p x) eqn:E.
  - assert (filter p l = []) as ->; [|cbn; lia]. destruct (filter p l) as [|y r] eqn:F; [reflexivity|]. exfalso.
    assert (X : In y (filter p l)) by (rewrite F; left; reflexivity). apply filter_In in X as [X Y]. apply (In_nth _ _ d) in X as (k & Hk & <-).
    specialize (H O (S k)). cbn in H. assert (O = S k) by (apply H; auto; lia). discriminate.
  - apply IH. intros i j Hi Hj P Q. assert (S i = S j) by (apply H; cbn; auto; lia). congruence.
Qed.

Section Labels.
  Variable ls : list (list string).
  Hypothesis ND : forall L, In L ls -> NoDup L.
  Lemma marked_label s : (s < length ls)%nat -> (snd (state_label (nth s ls [])) = true <-> marked (nth s ls [])).
  Proof. intros H. apply state_label_spec, ND, nth_In, H. Qed.
  Lemma labels_length : length (labelling_of ls) = (length ls + length (filter snd (map state_label ls)))%nat.
  Proof. unfold labelling_of. rewrite app_length, !map_length, repeat_length. reflexivity. Qed.
  Lemma unique_marked : (forall s s', (s < length ls)%nat -> (s' < length ls)%nat -> marked (nth s ls []) -> marked (nth s' ls []) -> s = s') <->
    (length (filter snd (map state_label ls)) <= 1)%nat.
  Proof.
    assert (NTH : forall i, (i < length ls)%nat -> nth i (map state_label ls) (state_label []) = state_label (nth i ls [])) by (intros; apply map_nth).
    split; intros H.
    - apply (filter_le1 _ _ (state_label [])). rewrite map_length. intros i j Hi Hj. rewrite !NTH by assumption. rewrite !marked_label by assumption. auto.
    - intros s s' Hs Hs' M M'. apply (filter_one snd (map state_label ls) (state_label []) H); rewrite ?map_length; auto; rewrite NTH by assumption; apply marked_label; assumption.
  Qed.
  Lemma add_init_spec : (length (filter snd (map state_label ls)) <= 1)%nat ->
    only_marked ls (add_init_of ls) /\ length (filter snd (map state_label ls)) = extra (add_init_of ls).
  Proof.
    intros H. pose proof (marked_fold ls 0 None) as F. cbn zeta in F. fold (add_init_of ls) in F. destruct F as [[E1 E2]|(s & Hs & M & E & _)].
    - rewrite E2, E1. split; [|reflexivity]. intros s Hs MK. apply marked_label in MK; [|exact Hs].
      assert (X : In (state_label (nth s ls [])) (filter snd (map state_label ls))) by (apply filter_In; split; [apply in_map, nth_In, Hs|exact MK]). rewrite E1 in X. exact X.
    - rewrite E. cbn [Nat.add extra]. split.
      + split; [exact Hs|]. intros s' Hs'. split; [|intros ->; apply marked_label; assumption].
        intros MK. apply (proj2 unique_marked H); auto. apply marked_label; assumption.
      + assert (X : In (state_label (nth s ls [])) (filter snd (map state_label ls))) by (apply filter_In; split; [apply in_map, nth_In, Hs|exact M]).
        destruct (filter snd (map state_label ls)) as [|y [|z r]]; [destruct X|reflexivity|cbn in H; lia].
  Qed.
  Lemma labels_converted : (length (filter snd (map state_label ls)) <= 1)%nat -> converted_labels ls (add_init_of ls) (labelling_of ls).
  Proof.
    intros H. destruct (add_init_spec H) as [_ E]. split; [rewrite labels_length, E; reflexivity|]. split.
    - intros s Hs. unfold labelling_of. rewrite app_nth1 by (rewrite !map_length; exact Hs). rewrite map_map, (nth_indep _ _ (fst (state_label []))) by (rewrite map_length; exact Hs).
      rewrite (map_nth (fun x => fst (state_label x))). apply state_label_spec, ND, nth_In, Hs.
    - intros NE. unfold labelling_of. rewrite app_nth2 by (rewrite !map_length; lia). rewrite !map_length, Nat.sub_diag, E. destruct (add_init_of ls); [reflexivity|congruence].
  Qed.
  Lemma init_labelling : In "init"%string (labelling_of ls) <-> exists s, (s < length ls)%nat /\ In "init"%string (nth s ls []).
  Proof.
    unfold labelling_of. rewrite in_app_iff, map_map, in_map_iff. split.
    - intros [(L & E & J)|J].
      + apply (In_nth _ _ []) in J as (s & Hs & EL). exists s. split; [exact Hs|]. rewrite EL. assert (N : NoDup L) by (rewrite <- EL; apply ND, nth_In, Hs).
        apply (state_text_init L N). rewrite <- E. apply state_label_spec, N.
      + destruct (filter snd (map state_label ls)) as [|y r] eqn:F; [destruct J|]. assert (X : In y (filter snd (map state_label ls))) by (rewrite F; left; reflexivity).
        apply filter_In in X as [X Y]. apply in_map_iff in X as (L & <- & X). apply (In_nth _ _ []) in X as (s & Hs & <-). exists s. split; [exact Hs|].
        apply marked_label in Y; [apply Y|exact Hs].
    - intros (s & Hs & J). destruct (snd (state_label (nth s ls []))) eqn:M.
      + right. assert (X : In (state_label (nth s ls [])) (filter snd (map state_label ls))) by (apply filter_In; split; [apply in_map, nth_In, Hs|exact M]).
        destruct (filter snd (map state_label ls)); [destruct X|left; reflexivity].
      + left. exists (nth s ls []). split; [|apply nth_In, Hs]. assert (N : NoDup (nth s ls [])) by (apply ND, nth_In, Hs).
        apply (state_text_fun (nth s ls [])); [apply state_label_spec, N|]. apply state_text_init; [exact N|]. split; [exact J|]. intros MK. apply marked_label in MK; [congruence|exact Hs].
  Qed.
End Labels.

(** ** Rows *)
Lemma set_row_spec {V} (d : V) ts : forall r, NoDup (map fst ts) -> (forall j v, In (j, v) ts -> (j < length r)%nat) ->
  exists r', set_row r ts = Ok r' /\ length r' = length r /\
    forall j, (forall v, In (j, v) ts -> nth j r' d = v) /\ ((forall w, ~ In (j, w) ts) -> nth j r' d = nth j r d).
Proof.
  unfold set_row. induction ts as [|[k x] ts IH]; intros r N H; [exists r; split; [reflexivity|]; split; [reflexivity|]; intros j; split; [intros v []|reflexivity]|].
  inversion N as [|? ? NI N']; subst. cbn [mfold fst snd]. assert (Hk : (k < length r)%nat) by (apply (H k x); left; reflexivity).
  rewrite pyset_ok by lia. cbn [bind]. rewrite Nat2Z.id.
  destruct (IH (upd r k x) N') as (r' & E & L & P); [intros j v J; rewrite upd_length; apply (H j v); right; exact J|].
  exists r'. split; [exact E|]. split; [rewrite L; apply upd_length|]. intros j. destruct (P j) as [P1 P2]. split.
  - intros v [[= -> ->]|J]; [|auto]. rewrite P2 by (intros w J; apply NI, (in_map fst _ _ J)). rewrite upd_nth by exact Hk. rewrite Nat.eqb_refl. reflexivity.
  - intros NJ. rewrite P2 by (intros w J; apply (NJ w); right; exact J). rewrite upd_nth by exact Hk. destruct (Nat.eqb_spec j k) as [->|]; [exfalso; apply (NJ x); left; reflexivity|].
    destruct (Nat.eqb_spec k j); [congruence|reflexivity].
Qed.
Lemma entry_fun {V} (z : V) ts j v w : NoDup (map fst ts) -> entry z ts j v -> entry z ts j w -> v = w.
Proof.
  intros N [I|[NI ->]] [J|[NJ ->]]; [|exfalso; apply (NJ _ I)|exfalso; apply (NI _ J)|reflexivity].
  induction ts as [|[k x] ts IH]; [destruct I|]. inversion N as [|? ? X N']; subst. destruct I as [[= -> ->]|I], J as [E|J].
  - congruence.
  - exfalso. apply X, (in_map fst _ _ J).
  - injection E as -> ->. exfalso. apply X, (in_map fst _ _ I).
  - auto.
Qed.

Lemma mmap_nth {A B} (f : A -> res B) (P : nat -> B -> Prop) l d d' :
  (forall s, (s < length l)%nat -> exists r, f (nth s l d) = Ok r /\ P s r) ->
  exists m, mmap f l = Ok m /\ length m = length l /\ forall s, (s < length l)%nat -> P s (nth s m d').
Proof.
  revert P. induction l as [|a l IH]; intros P H; [exists []; split; [reflexivity|]; split; [reflexivity|]; intros s L; cbn in L; lia|].
  destruct (H O) as (r & E & Q); [cbn; lia|]. destruct (IH (fun s => P (S s))) as (m & Em & Lm & Pm); [intros s Hs; apply (H (S s)); cbn; lia|].
  exists (r :: m). cbn in *. rewrite E. cbn [bind]. rewrite Em. cbn [bind]. split; [reflexivity|]. split; [congruence|]. intros [|s] Hs; [exact Q|]. cbn. apply Pm. lia.
Qed.

Section Rows.
  Variables (h : sparse R R) (D : nat -> nat -> R).
  Notation n := (length (sp_labels h)).
  Hypotheses (WF : well_formed h) (ONE : one_action h) (HD : forall s j, (s < n)%nat -> (j < n)%nat -> entry 0 (action h s 0) j (D s j)).

  Lemma dense_row_spec s : (s < n)%nat -> exists r, dense_row n (nth s (sp_rows h) []) = Ok r /\ length r = n /\ forall j, (j < n)%nat -> nth j r 0 = D s j.
  Proof.
    intros Hs. destruct WF as (LR & _ & WT).
    assert (IR : In (nth s (sp_rows h) []) (sp_rows h)) by (apply nth_In; lia).
    pose proof (HD s) as HDs. unfold action in HDs. pose proof (ONE _ IR) as L1. pose proof (fun ts => WT _ ts IR) as WT1.
    destruct (nth s (sp_rows h) []) as [|ts [|? ?]] eqn:E; [discriminate| |discriminate]. cbn [nth] in HDs.
    destruct (WT1 ts (or_introl eq_refl)) as (ND & CL).
    destruct (set_row_spec 0 ts (@vzeros R _ n)) as (r & Er & Lr & Pr); [exact ND|unfold vzeros; rewrite repeat_length; exact CL|].
    exists r. unfold dense_row. cbn [mfold]. rewrite Er. cbn [bind]. split; [reflexivity|]. unfold vzeros in Lr. rewrite repeat_length in Lr. split; [exact Lr|].
    intros j Hj. destruct (Pr j) as [P1 P2]. destruct (HDs j Hs Hj) as [I|[NI ->]]; [apply P1, I|]. rewrite P2 by exact NI. unfold vzeros. apply nth_repeat.
  Qed.

  Lemma dense_rows : exists m, mmap (dense_row n) (sp_rows h) = Ok m /\ length m = n /\
    forall s, (s < n)%nat -> length (nth s m []) = n /\ forall j, (j < n)%nat -> matR m s j = D s j.
  Proof.
    pose proof (proj1 WF) as LR.
    destruct (mmap_nth (dense_row n) (fun s r => length r = n /\ forall j, (j < n)%nat -> nth j r 0 = D s j) (sp_rows h) [] []) as (m & E & L & P).
    - intros s Hs. apply dense_row_spec. lia.
    - exists m. rewrite LR in *. auto.
  Qed.

  Lemma scaled_rows (from_prism : bool) : (from_prism = false -> length (sp_exit h) = n) ->
    exists m, mmap (fun ir => do r <- dense_row n (snd ir); if from_prism then Ok r else do e <- at_list (sp_exit h) (fst ir); Ok (map (fun x => nmul x e) r))
                   (combine (seq 0 n) (sp_rows h)) = Ok m /\ length m = n /\
      forall s, (s < n)%nat -> length (nth s m []) = n /\ forall j, (j < n)%nat -> matR m s j = if from_prism then D s j else D s j * nth s (sp_exit h) 0.
  Proof.
    intros HX. pose proof (proj1 WF) as LR. assert (LC : length (combine (seq 0 n) (sp_rows h)) = n) by (rewrite combine_length, seq_length, LR; apply Nat.min_id).
    destruct (mmap_nth (fun ir : nat * list (list (nat * R)) => do r <- dense_row n (snd ir); if from_prism then Ok r else do e <- at_list (sp_exit h) (fst ir); Ok (map (fun x => nmul x e) r))
       (fun s r => length r = n /\ forall j, (j < n)%nat -> nth j r 0 = if from_prism then D s j else D s j * nth s (sp_exit h) 0) (combine (seq 0 n) (sp_rows h)) (O, []) []) as (m & E & L & P).
    - intros s Hs. rewrite LC in Hs. rewrite combine_nth by (rewrite seq_length; lia). rewrite seq_nth by exact Hs. cbn [fst snd Nat.add].
      destruct (dense_row_spec s Hs) as (r & Er & Lr & Pr). rewrite Er. cbn [bind]. destruct from_prism; [exists r; auto|].
      unfold at_list. rewrite (nth_error_nth' _ 0) by (rewrite HX by reflexivity; exact Hs). cbn [bind]. eexists. split; [reflexivity|]. split; [rewrite map_length; exact Lr|].
      intros j Hj. rewrite <- (Pr j Hj). rewrite (nth_indep _ 0 (nmul 0 (nth s (sp_exit h) 0))) by (rewrite map_length, Lr; exact Hj). rewrite (map_nth (fun x => nmul x (nth s (sp_exit h) 0))). reflexivity.
    - exists m. rewrite LC in *. auto.
  Qed.
End Rows.

Lemma add_state_spec (m : list (list R)) D o n : length m = n -> (forall s, (s < n)%nat -> length (nth s m []) = n /\ forall j, (j < n)%nat -> matR m s j = D s j) ->
  (forall s0, o = Some s0 -> (s0 < n)%nat) ->
  converted_matrix n D o (add_state m o) /\
  ((forall r, In r (add_state m o) -> row_ok (rsum r)) <-> forall s, (s < n)%nat -> row_ok (Sum n (D s))).
Proof.
  intros L H HO.
  assert (RS : forall s, (s < n)%nat -> rsum (nth s m []) = Sum n (D s)).
  { intros s Hs. destruct (H s Hs) as [Lr Pr]. rewrite rsum_nth, Lr. apply Sum_ext. exact Pr. }
  destruct o as [s0|]; cbn [add_state extra].
  - specialize (HO s0 eq_refl). set (z := upd (vzeros (length m)) s0 n1).
    assert (Lz : length z = n) by (unfold z; rewrite upd_length; unfold vzeros; rewrite repeat_length; exact L).
    assert (Nz : forall j, nth j z 0 = if Nat.eqb j s0 then 1 else 0).
    { intros j. unfold z. rewrite upd_nth by (unfold vzeros; rewrite repeat_length; lia). unfold vzeros. rewrite nth_repeat. rewrite Nat.eqb_sym. reflexivity. }
    clearbody z. unfold converted_matrix.
    assert (N1 : forall s, (s < n)%nat -> nth s (map (fun r => r ++ [n0]) (m ++ [z])) [] = nth s m [] ++ [0]).
    { intros s Hs. rewrite (nth_indep _ [] (([] : list R) ++ [0])) by (rewrite map_length, app_length; lia). rewrite (map_nth (fun r => r ++ [0])). rewrite app_nth1 by lia. reflexivity. }
    assert (N2 : nth n (map (fun r => r ++ [n0]) (m ++ [z])) [] = z ++ [0]).
    { rewrite (nth_indep _ [] (([] : list R) ++ [0])) by (rewrite map_length, app_length; cbn; lia). rewrite (map_nth (fun r => r ++ [0])). rewrite app_nth2 by lia. rewrite L, Nat.sub_diag. reflexivity. }
    assert (LL : length (map (fun r => r ++ [n0]) (m ++ [z])) = (n + 1)%nat) by (rewrite map_length, app_length; cbn; lia).
    split; [split; [exact LL|split; [|split; [|split]]]|].
    + intros r I. apply (In_nth _ _ []) in I as (s & Hs & <-). rewrite LL in Hs. destruct (Nat.eq_dec s n) as [->|NE].
      * rewrite N2, app_length, Lz. cbn; lia.
      * rewrite N1 by lia. rewrite app_length. rewrite (proj1 (H s ltac:(lia))). cbn; lia.
    + intros s j Hs Hj. unfold matR. rewrite N1 by exact Hs. rewrite app_nth1 by (rewrite (proj1 (H s Hs)); exact Hj). apply H; assumption.
    + intros s Hs. unfold matR. rewrite N1 by exact Hs. rewrite app_nth2 by (rewrite (proj1 (H s Hs)); lia). rewrite (proj1 (H s Hs)), Nat.sub_diag. reflexivity.
    + intros j Hj. unfold matR. rewrite N2. destruct (Nat.eq_dec j n) as [->|NE].
      * rewrite app_nth2 by lia. rewrite Lz, Nat.sub_diag. destruct (Nat.eqb_spec n s0); [lia|reflexivity].
      * rewrite app_nth1 by lia. apply Nz.
    + assert (SZ : rsum (z ++ [0]) = 1).
      { rewrite rsum_app. cbn [rsum fold_right]. rewrite rsum_nth, Lz. rewrite (Sum_ext n _ (fun j => if Nat.eqb j s0 then 1 else 0)) by (intros; apply Nz).
        rewrite (Sum_indicator_in n s0 (fun _ => 1) HO). ring. }
      split.
      * intros R s Hs. rewrite <- RS by exact Hs. specialize (R (nth s m [] ++ [0])). rewrite rsum_app in R. cbn [rsum fold_right] in R. rewrite !Rplus_0_r in R. apply R.
        rewrite <- N1 by exact Hs. apply nth_In. lia.
      * intros R r I. apply (In_nth _ _ []) in I as (s & Hs & <-). rewrite LL in Hs. destruct (Nat.eq_dec s n) as [->|NE].
        -- rewrite N2, SZ. left. rewrite Rminus_diag_eq by reflexivity. rewrite Rabs_R0. lra.
        -- rewrite N1 by lia. rewrite rsum_app. cbn [rsum fold_right]. rewrite !Rplus_0_r. rewrite RS by lia. apply R. lia.
  - split.
    + unfold converted_matrix. cbn [extra]. rewrite Nat.add_0_r. split; [exact L|]. split; [|split; [intros s j Hs Hj; apply H; assumption|exact I]].
      intros r J. apply (In_nth _ _ []) in J as (s & Hs & <-). apply H. lia.
    + split.
      * intros R s Hs. rewrite <- RS by exact Hs. apply R, nth_In. lia.
      * intros R r J. apply (In_nth _ _ []) in J as (s & Hs & <-). rewrite RS by lia. apply R. lia.
Qed.

(** ** Single labels and dense rows *)
Lemma state_label_one l : state_label [l] = (storm_label l, false).
Proof. unfold state_label, storm_label. cbn [drop_first]. rewrite String.eqb_sym. destruct (String.eqb l "deadlock"); [reflexivity|]. cbn [isort_list ins memb existsb length Nat.ltb Nat.leb]. rewrite andb_false_r. reflexivity. Qed.
Lemma state_labels_one labs : map state_label (state_labelling labs) = map (fun l => (storm_label l, false)) labs.
Proof. unfold state_labelling. rewrite map_map. apply map_ext. intros. apply state_label_one. Qed.
Lemma labelling_one labs : labelling_of (state_labelling labs) = map storm_label labs.
Proof.
  unfold labelling_of. cbv zeta. rewrite state_labels_one.
  assert (filter snd (map (fun l => (storm_label l, false)) labs) = []) as -> by (induction labs as [|l labs IH]; [reflexivity|exact IH]).
  rewrite map_map. apply app_nil_r.
Qed.
Lemma add_init_one labs : add_init_of (state_labelling labs) = None.
Proof.
  unfold add_init_of. rewrite state_labels_one. unfold state_labelling. rewrite map_length.
  generalize (seq 0 (length labs)). induction labs as [|l labs IH]; intros [|k ks]; [reflexivity|reflexivity|reflexivity|]. cbn. apply IH.
Qed.
Lemma storm_label_init l : storm_label l = "init"%string <-> l = "init"%string.
Proof. unfold storm_label. destruct (String.eqb_spec l "deadlock") as [->|]; [split; discriminate|reflexivity]. Qed.
Lemma storm_label_labs labs : In "init"%string (map storm_label labs) <-> In "init"%string labs.
Proof. rewrite in_map_iff. split; [intros (l & E & J); apply (proj1 (storm_label_init l)) in E; rewrite <- E; exact J|intros J; exists "init"%string; auto]. Qed.

Lemma sparse_row_entry z (r : list R) j : (j < length r)%nat -> entry 0 (sparse_row z r) j (nth j r 0).
Proof.
  intros Hj. unfold entry, sparse_row.
  assert (IN : forall k v, In (k, v) (combine (seq 0 (length r)) r) <-> (k < length r)%nat /\ v = nth k r 0).
  { intros k v. split.
    - intros J. apply (In_nth _ _ (O, 0)) in J as (i & Hi & E). rewrite combine_length, seq_length, Nat.min_id in Hi. rewrite combine_nth in E by apply seq_length. rewrite seq_nth in E by exact Hi. injection E as <- <-. auto.
    - intros [Hk ->]. replace (k, nth k r 0) with (nth k (combine (seq 0 (length r)) r) (O, 0)) by (rewrite combine_nth by apply seq_length; rewrite seq_nth by exact Hk; reflexivity).
      apply nth_In. rewrite combine_length, seq_length, Nat.min_id. exact Hk. }
  destruct (z || negb (neqb (nth j r 0) n0)) eqn:E.
  - left. apply filter_In. split; [apply IN; auto|exact E].
  - right. apply orb_false_iff in E as [-> E]. apply negb_false_iff in E. split.
    + intros w J. apply filter_In in J as [J F]. apply IN in J as [_ ->]. cbn [snd] in F. rewrite E in F. discriminate.
    + apply Reqb_true in E. exact E.
Qed.
Lemma NoDup_map_filter {A B} (f : A -> B) p l : NoDup (map f l) -> NoDup (map f (filter p l)).
Proof.
  induction l as [|a l IH]; intros N; [constructor|]. inversion N as [|? ? NI N']; subst. cbn. destruct (p a); [|apply IH, N']. cbn. constructor; [|apply IH, N'].
  intros J. apply NI. apply in_map_iff in J as (b & E & J). apply filter_In in J as [J _]. apply in_map_iff. exists b. auto.
Qed.
Lemma sparse_row_ok z (r : list R) : NoDup (map fst (sparse_row z r)) /\ forall j v, In (j, v) (sparse_row z r) -> (j < length r)%nat.
Proof.
  split.
  - apply NoDup_map_filter. assert (map fst (combine (seq 0 (length r)) r) = seq 0 (length r)) as ->; [|apply seq_NoDup].
    generalize 0%nat. induction r as [|x r IH]; intros k; [reflexivity|]. cbn. f_equal. apply IH.
  - intros j v J. apply filter_In in J as [J _]. apply in_combine_l in J. apply in_seq in J. lia.
Qed.
Lemma dense_sparse z (r : list R) : set_row (vzeros (length r)) (sparse_row z r) = Ok r.
Proof.
  destruct (sparse_row_ok z r) as [N C]. destruct (set_row_spec 0 (sparse_row z r) (@vzeros R _ (length r)) N) as (r' & E & L & P).
  - unfold vzeros. rewrite repeat_length. exact C.
  - rewrite E. f_equal. unfold vzeros in L. rewrite repeat_length in L. apply (nth_ext _ _ 0 0 L). intros j Hj. rewrite L in Hj. destruct (P j) as [P1 P2].
    destruct (sparse_row_entry z r j Hj) as [J|[NJ EZ]]; [apply P1, J|]. rewrite P2 by exact NJ. rewrite EZ. unfold vzeros. apply nth_repeat.
Qed.

Lemma base_init_storm n labs : base_mc_init (K := R) n (map storm_label labs) = base_mc_init n labs.
Proof.
  unfold base_mc_init. rewrite map_length.
  assert (E : forall l, String.eqb (storm_label l) "init" = String.eqb l "init").
  { intros l. destruct (String.eqb_spec l "init") as [->|NE]; [reflexivity|]. apply String.eqb_neq. intros X. apply NE. apply (proj1 (storm_label_init l)), X. }
  assert (E' : forall l, String.eqb "init" (storm_label l) = String.eqb "init" l) by (intros l; rewrite String.eqb_sym, E, String.eqb_sym; reflexivity).
  assert (M : memb String.eqb "init"%string (map storm_label labs) = memb String.eqb "init"%string labs).
  { unfold memb. induction labs as [|l labs IH]; [reflexivity|]. cbn [map existsb]. rewrite IH, E'. reflexivity. }
  assert (C : countb String.eqb "init"%string (map storm_label labs) = countb String.eqb "init"%string labs).
  { clear M. induction labs as [|l labs IH]; [reflexivity|]. cbn [map countb]. rewrite IH, E'. reflexivity. }
  rewrite M, C, map_map. rewrite (map_ext (fun x => if String.eqb (storm_label x) "init" then _ else _) (fun x => if String.eqb x "init" then n1 / nofZ (Z.of_nat (countb String.eqb "init"%string labs)) else n0)%num) by (intros l; rewrite E; reflexivity).
  reflexivity.
Qed.
Lemma dense_all z (m : list (list R)) n : (forall r, In r m -> length r = n) -> mmap (dense_row n) (map (fun r => [sparse_row z r]) m) = Ok m.
Proof.
  induction m as [|r m IH]; intros H; [reflexivity|]. cbn [map mmap]. unfold dense_row at 1. cbn [mfold]. rewrite <- (H r) at 1 by (left; reflexivity).
  rewrite dense_sparse. cbn [bind]. rewrite IH by (intros; apply H; right; assumption). reflexivity.
Qed.

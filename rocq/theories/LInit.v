(** Lemmas on the first hypothesis of fit: which traces it can generate. *)
From Coq Require Import String ZArith Bool Reals List Lra Lia.
From Verif Require Import Num Py SNum LSum SPath LPath MTools MSet SSet LSet MModels SBW SLik MCtor LCtor LRun MLik MBW MBWObj MPrep PPrep MInit.
Import ListNotations.
Local Open Scope R_scope.

Notation labelof labs := (fun s : nat => nth s labs EmptyString).

(** A sequence of states whose moves are all possible. *)
Fixpoint walk (As : list (nat -> nat -> R)) (x : list nat) : Prop :=
  match As, x with
  | [], [s] => True
  | A :: As', s :: x' => match x' with s' :: _ => 0 < A s s' /\ walk As' x' | [] => False end
  | _, _ => False
  end.

Lemma is_label_nonneg labs o s : 0 <= is_label labs o s.
Proof. unfold is_label. destruct (String.eqb _ _); lra. Qed.

Lemma path_weight_pos n labs As t x : t <> [] -> (forall i, In i x -> (i < n)%nat) ->
  (forall A i j, In A As -> (i < n)%nat -> (j < n)%nat -> 0 <= A i j) ->
  (0 < path_weight As (map (is_label labs) t) x <-> map (labelof labs) x = t /\ walk As x).
Proof.
  revert As x. induction t as [|o t IH]; [congruence|]. intros As x _ B HA. destruct x as [|s x].
  { destruct As; cbn; (split; [intros H; exfalso; lra|]); intros [F _]; discriminate. }
  assert (PW : path_weight As (map (is_label labs) (o :: t)) (s :: x) = is_label labs o s * match map (is_label labs) t, As, x with
          | [], [], [] => 1 | _ :: _, A :: As', s' :: _ => A s s' * path_weight As' (map (is_label labs) t) x | _, _, _ => 0 end) by (destruct As; reflexivity).
  rewrite PW. clear PW. unfold is_label at 1. destruct (String.eqb_spec (nth s labs EmptyString) o) as [E|NE].
  2:{ rewrite Rmult_0_l. split; [intros H; exfalso; lra|]. intros [F _]. injection F as F _. congruence. }
  rewrite Rmult_1_l. destruct t as [|o' t].
  - destruct As as [|A As], x as [|s' x]; cbn [map walk]; split; intros H; try lra; try (destruct H as [H1 H2]; try discriminate; try contradiction; fail).
    + split; [congruence|exact I].
  - destruct As as [|A As], x as [|s' x]; cbn [map walk]; split; intros H; try lra; try (destruct H as [H1 H2]; try discriminate; try contradiction; fail).
    + assert (P : 0 <= A s s') by (apply HA; [left; reflexivity|apply B; left; reflexivity|apply B; right; left; reflexivity]).
      assert (Q : 0 <= path_weight As (map (is_label labs) (o' :: t)) (s' :: x)).
      { apply (path_weight_nonneg n); [intros i J; apply B; right; exact J|intros; apply HA; [right|..]; assumption|].
        intros b i J _. apply in_map_iff in J as (? & <- & _). apply is_label_nonneg. }
      assert (P' : 0 < A s s'). { destruct P as [P|P]; [exact P|]. rewrite <- P, Rmult_0_l in H. lra. }
      assert (Q' : 0 < path_weight As (map (is_label labs) (o' :: t)) (s' :: x)).
      { destruct Q as [Q|Q]; [exact Q|]. cbn [map] in Q. rewrite <- Q, Rmult_0_r in H. lra. }
      apply IH in Q'; [|discriminate|intros i J; apply B; right; exact J|intros; apply HA; [right|..]; assumption].
      destruct Q' as [Q1 Q2]. cbn [map] in Q1. split; [congruence|]. split; assumption.
    + destruct H as [H1 [H2 H3]]. apply Rmult_lt_0_compat; [exact H2|].
      change (0 < path_weight As (map (is_label labs) (o' :: t)) (s' :: x)).
      apply IH; [discriminate|intros i J; apply B; right; exact J|intros; apply HA; [right|..]; assumption|].
      split; [cbn [map] in *; congruence|exact H3].
Qed.

Lemma label_trace_pos n pi labs As t : t <> [] -> (forall i, (i < n)%nat -> 0 <= pi i) ->
  (forall A i j, In A As -> (i < n)%nat -> (j < n)%nat -> 0 <= A i j) ->
  (0 < trace_prob n pi As (map (is_label labs) t) <->
   exists x, (forall i, In i x -> (i < n)%nat) /\ 0 < pi (hd O x) /\ map (labelof labs) x = t /\ walk As x).
Proof.
  intros NE HP HA. split.
  - unfold trace_prob. intros H. apply sumL_pos_exists in H as (x & I & H). pose proof (paths_range _ _ _ I) as B.
    assert (NX : x <> []). { intros ->. apply paths_length in I. rewrite map_length in I. destruct t; [congruence|discriminate]. }
    assert (P : 0 <= pi (hd O x)). { apply HP. destruct x as [|s x]; [congruence|]. apply B. left. reflexivity. }
    assert (Q : 0 <= path_weight As (map (is_label labs) t) x).
    { apply (path_weight_nonneg n); [exact B|exact HA|]. intros b i J _. apply in_map_iff in J as (? & <- & _). apply is_label_nonneg. }
    assert (P' : 0 < pi (hd O x)). { destruct P as [P|P]; [exact P|]. rewrite <- P, Rmult_0_l in H. lra. }
    assert (Q' : 0 < path_weight As (map (is_label labs) t) x). { destruct Q as [Q|Q]; [exact Q|]. rewrite <- Q, Rmult_0_r in H. lra. }
    apply (path_weight_pos n) in Q'; [|assumption..]. exists x. tauto.
  - intros (x & B & P & L & W). apply (trace_prob_pos n _ _ _ x).
    + rewrite <- L, !map_length. reflexivity.
    + exact B.
    + exact HP.
    + exact HA.
    + intros b i J _. apply in_map_iff in J as (? & <- & _). apply is_label_nonneg.
    + destruct t; [congruence|discriminate].
    + exact P.
    + apply (path_weight_pos n); [exact NE|exact B|exact HA|]. split; assumption.
Qed.

(** Successive elements satisfy [P]. *)
Fixpoint chain {A} (P : A -> A -> Prop) (l : list A) : Prop :=
  match l with
  | x :: r => match r with y :: _ => P x y /\ chain P r | [] => True end
  | [] => True
  end.

Lemma chain_ext {A} (P Q : A -> A -> Prop) l : (forall i j, P i j <-> Q i j) -> (chain P l <-> chain Q l).
Proof. intros E. induction l as [|a [|b l] IH]; [cbn; tauto|cbn; tauto|]. change (P a b /\ chain P (b :: l) <-> Q a b /\ chain Q (b :: l)). rewrite E, IH. tauto. Qed.
Lemma chain_all {A} (P : A -> A -> Prop) l : (forall i j, P i j) -> chain P l.
Proof. intros E. induction l as [|a [|b l] IH]; [exact I|exact I|]. split; [apply E|exact IH]. Qed.

Lemma walk_chain As x (P : nat -> nat -> Prop) : (forall A i j, In A As -> In i x -> In j x -> (0 < A i j <-> P i j)) ->
  length x = S (length As) -> (walk As x <-> chain P x).
Proof.
  revert As. induction x as [|s x IH]; intros As HA L; [discriminate|]. destruct x as [|s' x].
  - destruct As; [|discriminate]. cbn. tauto.
  - destruct As as [|A As]; [discriminate|].
    cbn [walk chain]. rewrite (HA A s s'); [|left; reflexivity|left; reflexivity|right; left; reflexivity].
    rewrite (IH As); [tauto| |cbn in *; lia]. intros B i j IB II IJ. apply HA; right; assumption.
Qed.

(** A model with states 0..n, which starts in n, never comes back to n, and
    whose other moves are possible when [loop] or when they change state. *)
Record starts (n : nat) (ri loop : bool) (pi : nat -> R) (A : nat -> nat -> R) : Prop := {
  st_nonneg : forall i j, (i <= n)%nat -> (j <= n)%nat -> 0 <= A i j;
  st_pi : forall s, (s <= n)%nat -> pi s = if (s =? n)%nat then 1 else 0;
  st_first : forall j, (j < n)%nat -> (0 < A n j <-> ri = true \/ j = O);
  st_move : forall i j, (i < n)%nat -> (j < n)%nat -> (0 < A i j <-> loop = true \/ i <> j);
  st_back : forall i, (i <= n)%nat -> A i n = 0 }.

Lemma starts_trace n ri loop pi As labs t : (forall A, In A As -> starts n ri loop pi A) -> length As = length t ->
  (forall s, (s <= n)%nat -> pi s = if (s =? n)%nat then 1 else 0) ->
  (0 < n)%nat -> nth n labs EmptyString = "init"%string ->
  (0 < trace_prob (S n) pi As (map (is_label labs) ("init"%string :: t)) <->
   exists y, (forall i, In i y -> (i < n)%nat) /\ map (labelof labs) y = t /\
     (ri = false -> y = [] \/ hd O y = O) /\ (loop = false -> chain (fun i j => i <> j) y)).
Proof.
  intros ST LA PI Pn LN. rewrite label_trace_pos; [|discriminate| |].
  2:{ intros i Hi. rewrite PI by lia. destruct (i =? n)%nat; lra. }
  2:{ intros A i j IA Hi Hj. apply (st_nonneg _ _ _ _ _ (ST A IA)); lia. }
  assert (TAIL : forall As x s, (forall A, In A As -> starts n ri loop pi A) -> (forall i, In i (s :: x) -> (i <= n)%nat) -> walk As (s :: x) -> forall i, In i x -> (i < n)%nat).
  { clear. intros As x. revert As. induction x as [|s' x IH]; intros As s ST B W i I; [destruct I|].
    destruct As as [|A As]; [destruct W|]. cbn [walk] in W. destruct W as [W1 W2]. destruct I as [<-|I].
    - assert (s' <= n)%nat by (apply B; right; left; reflexivity). destruct (Nat.eq_dec s' n) as [->|]; [|lia].
      rewrite (st_back _ _ _ _ _ (ST A (or_introl eq_refl))) in W1 by (apply B; left; reflexivity). lra.
    - apply (IH As s'); [intros; apply ST; right; assumption|intros; apply B; right; assumption|exact W2|exact I]. }
  assert (FIRST : forall y, (forall i, In i y -> (i < n)%nat) -> length y = length As ->
    (walk As (n :: y) <-> (ri = false -> y = [] \/ hd O y = O) /\ (loop = false -> chain (fun i j => i <> j) y))).
  { intros y By Ly. destruct As as [|A As'].
    - destruct y; [|discriminate]. cbn. tauto.
    - destruct y as [|s y]; [discriminate|]. cbn [walk].
      pose proof (ST A (or_introl eq_refl)) as SA. rewrite (st_first _ _ _ _ _ SA) by (apply By; left; reflexivity).
      rewrite (walk_chain As' (s :: y) (fun i j => loop = true \/ i <> j)).
      2:{ intros B i j IB Ii Ij. apply (st_move _ _ _ _ _ (ST B (or_intror IB))); apply By; assumption. }
      2:{ cbn in Ly |- *. lia. }
      assert (C : chain (fun i j => loop = true \/ i <> j) (s :: y) <-> (loop = false -> chain (fun i j => i <> j) (s :: y))).
      { clear. generalize (s :: y). intros l. destruct loop.
        - split; [discriminate|]. intros _. apply chain_all. auto.
        - rewrite (chain_ext _ (fun i j => i <> j) l); [tauto|]. intros i j. split; [intros [?|?]; [discriminate|assumption]|auto]. }
      rewrite C. cbn [hd]. destruct ri; split; intros [H1 H2]; (split; [|exact H2]).
      + discriminate.
      + left. reflexivity.
      + intros _. right. destruct H1 as [H1|H1]; [discriminate|exact H1].
      + right. destruct (H1 eq_refl) as [F|F]; [discriminate|exact F]. }
  split.
  - intros (x & B & P & L & W). destruct x as [|s y]; [discriminate|]. cbn [hd] in P. cbn [map] in L. injection L as L1 L2.
    assert (Hs : (s <= n)%nat) by (specialize (B s (or_introl eq_refl)); lia). rewrite PI in P by exact Hs. destruct (Nat.eqb_spec s n) as [->|]; [|lra].
    assert (By : forall i, In i y -> (i < n)%nat). { apply (TAIL As y n ST); [|exact W]. intros i I. specialize (B i I). lia. }
    exists y. split; [exact By|]. split; [exact L2|]. apply FIRST; [exact By| |exact W]. rewrite LA, <- L2, map_length. reflexivity.
  - intros (y & By & L & H). exists (n :: y). split; [intros i [<-|I]; [lia|specialize (By i I); lia]|].
    split; [cbn [hd]; rewrite PI, Nat.eqb_refl by lia; lra|]. split; [cbn [map]; rewrite LN, L; reflexivity|].
    apply FIRST; [exact By|rewrite LA, <- L, map_length; reflexivity|exact H].
Qed.

(** ** The labels of the states *)
Lemma strings_map {K} (l : list string) : strings (K:=K) (map VStr l) = Ok l.
Proof. unfold strings. induction l as [|x l IH]; [reflexivity|]. cbn. unfold strings in IH. rewrite IH. reflexivity. Qed.
Lemma mmap_strings {K} (T : list (list string)) : mmap (strings (K:=K)) (map (map VStr) T) = Ok T.
Proof. induction T as [|t T IH]; [reflexivity|]. cbn [map mmap]. rewrite strings_map. cbn [bind]. rewrite IH. reflexivity. Qed.
Lemma all_strings {F} (l : list (pv F)) : (forall x, In x l -> exists s, x = VStr s) -> exists l', l = map VStr l'.
Proof.
  induction l as [|x l IH]; intros H; [exists []; reflexivity|]. destruct (H x (or_introl eq_refl)) as (s & ->).
  destruct IH as (l' & ->); [intros; apply H; right; assumption|]. exists (s :: l'). reflexivity.
Qed.
Lemma NoDup_unmap {F} (l : list string) : NoDup (map (@VStr F) l) -> NoDup l.
Proof. apply NoDup_map_inv. Qed.
Lemma In_VStr {F} x (l : list string) : In (@VStr F x) (map VStr l) <-> In x l.
Proof. rewrite in_map_iff. split; [intros (y & E & I); congruence|intros I; exists x; auto]. Qed.
Lemma remove_first_notin {F} (eqe : pv F -> pv F -> bool) (EQ : decides_eq eqe) x l : NoDup l -> forall y, In y (remove_first eqe x l) <-> In y l /\ y <> x.
Proof.
  induction l as [|z l IH]; intros ND y; [cbn; tauto|]. inversion ND as [|? ? NZ ND']; subst. cbn [remove_first]. destruct (eqe x z) eqn:E.
  - apply EQ in E as ->. cbn [In]. split; [intros I; split; [auto|congruence]|intros [[->|I] N]; [congruence|exact I]].
  - assert (x <> z) by (intros ->; rewrite (proj2 (EQ z z) eq_refl) in E; discriminate). cbn [In]. rewrite IH by exact ND'. intuition congruence.
Qed.
Lemma remove_first_nodup {F} (eqe : pv F -> pv F -> bool) x l : NoDup l -> NoDup (remove_first eqe x l).
Proof.
  induction l as [|z l IH]; intros ND; [constructor|]. inversion ND as [|? ? NZ ND']; subst. cbn [remove_first]. destruct (eqe x z) eqn:E; [exact ND'|].
  constructor; [|apply IH, ND']. intros I. apply NZ. revert I. clear. induction l as [|a l IH]; cbn; [tauto|]. destruct (eqe x a); [auto|]. intros [->|I]; auto.
Qed.

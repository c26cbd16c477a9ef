(** Merging two states of IOAlergia. *)
From Coq Require Import String ZArith Lia Bool List Permutation.
From Verif Require Import Num Py MTools MSet MModels MCtor SSet LSet LCtor MAlergia LAlergia LAlergia2 MIOAlergia LIOAlergia.
Import ListNotations.

Lemma In_sons h x d : NoDup (map fst (trans h x)) -> In d (sons h x) <-> exists a c, In (d, c) (edges h x a).
Proof. intros ND. apply In_dests, ND. Qed.
Lemma first_obs_Some h l o i : first_obs h l o = Some i -> In i l /\ obs h i = o.
Proof.
  induction l as [|j l IH]; cbn; [discriminate|]. destruct (String.eqb_spec (obs h j) o) as [E|].
  - intros [= ->]. auto.
  - intros Q. destruct (IH Q). auto.
Qed.
Lemma first_obs_None h l o : first_obs h l o = None -> forall i, In i l -> obs h i <> o.
Proof.
  induction l as [|j l IH]; cbn; [intros _ i []|]. destruct (String.eqb_spec (obs h j) o) as [E|N]; [discriminate|].
  intros Q i [<-|I]; [exact N|apply IH; assumption].
Qed.
Lemma first_obs_map h h' f l o : (forall x, obs h' (f x) = obs h x) -> first_obs h' (map f l) o = option_map f (first_obs h l o).
Proof. intros E. induction l as [|j l IH]; [reflexivity|]. cbn. rewrite E. destruct (String.eqb (obs h j) o); [reflexivity|exact IH]. Qed.
Lemma first_obs_In h l i : NoDup (map (obs h) l) -> In i l -> first_obs h l (obs h i) = Some i.
Proof.
  induction l as [|j l IH]; cbn; [intros _ []|]. intros ND. inversion ND as [|? ? NI ND']; subst. intros [->|I]; [rewrite String.eqb_refl; reflexivity|].
  destruct (String.eqb_spec (obs h j) (obs h i)) as [E|]; [|apply IH; assumption]. exfalso. apply NI. rewrite E. apply in_map, I.
Qed.
Lemma freq_to_In e d c : In (d, c) e -> In (d, freq_to e d) e.
Proof.
  induction e as [|(k, p) e IH]; cbn; [intros []|]. destruct (Nat.eqb_spec k d) as [->|N]; [left; reflexivity|].
  intros [[= -> ->]|I]; [congruence|right; apply IH, I].
Qed.
Lemma successor_Some h s a o d : successor h s a o = Some d -> obs h d = o /\ exists c, In (d, c) (edges h s a).
Proof. unfold successor, successorsAction. intros E. apply first_obs_Some in E as (I & O). split; [exact O|]. apply In_fst in I. exact I. Qed.
Lemma NoDup_map_uniq {A B} (f : A -> B) l x y : NoDup (map f l) -> In x l -> In y l -> f x = f y -> x = y.
Proof.
  induction l as [|a l IH]; cbn; [intros _ []|]. intros ND. inversion ND as [|? ? NI ND']; subst. intros [->|I] [->|J] E; auto.
  - exfalso. apply NI. rewrite E. apply in_map, J.
  - exfalso. apply NI. rewrite <- E. apply in_map, I.
Qed.

Lemma NoDup_app_disj {A} (l l' : list A) : NoDup (l ++ l') -> forall x, In x l -> In x l' -> False.
Proof.
  induction l as [|a l IH]; cbn; [intros _ x []|]. intros ND. inversion ND as [|? ? NI ND']; subst. intros x [<-|I] J.
  - apply NI, in_or_app. right; exact J.
  - apply (IH ND' x I J).
Qed.
Lemma NoDup_app_r {A} (l l' : list A) : NoDup (l ++ l') -> NoDup l'.
Proof. induction l as [|a l IH]; cbn; [auto|]. intros ND. inversion ND. auto. Qed.

Section Merge.
  Context (obss : list string) (NDO : NoDup obss) (red : list nat).

  Record iwf (h : ioheap) : Prop := {
    w_keys : forall x, NoDup (map fst (trans h x));
    w_full : forall x a, In a (map fst (trans h x)) -> edges h x a <> [];
    w_det : forall x a, NoDup (map (obs h) (map fst (edges h x a)));
    w_range : forall x d, In d (sons h x) -> (d < length h)%nat;
    w_obs : forall x, (x < length h)%nat -> In (obs h x) obss }.

  (** The trees of roots [C], with nodes [DC], hang on the red states; the nodes of
      [D] are absorbed: [f] says into which states. *)
  Record post (s1 s2 : nat) (h h' : ioheap) (C C' DC DC' D : list nat) (f : nat -> nat) : Prop := {
    q_len : length h' = length h;
    q_obs : forall x, obs h' x = obs h x;
    q_wf : iwf h';
    q_forest : forest h' C' DC';
    q_disj : forall x, In x red -> ~ In x DC';
    q_red : forall r d, In r red -> In d (sons h' r) -> In d red \/ In d C';
    q_C : incl C C';
    q_Cnew : forall c, In c C' -> In c C \/ exists r, In r red /\ In c (sons h' r);
    q_DC : incl DC DC';
    q_DCsub : forall x, In x DC' -> In x DC \/ In x D;
    q_fid : forall x, ~ In x D -> f x = x;
    q_fobs : forall x, obs h (f x) = obs h x;
    q_fD : forall x, In x D -> In (f x) red \/ In (f x) DC';
    q_fix : forall x, In x DC' -> f x = x;
    q_kept : forall x a, exists e, edges h' x a = map_e f (edges h x a) ++ e /\ (e <> [] -> In x red \/ In x DC') /\
      forall z c, In (z, c) e -> exists d z0, ((In d D /\ f d = x) \/ (d = s2 /\ x = s1)) /\ In (z0, c) (edges h d a) /\ f z0 = z;
    q_frame : forall x, ~ In x red -> ~ In x DC' -> trans h' x = map_t f (trans h x);
    q_cnt : forall g : nat -> bool, zs (seq 0 (length h)) (fun x => if g x then cnt h' x else 0%Z) = zs (seq 0 (length h)) (fun x => if g (f x) then cnt h x else 0%Z) }.

  Definition complete (h h' : ioheap) (D : list nat) (f : nat -> nat) : Prop :=
    forall d a z0 c0, In d D -> In (z0, c0) (edges h d a) -> exists c, In (f z0, c) (edges h' (f d) a).

  Lemma post_mono s1 s2 h h' C C' DC DC' D f x a z c : post s1 s2 h h' C C' DC DC' D f -> In (z, c) (edges h x a) -> In (f z, c) (edges h' x a).
  Proof. intros P I. destruct (q_kept _ _ _ _ _ _ _ _ _ _ P x a) as (e & -> & _). apply in_or_app. left. apply In_map_e. eauto. Qed.

  Lemma post_ext s1 s2 h h' C C' DC DC' D D' f : (forall x, In x D <-> In x D') -> post s1 s2 h h' C C' DC DC' D f -> post s1 s2 h h' C C' DC DC' D' f.
  Proof.
    intros E P. destruct P as [P1 P2 P3 P4 P5 P6 P7 P8 P9 P10 P11 P12 P13 P14 P15 P16 P17]. constructor; auto.
    - intros x I. rewrite <- E. apply P10, I.
    - intros x I. apply P11. rewrite E. exact I.
    - intros x I. apply P13, E, I.
    - intros x a. destruct (P15 x a) as (e & A & B & F). exists e. split; [exact A|]. split; [exact B|]. intros z c I.
      destruct (F z c I) as (d & z0 & [[J J']|J] & K); exists d, z0; (split; [|exact K]); [left; rewrite <- E; auto|right; exact J].
  Qed.

  Lemma post_comp s1 s2 h h1 h2 C C1 C2 DC DC1 DC2 D1 D2 f1 f2 :
    iwf h -> iwf h1 ->
    post s1 s2 h h1 C C1 DC DC1 D1 f1 -> post s1 s2 h1 h2 C1 C2 DC1 DC2 D2 f2 ->
    (forall x, In x D2 -> ~ In x D1 /\ ~ In x red /\ ~ In x DC1) -> ~ In s2 red -> ~ In s2 DC1 ->
    post s1 s2 h h2 C C2 DC DC2 (D1 ++ D2) (fun x => f2 (f1 x)).
  Proof.
    intros W W1 P Q DJ N1 N2.
    destruct P as [P1 P2 P3 P4 P5 P6 P7 P8 P9 P10 P11 P12 P13 P14 P15 P16 P17].
    destruct Q as [Q1 Q2 Q3 Q4 Q5 Q6 Q7 Q8 Q9 Q10 Q11 Q12 Q13 Q14 Q15 Q16 Q17].
    assert (M2 : forall x a z c, In (z, c) (edges h1 x a) -> In (f2 z, c) (edges h2 x a)).
    { intros x a z c I. destruct (Q15 x a) as (e & -> & _). apply in_or_app. left. apply In_map_e. eauto. }
    constructor; auto.
    - congruence.
    - intros x. rewrite Q2. apply P2.
    - intros x I. apply Q7, P7, I.
    - intros c I. destruct (Q8 c I) as [J|J]; [|right; exact J]. destruct (P8 c J) as [K|(r & Ir & K)]; [left; exact K|]. right. exists r. split; [exact Ir|].
      apply In_sons in K as (a & w & K); [|apply W1]. apply In_sons; [apply Q3|]. exists a, w. apply M2 in K.
      rewrite Q11 in K; [exact K|]. intros L. apply (DJ c L). apply (forest_roots h1 C1 DC1 P4), J.
    - intros x I. apply Q9, P9, I.
    - intros x I. destruct (Q10 x I) as [J|J]; [destruct (P10 x J) as [K|K]|]; rewrite in_app_iff; auto.
    - intros x I. rewrite P11, Q11; [reflexivity| |]; intros J; apply I, in_or_app; auto.
    - intros x. rewrite <- P2, Q12, P2. apply P12.
    - intros x I. apply in_app_or in I as [I|I].
      + assert (E : f2 (f1 x) = f1 x). { apply Q11. intros J. destruct (DJ _ J) as (_ & A & B). destruct (P13 x I); contradiction. }
        rewrite E. destruct (P13 x I) as [J|J]; [left; exact J|right; apply Q9, J].
      + rewrite (P11 x) by apply (DJ x I). apply Q13, I.
    - intros x I. destruct (Q10 x I) as [J|J].
      + rewrite (P14 x J). apply Q14, I.
      + rewrite (P11 x) by apply (DJ x J). apply Q14, I.
    - intros x a. destruct (P15 x a) as (e1 & E1 & R1 & S1). destruct (Q15 x a) as (e2 & E2 & R2 & S2).
      exists (map_e f2 e1 ++ e2). split; [|split].
      + rewrite E2, E1. unfold map_e at 1. rewrite map_app. fold (map_e f2 (map_e f1 (edges h x a))). fold (map_e f2 e1). rewrite map_e_comp, app_assoc. reflexivity.
      + intros NE. destruct e2 as [|p e2]; [|apply R2; discriminate]. destruct e1 as [|p1 e1]; [cbn in NE; congruence|].
        destruct R1 as [J|J]; [discriminate|left; exact J|right; apply Q9, J].
      + intros z c I. apply in_app_or in I as [I|I].
        * apply In_map_e in I as (z1 & <- & I). destruct (S1 z1 c I) as (d & z0 & A & B & <-). exists d, z0. split; [|split; [exact B|reflexivity]].
          destruct A as [(J & K)|A]; [|right; exact A]. left. split; [apply in_or_app; left; exact J|]. rewrite Q11; [exact K|].
          intros L. destruct (DJ _ L) as (_ & A & A'). destruct (P13 d J); contradiction.
        * destruct (S2 z c I) as (d & z1 & A & B & <-).
          assert (ND : ~ In d red /\ ~ In d DC1) by (destruct A as [(J & _)|(-> & _)]; [apply (DJ d J)|auto]).
          destruct (P15 d a) as (e & Ee & Re & _). assert (e = []) as ->. { destruct e as [|p e]; [reflexivity|]. destruct Re as [J|J]; [discriminate| |]; destruct ND; contradiction. }
          rewrite app_nil_r in Ee. rewrite Ee in B. apply In_map_e in B as (z0 & <- & B). exists d, z0. split; [|split; [exact B|reflexivity]].
          destruct A as [(J & K)|A]; [|right; exact A]. left. split; [apply in_or_app; right; exact J|]. rewrite (P11 d) by apply (DJ d J). exact K.
    - intros x A B. rewrite Q16, P16, map_t_comp; auto.
    - intros g. specialize (Q17 g). rewrite P1 in Q17. rewrite Q17. apply (P17 (fun x => g (f2 x))).
  Qed.

  Lemma complete_comp s1 s2 h h1 h2 C C1 C2 DC DC1 DC2 D1 D2 f1 f2 :
    post s1 s2 h h1 C C1 DC DC1 D1 f1 -> post s1 s2 h1 h2 C1 C2 DC1 DC2 D2 f2 ->
    (forall x, In x D2 -> ~ In x D1 /\ ~ In x red /\ ~ In x DC1) ->
    complete h h1 D1 f1 -> complete h1 h2 D2 f2 -> complete h h2 (D1 ++ D2) (fun x => f2 (f1 x)).
  Proof.
    intros P Q DJ A B d a z0 c0 I J. apply in_app_or in I as [I|I].
    - destruct (A d a z0 c0 I J) as (c & K). exists c. apply (post_mono _ _ _ _ _ _ _ _ _ _ _ _ _ _ Q) in K.
      rewrite (q_fid _ _ _ _ _ _ _ _ _ _ Q (f1 d)); [exact K|]. intros L. destruct (DJ _ L) as (_ & X & Y). destruct (q_fD _ _ _ _ _ _ _ _ _ _ P d I); contradiction.
    - apply (post_mono _ _ _ _ _ _ _ _ _ _ _ _ _ _ P) in J. destruct (B d a _ _ I J) as (c & K). exists c.
      rewrite (q_fid _ _ _ _ _ _ _ _ _ _ P d) by apply (DJ d I). exact K.
  Qed.

  (** ** First part of a merge *)
  Lemma start_spec h C DC s1 s2 : iwf h -> s1 <> s2 -> (s1 < length h)%nat -> (s2 < length h)%nat -> obs h s1 = obs h s2 ->
    forest h C DC -> (forall x, In x red -> ~ In x DC) ->
    (forall r d, In r red -> In d (sons h r) -> In d red \/ In d C \/ (d = s2 /\ In s1 red)) ->
    In s1 red \/ In s1 DC -> ~ In s2 red -> ~ In s2 DC ->
    post s1 s2 h (move_counter (redirect h s1 s2) s1 s2) C C DC DC [s2] (sub s2 s1).
  Proof.
    intros W N L1 L2 EO F DJ CL S1 NR ND. destruct (redirect_spec h s1 s2 N (w_keys _ W)) as (RL & RO & RC & RT).
    set (hr := redirect h s1 s2) in *. unfold move_counter. set (hc := set_counter hr s1 _). set (h' := set_counter hc s2 0%Z).
    assert (Lr1 : (s1 < length hr)%nat) by (rewrite RL; exact L1).
    assert (Lr2 : (s2 < length hc)%nat) by (unfold hc; rewrite length_set_counter, RL; exact L2).
    assert (HL : length h' = length h) by (unfold h', hc; rewrite !length_set_counter; exact RL).
    assert (HO : forall x, obs h' x = obs h x) by (intros x; unfold h'; rewrite obs_set_counter by exact Lr2; unfold hc; rewrite obs_set_counter by exact Lr1; apply RO).
    assert (HT : forall x, trans h' x = map_t (sub s2 s1) (trans h x)) by (intros x; unfold h'; rewrite trans_set_counter by exact Lr2; unfold hc; rewrite trans_set_counter by exact Lr1; apply RT).
    assert (HC : forall x, cnt h' x = if (s2 =? x)%nat then 0%Z else if (s1 =? x)%nat then (cnt h s1 + cnt h s2)%Z else cnt h x).
    { intros x. unfold h'. rewrite cnt_set_counter by exact Lr2. destruct (s2 =? x)%nat; [reflexivity|]. unfold hc. rewrite cnt_set_counter by exact Lr1.
      change (io_cnt (io hr s1)) with (cnt hr s1). change (io_cnt (io hr s2)) with (cnt hr s2). rewrite !RC. reflexivity. }
    assert (HE : forall x a, edges h' x a = map_e (sub s2 s1) (edges h x a)) by (intros x a; unfold edges; rewrite HT; apply tr_get_map_t).
    assert (SO : forall x, obs h (sub s2 s1 x) = obs h x) by (intros x; unfold sub; destruct (Nat.eqb_spec x s2) as [->|]; [exact EO|reflexivity]).
    assert (HS : forall x, sons h' x = map (sub s2 s1) (sons h x)) by (intros x; unfold sons; rewrite HT; apply dests_map_t).
    assert (ID : forall x, x <> s2 -> sub s2 s1 x = x) by (intros x Nx; unfold sub; apply Nat.eqb_neq in Nx; rewrite Nx; reflexivity).
    assert (HF : forall x, In x DC -> sons h' x = sons h x).
    { intros x I. rewrite HS. rewrite <- (map_id (sons h x)) at 2. apply map_ext_in. intros d J. apply ID. intros ->. apply ND. apply (proj2 (tree_sons h) C DC F x s2 I J). }
    constructor.
    - exact HL.
    - exact HO.
    - constructor.
      + intros x. rewrite HT, map_t_keys. apply W.
      + intros x a. rewrite HT, map_t_keys, HE. intros I E. apply (w_full _ W x a I). destruct (edges h x a); [reflexivity|discriminate].
      + intros x a. rewrite HE, map_fst_map_e, map_map. rewrite (map_ext _ (obs h)); [apply W|]. intros d. rewrite HO. apply SO.
      + intros x d. rewrite HS, HL. intros I. apply in_map_iff in I as (d0 & <- & I). unfold sub. destruct (d0 =? s2)%nat; [exact L1|apply (w_range _ W x d0 I)].
      + intros x. rewrite HL, HO. apply W.
    - apply (proj2 (tree_same h h') C DC F). exact HF.
    - exact DJ.
    - intros r d Ir. rewrite HS. intros I. apply in_map_iff in I as (d0 & <- & I). unfold sub. destruct (Nat.eqb_spec d0 s2) as [->|Nd].
      + destruct (CL r s2 Ir I) as [J|[J|(_ & J)]]; [contradiction|exfalso; apply ND; apply (forest_roots h C DC F), J|left; exact J].
      + destruct (CL r d0 Ir I) as [J|[J|(J & _)]]; [left; exact J|right; exact J|contradiction].
    - intros x I; exact I.
    - intros c I. left; exact I.
    - intros x I; exact I.
    - intros x I. left; exact I.
    - intros x I. apply ID. intros ->. apply I. left; reflexivity.
    - exact SO.
    - intros x [<-|[]]. unfold sub. rewrite Nat.eqb_refl. exact S1.
    - intros x I. apply ID. intros ->. contradiction.
    - intros x a. exists []. rewrite app_nil_r. split; [apply HE|]. split; [congruence|intros z c []].
    - intros x _ _. apply HT.
    - intros g.
      transitivity (zs (seq 0 (length h)) (fun x => ((if g x then cnt h x else 0) + ((if (x =? s1)%nat then (if g s1 then cnt h s2 else 0) else 0) + (if (x =? s2)%nat then (if g s2 then - cnt h s2 else 0) else 0)))%Z)).
      { apply zs_ext. intros x _. rewrite HC. rewrite (Nat.eqb_sym s2 x), (Nat.eqb_sym s1 x). destruct (Nat.eqb_spec x s2) as [->|]; [destruct (Nat.eqb_spec s2 s1); [congruence|]; destruct (g s2); lia|].
        destruct (Nat.eqb_spec x s1) as [->|]; destruct (g _); lia. }
      transitivity (zs (seq 0 (length h)) (fun x => ((if g x then cnt h x else 0) + (if (x =? s2)%nat then ((if g s1 then cnt h s2 else 0) + (if g s2 then - cnt h s2 else 0)) else 0))%Z)).
      { rewrite !zs_plus, !zs_single by apply seq_NoDup.
        destruct (in_dec Nat.eq_dec s1 (seq 0 (length h))) as [|M]; [|exfalso; apply M, in_seq; lia].
        destruct (in_dec Nat.eq_dec s2 (seq 0 (length h))) as [|M]; [|exfalso; apply M, in_seq; lia]. lia. }
      apply zs_ext. intros x _. unfold sub. destruct (Nat.eqb_spec x s2) as [->|]; [|lia]. destruct (g s1), (g s2); lia.
  Qed.

  (** ** A subtree becomes a son of s1 *)
  Lemma graft_spec h C DC s1 s2 a w c T : iwf h -> forest h C DC -> (forall x, In x red -> ~ In x DC) ->
    (forall r d, In r red -> In d (sons h r) -> In d red \/ In d C) ->
    In s1 red \/ In s1 DC -> (s1 < length h)%nat -> (c < length h)%nat -> tree h c T -> (forall x, In x T -> ~ In x red /\ ~ In x DC) ->
    (forall d x, In (d, x) (edges h s1 a) -> obs h d <> obs h c) -> In (c, w) (edges h s2 a) ->
    exists C' DC', post s1 s2 h (transitionsAdd h s1 a w c) C C' DC DC' T (fun x => x) /\ complete h (transitionsAdd h s1 a w c) T (fun x => x) /\
      In (c, w) (edges (transitionsAdd h s1 a w c) s1 a).
  Proof.
    intros W F DJ CL S1 L1 Lc Tc TD NO Ic. set (h' := transitionsAdd h s1 a w c).
    assert (HL : length h' = length h) by apply length_set_trans.
    assert (HO : forall x, obs h' x = obs h x) by (intros x; apply obs_set_trans, L1).
    assert (HT : forall x, trans h' x = if (s1 =? x)%nat then tr_add (trans h s1) a w c else trans h x) by (intros x; apply trans_set_trans, L1).
    assert (HN : forall x, x <> s1 -> trans h' x = trans h x) by (intros x N; rewrite HT; destruct (Nat.eqb_spec s1 x); [congruence|reflexivity]).
    assert (H1 : trans h' s1 = tr_add (trans h s1) a w c) by (rewrite HT, Nat.eqb_refl; reflexivity).
    assert (HE : forall x b, edges h' x b = edges h x b ++ (if ((x =? s1)%nat && String.eqb b a)%bool then [(c, w)] else [])).
    { intros x b. unfold edges. destruct (Nat.eqb_spec x s1) as [->|N]; [rewrite H1, tr_get_add; reflexivity|]. rewrite HN by exact N. rewrite app_nil_r. reflexivity. }
    assert (NS : ~ In s1 T) by (intros I; destruct (TD s1 I); destruct S1; contradiction).
    assert (HS : forall x, x <> s1 -> sons h' x = sons h x) by (intros x N; unfold sons; rewrite HN by exact N; reflexivity).
    destruct (dests_add (trans h s1) a w c) as (i & HD). rewrite <- H1 in HD. change (sons h' s1 = firstn i (sons h s1) ++ c :: skipn i (sons h s1)) in HD.
    assert (S1D : forall d, In d (sons h' s1) <-> d = c \/ In d (sons h s1)) by (intros d; rewrite HD; apply In_insert).
    assert (Tc' : tree h' c T) by (apply (proj1 (tree_same h h') c T Tc); intros x I; apply HS; intros ->; contradiction).
    assert (W' : iwf h').
    { constructor.
      - intros x. rewrite HT. destruct (s1 =? x)%nat; [apply tr_add_NoDup|]; apply W.
      - intros x b. rewrite HE. intros I E. apply app_eq_nil in E as (E1 & E2). rewrite HT in I. destruct (Nat.eqb_spec s1 x) as [->|N]; [|apply (w_full _ W x b I E1)].
        rewrite tr_add_keys, in_app_iff in I. rewrite Nat.eqb_refl in E2. cbn [andb] in E2. destruct I as [I|I]; [apply (w_full _ W x b I E1)|].
        destruct (memb String.eqb a (map fst (trans h x))); [destruct I|]. destruct I as [->|[]]. rewrite String.eqb_refl in E2. discriminate.
      - intros x b. rewrite HE. rewrite (map_ext (obs h') (obs h)) by exact HO. rewrite !map_app. destruct (Nat.eqb_spec x s1) as [->|N]; cbn [andb]; [|cbn; rewrite app_nil_r; apply W].
        destruct (String.eqb_spec b a) as [->|Nb]; [|cbn; rewrite app_nil_r; apply W]. cbn [map fst]. apply NoDup_app_intro; [apply W|constructor; [intros []|constructor]|].
        intros o I [<-|[]]. apply in_map_iff in I as (d & Eo & I). apply In_fst in I as (y & I). apply (NO d y I Eo).
      - intros x d. rewrite HL. destruct (Nat.eq_dec x s1) as [->|N]; [rewrite S1D; intros [->|I]; [exact Lc|apply (w_range _ W _ _ I)]|]. rewrite HS by exact N. apply W.
      - intros x. rewrite HL, HO. apply W. }
    assert (G : exists C' DC', forest h' C' DC' /\ incl C C' /\ (forall x, In x C' -> In x C \/ (In s1 red /\ x = c)) /\ (In s1 red -> In c C') /\ forall x, In x DC' <-> In x DC \/ In x T).
    { destruct (in_dec Nat.eq_dec s1 red) as [R|R].
      - exists (C ++ [c]), (DC ++ T). split.
        + apply forest_app; [|apply forest_one, Tc'|intros x I J; exact (proj2 (TD x J) I)].
          apply (proj2 (tree_same h h') C DC F). intros x I. apply HS. intros ->. apply (DJ s1 R I).
        + split; [intros x I; apply in_or_app; left; exact I|]. split; [|split].
          * intros x I. apply in_app_or in I as [I|[<-|[]]]; auto.
          * intros _. apply in_or_app. right; left; reflexivity.
          * intros x. apply in_app_iff.
      - destruct S1 as [S1|S1]; [contradiction|].
        destruct (proj2 (tree_graft h h' s1 c T i HS HD Tc NS) C DC F) as (DC' & F' & E'); [intros x I; apply (TD x I)|].
        exists C, DC'. split; [exact F'|]. split; [intros x I; exact I|]. split; [auto|]. split; [contradiction|]. intros x. rewrite E'. tauto. }
    destruct G as (C' & DC' & F' & IC & CN & CR & ED). exists C', DC'. split; [|split].
    - constructor; auto.
      + intros x R I. apply ED in I as [I|I]; [apply (DJ x R I)|exact (proj1 (TD x I) R)].
      + intros r d Ir I. destruct (Nat.eq_dec r s1) as [->|N].
        * apply S1D in I as [->|I]; [right; apply CR, Ir|]. destruct (CL s1 d Ir I); [left|right]; auto.
        * rewrite HS in I by exact N. destruct (CL r d Ir I); [left|right]; auto.
      + intros x I. destruct (CN x I) as [J|(J & ->)]; [left; exact J|right]. exists s1. split; [exact J|]. apply S1D. left; reflexivity.
      + intros x I. apply ED. left; exact I.
      + intros x I. apply ED, I.
      + intros x I. right. apply ED. right; exact I.
      + intros x b. exists (if ((x =? s1)%nat && String.eqb b a)%bool then [(c, w)] else []). split; [rewrite map_e_id by auto; apply HE|].
        destruct (Nat.eqb_spec x s1) as [->|]; cbn [andb]; [|split; [congruence|intros z y []]].
        destruct (String.eqb_spec b a) as [->|]; [|split; [congruence|intros z y []]]. split.
        * intros _. destruct S1 as [S1|S1]; [left; exact S1|right; apply ED; left; exact S1].
        * intros z y [[= <- <-]|[]]. exists s2, c. auto.
      + intros x A B. rewrite map_t_id by auto. apply HN. intros ->. destruct S1 as [S1|S1]; [contradiction|]. apply B, ED. left; exact S1.
      + intros g. apply zs_ext. intros x _. assert (cnt h' x = cnt h x) as -> by (apply cnt_set_trans, L1). reflexivity.
    - intros d b z0 c0 I J. exists c0. rewrite HE. apply in_or_app. left; exact J.
    - rewrite HE, Nat.eqb_refl, String.eqb_refl. apply in_or_app. right. left. reflexivity.
  Qed.

  (** ** The loop over the transitions of s2 *)
  Definition mstep (fuel : nat) (s1 s2 : nat) (oh : option ioheap) (ao : string * string) : option ioheap :=
    match oh with
    | None => None
    | Some h =>
      match successor h s2 (fst ao) (snd ao) with
      | None => Some h
      | Some succ2 =>
        match successor h s1 (fst ao) (snd ao) with
        | Some succ1 => merge fuel obss h succ1 succ2
        | None => Some (transitionsAdd h s1 (fst ao) (getTransitionProb h s2 (fst ao) succ2) succ2)
        end
      end
    end.
  Lemma merge_S fuel h s1 s2 : merge (S fuel) obss h s1 s2 =
    let h2 := move_counter (redirect h s1 s2) s1 s2 in fold_left (mstep fuel s1 s2) (all_pairs (actionsAllowed h2 s2) obss) (Some h2).
  Proof. reflexivity. Qed.

  Definition pre (h : ioheap) (C DC : list nat) (s1 s2 : nat) (D : list nat) : Prop :=
    iwf h /\ forest h C DC /\ (forall x, In x red -> ~ In x DC) /\
    (forall r d, In r red -> In d (sons h r) -> In d red \/ In d C \/ (d = s2 /\ In s1 red)) /\
    (forall x, In x red \/ In x DC -> (x < length h)%nat) /\
    tree h s2 D /\ (forall x, In x D -> ~ In x red /\ ~ In x DC) /\ (s2 < length h)%nat /\
    (In s1 red \/ In s1 DC) /\ obs h s1 = obs h s2.
  Definition merge_ok (fuel : nat) : Prop := forall h C DC s1 s2 D, pre h C DC s1 s2 D -> (length D <= fuel)%nat ->
    exists h' C' DC' f, merge fuel obss h s1 s2 = Some h' /\ post s1 s2 h h' C C' DC DC' D f /\ complete h h' D f /\ f s2 = s1 /\ ~ In s2 DC'.

  Lemma pairs_NoDup l1 l2 : NoDup l1 -> NoDup l2 -> NoDup (all_pairs l1 l2).
  Proof.
    intros N1 N2. induction N1 as [|a l NI ND IH]; [constructor|]. cbn. apply NoDup_app_intro; [|exact IH|].
    - apply FinFun.Injective_map_NoDup; [|exact N2]. intros x y [= E]. exact E.
    - intros (b, o) I J. apply in_map_iff in I as (o' & [= <- <-] & _). apply in_flat_map in J as (b & Ib & J). apply in_map_iff in J as (o2 & [= -> _] & _). contradiction.
  Qed.
  Lemma In_pairs l1 l2 a o : In (a, o) (all_pairs l1 l2) <-> In a l1 /\ In o l2.
  Proof.
    unfold all_pairs. rewrite in_flat_map. split.
    - intros (b & Ib & J). apply in_map_iff in J as (o' & [= -> ->] & J). auto.
    - intros (A & B). exists a. split; [exact A|]. apply in_map, B.
  Qed.
  (** [tree] with an unchanged part of the heap *)
  Lemma post_tree s1 s2 h h' C C' DC DC' D f c T : post s1 s2 h h' C C' DC DC' D f -> tree h c T ->
    (forall x, In x T -> ~ In x red /\ ~ In x DC' /\ ~ In x D) -> tree h' c T.
  Proof.
    intros P Tc DJ. apply (proj1 (tree_same h h') c T Tc). intros x I. destruct (DJ x I) as (A & B & _). unfold sons.
    rewrite (q_frame _ _ _ _ _ _ _ _ _ _ P x A B). rewrite map_t_id; [reflexivity|]. intros d J. apply (q_fid _ _ _ _ _ _ _ _ _ _ P).
    apply DJ. apply (proj1 (tree_sons h) c T Tc x d I J).
  Qed.

  Lemma mloop fuel (IHf : merge_ok fuel) h2 C DC s1 s2 (T : nat -> list nat) :
    iwf h2 -> (In s1 red \/ In s1 DC) -> (forall x, In x red \/ In x DC -> (x < length h2)%nat) -> ~ In s2 red -> (s2 < length h2)%nat ->
    (forall a o c, successor h2 s2 a o = Some c -> tree h2 c (T c) /\ (length (T c) <= fuel)%nat /\ (forall x, In x (T c) -> ~ In x red /\ ~ In x DC /\ x <> s2 /\ (x < length h2)%nat)) ->
    (forall a o c a' o' c' x, successor h2 s2 a o = Some c -> successor h2 s2 a' o' = Some c' -> (a, o) <> (a', o') -> In x (T c) -> ~ In x (T c')) ->
    forall rem, NoDup rem -> forall hc Cc DCc fc Dd,
    post s1 s2 h2 hc C Cc DC DCc Dd fc -> complete h2 hc Dd fc -> ~ In s2 DCc -> ~ In s2 Dd -> (forall x, In x Dd -> (x < length h2)%nat) ->
    (forall a o c, In (a, o) rem -> successor h2 s2 a o = Some c -> forall x, In x (T c) -> ~ In x Dd /\ ~ In x DCc) ->
    exists h' C' DC' f Dd', fold_left (mstep fuel s1 s2) rem (Some hc) = Some h' /\ post s1 s2 h2 h' C C' DC DC' Dd' f /\ complete h2 h' Dd' f /\ ~ In s2 DC' /\
      (forall x, In x Dd' <-> In x Dd \/ exists a o c, In (a, o) rem /\ successor h2 s2 a o = Some c /\ In x (T c)) /\
      (forall a o c, In (a, o) rem -> successor h2 s2 a o = Some c -> exists w, In (f c, w) (edges h' s1 a)) /\
      (forall x a z w, In (fc z, w) (edges hc x a) -> In (f z, w) (edges h' x a)).
  Proof.
    intros W2 S1 RG NR2 L2 TT TD. induction rem as [|(a, o) rem IH]; intros NDr hc Cc DCc fc Dd P Co ND2 ND3 RD DJ.
    - exists hc, Cc, DCc, fc, Dd. split; [reflexivity|]. split; [exact P|]. split; [exact Co|]. split; [exact ND2|]. split; [|split].
      + intros x. split; [auto|]. intros [I|(a & o & c & [] & _)]. exact I.
      + intros a o c [].
      + auto.
    - inversion NDr as [|? ? NI NDr']; subst. cbn [fold_left].
      assert (Es : successor hc s2 a o = option_map fc (successor h2 s2 a o)).
      { unfold successor, successorsAction, edges. rewrite (q_frame _ _ _ _ _ _ _ _ _ _ P s2 NR2 ND2), tr_get_map_t, map_fst_map_e.
        apply first_obs_map. intros x. rewrite (q_obs _ _ _ _ _ _ _ _ _ _ P). apply (q_fobs _ _ _ _ _ _ _ _ _ _ P). }
      destruct (successor h2 s2 a o) as [c|] eqn:E2.
      + destruct (TT a o c E2) as (Tc & LT & TDc). pose proof (tree_In h2 c (T c) Tc) as Icc.
        assert (DJc : forall x, In x (T c) -> ~ In x Dd /\ ~ In x DCc) by (intros x I; apply (DJ a o c (or_introl eq_refl) E2 x I)).
        assert (Fc : fc c = c) by (apply (q_fid _ _ _ _ _ _ _ _ _ _ P); apply (DJc c Icc)).
        cbn [option_map] in Es. rewrite Fc in Es.
        assert (Tc' : tree hc c (T c)). { apply (post_tree _ _ _ _ _ _ _ _ _ _ _ _ P Tc). intros x I. destruct (TDc x I) as (A & B & _). destruct (DJc x I). auto. }
        destruct (successor_Some _ _ _ _ _ Es) as (Oc & w0 & Ic).
        assert (S1c : In s1 red \/ In s1 DCc) by (destruct S1 as [S1|S1]; [left; exact S1|right; apply (q_DC _ _ _ _ _ _ _ _ _ _ P), S1]).
        assert (RGc : forall x, In x red \/ In x DCc -> (x < length hc)%nat).
        { intros x I. rewrite (q_len _ _ _ _ _ _ _ _ _ _ P). destruct I as [I|I]; [apply RG; left; exact I|]. destruct (q_DCsub _ _ _ _ _ _ _ _ _ _ P x I) as [J|J]; [apply RG; right; exact J|apply RD, J]. }
        assert (Lc : (c < length hc)%nat) by (rewrite (q_len _ _ _ _ _ _ _ _ _ _ P); apply (TDc c Icc)).
        (* one step *)
        assert (ST : exists h1 C1 DC1 g, mstep fuel s1 s2 (Some hc) (a, o) = Some h1 /\ post s1 s2 hc h1 Cc C1 DCc DC1 (T c) g /\ complete hc h1 (T c) g /\
                       exists w, In (g c, w) (edges h1 s1 a)).
        { unfold mstep. cbn [fst snd]. rewrite Es. destruct (successor hc s1 a o) as [succ1|] eqn:E1.
          - destruct (successor_Some _ _ _ _ _ E1) as (O1 & w1 & I1).
            assert (K1 : In succ1 red \/ In succ1 DCc).
            { assert (J : In succ1 (sons hc s1)) by (apply In_sons; [apply (q_wf _ _ _ _ _ _ _ _ _ _ P)|eauto]). destruct S1c as [R|R].
              - destruct (q_red _ _ _ _ _ _ _ _ _ _ P s1 succ1 R J) as [K|K]; [left; exact K|right; apply (forest_roots _ _ _ (q_forest _ _ _ _ _ _ _ _ _ _ P)), K].
              - right. apply (proj2 (tree_sons hc) Cc DCc (q_forest _ _ _ _ _ _ _ _ _ _ P) s1 succ1 R J). }
            destruct (IHf hc Cc DCc succ1 c (T c)) as (h1 & C1 & DC1 & g & M & Pg & Cg & Gc & _).
            + split; [apply (q_wf _ _ _ _ _ _ _ _ _ _ P)|]. split; [apply (q_forest _ _ _ _ _ _ _ _ _ _ P)|]. split; [apply (q_disj _ _ _ _ _ _ _ _ _ _ P)|].
              split. { intros r d Ir J. destruct (q_red _ _ _ _ _ _ _ _ _ _ P r d Ir J); auto. }
              split; [exact RGc|]. split; [exact Tc'|]. split; [intros x I; split; [apply (TDc x I)|apply (DJc x I)]|]. split; [exact Lc|]. split; [exact K1|congruence].
            + exact LT.
            + exists h1, C1, DC1, g. split; [exact M|]. split; [|split; [exact Cg|]].
              * destruct Pg as [P1 P2 P3 P4 P5 P6 P7 P8 P9 P10 P11 P12 P13 P14 P15 P16 P17]. constructor; auto. intros x b. destruct (P15 x b) as (e & A & B & F). exists e. split; [exact A|]. split; [exact B|].
                intros z y I. destruct (F z y I) as (d & z0 & [J|(-> & ->)] & K); exists d, z0 || exists c, z0; (split; [left|exact K]); [exact J|auto].
              * exists w1. rewrite Gc. pose proof (post_mono _ _ _ _ _ _ _ _ _ _ s1 a succ1 w1 Pg I1) as J. rewrite (q_fid _ _ _ _ _ _ _ _ _ _ Pg succ1) in J; [exact J|].
                intros L. destruct (TDc _ L) as (A & _). destruct (DJc _ L) as (_ & B). destruct K1; contradiction.
          - destruct (graft_spec hc Cc DCc s1 s2 a (getTransitionProb hc s2 a c) c (T c)) as (C1 & DC1 & Pg & Cg & Ig).
            + apply (q_wf _ _ _ _ _ _ _ _ _ _ P).
            + apply (q_forest _ _ _ _ _ _ _ _ _ _ P).
            + apply (q_disj _ _ _ _ _ _ _ _ _ _ P).
            + apply (q_red _ _ _ _ _ _ _ _ _ _ P).
            + exact S1c.
            + apply RGc, S1c.
            + exact Lc.
            + exact Tc'.
            + intros x I. split; [apply (TDc x I)|apply (DJc x I)].
            + intros d y I. rewrite Oc. apply (first_obs_None _ _ _ E1). apply In_fst. eauto.
            + unfold getTransitionProb. apply freq_to_In with (c := w0). exact Ic.
            + eexists _, C1, DC1, (fun x => x). split; [reflexivity|]. split; [exact Pg|]. split; [exact Cg|]. eexists. exact Ig. }
        destruct ST as (h1 & C1 & DC1 & g & M & Pg & Cg & w & Iw). rewrite M.
        assert (DJ1 : forall x, In x (T c) -> ~ In x Dd /\ ~ In x red /\ ~ In x DCc) by (intros x I; destruct (DJc x I); split; [assumption|split; [apply (TDc x I)|assumption]]).
        pose proof (post_comp s1 s2 h2 hc h1 C Cc C1 DC DCc DC1 Dd (T c) fc g W2 (q_wf _ _ _ _ _ _ _ _ _ _ P) P Pg DJ1 NR2 ND2) as P1.
        pose proof (complete_comp s1 s2 h2 hc h1 C Cc C1 DC DCc DC1 Dd (T c) fc g P Pg DJ1 Co Cg) as Co1.
        destruct (IH NDr' h1 C1 DC1 (fun x => g (fc x)) (Dd ++ T c) P1 Co1) as (h' & C' & DC' & f & Dd' & FL & P' & Co' & N' & E' & S' & M').
        * intros I. destruct (q_DCsub _ _ _ _ _ _ _ _ _ _ Pg s2 I) as [J|J]; [contradiction|]. apply (TDc s2 J). reflexivity.
        * intros I. apply in_app_or in I as [I|I]; [contradiction|]. apply (TDc s2 I). reflexivity.
        * intros x I. apply in_app_or in I as [I|I]; [apply RD, I|apply (TDc x I)].
        * intros a' o' c' I' E' x Ix. destruct (DJ a' o' c' (or_intror I') E' x Ix) as (A & B).
          assert (NT : ~ In x (T c)). { apply (TD a' o' c' a o c x E' E2); [intros [= -> ->]; contradiction|exact Ix]. }
          split; [intros J; apply in_app_or in J as [J|J]; contradiction|]. intros J. destruct (q_DCsub _ _ _ _ _ _ _ _ _ _ Pg x J); contradiction.
        * exists h', C', DC', f, Dd'. split; [exact FL|]. split; [exact P'|]. split; [exact Co'|]. split; [exact N'|]. split; [|split].
          -- intros x. rewrite E', in_app_iff. split.
             ++ intros [[I|I]|(a' & o' & c' & I & J)]; [left; exact I|right; exists a, o, c; split; [left; reflexivity|auto]|right; exists a', o', c'; split; [right; exact I|exact J]].
             ++ intros [I|(a' & o' & c' & [[= <- <-]|I] & J & K)]; [auto|left; right; congruence|right; exists a', o', c'; auto].
          -- intros a' o' c' [[= <- <-]|I] J; [|apply (S' a' o' c' I J)]. assert (c' = c) as -> by congruence. exists w. apply (M' s1 a c w). rewrite Fc. exact Iw.
          -- intros x b z y I. apply M'. apply (post_mono _ _ _ _ _ _ _ _ _ _ _ _ _ _ Pg), I.
      + cbn [option_map] in Es. assert (mstep fuel s1 s2 (Some hc) (a, o) = Some hc) as -> by (unfold mstep; cbn [fst snd]; rewrite Es; reflexivity).
        destruct (IH NDr' hc Cc DCc fc Dd P Co ND2 ND3 RD) as (h' & C' & DC' & f & Dd' & FL & P' & Co' & N' & E' & S' & M').
        * intros a' o' c' I. apply DJ. right; exact I.
        * exists h', C', DC', f, Dd'. split; [exact FL|]. split; [exact P'|]. split; [exact Co'|]. split; [exact N'|]. split; [|split].
          -- intros x. rewrite E'. split; (intros [I|(a' & o' & c' & I & J & K)]; [left; exact I|right; exists a', o', c'; split; [|auto]]); [right; exact I|].
             destruct I as [[= <- <-]|I]; [congruence|exact I].
          -- intros a' o' c' [[= <- <-]|I] J; [congruence|apply (S' a' o' c' I J)].
          -- exact M'.
  Qed.

  Theorem merge_spec : forall fuel, merge_ok fuel.
  Proof.
    induction fuel as [|fuel IH]; intros h C DC s1 s2 D (W & F & DJ & CL & RG & T2 & TD & L2 & S1 & EO) LD.
    { apply tree_inv in T2 as (D' & -> & _). cbn in LD. lia. }
    rewrite merge_S. cbn zeta. destruct (tree_inv h s2 D T2) as (D' & -> & NI & F2).
    assert (NR2 : ~ In s2 red) by apply (TD s2 (or_introl eq_refl)). assert (ND2 : ~ In s2 DC) by apply (TD s2 (or_introl eq_refl)).
    assert (N12 : s1 <> s2) by (intros ->; destruct S1; contradiction).
    assert (L1 : (s1 < length h)%nat) by (apply RG, S1).
    pose proof (start_spec h C DC s1 s2 W N12 L1 L2 EO F DJ CL S1 NR2 ND2) as PA. set (h2 := move_counter (redirect h s1 s2) s1 s2) in *.
    assert (ID : forall x, x <> s2 -> sub s2 s1 x = x) by (intros x Nx; unfold sub; apply Nat.eqb_neq in Nx; rewrite Nx; reflexivity).
    assert (TS : forall x, In x (s2 :: D') -> trans h2 x = trans h x).
    { intros x I. destruct (TD x I) as (A & B). rewrite (q_frame _ _ _ _ _ _ _ _ _ _ PA x A B). apply map_t_id. intros d J. apply ID. apply (proj1 (tree_sons h) s2 (s2 :: D') T2 x d I J). }
    assert (F2' : forest h2 (sons h2 s2) D').
    { unfold sons. rewrite TS by (left; reflexivity). apply (proj2 (tree_same h h2) _ D' F2). intros x I. unfold sons. rewrite TS by (right; exact I). reflexivity. }
    destruct (forest_split h2 _ D' F2') as (T & TA & TB & TC).
    assert (W2 : iwf h2) by apply (q_wf _ _ _ _ _ _ _ _ _ _ PA).
    assert (SK : forall a o c, successor h2 s2 a o = Some c -> In c (sons h2 s2)).
    { intros a o c E. destruct (successor_Some _ _ _ _ _ E) as (_ & w & I). apply In_sons; [apply W2|eauto]. }
    assert (P0 : post s1 s2 h2 h2 C C DC DC [] (fun x => x)).
    { constructor; auto.
      - apply (q_forest _ _ _ _ _ _ _ _ _ _ PA).
      - apply (q_red _ _ _ _ _ _ _ _ _ _ PA).
      - intros x I; exact I.
      - intros x I; exact I.
      - intros x [].
      - intros x a. exists []. rewrite app_nil_r, map_e_id by auto. split; [reflexivity|]. split; [congruence|intros z c []].
      - intros x _ _. rewrite map_t_id by auto. reflexivity. }
    assert (L2' : length h2 = length h) by apply (q_len _ _ _ _ _ _ _ _ _ _ PA).
    assert (RD' : forall x, In x D' -> (x < length h2)%nat).
    { intros x I. destruct (TC x I) as (k & Ik & Ix). destruct (TA k Ik) as (Tk & _).
      (* x is a root or a son *)
      assert (G : (forall n E, tree h2 n E -> (n < length h2)%nat -> forall y, In y E -> (y < length h2)%nat) /\
                  (forall ks E, forest h2 ks E -> (forall n, In n ks -> (n < length h2)%nat) -> forall y, In y E -> (y < length h2)%nat)).
      { apply tree_forest_mind.
        - intros n E _ IHE _ Ln y [<-|J]; [exact Ln|]. apply IHE; [|exact J]. intros m Jm. apply (w_range _ W2 n m Jm).
        - intros _ y [].
        - intros k0 ks E1 E2 _ IH1 _ IH2 _ Q y J. apply in_app_or in J as [J|J]; [apply IH1; [apply Q; left; reflexivity|exact J]|apply IH2; [|exact J]]. intros n Jn. apply Q. right; exact Jn. }
      apply (proj1 G k (T k) Tk); [apply (w_range _ W2 s2 k Ik)|exact Ix]. }
    destruct (mloop fuel IH h2 C DC s1 s2 T W2 S1) with (rem := all_pairs (actionsAllowed h2 s2) obss) (hc := h2) (Cc := C) (DCc := DC) (fc := fun x : nat => x) (Dd := @nil nat)
      as (h' & C' & DC' & f & Dd' & FL & P' & Co' & N' & E' & S' & M').
    - intros x I. rewrite L2'. apply RG, I.
    - exact NR2.
    - rewrite L2'. exact L2.
    - intros a o c E. destruct (TA c (SK a o c E)) as (A & B & Q). split; [exact A|]. split; [cbn in LD; lia|]. intros x I.
      destruct (TD x (or_intror (B x I))). split; [assumption|]. split; [assumption|]. split; [intros ->; apply NI, B, I|apply RD', B, I].
    - intros a o c a' o' c' x E Ee Np Ix. apply (TB c c' x (SK a o c E) (SK a' o' c' Ee)); [|exact Ix].
      (* different transitions lead to different sons *)
      intros ->. destruct (successor_Some _ _ _ _ _ E) as (Oa & w & Ia). destruct (successor_Some _ _ _ _ _ Ee) as (Ob & w' & Ib).
      assert (a <> a') by (intros ->; apply Np; congruence).
      pose proof (proj2 (forest_roots h2 _ D' F2')) as NDs. revert NDs Ia Ib. unfold sons, edges, dests. intros NDs Ia Ib. apply tr_get_In in Ia as (e & Ia & Ja). apply tr_get_In in Ib as (e' & Ib & Jb).
      clear - NDs Ia Ja Ib Jb H. revert NDs Ia Ib. induction (trans h2 s2) as [|(b, e0) t IHt]; cbn [flat_map]; [intros _ []|]. intros ND [[= -> ->]|Ia] [[= -> ->]|Ib]; [congruence| | |].
      + eapply (NoDup_app_disj _ _ ND c'); [apply In_fst; eauto|]. apply in_flat_map. exists (a', e'). split; [exact Ib|]. apply In_fst. eauto.
      + eapply (NoDup_app_disj _ _ ND c'); [apply In_fst; eauto|]. apply in_flat_map. exists (a, e). split; [exact Ia|]. apply In_fst. eauto.
      + apply IHt; [|exact Ia|exact Ib]. apply NoDup_app_r in ND. exact ND.
    - apply pairs_NoDup; [apply W2|exact NDO].
    - exact P0.
    - intros d a z0 c0 [].
    - exact ND2.
    - intros [].
    - intros x [].
    - intros a o c _ E x I. split; [intros []|]. apply (TD x). right. apply (TA c (SK a o c E)), I.
    - assert (ED : forall x, In x Dd' <-> In x D').
      { intros x. rewrite E'. split.
        - intros [[]|(a & o & c & _ & E & I)]. apply (TA c (SK a o c E)), I.
        - intros I. right. destruct (TC x I) as (k & Ik & Ix). apply In_sons in Ik as (a & w & Ik); [|apply W2].
          assert (E : successor h2 s2 a (obs h2 k) = Some k) by (apply first_obs_In; [apply W2|apply In_fst; eauto]).
          exists a, (obs h2 k), k. split; [|auto]. apply In_pairs. split.
          + unfold actionsAllowed. destruct (in_dec string_dec a (map fst (trans h2 s2))) as [J|J]; [exact J|]. unfold edges in Ik. rewrite tr_get_none in Ik by exact J. destruct Ik.
          + apply W2. apply (w_range _ W2 s2 k). apply In_sons; [apply W2|eauto]. }
      assert (DJ2 : forall x, In x D' -> ~ In x [s2] /\ ~ In x red /\ ~ In x DC).
      { intros x I. destruct (TD x (or_intror I)). split; [intros [<-|[]]; contradiction|auto]. }
      apply (post_ext _ _ _ _ _ _ _ _ _ D') in P'; [|exact ED].
      exists h', C', DC', (fun x => f (sub s2 s1 x)). split; [exact FL|]. split; [|split; [|split]].
      + apply (post_comp s1 s2 h h2 h' C C C' DC DC DC' [s2] D' (sub s2 s1) f W W2 PA P' DJ2 NR2 ND2).
      + assert (Fs : f (sub s2 s1 s2) = s1).
        { unfold sub. rewrite Nat.eqb_refl. apply (q_fid _ _ _ _ _ _ _ _ _ _ P'). intros I. destruct (TD s1 (or_intror I)). destruct S1; contradiction. }
        intros d a z0 c0 Id J. assert (Jd : In z0 (sons h d)) by (apply In_sons; [apply W|eauto]).
        assert (J2 : In (z0, c0) (edges h2 d a)) by (unfold edges; rewrite TS by exact Id; exact J).
        assert (Nz : z0 <> s2) by apply (proj1 (tree_sons h) s2 _ T2 d z0 Id Jd). rewrite (ID z0 Nz).
        destruct Id as [<-|Id].
        * rewrite Fs. apply (S' a (obs h2 z0) z0).
          -- apply In_pairs. split.
             ++ unfold actionsAllowed. destruct (in_dec string_dec a (map fst (trans h2 s2))) as [K|K]; [exact K|]. unfold edges in J2. rewrite tr_get_none in J2 by exact K. destruct J2.
             ++ apply W2. apply (w_range _ W2 s2 z0). apply In_sons; [apply W2|eauto].
          -- apply first_obs_In; [apply W2|apply In_fst; eauto].
        * rewrite (ID d) by (intros ->; contradiction). apply (Co' d a z0 c0); [apply ED, Id|exact J2].
      + unfold sub. rewrite Nat.eqb_refl. apply (q_fid _ _ _ _ _ _ _ _ _ _ P'). intros I. destruct (TD s1 (or_intror I)). destruct S1; contradiction.
      + exact N'.
  Qed.
End Merge.

(** Theorems C125-C126: sparse Markov decision processes. *)
From Coq Require Import String Ascii ZArith Bool Reals Permutation DecimalString DecimalNat DecimalFacts List Lra Lia.
From Verif Require Import Num Py SNum LSum MTools LTools SSet LSet SPath MModels MCtor SCtor LCtor PCtor MLik SBW SLik LFB LLik MPctmc MStorm SStorm LStorm PStorm.
Import ListNotations.
Local Open Scope R_scope.

(** ** Lemmas *)
Lemma np_set_ok {A} (m : list (list A)) a j x : (a < length m)%nat -> (j < length (nth a m []))%nat ->
  np_set m (Z.of_nat a) (Z.of_nat j) x = Ok (upd m a (upd (nth a m []) j x)).
Proof.
  intros Ha Hj. unfold np_set. rewrite pyget_nat, (nth_error_nth' _ []) by exact Ha. cbn [bind]. rewrite pyset_ok by lia. cbn [bind]. rewrite pyset_ok by lia. rewrite !Nat2Z.id. reflexivity.
Qed.
Lemma upd_upd {A} (m : list A) a x y : upd (upd m a x) a y = upd m a y.
Proof. revert a. induction m as [|z m IH]; intros [|a]; cbn; [reflexivity..|]. rewrite IH. reflexivity. Qed.
Lemma upd_self {A} (m : list A) a d : (a < length m)%nat -> upd m a (nth a m d) = m.
Proof. revert a. induction m as [|z m IH]; intros [|a] H; cbn in *; [lia|lia|reflexivity|]. rewrite IH by lia. reflexivity. Qed.
Lemma inner_set {V} (ts : list (nat * V)) a : forall m r, (a < length m)%nat -> (forall j v, In (j, v) ts -> (j < length (nth a m []))%nat) ->
  set_row (nth a m []) ts = Ok r -> mfold (fun m t => np_set m (Z.of_nat a) (Z.of_nat (fst t)) (snd t)) ts m = Ok (upd m a r).
Proof.
  unfold set_row. induction ts as [|[j v] ts IH]; intros m r Ha H E; cbn [mfold] in *.
  - injection E as <-. rewrite upd_self by exact Ha. reflexivity.
  - cbn [fst snd] in *. assert (Hj : (j < length (nth a m []))%nat) by (apply (H j v); left; reflexivity). rewrite pyset_ok in E by lia. cbn [bind] in E. rewrite Nat2Z.id in E.
    rewrite np_set_ok by assumption. cbn [bind]. assert (N : nth a (upd m a (upd (nth a m []) j v)) [] = upd (nth a m []) j v) by (rewrite upd_nth by exact Ha; rewrite Nat.eqb_refl; reflexivity).
    rewrite (IH (upd m a (upd (nth a m []) j v)) r).
    + rewrite upd_upd. reflexivity.
    + rewrite upd_length. exact Ha.
    + intros j' v' J. rewrite N, upd_length. apply (H j' v'). right; exact J.
    + rewrite N. exact E.
Qed.

Lemma dense_mdp_gen n acts : (forall ts, In ts acts -> NoDup (map fst ts) /\ forall j v, In (j, v) ts -> (j < n)%nat) ->
  forall i m, (i + length acts <= length m)%nat -> (forall a, (a < length m)%nat -> length (nth a m []) = n) ->
  exists m', mfold (fun m ia => mfold (fun m t => np_set m (Z.of_nat (fst ia)) (Z.of_nat (fst t)) (snd t)) (snd ia) m) (combine (seq i (length acts)) acts) m = Ok m' /\
    length m' = length m /\ (forall a, (a < length m)%nat -> length (nth a m' []) = n) /\
    (forall a, (a < length acts)%nat -> forall j, (forall v : R, In (j, v) (nth a acts []) -> nth j (nth (i + a) m' []) 0 = v) /\
                                             ((forall w, ~ In (j, w) (nth a acts [])) -> nth j (nth (i + a) m' []) 0 = nth j (nth (i + a) m []) 0)) /\
    (forall a, (a < i)%nat \/ (i + length acts <= a)%nat -> nth a m' [] = nth a m []).
Proof.
  induction acts as [|ts acts IH]; intros H i m Hi HL.
  - exists m. split; [reflexivity|]. split; [reflexivity|]. split; [exact HL|]. split; [intros a Ha; cbn in Ha; lia|reflexivity].
  - cbn [length] in Hi. cbn [length seq combine mfold fst snd]. destruct (H ts (or_introl eq_refl)) as [N C].
    destruct (set_row_spec 0 ts (nth i m []) N) as (r & E & Lr & Pr); [intros j v J; rewrite HL by lia; apply (C j v J)|].
    rewrite (inner_set ts i m r) by (try lia; auto; intros j v J; rewrite HL by lia; apply (C j v J)). cbn [bind].
    destruct (IH (fun t J => H t (or_intror J)) (S i) (upd m i r)) as (m' & E' & L' & R' & P' & Q').
    + rewrite upd_length. lia.
    + intros a Ha. rewrite upd_length in Ha. rewrite upd_nth by lia. destruct (Nat.eqb i a); [rewrite Lr; apply HL; lia|apply HL, Ha].
    + exists m'. split; [exact E'|]. rewrite upd_length in L', R'. split; [exact L'|]. split; [exact R'|]. split.
      * intros [|a] Ha j; cbn [nth].
        -- rewrite Nat.add_0_r. rewrite (Q' i) by lia. rewrite upd_nth by lia. rewrite Nat.eqb_refl. apply Pr.
        -- cbn [length] in Ha. destruct (P' a ltac:(lia) j) as [P1 P2]. replace (i + S a)%nat with (S i + a)%nat by lia. split; [exact P1|]. intros NJ. rewrite (P2 NJ). rewrite upd_nth by lia.
           destruct (Nat.eqb_spec i (S i + a)); [lia|reflexivity].
      * intros a Ha. rewrite Q' by lia. rewrite upd_nth by lia. destruct (Nat.eqb_spec i a); [lia|reflexivity].
Qed.
Lemma dense_mdp_spec n k acts : (forall ts, In ts acts -> NoDup (map fst ts) /\ forall j v, In (j, v) ts -> (j < n)%nat) -> (length acts <= k)%nat ->
  exists m, dense_mdp k n acts = Ok m /\ length m = k /\ (forall a, (a < k)%nat -> length (nth a m []) = n) /\
    forall a j v, (a < k)%nat -> (j < n)%nat -> entry 0 (nth a acts []) j v -> nth j (nth a m []) 0 = v.
Proof.
  intros H L. assert (LR : length (repeat (@vzeros R _ n) k) = k) by apply repeat_length.
  assert (NR : forall a, (a < k)%nat -> nth a (repeat (@vzeros R _ n) k) [] = vzeros n) by (intros a Ha; rewrite (nth_indep _ [] (vzeros n)) by lia; apply nth_repeat).
  destruct (dense_mdp_gen n acts H 0 (repeat (vzeros n) k)) as (m & E & Lm & Rm & Pm & Qm).
  - rewrite LR. exact L.
  - intros a Ha. rewrite LR in Ha. rewrite NR by exact Ha. unfold vzeros. apply repeat_length.
  - rewrite LR in *. exists m. split; [exact E|]. split; [exact Lm|]. split; [exact Rm|]. intros a j v Ha Hj EN.
    assert (Z : nth j (nth a (repeat (@vzeros R _ n) k) []) 0 = 0) by (rewrite NR by exact Ha; unfold vzeros; apply nth_repeat).
    destruct (Nat.lt_ge_cases a (length acts)) as [Ha'|Ha'].
    + destruct (Pm a Ha' j) as [P1 P2]. cbn [Nat.add] in *. destruct EN as [J|[NJ ->]]; [apply P1, J|]. rewrite P2 by exact NJ. exact Z.
    + rewrite Qm by lia. rewrite Z. rewrite nth_overflow in EN by lia. destruct EN as [[]|[_ ->]]. reflexivity.
Qed.

(** ** C125: a sparse Markov decision process *)

(** [list(set(l))]: the elements of [l], once each, in some order. *)
Definition set_order (order : list string -> list string) : Prop := forall l, NoDup (order l) /\ forall x, In x (order l) <-> In x l.
(** The largest number of actions of a state. *)
Definition max_actions {V} (h : sparse V R) (k : nat) : Prop :=
  (forall acts, In acts (sp_rows h) -> (length acts <= k)%nat) /\ (k = O \/ exists acts, In acts (sp_rows h) /\ length acts = k).
(** The converted transition function, for each action. *)
Definition converted_mdp (n k : nat) (D : nat -> nat -> nat -> R) (o : option nat) (M : list (list (list R))) : Prop :=
  length M = (n + extra o)%nat /\
  (forall ra, In ra M -> length ra = k /\ forall r, In r ra -> length r = (n + extra o)%nat) /\
  (forall s a j, (s < n)%nat -> (a < k)%nat -> (j < n)%nat -> nth j (nth a (nth s M []) []) 0 = D s a j) /\
  match o with
  | None => True
  | Some s0 => (forall s a, (s < n)%nat -> (a < k)%nat -> nth n (nth a (nth s M []) []) 0 = 0) /\
               (forall a j, (a < k)%nat -> (j <= n)%nat -> nth j (nth a (nth n M []) []) 0 = if Nat.eqb j s0 then 1 else 0)
  end.

Lemma all_names_In names (rows : list (list (list (nat * R)))) x :
  In x (all_names names rows) <-> exists acts a, In acts rows /\ (a < length acts)%nat /\ x = action_name names a.
Proof.
  unfold all_names. rewrite in_flat_map. split.
  - intros (acts & I & J). apply in_map_iff in J as (a & <- & J). apply in_seq in J. exists acts, a. split; [exact I|]. split; [lia|reflexivity].
  - intros (acts & a & I & L & ->). exists acts. split; [exact I|]. apply in_map. apply in_seq. lia.
Qed.
Lemma nb_names (h : sparse R R) k order names : set_order order -> max_actions h k ->
  (forall i j, (i < k)%nat -> (j < k)%nat -> action_name names i = action_name names j -> i = j) ->
  length (order (all_names names (sp_rows h))) = k /\ forall x, In x (order (all_names names (sp_rows h))) <-> exists a, (a < k)%nat /\ x = action_name names a.
Proof.
  intros SO (M1 & M2) INJ. destruct (SO (all_names names (sp_rows h))) as [N I].
  assert (I' : forall x, In x (order (all_names names (sp_rows h))) <-> exists a, (a < k)%nat /\ x = action_name names a).
  { intros x. rewrite I, all_names_In. split.
    - intros (acts & a & J & L & ->). exists a. split; [|reflexivity]. specialize (M1 acts J). lia.
    - intros (a & L & ->). destruct M2 as [->|(acts & J & <-)]; [lia|]. exists acts, a. auto. }
  split; [|exact I']. transitivity (length (map (action_name names) (seq 0 k))); [|rewrite map_length; apply seq_length].
  apply Permutation_length, NoDup_Permutation; [exact N| |].
  - clear -INJ. assert (G : forall l, (forall i, In i l -> (i < k)%nat) -> NoDup l -> NoDup (map (action_name names) l)).
    { induction l as [|i l IH]; intros B ND; [constructor|]. inversion ND as [|? ? NI ND']; subst. cbn. constructor; [|apply IH; auto; intros; apply B; right; assumption].
      intros J. apply in_map_iff in J as (j & E & J). apply INJ in E; [congruence|apply B; right; exact J|apply B; left; reflexivity]. }
    apply G; [intros i J; apply in_seq in J; lia|apply seq_NoDup].
  - intros x. rewrite I', in_map_iff. split; intros (a & A & B); exists a.
    + split; [auto|apply in_seq; lia].
    + apply in_seq in B. split; [lia|auto].
Qed.

Lemma rows_ok_err na (m : list (list (list R))) e : (forall r, In r m -> length r = na) -> mdp_rows_ok na m = Err e -> e = ValueError.
Proof.
  induction m as [|r m IH]; intros H E; [discriminate|]. cbn [mdp_rows_ok] in E. specialize (H r (or_introl eq_refl)) as Hr.
  assert (G : forall l, (forall a, In a l -> (a < na)%nat) -> forall e, mfold (fun (_ : unit) a => do x <- at_list r a; if checkProbabilities x then Ok tt else Err ValueError) l tt = Err e -> e = ValueError).
  { clear E IH e. induction l as [|a l IHl]; intros B e E; [discriminate|]. cbn [mfold] in E. unfold at_list in E. rewrite (nth_error_nth' _ []) in E by (rewrite Hr; apply B; left; reflexivity). cbn [bind] in E.
    destruct (checkProbabilities (nth a r [])); cbn [bind] in E; [|congruence]. apply IHl; [intros; apply B; right; assumption|exact E]. }
  destruct (mfold (fun (_ : unit) a => do x <- at_list r a; if checkProbabilities x then Ok tt else Err ValueError) (seq 0 na) tt) as [u|e'] eqn:F; cbn [bind] in E.
  - apply IH; [intros; apply H; right; assumption|exact E].
  - injection E as <-. apply (G (seq 0 na)); [intros a J; apply in_seq in J; lia|exact F].
Qed.

Lemma add_state_mdp_spec (m : list (list (list R))) D o n k : length m = n ->
  (forall s, (s < n)%nat -> length (nth s m []) = k /\ forall a, (a < k)%nat -> length (nth a (nth s m []) []) = n /\ forall j, (j < n)%nat -> nth j (nth a (nth s m []) []) 0 = D s a j) ->
  (forall s0, o = Some s0 -> (s0 < n)%nat) ->
  converted_mdp n k D o (add_state_mdp k m o) /\
  ((forall r, In r (add_state_mdp k m o) -> forall a, (a < k)%nat -> exists x, nth_error r a = Some x /\ row_ok (rsum x)) <->
   forall s a, (s < n)%nat -> (a < k)%nat -> row_ok (Sum n (D s a))).
Proof.
  intros L H HO.
  assert (RS : forall s a, (s < n)%nat -> (a < k)%nat -> rsum (nth a (nth s m []) []) = Sum n (D s a)).
  { intros s a Hs Ha. destruct (H s Hs) as [_ Hr]. destruct (Hr a Ha) as [Lr Pr]. rewrite rsum_nth, Lr. apply Sum_ext. exact Pr. }
  destruct o as [s0|]; cbn [add_state_mdp extra].
  - specialize (HO s0 eq_refl). set (z := upd (vzeros (length m)) s0 n1).
    assert (Lz : length z = n) by (unfold z; rewrite upd_length; unfold vzeros; rewrite repeat_length; exact L).
    assert (Nz : forall j, nth j z 0 = if Nat.eqb j s0 then 1 else 0).
    { intros j. unfold z. rewrite upd_nth by (unfold vzeros; rewrite repeat_length; lia). unfold vzeros. rewrite nth_repeat. rewrite Nat.eqb_sym. reflexivity. }
    clearbody z. unfold converted_mdp. set (g := fun r : list R => r ++ [n0]). set (M := map (map g) (m ++ [repeat z k])).
    assert (LM : length M = (n + 1)%nat) by (unfold M; rewrite map_length, app_length; cbn; lia).
    assert (N1 : forall s, (s < n)%nat -> nth s M [] = map g (nth s m [])).
    { intros s Hs. unfold M. change (@nil (list R)) with (map g []) at 1. rewrite map_nth. rewrite app_nth1 by lia. reflexivity. }
    assert (N2 : nth n M [] = map g (repeat z k)).
    { unfold M. change (@nil (list R)) with (map g []) at 1. rewrite map_nth. rewrite app_nth2 by lia. rewrite L, Nat.sub_diag. reflexivity. }
    assert (A1 : forall s a, (s < n)%nat -> (a < k)%nat -> nth_error (nth s M []) a = Some (nth a (nth s m []) [] ++ [0])).
    { intros s a Hs Ha. destruct (H s Hs) as [Lk _]. rewrite N1 by exact Hs. rewrite nth_error_map, (nth_error_nth' _ []) by lia. reflexivity. }
    assert (A2 : forall a, (a < k)%nat -> nth_error (nth n M []) a = Some (z ++ [0])).
    { intros a Ha. rewrite N2, nth_error_map, (nth_error_nth' _ z) by (rewrite repeat_length; exact Ha). rewrite nth_repeat. reflexivity. }
    assert (B1 : forall s a, (s < n)%nat -> (a < k)%nat -> nth a (nth s M []) [] = nth a (nth s m []) [] ++ [0]) by (intros; apply nth_error_nth, A1; assumption).
    assert (B2 : forall a, (a < k)%nat -> nth a (nth n M []) [] = z ++ [0]) by (intros; apply nth_error_nth, A2; assumption).
    assert (LK : forall s, (s < n + 1)%nat -> length (nth s M []) = k).
    { intros s Hs. destruct (Nat.eq_dec s n) as [->|NE]; [rewrite N2, map_length; apply repeat_length|]. rewrite N1 by lia. rewrite map_length. apply H. lia. }
    split; [split; [exact LM|split; [|split; [|split]]]|].
    + intros ra I. apply (In_nth _ _ []) in I as (s & Hs & <-). rewrite LM in Hs. split; [apply LK, Hs|].
      intros r J. apply (In_nth _ _ []) in J as (a & Ha & <-). rewrite LK in Ha by exact Hs. destruct (Nat.eq_dec s n) as [->|NE].
      * rewrite B2 by exact Ha. rewrite app_length, Lz. reflexivity.
      * rewrite B1 by lia. rewrite app_length. destruct (H s ltac:(lia)) as [_ Hr]. rewrite (proj1 (Hr a Ha)). reflexivity.
    + intros s a j Hs Ha Hj. rewrite B1 by assumption. destruct (H s Hs) as [_ Hr]. destruct (Hr a Ha) as [Lr Pr]. rewrite app_nth1 by lia. apply Pr, Hj.
    + intros s a Hs Ha. rewrite B1 by assumption. destruct (H s Hs) as [_ Hr]. destruct (Hr a Ha) as [Lr Pr]. rewrite app_nth2 by lia. rewrite Lr, Nat.sub_diag. reflexivity.
    + intros a j Ha Hj. rewrite B2 by assumption. destruct (Nat.eq_dec j n) as [->|NE].
      * rewrite app_nth2 by lia. rewrite Lz, Nat.sub_diag. destruct (Nat.eqb_spec n s0); [lia|reflexivity].
      * rewrite app_nth1 by lia. apply Nz.
    + assert (SZ : rsum (z ++ [0]) = 1).
      { rewrite rsum_app. cbn [rsum fold_right]. rewrite rsum_nth, Lz. rewrite (Sum_ext n _ (fun j => if Nat.eqb j s0 then 1 else 0)) by (intros; apply Nz).
        rewrite (Sum_indicator_in n s0 (fun _ => 1) HO). ring. }
      split.
      * intros Q s a Hs Ha. rewrite <- RS by assumption. destruct (Q (nth s M [])) with (a := a) as (x & E & X); [apply nth_In; lia|exact Ha|]. rewrite A1 in E by assumption. injection E as <-.
        rewrite rsum_app in X. cbn [rsum fold_right] in X. rewrite !Rplus_0_r in X. exact X.
      * intros Q r I a Ha. apply (In_nth _ _ []) in I as (s & Hs & <-). rewrite LM in Hs. destruct (Nat.eq_dec s n) as [->|NE].
        -- exists (z ++ [0]). split; [apply A2, Ha|]. rewrite SZ. left. rewrite Rminus_diag_eq by reflexivity. rewrite Rabs_R0. lra.
        -- exists (nth a (nth s m []) [] ++ [0]). split; [apply A1; [lia|exact Ha]|]. rewrite rsum_app. cbn [rsum fold_right]. rewrite !Rplus_0_r. rewrite RS by (try lia; exact Ha). apply Q; [lia|exact Ha].
  - split.
    + unfold converted_mdp. cbn [extra]. rewrite Nat.add_0_r. split; [exact L|]. split; [|split; [|exact I]].
      * intros ra J. apply (In_nth _ _ []) in J as (s & Hs & <-). destruct (H s ltac:(lia)) as [Lk Hr]. split; [exact Lk|]. intros r J. apply (In_nth _ _ []) in J as (a & Ha & <-). apply Hr. lia.
      * intros s a j Hs Ha Hj. destruct (H s Hs) as [_ Hr]. apply Hr; assumption.
    + split.
      * intros Q s a Hs Ha. rewrite <- RS by assumption. destruct (Q (nth s m [])) with (a := a) as (x & E & X); [apply nth_In; lia|exact Ha|]. rewrite (nth_error_nth _ _ [] E). exact X.
      * intros Q r J a Ha. apply (In_nth _ _ []) in J as (s & Hs & <-). destruct (H s ltac:(lia)) as [Lk _]. exists (nth a (nth s m []) []). split; [apply nth_error_nth'; lia|]. rewrite RS by (try lia; exact Ha). apply Q; [lia|exact Ha].
Qed.

Theorem C125_MDP : forall (h : sparse R R) (D : nat -> nat -> nat -> R) order names k,
  well_formed h -> set_order order -> max_actions h k ->
  (forall i j, (i < k)%nat -> (j < k)%nat -> action_name names i = action_name names j -> i = j) ->
  let n := length (sp_labels h) in
  (forall s a j, (s < n)%nat -> (a < k)%nat -> (j < n)%nat -> entry 0 (action h s a) j (D s a j)) ->
  ((exists m, stormpy_to_MDP order names h = Ok m) <->
   has_initial (sp_labels h) /\ one_marked (sp_labels h) /\ forall s a, (s < n)%nat -> (a < k)%nat -> row_ok (Sum n (D s a))) /\
  (forall m, stormpy_to_MDP order names h = Ok m ->
     exists o, only_marked (sp_labels h) o /\ converted_labels (sp_labels h) o (mdp_lab m) /\ converted_mdp n k D o (mdp_mat m) /\
               NoDup (mdp_act m) /\ length (mdp_act m) = k /\ (forall x, In x (mdp_act m) <-> exists a, (a < k)%nat /\ x = action_name names a) /\
               mdp_act m = order (all_names names (sp_rows h)) /\
               uniform_on_init (mdp_lab m) (mdp_ini m) /\ mdp_name m = "unknown_MDP"%string) /\
  (forall e, stormpy_to_MDP order names h = Err e -> e = ValueError).
Proof.
  intros h D order names k WF SO MA INJ n HD. destruct (nb_names h k order names SO MA INJ) as [LK INK]. unfold stormpy_to_MDP. rewrite LK.
  pose proof WF as (LR & NDL & WT). change (length (sp_labels h)) with n in LR, WT |- *.
  destruct (mmap_nth (dense_mdp k n) (fun s m => length m = k /\ forall a, (a < k)%nat -> length (nth a m []) = n /\ forall j, (j < n)%nat -> nth j (nth a m []) 0 = D s a j) (sp_rows h) [] []) as (m & E & L & H).
  { intros s Hs. assert (IR : In (nth s (sp_rows h) []) (sp_rows h)) by (apply nth_In; exact Hs).
    destruct (dense_mdp_spec n k (nth s (sp_rows h) [])) as (m & E & Lm & Rm & Pm).
    - intros ts J. apply (WT _ ts IR J).
    - apply MA, IR.
    - exists m. split; [exact E|]. split; [exact Lm|]. intros a Ha. split; [apply Rm, Ha|]. intros j Hj. apply Pm; auto. apply HD; auto. lia. }
  rewrite E. cbn [bind]. rewrite LR in L, H.
  assert (HO : forall s0, add_init_of (sp_labels h) = Some s0 -> (s0 < n)%nat).
  { intros s0 E0. pose proof (marked_fold (sp_labels h) 0 None) as F. cbn zeta in F. fold (add_init_of (sp_labels h)) in F. rewrite E0 in F. destruct F as [[_ X]|(s & Hs & _ & X & _)]; [discriminate|]. injection X as ->. exact Hs. }
  destruct (add_state_mdp_spec m D (add_init_of (sp_labels h)) n k L H HO) as [CM RO].
  assert (I2 : length (labelling_of (sp_labels h)) = length (add_state_mdp k m (add_init_of (sp_labels h))) <-> one_marked (sp_labels h)).
  { rewrite (proj1 CM), labels_length. unfold one_marked. rewrite (unique_marked _ NDL). split; [destruct (add_init_of (sp_labels h)); cbn; lia|]. intros F. destruct (add_init_spec _ NDL F) as [_ ->]. reflexivity. }
  destruct (C16_MDP_constructor (add_state_mdp k m (add_init_of (sp_labels h))) (labelling_of (sp_labels h)) (order (all_names names (sp_rows h))) "unknown_MDP") as (A & B & C).
  rewrite LK in A. split; [|split].
  - rewrite A, RO, I2, (init_labelling _ NDL). reflexivity.
  - intros c Ec. destruct (proj1 A (ex_intro _ c Ec)) as (_ & LL & _). apply I2 in LL. pose proof (proj1 (unique_marked _ NDL) LL) as F.
    destruct (B c Ec) as (-> & -> & -> & Nm & U). exists (add_init_of (sp_labels h)).
    split; [apply (add_init_spec _ NDL F)|]. split; [apply labels_converted; assumption|]. split; [exact CM|]. split; [apply SO|]. auto 6.
  - intros e Ee. unfold MDP_new in Ee. rewrite LK in Ee.
    destruct (base_mc_init_cases (length (add_state_mdp k m (add_init_of (sp_labels h)))) (labelling_of (sp_labels h))) as [(_ & _ & ini & Q)|[_ Q]]; rewrite Q in Ee; cbn [bind] in Ee; [|congruence].
    destruct (mdp_rows_ok k (add_state_mdp k m (add_init_of (sp_labels h)))) as [u|e'] eqn:RE; cbn [bind] in Ee; [discriminate|]. injection Ee as <-.
    apply (rows_ok_err k (add_state_mdp k m (add_init_of (sp_labels h)))); [|exact RE]. intros r J. apply (proj1 (proj2 CM) r J).
Qed.
Print Assumptions C125_MDP.

(** The default names a0, a1, ... are distinct. *)
Theorem C125_default_names : forall i j, action_name [] i = action_name [] j -> i = j.
Proof.
  assert (X : forall i, action_name [] i = String.append "a" (nat_text i)) by (intros [|i]; reflexivity).
  intros i j. rewrite !X. cbn. intros [= E]. unfold nat_text in E.
  assert (P : forall i, NilZero.uint_of_string (NilZero.string_of_uint (Nat.to_uint i)) = Some (Nat.to_uint i)).
  { intros k. apply NilZero.usu. intros Y. pose proof (DecimalNat.Unsigned.of_to k) as O. rewrite Y in O. cbn in O. subst k. discriminate. }
  assert (Q : Nat.to_uint i = Nat.to_uint j) by (pose proof (P i) as Pi; pose proof (P j) as Pj; rewrite E in Pi; congruence).
  apply DecimalNat.Unsigned.to_uint_inj, Q.
Qed.
Print Assumptions C125_default_names.

Lemma act_mat_nth (m : mdp R) a s j : NoDup (mdp_act m) -> (a < length (mdp_act m))%nat -> act_mat m (nth a (mdp_act m) EmptyString) s j = nth j (nth a (nth s (mdp_mat m) []) []) 0.
Proof.
  intros N Ha. unfold act_mat. rewrite (Sum_ext _ _ (fun i => if Nat.eqb i a then nth j (nth i (nth s (mdp_mat m) []) []) 0 else 0)).
  - apply (Sum_indicator_in _ a (fun i => nth j (nth i (nth s (mdp_mat m) []) []) 0) Ha).
  - intros i Hi. destruct (String.eqb_spec (nth i (mdp_act m) EmptyString) (nth a (mdp_act m) EmptyString)) as [E|NE]; destruct (Nat.eqb_spec i a) as [->|NE']; try reflexivity.
    + exfalso. apply NE'. apply (proj1 (NoDup_nth _ EmptyString) N); assumption.
    + congruence.
Qed.

(** When the list of the actions comes out in the order of their ids, every
    action of the model has the transitions of the action of that name. *)
Theorem C125_actions : forall (h : sparse R R) (D : nat -> nat -> nat -> R) order names k m,
  well_formed h -> set_order order -> max_actions h k ->
  (forall i j, (i < k)%nat -> (j < k)%nat -> action_name names i = action_name names j -> i = j) ->
  let n := length (sp_labels h) in
  (forall s a j, (s < n)%nat -> (a < k)%nat -> (j < n)%nat -> entry 0 (action h s a) j (D s a j)) ->
  stormpy_to_MDP order names h = Ok m ->
  order (all_names names (sp_rows h)) = map (action_name names) (seq 0 k) ->
  forall s a j, (s < n)%nat -> (a < k)%nat -> (j < n)%nat -> act_mat m (action_name names a) s j = D s a j.
Proof.
  intros h D order names k m WF SO MA INJ n HD E OI s a j Hs Ha Hj. destruct (C125_MDP h D order names k WF SO MA INJ HD) as (_ & B & _).
  destruct (B m E) as (o & _ & _ & (_ & _ & MD & _) & N & LK & _ & EA & _).
  assert (NA : action_name names a = nth a (mdp_act m) EmptyString).
  { rewrite EA, OI. rewrite (nth_indep _ EmptyString (action_name names 0)) by (rewrite map_length, seq_length; exact Ha). rewrite map_nth, seq_nth by exact Ha. reflexivity. }
  rewrite NA, act_mat_nth by (auto; lia). apply MD; assumption.
Qed.
Print Assumptions C125_actions.

(** [list(set(..))] in any order: removing the duplicates, then reversing. *)
Definition rev_set (l : list string) : list string := rev (dedup String.eqb l).
Lemma rev_set_order : set_order rev_set.
Proof.
  intros l. destruct (dedup_spec String.eqb String.leb String.eqb_eq l) as [N I]. unfold rev_set. split; [apply NoDup_rev, N|]. intros x. rewrite <- in_rev. apply I.
Qed.

Definition ex_smdp : sparse R R := mkSparse [["init"%string]; ["x"%string]] [[[(O, 1)]; [(1%nat, 1)]]; [[(1%nat, 1)]; [(1%nat, 1)]]] [].
Definition ex_D (s a j : nat) : R := nth j (nth a (nth s [[[1; 0]; [0; 1]]; [[0; 1]; [0; 1]]] []) []) 0.
Lemma ex_smdp_ok : well_formed ex_smdp /\ max_actions ex_smdp 2 /\
  (forall s a j, (s < 2)%nat -> (a < 2)%nat -> (j < 2)%nat -> entry 0 (action ex_smdp s a) j (ex_D s a j)).
Proof.
  split; [|split].
  - split; [reflexivity|]. split; [intros L [<-|[<-|[]]]; repeat constructor; cbn; intuition discriminate|].
    intros acts ts I J. cbn in I. destruct I as [<-|[<-|[]]]; destruct J as [<-|[<-|[]]]; (split; [repeat constructor; tauto|intros j v [[= <- <-]|[]]; cbn; lia]).
  - split; [intros acts [<-|[<-|[]]]; cbn; lia|]. right. eexists. split; [left; reflexivity|reflexivity].
  - intros s a j Hs Ha Hj. destruct s as [|[|s]], a as [|[|a]], j as [|[|j]]; try lia; unfold entry, action, ex_D; cbn;
      (left; left; reflexivity) || (right; split; [intros w [[=]|[]]|reflexivity]).
Qed.
Lemma ex_smdp_rows : forall s a, (s < 2)%nat -> (a < 2)%nat -> row_ok (Sum 2 (ex_D s a)).
Proof.
  intros s a Hs Ha. left. assert (Sum 2 (ex_D s a) = 1) as ->; [|rewrite Rminus_diag_eq by reflexivity; rewrite Rabs_R0; lra].
  destruct s as [|[|s]], a as [|[|a]]; try lia; unfold Sum, sumL, ex_D; cbn; ring.
Qed.
Lemma ex_smdp_converts order : set_order order -> exists m, stormpy_to_MDP order [] ex_smdp = Ok m.
Proof.
  intros SO. destruct ex_smdp_ok as (WF & MA & HD). apply (proj1 (C125_MDP ex_smdp ex_D order [] 2 WF SO MA (fun i j _ _ => C125_default_names i j) HD)).
  split; [|split].
  - exists O. split; [cbn; lia|left; reflexivity].
  - assert (NM : forall s, (s < 2)%nat -> ~ marked (nth s (sp_labels ex_smdp) [])).
    { intros s Hs (I & o & J & N1 & N2). destruct s as [|[|s]]; [| |lia]; cbn in I, J; intuition congruence. }
    intros s s' Hs _ M. exfalso. apply (NM s); assumption.
  - apply ex_smdp_rows.
Qed.
Example C125_instance : exists m, stormpy_to_MDP (dedup String.eqb) [] ex_smdp = Ok m /\ act_mat m "a1" 0 1 = 1 /\ act_mat m "a0" 0 1 = 0.
Proof.
  assert (SO : set_order (dedup String.eqb)) by (intros l; apply (dedup_spec String.eqb String.leb String.eqb_eq)).
  destruct ex_smdp_ok as (WF & MA & HD). destruct (ex_smdp_converts _ SO) as (m & E). exists m. split; [exact E|].
  pose proof (C125_actions ex_smdp ex_D (dedup String.eqb) [] 2 m WF SO MA (fun i j _ _ => C125_default_names i j) HD E eq_refl) as A.
  split; [apply (A O 1%nat 1%nat); cbn; lia|apply (A O O 1%nat); cbn; lia].
Qed.

(** In another order the names are attached to other actions. *)
Theorem C125_actions_refuted : exists (h : sparse R R) D order m, well_formed h /\ set_order order /\ max_actions h 2 /\
  (forall s a j, (s < length (sp_labels h))%nat -> (a < 2)%nat -> (j < length (sp_labels h))%nat -> entry 0 (action h s a) j (D s a j)) /\
  stormpy_to_MDP order [] h = Ok m /\ act_mat m (action_name [] 0) 0 0 <> D O O O.
Proof.
  destruct ex_smdp_ok as (WF & MA & HD). destruct (ex_smdp_converts _ rev_set_order) as (m & E). exists ex_smdp, ex_D, rev_set, m.
  split; [exact WF|]. split; [exact rev_set_order|]. split; [exact MA|]. split; [exact HD|]. split; [exact E|].
  destruct (C125_MDP ex_smdp ex_D rev_set [] 2 WF rev_set_order MA (fun i j _ _ => C125_default_names i j) HD) as (_ & B & _).
  destruct (B m E) as (o & _ & _ & (_ & _ & MD & _) & N & LK & _ & EA & _).
  assert (EA' : mdp_act m = ["a1"; "a0"]%string) by (rewrite EA; vm_compute; reflexivity).
  change (action_name [] 0) with (nth 1 ["a1"; "a0"]%string EmptyString). rewrite <- EA'. rewrite act_mat_nth by (auto; lia).
  rewrite MD by (cbn; lia). unfold ex_D. cbn. lra.
Qed.
Print Assumptions C125_actions_refuted.

(** Two actions given the same name: IndexError. *)
Theorem C125_same_name_refuted : exists (h : sparse R R) names, well_formed h /\ stormpy_to_MDP (dedup String.eqb) names h = Err IndexError /\
  exists m, stormpy_to_MDP (dedup String.eqb) [] h = Ok m.
Proof.
  exists ex_smdp, ["a1"%string]. split; [apply ex_smdp_ok|]. split; [|apply ex_smdp_converts; intros l; apply (dedup_spec String.eqb String.leb String.eqb_eq)].
  unfold stormpy_to_MDP. assert (E : dedup String.eqb (all_names ["a1"%string] (sp_rows ex_smdp)) = ["a1"%string]) by (vm_compute; reflexivity). rewrite E. reflexivity.
Qed.
Print Assumptions C125_same_name_refuted.

(** ** C126: a Markov decision process to stormpy and back *)

Theorem C126_MDP : forall zeros order (matrix : list (list (list R))) labels actions name m,
  MDP_new matrix labels actions name = Ok m -> wf_mdp m -> matrix <> [] ->
  (forall l, NoDup (order l) /\ forall x, In x (order l) <-> In x l) ->
  exists m', stormpy_to_MDP order (mdp_act m) (MDPtoStormpy zeros m) = Ok m' /\
    mdp_mat m' = mdp_mat m /\ mdp_lab m' = map storm_label (mdp_lab m) /\ mdp_ini m' = mdp_ini m /\ Permutation (mdp_act m) (mdp_act m').
Proof.
  intros z order matrix labels actions name m E (WR & WL & WN & _) NE SO. destruct (C16_MDP_constructor matrix labels actions name) as (A & B & _).
  destruct (B m E) as (EM & EL & EA & _). set (h := MDPtoStormpy z m).
  assert (LL : length labels = length matrix) by apply (proj1 A (ex_intro _ m E)).
  assert (NM : forall i, (i < length actions)%nat -> action_name actions i = nth i actions EmptyString) by (intros i Hi; unfold action_name; rewrite (nth_error_nth' _ EmptyString) by exact Hi; reflexivity).
  unfold mdp_n in *. rewrite EM, EA in WR. rewrite EA in WN.
  assert (LH : forall acts, In acts (sp_rows h) -> length acts = length actions).
  { intros acts I. unfold h in I. cbn in I. rewrite EM in I. apply in_map_iff in I as (ra & <- & I). rewrite map_length. apply WR, I. }
  destruct (nb_names h (length actions) order actions SO) as [LK INK].
  { split; [intros acts I; rewrite (LH acts I); lia|]. right. unfold h. cbn. rewrite EM. destruct matrix as [|ra matrix]; [congruence|]. exists (map (sparse_row z) ra). split; [left; reflexivity|]. rewrite map_length. apply WR. left; reflexivity. }
  { intros i j Hi Hj. rewrite !NM by assumption. apply (proj1 (NoDup_nth _ EmptyString) WN); assumption. }
  unfold stormpy_to_MDP. fold h. rewrite EA, LK.
  assert (SP : length (sp_labels h) = length matrix) by (unfold h; cbn; unfold state_labelling; rewrite map_length, EL; exact LL).
  rewrite SP.
  assert (DM : mmap (dense_mdp (length actions) (length matrix)) (sp_rows h) = Ok matrix).
  { unfold h. cbn [sp_rows MDPtoStormpy]. rewrite EM. assert (G : forall l : list (list (list R)), (forall ra, In ra l -> length ra = length actions /\ forall r, In r ra -> length r = length matrix) -> mmap (dense_mdp (length actions) (length matrix)) (map (map (sparse_row z)) l) = Ok l).
    { induction l as [|ra l IH]; intros H; [reflexivity|]. cbn [map mmap]. destruct (H ra (or_introl eq_refl)) as [Lk Lr].
      destruct (dense_mdp_spec (length matrix) (length actions) (map (sparse_row z) ra)) as (x & Ex & Lx & Rx & Px).
      - intros ts J. apply in_map_iff in J as (r & <- & J). rewrite <- (Lr r J). apply sparse_row_ok.
      - rewrite map_length. lia.
      - rewrite Ex. cbn [bind]. rewrite IH by (intros; apply H; right; assumption). cbn [bind]. do 2 f_equal. apply (nth_ext _ _ [] []); [lia|]. intros a Ha. rewrite Lx in Ha.
        assert (IR : In (nth a ra []) ra) by (apply nth_In; lia). apply (nth_ext _ _ 0 0); [rewrite Rx by exact Ha; symmetry; apply Lr, IR|]. intros j Hj. rewrite Rx in Hj by exact Ha. apply Px; [exact Ha|exact Hj|].
        rewrite (nth_indep _ [] (sparse_row z ([] : list R))) by (rewrite map_length; lia). rewrite map_nth. apply sparse_row_entry. rewrite (Lr _ IR). exact Hj. }
    apply G, WR. }
  rewrite DM. cbn [bind]. unfold h at 1 2. cbn [sp_labels MDPtoStormpy]. rewrite add_init_one, labelling_one, EL. cbn [add_state_mdp].
  unfold MDP_new in *. rewrite base_init_storm, LK. destruct (base_mc_init (length matrix) labels) as [ini|]; [|discriminate]. cbn [bind] in *.
  destruct (mdp_rows_ok (length actions) matrix) as [u|]; [|discriminate]. cbn [bind] in *. injection E as <-. eexists. split; [reflexivity|]. cbn [mdp_mat mdp_lab mdp_ini mdp_act].
  split; [reflexivity|]. split; [reflexivity|]. split; [reflexivity|]. apply NoDup_Permutation; [exact WN|apply SO|]. intros x. rewrite INK. split.
  - intros I. apply (In_nth _ _ EmptyString) in I as (a & Ha & <-). exists a. split; [exact Ha|]. symmetry. apply NM, Ha.
  - intros (a & Ha & ->). rewrite NM by exact Ha. apply nth_In, Ha.
Qed.
Print Assumptions C126_MDP.

(** The choices of the exported model: the a-th choice of state s is row s*k + a;
    only the choices of state 0 are labelled with their action. *)
Theorem C126_choices : forall (m : mdp R) s a, (s < mdp_n m)%nat -> (a < length (mdp_act m))%nat ->
  nth_error (choice_labels m) (s * length (mdp_act m) + a) = Some (if Nat.eqb s 0 then [nth a (mdp_act m) EmptyString] else []).
Proof.
  intros m s a Hs Ha. set (k := length (mdp_act m)). unfold choice_labels. fold k. assert (L : (s * k + a < mdp_n m * k)%nat) by (fold k in Ha; nia).
  rewrite nth_error_map, (nth_error_nth' _ O) by (rewrite seq_length; exact L). cbn [option_map]. rewrite seq_nth by exact L. cbn [Nat.add]. f_equal. fold k in Ha. destruct (Nat.eqb_spec s 0) as [->|NZ].
  - cbn [Nat.mul Nat.add]. destruct (Nat.ltb_spec a k); [reflexivity|lia].
  - destruct (Nat.ltb_spec (s * k + a) k); [nia|reflexivity].
Qed.
Print Assumptions C126_choices.

Lemma ex_mdp_new : exists m, MDP_new [[[1; 0]; [0; 1]]; [[0; 1]; [0; 1]]] ["init"; "x"]%string ["u"; "v"]%string "e" = Ok m /\ wf_mdp m /\
  mdp_mat m = [[[1; 0]; [0; 1]]; [[0; 1]; [0; 1]]] /\ mdp_act m = ["u"; "v"]%string.
Proof.
  set (M := [[[1; 0]; [0; 1]]; [[0; 1]; [0; 1]]]). destruct (C16_MDP_constructor M ["init"; "x"]%string ["u"; "v"]%string "e") as (A & B & _). destruct (proj2 A) as (m & E).
  - split; [left; reflexivity|]. split; [reflexivity|]. intros r [<-|[<-|[]]] [|[|a]] Ha; cbn in Ha; try lia; (eexists; split; [reflexivity|]); unfold row_ok, rsum; cbn; unfold Rabs; destruct (Rcase_abs _); try lra.
  - exists m. split; [exact E|]. destruct (B m E) as (EM & EL & EA & _ & U1 & (NN & _) & _). split; [|auto]. unfold wf_mdp, mdp_n. rewrite EM, EL, EA. split; [|split; [reflexivity|split; [|split; [exact U1|exact NN]]]].
    + intros ra [<-|[<-|[]]]; (split; [reflexivity|]); intros r [<-|[<-|[]]]; reflexivity.
    + repeat constructor; cbn; intuition discriminate.
Qed.
Example C126_instance : exists m m', wf_mdp m /\ mdp_act m = ["u"; "v"]%string /\ stormpy_to_MDP (dedup String.eqb) (mdp_act m) (MDPtoStormpy true m) = Ok m' /\ mdp_mat m' = mdp_mat m.
Proof.
  destruct ex_mdp_new as (m & E & W & EM & EA). destruct (C126_MDP true (dedup String.eqb) _ _ _ _ m E W) as (m' & E' & X & _); [discriminate|intros l; apply (dedup_spec String.eqb String.leb String.eqb_eq)|].
  exists m, m'. auto.
Qed.

(** When [set] lists the names in another order, the round trip exchanges the
    actions. *)
Theorem C126_MDP_refuted : exists zeros order m m', wf_mdp m /\ set_order order /\ stormpy_to_MDP order (mdp_act m) (MDPtoStormpy zeros m) = Ok m' /\
  act_mat m' "u" 0 0 <> act_mat m "u" 0 0.
Proof.
  destruct ex_mdp_new as (m & E & W & EM & EA). destruct (C126_MDP true rev_set _ _ _ _ m E W) as (m' & E' & X & _ & _ & P); [discriminate|exact rev_set_order|].
  exists true, rev_set, m, m'. split; [exact W|]. split; [exact rev_set_order|]. split; [exact E'|].
  assert (N : mdp_act m' = ["v"; "u"]%string).
  { assert (Y : rev_set (all_names (mdp_act m) (sp_rows (MDPtoStormpy true m))) = ["v"; "u"]%string) by (unfold MDPtoStormpy; cbn [sp_rows]; rewrite EM, EA; reflexivity).
    revert E'. unfold stormpy_to_MDP. rewrite Y. cbn [length]. destruct (mmap (dense_mdp 2 _) _) as [m0|]; [|discriminate]. cbn [bind]. intros E'.
    match type of E' with MDP_new ?a ?b ?c ?d = _ => destruct (C16_MDP_constructor a b c d) as (_ & B & _) end. destruct (B m' E') as (_ & _ & Z & _). exact Z. }
  assert (N1 : NoDup (mdp_act m)) by apply W. assert (N2 : NoDup (mdp_act m')) by (apply (Permutation_NoDup P), N1).
  pose proof (act_mat_nth m 0 0 0 N1) as A1. pose proof (act_mat_nth m' 1 0 0 N2) as A2. rewrite EA in A1. rewrite N in A2. rewrite X in A2. rewrite EM in A1, A2. cbn in A1, A2.
  rewrite A1, A2 by lia. lra.
Qed.
Print Assumptions C126_MDP_refuted.

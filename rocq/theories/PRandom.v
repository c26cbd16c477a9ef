(** Theorems C69, C78, C79: the generators of random models. *)
From Coq Require Import String ZArith Reals Lra Lia Bool List.
From Verif Require Import Num Py SNum LSum MTools LTools SSet MModels LBW SBW SLik MCtor SCtor LCtor PCtor SRun LRun PRun MRandom.
Import ListNotations.
Local Open Scope R_scope.

(** One call of randomProbabilities(n) draws n integers between 1 and 10; the
    j-th probability is the j-th integer divided by their sum. *)
Definition good_draws (n : nat) (draws : list Z) : Prop :=
  length draws = n /\ forall z, In z draws -> (1 <= z <= 10)%Z.
Definition share (draws : list Z) (j : nat) : R := IZR (nth j draws 0%Z) / rsum (map IZR draws).

(** Labels of a random model: the given ones first, then given ones, then init. *)
Definition random_labels (n : nat) (labels ls : list string) : Prop :=
  length ls = S n /\ nth n ls EmptyString = "init"%string /\
  (forall i, (i < n)%nat -> (i < length labels)%nat -> nth i ls EmptyString = nth i labels EmptyString) /\
  (forall i, (i < n)%nat -> In (nth i ls EmptyString) labels).

Lemma share_pos n draws j : good_draws n draws -> (j < n)%nat -> 0 < share draws j.
Proof.
  intros [L G] Lj. assert (P : forall z, In z draws -> 0 < IZR z) by (intros z I; apply IZR_lt; specialize (G z I); lia).
  unfold share. apply Rdiv_lt_0_compat.
  - apply P, nth_In. lia.
  - apply rsum_pos; [destruct draws; [cbn in L; lia|discriminate]|]. intros x I. apply in_map_iff in I as (z & <- & I). apply P, I.
Qed.
Lemma rprobs_ok n draws : (0 < n)%nat -> good_draws n draws ->
  exists p : list R, rprobs n draws = Ok p /\ length p = n /\ rsum p = 1 /\ (forall j, (j < n)%nat -> nth j p 0 = share draws j).
Proof.
  intros Pn [L G]. destruct (randomProbabilities_ok n draws Pn L G) as (p & E & Lp & _ & Sp). exists p.
  split; [exact E|]. split; [exact Lp|]. split; [exact Sp|]. intros j Lj.
  unfold randomProbabilities in E. destruct (Z.leb_spec (Z.of_nat n) 0); [lia|]. injection E as <-.
  rewrite normalize_nth by (rewrite map_length; lia). unfold share. f_equal.
  change (map nofZ draws) with (map IZR draws). apply (map_nth IZR).
Qed.

Lemma nth_firstn_lt {A} k (l : list A) i d : (i < k)%nat -> nth i (firstn k l) d = nth i l d.
Proof. revert l i; induction k as [|k IH]; intros [|x l] [|i] L; cbn; try lia; try reflexivity. apply IH. lia. Qed.
Lemma labels_ok n labels ch : labels <> [] -> ~ In "init"%string labels -> (forall k, (ch k < length labels)%nat) ->
  exists l, labelsForRandomModel n labels ch = Ok (l ++ ["init"%string]) /\ length l = n /\ ~ In "init"%string l /\
    random_labels n labels (l ++ ["init"%string]).
Proof.
  intros NE NI C. unfold labelsForRandomModel. destruct (memb String.eqb "init"%string labels) eqn:M; [apply memb_str in M; contradiction|].
  rewrite (mmap_ok _ (fun k => nth (ch k) labels EmptyString)) by (intros k _; apply at_list_ok, C). cbn [bind].
  set (e := map _ _). set (l := firstn (Nat.min (length labels) n) labels ++ e).
  assert (Le : length e = (n - length labels)%nat) by (unfold e; rewrite map_length, seq_length; reflexivity).
  assert (Lf : length (firstn (Nat.min (length labels) n) labels) = Nat.min (length labels) n) by (rewrite firstn_length; lia).
  assert (Ll : length l = n) by (unfold l; rewrite app_length; lia).
  assert (INl : forall x, In x l -> In x labels).
  { intros x I. apply in_app_or in I as [I|I].
    - rewrite <- (firstn_skipn (Nat.min (length labels) n) labels). apply in_or_app; left; exact I.
    - apply in_map_iff in I as (k & <- & _). apply nth_In, C. }
  exists l. split; [unfold l; rewrite <- app_assoc; reflexivity|]. split; [exact Ll|]. split; [intros I; apply NI, INl, I|].
  split; [rewrite app_length, Ll; cbn; lia|]. split; [rewrite app_nth2, Ll, Nat.sub_diag by lia; reflexivity|]. split.
  - intros i Li Li'. rewrite app_nth1 by lia. unfold l. rewrite app_nth1 by lia. apply nth_firstn_lt. lia.
  - intros i Li. rewrite app_nth1 by lia. apply INl, nth_In. lia.
Qed.

Lemma snoc_zero_nth (p : list R) n : length p = n -> nth n (p ++ [0]) 0 = 0.
Proof. intros <-. rewrite app_nth2, Nat.sub_diag by lia. reflexivity. Qed.
Lemma init_row_ok n ri draws : (0 < n)%nat -> (ri = true -> good_draws n draws) ->
  exists p : list R, init_row n ri draws = Ok p /\ length p = S n /\ is_dist p /\ nth n p 0 = 0 /\
    forall j, (j < n)%nat -> nth j p 0 = if ri then share draws j else if (j =? 0)%nat then 1 else 0.
Proof.
  intros Pn G. unfold init_row. destruct ri.
  - destruct (rprobs_ok n draws Pn (G eq_refl)) as (p & E & L & Sp & N). rewrite E. cbn [bind]. eexists. split; [reflexivity|]. nR.
    split; [rewrite app_length, L; cbn; lia|]. split.
    + split; [|rewrite rsum_app, Sp; cbn; lra]. intros x I. apply in_app_or in I as [I|[<-|[]]]; [|lra].
      apply (In_nth _ _ 0) in I as (j & Lj & <-). rewrite N by lia. apply Rlt_le, (share_pos n); [apply G; reflexivity|lia].
    + split; [apply snoc_zero_nth, L|]. intros j Lj. rewrite app_nth1 by lia. apply N, Lj.
  - eexists. split; [reflexivity|]. unfold vzeros. nR. split; [cbn; rewrite repeat_length; reflexivity|]. split.
    + split.
      * intros x [<-|I]; [lra|apply repeat_spec in I; lra].
      * rewrite rsum_cons. enough (rsum (repeat 0 n) = 0) by lra. clear. induction n; cbn [repeat]; rewrite ?rsum_cons; [reflexivity|lra].
    + split.
      * destruct n; [lia|]. cbn [nth]. apply nth_repeat.
      * intros [|j] Lj; cbn [nth Nat.eqb]; [reflexivity|]. apply nth_repeat.
Qed.

(** ** C69 *)
Lemma build_list {A} n (f : nat -> res A) (P : nat -> A -> Prop) (dflt : A) :
  (forall i, (i < n)%nat -> exists p, f i = Ok p /\ P i p) ->
  exists rows, mmap f (seq 0 n) = Ok rows /\ length rows = n /\ forall i, (i < n)%nat -> P i (nth i rows dflt).
Proof.
  intros F. assert (G : forall k a, (a + k <= n)%nat -> exists rows, mmap f (seq a k) = Ok rows /\ length rows = k /\
     forall i, (i < k)%nat -> P (a + i)%nat (nth i rows dflt)).
  { induction k as [|k IH]; intros a B; cbn [seq mmap].
    - exists []. split; [reflexivity|]. split; [reflexivity|lia].
    - destruct (F a ltac:(lia)) as (p & -> & Pp). destruct (IH (S a) ltac:(lia)) as (rows & -> & Lr & Nr). cbn [bind].
      exists (p :: rows). split; [reflexivity|]. split; [cbn; lia|].
      intros [|i] Li; cbn [nth]; [rewrite Nat.add_0_r; exact Pp|]. replace (a + S i)%nat with (S a + i)%nat by lia. apply Nr. lia. }
  apply (G n O). lia.
Qed.
Lemma build_rows n (f : nat -> res (list R)) (D : nat -> nat -> R) :
  (forall i, (i < n)%nat -> exists p, f i = Ok p /\ length p = S n /\ is_dist p /\ forall j, (j <= n)%nat -> nth j p 0 = D i j) ->
  exists rows, mmap f (seq 0 n) = Ok rows /\ length rows = n /\ (forall r, In r rows -> length r = S n /\ is_dist r) /\
    forall i j, (i < n)%nat -> (j <= n)%nat -> matR rows i j = D i j.
Proof.
  intros F. destruct (build_list n f (fun i p => length p = S n /\ is_dist p /\ forall j, (j <= n)%nat -> nth j p 0 = D i j) [] F) as (rows & E & L & N).
  exists rows. split; [exact E|]. split; [exact L|]. split.
  - intros r I. apply (In_nth _ _ []) in I as (i & Li & <-). destruct (N i ltac:(lia)) as (A & B & _). auto.
  - intros i j Li Lj. apply (N i Li), Lj.
Qed.
(** [append(randomProbabilities(n),0.0)] *)
Lemma row_zero_ok n draws : (0 < n)%nat -> good_draws n draws ->
  exists p : list R, (do p <- rprobs n draws; Ok (p ++ [n0])) = Ok p /\ length p = S n /\ is_dist p /\
    forall j, (j <= n)%nat -> nth j p 0 = if (j <? n)%nat then share draws j else 0.
Proof.
  intros Pn G. destruct (rprobs_ok n draws Pn G) as (p & E & L & Sp & N). rewrite E. cbn [bind]. eexists. split; [reflexivity|]. nR.
  split; [rewrite app_length, L; cbn; lia|]. split.
  - split; [|rewrite rsum_app, Sp; cbn; lra]. intros x I. apply in_app_or in I as [I|[<-|[]]]; [|lra].
    apply (In_nth _ _ 0) in I as (j & Lj & <-). rewrite N by lia. apply Rlt_le, (share_pos n); [exact G|lia].
  - intros j Lj. destruct (Nat.ltb_spec j n); [rewrite app_nth1 by lia; apply N; assumption|]. assert (j = n) as -> by lia. apply snoc_zero_nth, L.
Qed.

Theorem C69_MC_random : forall n labels ri d ch name,
  (0 < n)%nat -> labels <> [] -> ~ In "init"%string labels -> (forall k, (ch k < length labels)%nat) ->
  (forall i, (i <= n)%nat -> good_draws n (d i)) ->
  exists m, MC_random n labels ri d ch name = Ok m /\
    mc_n m = S n /\ shape (S n) (mc_mat m) /\ all_dist (mc_mat m) /\ random_labels n labels (mc_lab m) /\ mc_name m = name /\
    (forall i j, (i < n)%nat -> (j < n)%nat -> matR (mc_mat m) i j = share (d i) j /\ 0 < matR (mc_mat m) i j) /\
    (forall j, (j < n)%nat -> matR (mc_mat m) n j = if ri then share (d n) j else if (j =? 0)%nat then 1 else 0) /\
    (forall i, (i <= n)%nat -> matR (mc_mat m) i n = 0) /\
    (forall s, (s <= n)%nat -> vecR (mc_ini m) s = if (s =? n)%nat then 1 else 0) /\ is_dist (mc_ini m) /\ length (mc_ini m) = S n.
Proof.
  intros n labels ri d ch name Pn NE NI C G. unfold MC_random.
  destruct (build_rows n (fun i => do p <- rprobs n (d i); Ok (p ++ [n0])) (fun i j => if (j <? n)%nat then share (d i) j else 0)) as (rows & -> & Lr & Rr & Nr).
  { intros i Li. apply row_zero_ok; [exact Pn|apply G; lia]. }
  destruct (init_row_ok n ri (d n) Pn (fun _ => G n ltac:(lia))) as (p & -> & Lp & Dp & Z & Np).
  destruct (labels_ok n labels ch NE NI C) as (l & -> & Ll & NIl & RL). cbn [bind].
  destruct (C16_MC_constructor (rows ++ [p]) (l ++ ["init"%string]) name) as [[_ A] [B _]].
  destruct A as [m E].
  { split; [apply in_or_app; right; left; reflexivity|]. split; [rewrite !app_length; cbn; lia|].
    intros r I. apply row_ok_one. apply in_app_or in I as [I|[<-|[]]]; [apply (Rr r I)|apply Dp]. }
  exists m. split; [exact E|]. destruct (B m E) as (Em & El & En & Lini & Dini & Ui). unfold mc_n. rewrite Em, El.
  split; [rewrite app_length, Lr; cbn; lia|]. split.
  { split; [rewrite app_length, Lr; cbn; lia|]. intros r I. apply in_app_or in I as [I|[<-|[]]]; [apply (Rr r I)|exact Lp]. }
  split. { intros r I. apply in_app_or in I as [I|[<-|[]]]; [apply (Rr r I)|exact Dp]. }
  split; [exact RL|]. split; [exact En|]. unfold matR, vecR in *. split.
  { intros i j Li Lj. rewrite app_nth1 by lia. rewrite Nr by lia. destruct (Nat.ltb_spec j n); [|lia]. split; [reflexivity|]. apply (share_pos n); [apply G; lia|lia]. }
  split. { intros j Lj. rewrite app_nth2, Lr, Nat.sub_diag by lia. apply Np, Lj. }
  split.
  - intros i Li. destruct (Nat.eq_dec i n) as [->|X]; [rewrite app_nth2, Lr, Nat.sub_diag by lia; exact Z|].
    rewrite app_nth1, Nr by lia. rewrite Nat.ltb_irrefl. reflexivity.
  - split; [|split; [exact Dini|rewrite Lini, app_length; cbn; lia]].
    intros s Ls. rewrite Ui by (rewrite app_length; cbn; lia). apply one_init; assumption.
Qed.
Print Assumptions C69_MC_random.

Theorem C69_HMM_random : forall n alphabet ri d name,
  (0 < n)%nat -> alphabet <> [] ->
  (forall i, (i < n)%nat -> good_draws n (d (2 * i)%nat) /\ good_draws (length alphabet) (d (2 * i + 1)%nat)) ->
  (ri = true -> good_draws n (d (2 * n)%nat)) ->
  exists m, HMM_random n alphabet ri d name = Ok m /\
    hmm_n m = n /\ shape n (hmm_mat m) /\ all_dist (hmm_mat m) /\ length (hmm_out m) = n /\ all_dist (hmm_out m) /\
    (forall r, In r (hmm_out m) -> length r = length alphabet) /\ hmm_alph m = alphabet /\ hmm_name m = name /\
    (forall i j, (i < n)%nat -> (j < n)%nat -> matR (hmm_mat m) i j = share (d (2 * i)%nat) j /\ 0 < matR (hmm_mat m) i j) /\
    (forall i j, (i < n)%nat -> (j < length alphabet)%nat -> matR (hmm_out m) i j = share (d (2 * i + 1)%nat) j /\ 0 < matR (hmm_out m) i j) /\
    is_dist (hmm_ini m) /\ length (hmm_ini m) = n /\
    (forall s, (s < n)%nat -> vecR (hmm_ini m) s = if ri then share (d (2 * n)%nat) s else if (s =? 0)%nat then 1 else 0).
Proof.
  intros n alphabet ri d name Pn NE G GI. unfold HMM_random.
  assert (Pa : (0 < length alphabet)%nat) by (destruct alphabet; [congruence|cbn; lia]).
  assert (PD : forall k dr (p : list R), good_draws k dr -> length p = k -> rsum p = 1 -> (forall j, (j < k)%nat -> nth j p 0 = share dr j) -> is_dist p).
  { intros k dr p Gd L S N. split; [|exact S]. intros x I. apply (In_nth _ _ 0) in I as (j & Lj & <-). rewrite N by lia. apply Rlt_le, (share_pos k); [exact Gd|lia]. }
  edestruct (build_list n (fun i => do p1 <- rprobs n (d (2 * i)%nat); do p2 <- rprobs (length alphabet) (d (2 * i + 1)%nat); Ok (p1, p2))
    (fun i (p : list R * list R) => length (fst p) = n /\ rsum (fst p) = 1 /\ (forall j, (j < n)%nat -> nth j (fst p) 0 = share (d (2 * i)%nat) j) /\
       length (snd p) = length alphabet /\ rsum (snd p) = 1 /\ (forall j, (j < length alphabet)%nat -> nth j (snd p) 0 = share (d (2 * i + 1)%nat) j)) ([], []))
    as (rows & -> & Lr & Nr).
  { intros i Li. destruct (G i Li) as [G1 G2]. destruct (rprobs_ok n _ Pn G1) as (p1 & -> & L1 & S1 & N1).
    destruct (rprobs_ok _ _ Pa G2) as (p2 & -> & L2 & S2 & N2). cbn [bind]. eexists. split; [reflexivity|]. auto 10. }
  cbn [bind].
  assert (NF : forall i, nth i (map fst rows) [] = fst (nth i rows ([], []))) by (intros i; exact (map_nth fst rows ([], []) i)).
  assert (NS : forall i, nth i (map snd rows) [] = snd (nth i rows ([], []))) by (intros i; exact (map_nth snd rows ([], []) i)).
  assert (DF : forall r, In r (map fst rows) -> length r = n /\ is_dist r).
  { intros r I. apply (In_nth _ _ []) in I as (i & Li & <-). rewrite map_length in Li. rewrite NF. destruct (Nr i ltac:(lia)) as (A & B & C & _).
    split; [exact A|]. destruct (G i ltac:(lia)) as [G1 _]. apply (PD n _ _ G1 A B C). }
  assert (DS : forall r, In r (map snd rows) -> length r = length alphabet /\ is_dist r).
  { intros r I. apply (In_nth _ _ []) in I as (i & Li & <-). rewrite map_length in Li. rewrite NS. destruct (Nr i ltac:(lia)) as (_ & _ & _ & A & B & C).
    split; [exact A|]. destruct (G i ltac:(lia)) as [_ G1]. apply (PD _ _ _ G1 A B C). }
  assert (INI : exists i, (if ri then do p <- rprobs n (d (2 * n)%nat); Ok (IniList p) else Ok (IniInt 0)) = Ok i /\ ini_ok n i /\
     forall ini, ini_vec n i ini -> is_dist ini /\ length ini = n /\ forall s, (s < n)%nat -> vecR ini s = if ri then share (d (2 * n)%nat) s else if (s =? 0)%nat then 1 else 0).
  { destruct ri.
    - destruct (rprobs_ok n _ Pn (GI eq_refl)) as (p & -> & L & S & N). cbn [bind]. eexists. split; [reflexivity|]. split; [cbn; lra|].
      cbn [ini_vec]. intros ini ->. split; [apply (PD n _ _ (GI eq_refl) L S N)|]. split; [exact L|exact N].
    - eexists. split; [reflexivity|]. split; [cbn; lia|]. cbn [ini_vec]. intros ini [L V].
      assert (V' : forall s, (s < n)%nat -> vecR ini s = if (s =? 0)%nat then 1 else 0).
      { intros s Ls. rewrite V by exact Ls. rewrite Z.mod_0_l by lia. destruct (Z.eqb_spec (Z.of_nat s) 0), (Nat.eqb_spec s 0); try lia; reflexivity. }
      split; [|auto]. split.
      + intros x I. apply (In_nth _ _ 0) in I as (s & Ls & <-). change (nth s ini 0) with (vecR ini s). rewrite V' by lia. destruct (s =? 0)%nat; lra.
      + rewrite rsum_Sum, L. rewrite (Sum_ext _ _ (fun s => if (s =? 0)%nat then 1 else 0)) by (intros; apply V'; assumption).
        apply (Sum_indicator_in n O (fun _ => 1)). exact Pn. }
  destruct INI as (i & -> & Oi & Vi). cbn [bind].
  destruct (C16_HMM_constructor (map fst rows) (map snd rows) alphabet i name) as [[_ A] [B _]]. rewrite !map_length, Lr in *.
  destruct A as [m E].
  { split; [exact Oi|]. split; [intros r I; apply row_ok_one, DF, I|]. split; [lia|]. intros s Ls. apply row_ok_one, DS, nth_In. rewrite map_length; lia. }
  exists m. split; [exact E|]. destruct (B m E) as (Em & Eo & Ea & En & V). unfold hmm_n. rewrite Em, Eo, !map_length, Lr.
  split; [reflexivity|]. split; [split; [rewrite map_length; exact Lr|intros r I; apply DF, I]|]. split; [intros r I; apply DF, I|].
  split; [reflexivity|]. split; [intros r I; apply DS, I|]. split; [intros r I; apply DS, I|]. split; [exact Ea|]. split; [exact En|].
  unfold matR. split; [|split].
  - intros a b La Lb. rewrite NF. destruct (Nr a La) as (_ & _ & C & _). rewrite C by exact Lb. split; [reflexivity|]. apply (share_pos n); [apply G; exact La|exact Lb].
  - intros a b La Lb. rewrite NS. destruct (Nr a La) as (_ & _ & _ & _ & _ & C). rewrite C by exact Lb. split; [reflexivity|]. apply (share_pos (length alphabet)); [apply G; exact La|exact Lb].
  - apply Vi, V.
Qed.
Print Assumptions C69_HMM_random.

(** CTMC_random, with at least two states when self loops are excluded.  [w i]
    is the integer drawn by randint(min,max) for state i. *)
Definition jump_share (self_loop : bool) (draws : list Z) (i j : nat) : R :=
  if self_loop then share draws j
  else if (j <? i)%nat then share draws j else if (j =? i)%nat then 0 else share draws (j - 1).
Theorem C69_CTMC_random : forall n labels lo hi (self_loop ri : bool) d w ch name,
  (0 < n)%nat -> (self_loop = false -> 2 <= n)%nat -> labels <> [] -> ~ In "init"%string labels -> (forall k, (ch k < length labels)%nat) ->
  (forall i, (i < n)%nat -> good_draws (if self_loop then n else n - 1) (d i)) -> (ri = true -> good_draws n (d n)) ->
  (0 < lo)%Z -> (forall i, (lo <= w i <= hi)%Z) ->
  exists m, CTMC_random n labels lo hi self_loop ri d w ch name = Ok m /\
    ct_n m = S n /\ shape (S n) (ct_mat m) /\ wf_ctmc m /\ random_labels n labels (ct_lab m) /\ ct_name m = name /\
    (forall i, (i < n)%nat -> exit_rate m i = 1 / IZR (w i)) /\ exit_rate m n = 1 /\
    (forall i j, (i < n)%nat -> (j < n)%nat -> matR (ct_mat m) i j = jump_share self_loop (d i) i j / IZR (w i) /\
        (self_loop = true \/ i <> j -> 0 < matR (ct_mat m) i j) /\ (self_loop = false -> i = j -> matR (ct_mat m) i j = 0)) /\
    (forall j, (j < n)%nat -> matR (ct_mat m) n j = if ri then share (d n) j else if (j =? 0)%nat then 1 else 0) /\
    (forall i, (i <= n)%nat -> matR (ct_mat m) i n = 0) /\
    (forall s, (s <= n)%nat -> vecR (ct_ini m) s = if (s =? n)%nat then 1 else 0) /\ is_dist (ct_ini m).
Proof.
  intros n labels lo hi sl ri d w ch name Pn P2 NE NI C G GI Plo W. unfold CTMC_random.
  assert (PW : forall i, 0 < IZR (w i)) by (intros i; apply IZR_lt; specialize (W i); lia).
  edestruct (build_list n (fun i =>
                 do p <- if sl then rprobs n (d i)
                         else do p <- randomProbabilities (PyInt (Z.of_nat n - 1)) (d i); Ok (insert_at i p);
                 if (hi <? lo)%Z then Err ValueError
                 else Ok (map (fun x => (x / nofZ (w i))%num) p ++ [n0]))
     (fun i p => length p = S n /\ rsum p = 1 / IZR (w i) /\ nth n p 0 = 0 /\ forall j, (j < n)%nat -> nth j p 0 = jump_share sl (d i) i j / IZR (w i)) [])
     as (rows & -> & Lr & Nr).
  { intros i Li.
    assert (P : exists p : list R, (if sl then rprobs n (d i) else do p <- randomProbabilities (PyInt (Z.of_nat n - 1)) (d i); Ok (insert_at i p)) = Ok p /\
       length p = n /\ rsum p = 1 /\ forall j, (j < n)%nat -> nth j p 0 = jump_share sl (d i) i j).
    { specialize (G i Li). unfold jump_share. destruct sl; [apply rprobs_ok; assumption|]. specialize (P2 eq_refl).
      destruct (rprobs_ok (n - 1) (d i) ltac:(lia) G) as (p & E & L & S & N). unfold rprobs in E. rewrite Nat2Z.inj_sub in E by lia.
      change (Z.of_nat 1) with 1%Z in E. rewrite E. cbn [bind]. eexists. split; [reflexivity|]. unfold insert_at.
      assert (Lf : length (firstn i p) = i) by (rewrite firstn_length; lia).
      split; [rewrite app_length; cbn [length]; rewrite skipn_length, Lf; lia|]. split.
      - rewrite rsum_app, rsum_cons. nR. rewrite <- (firstn_skipn i p), rsum_app in S. lra.
      - intros j Lj. destruct (Nat.ltb_spec j i).
        + rewrite app_nth1 by lia. rewrite <- (N j) by lia. apply nth_firstn_lt. lia.
        + rewrite app_nth2, Lf by lia. destruct (Nat.eqb_spec j i) as [->|X]; [rewrite Nat.sub_diag; reflexivity|].
          destruct (j - i)%nat as [|k] eqn:Ek; [lia|]. cbn [nth]. rewrite <- (N (j - 1)%nat) by lia.
          rewrite <- (firstn_skipn i p) at 2. rewrite app_nth2, Lf by lia. replace (j - 1 - i)%nat with k by lia. reflexivity. }
    destruct P as (p & -> & L & S & N). cbn [bind]. specialize (W i). destruct (Z.ltb_spec hi lo); [lia|]. eexists. split; [reflexivity|]. nR.
    split; [rewrite app_length, map_length, L; cbn; lia|]. split.
    - rewrite rsum_app. change (rsum (map (fun x => x / IZR (w i)) p)) with (sumL p (fun x => x / IZR (w i))).
      rewrite sumL_div_r, <- rsum_sumL, S. cbn. lra.
    - split; [apply snoc_zero_nth; rewrite map_length; exact L|]. intros j Lj. rewrite app_nth1 by (rewrite map_length; lia).
      rewrite <- (N j Lj). rewrite (nth_indep _ 0 (0 / IZR (w i))) by (rewrite map_length; lia). apply (map_nth (fun x => x / IZR (w i))). }
  assert (LAST : exists p : list R, (if ri then do p <- rprobs n (d n); Ok (p ++ [n0])
               else do p <- assign_row n (n1 :: vzeros (n - 1)); Ok (p ++ [n0])) = Ok p /\ length p = S n /\ is_dist p /\ nth n p 0 = 0 /\
     forall j, (j < n)%nat -> nth j p 0 = if ri then share (d n) j else if (j =? 0)%nat then 1 else 0).
  { destruct (init_row_ok n ri (d n) Pn GI) as (p & E & X). exists p. split; [|exact X]. rewrite <- E. unfold init_row. destruct ri; [reflexivity|].
    unfold assign_row, vzeros. cbn [length]. rewrite repeat_length. destruct (Nat.eqb_spec (S (n - 1)) n); [|lia]. cbn [bind].
    f_equal. nR. cbn [app]. f_equal. destruct n as [|k]; [lia|]. cbn [Nat.sub]. rewrite Nat.sub_0_r. symmetry. apply (repeat_cons k 0). }
  destruct LAST as (p & -> & Lp & Dp & Z & Np).
  destruct (labels_ok n labels ch NE NI C) as (l & -> & Ll & NIl & RL). cbn [bind].
  destruct (C16_CTMC_constructor (rows ++ [p]) (l ++ ["init"%string]) name) as [[_ A] [B _]].
  destruct A as [m E]. { split; [apply in_or_app; right; left; reflexivity|]. rewrite !app_length; cbn; lia. }
  exists m. split; [exact E|]. destruct (B m E) as (Em & El & En & Li & Di & Ui). unfold wf_ctmc, ct_n, exit_rate. rewrite Em, El.
  assert (LL : length (rows ++ [p]) = S n) by (rewrite app_length, Lr; cbn; lia). rewrite LL.
  assert (SH : forall r, In r (rows ++ [p]) -> length r = S n).
  { intros r I. apply in_app_or in I as [I|[<-|[]]]; [|exact Lp]. apply (In_nth _ _ []) in I as (i & Hi & <-). apply Nr. lia. }
  split; [reflexivity|]. split; [split; assumption|]. split.
  { split; [split; assumption|]. split; [apply RL|]. split; [rewrite Li; apply RL|apply Di]. }
  split; [exact RL|]. split; [exact En|]. unfold matR, vecR in *. split.
  { intros i Hi. rewrite app_nth1 by lia. apply Nr, Hi. }
  split. { rewrite app_nth2, Lr, Nat.sub_diag by lia. apply Dp. }
  split.
  { intros i j Hi Hj. rewrite app_nth1 by lia. destruct (Nr i Hi) as (_ & _ & _ & N). rewrite (N j Hj). split; [reflexivity|].
    specialize (G i Hi). unfold jump_share. split.
    - intros X. apply Rdiv_lt_0_compat; [|apply PW]. destruct sl; [apply (share_pos n); assumption|]. destruct X as [X|X]; [discriminate|].
      destruct (Nat.ltb_spec j i); [apply (share_pos (n - 1)); [exact G|lia]|]. destruct (Nat.eqb_spec j i); [congruence|]. apply (share_pos (n - 1)); [exact G|lia].
    - intros -> ->. rewrite Nat.ltb_irrefl, Nat.eqb_refl. unfold Rdiv. ring. }
  split. { intros j Hj. rewrite app_nth2, Lr, Nat.sub_diag by lia. apply Np, Hj. }
  split.
  - intros i Hi. destruct (Nat.eq_dec i n) as [->|X]; [rewrite app_nth2, Lr, Nat.sub_diag by lia; exact Z|].
    rewrite app_nth1 by lia. apply Nr. lia.
  - split; [|exact Di]. intros s Ls. rewrite Ui by (rewrite app_length; cbn; lia). apply one_init; assumption.
Qed.
Print Assumptions C69_CTMC_random.

(** ** C78: the exit rates of CTMC_random.  The documentation promises integers
    between min_exit_rate_time and max_exit_rate_time.  They are the inverses of
    such integers: whenever the minimum is at least 2, no exit rate is an
    integer, and every one is below the minimum. *)
Theorem C78_exit_rates_refuted : forall n labels lo hi (self_loop ri : bool) d w ch name m,
  (0 < n)%nat -> (self_loop = false -> 2 <= n)%nat -> labels <> [] -> ~ In "init"%string labels -> (forall k, (ch k < length labels)%nat) ->
  (forall i, (i < n)%nat -> good_draws (if self_loop then n else n - 1) (d i)) -> (ri = true -> good_draws n (d n)) ->
  (2 <= lo)%Z -> (forall i, (lo <= w i <= hi)%Z) ->
  CTMC_random n labels lo hi self_loop ri d w ch name = Ok m ->
  forall i, (i < n)%nat -> 0 < exit_rate m i < 1 /\ exit_rate m i < IZR lo.
Proof.
  intros n labels lo hi sl ri d w ch name m Pn P2 NE NI C G GI L2 W E i Li.
  destruct (C69_CTMC_random n labels lo hi sl ri d w ch name Pn P2 NE NI C G GI ltac:(lia) W) as (m' & E' & _ & _ & _ & _ & _ & X & _).
  rewrite E in E'. injection E' as <-. rewrite (X i Li).
  assert (2 <= IZR (w i)) by (apply IZR_le; specialize (W i); lia). assert (2 <= IZR lo) by (apply IZR_le; lia).
  assert (0 < 1 / IZR (w i)) by (apply Rdiv_lt_0_compat; lra).
  assert (1 / IZR (w i) < 1) by (apply Rmult_lt_reg_r with (IZR (w i)); [lra|]; unfold Rdiv; rewrite Rmult_assoc, Rinv_l by lra; lra). lra.
Qed.
Print Assumptions C78_exit_rates_refuted.

(** MDP_random, not deterministic: the same for every state and action. *)
Theorem C69_MDP_random : forall n labels actions alphabet (ri : bool) d dest ch name,
  (0 < n)%nat -> actions <> [] -> labels <> [] -> ~ In "init"%string labels -> (forall k, (ch k < length labels)%nat) ->
  (forall s a, (s < n)%nat -> (a < length actions)%nat -> good_draws n (d s a)) -> (ri = true -> good_draws n (d n O)) ->
  exists m, MDP_random n labels actions alphabet ri false d dest ch name = Ok m /\
    mdp_n m = S n /\ mdp_act m = actions /\ random_labels n labels (mdp_lab m) /\ mdp_name m = name /\
    (forall ra, In ra (mdp_mat m) -> length ra = length actions /\ forall r, In r ra -> length r = S n /\ is_dist r) /\
    (forall s a j, (s < n)%nat -> (a < length actions)%nat -> (j < n)%nat ->
       nth j (nth a (nth s (mdp_mat m) []) []) 0 = share (d s a) j /\ 0 < nth j (nth a (nth s (mdp_mat m) []) []) 0) /\
    (forall a j, (a < length actions)%nat -> (j < n)%nat ->
       nth j (nth a (nth n (mdp_mat m) []) []) 0 = if ri then share (d n O) j else if (j =? 0)%nat then 1 else 0) /\
    (forall s a, (s <= n)%nat -> (a < length actions)%nat -> nth n (nth a (nth s (mdp_mat m) []) []) 0 = 0) /\
    (forall s, (s <= n)%nat -> vecR (mdp_ini m) s = if (s =? n)%nat then 1 else 0) /\ is_dist (mdp_ini m) /\ length (mdp_ini m) = S n.
Proof.
  intros n labels actions alphabet ri d dest ch name Pn NA NE NI C G GI. unfold MDP_random, mdp_random_row.
  edestruct (build_list n (fun s => mmap (fun a => do p <- rprobs n (d s a); Ok (p ++ [n0])) (seq 0 (length actions)))
    (fun s ra => length ra = length actions /\ forall a, (a < length actions)%nat ->
       length (nth a ra []) = S n /\ is_dist (nth a ra []) /\ forall j, (j <= n)%nat -> nth j (nth a ra []) 0 = if (j <? n)%nat then share (d s a) j else 0) [])
    as (rows & -> & Lr & Nr).
  { intros s Ls. destruct (build_list (length actions) (fun a => do p <- rprobs n (d s a); Ok (p ++ [n0]))
      (fun a p => length p = S n /\ is_dist p /\ forall j, (j <= n)%nat -> nth j p 0 = if (j <? n)%nat then share (d s a) j else 0) []) as (ra & E & La & N).
    { intros a La. apply row_zero_ok; [exact Pn|apply G; assumption]. }
    exists ra. auto. }
  destruct (init_row_ok n ri (d n O) Pn GI) as (p & -> & Lp & Dp & Z & Np).
  destruct (labels_ok n labels ch NE NI C) as (l & -> & Ll & NIl & RL). cbn [bind].
  set (mat := rows ++ [repeat p (length actions)]).
  assert (Lm : length mat = S n) by (unfold mat; rewrite app_length, Lr; cbn; lia).
  assert (SH : forall ra, In ra mat -> length ra = length actions /\ forall r, In r ra -> length r = S n /\ is_dist r).
  { intros ra I. unfold mat in I. apply in_app_or in I as [I|[<-|[]]].
    - apply (In_nth _ _ []) in I as (s & Ls & <-). destruct (Nr s ltac:(lia)) as [La N]. split; [exact La|].
      intros r J. apply (In_nth _ _ []) in J as (a & Ha & <-). destruct (N a ltac:(lia)) as (X & Y & _). auto.
    - split; [apply repeat_length|]. intros r J. apply repeat_spec in J as ->. auto. }
  destruct (C16_MDP_constructor mat (l ++ ["init"%string]) actions name) as [[_ A] [B _]].
  destruct A as [m E].
  { split; [apply in_or_app; right; left; reflexivity|]. split; [rewrite app_length; cbn; lia|].
    intros ra I a La. destruct (SH ra I) as [X Y]. exists (nth a ra []). split; [apply nth_error_nth'; lia|]. apply row_ok_one, Y, nth_In. lia. }
  exists m. split; [exact E|]. destruct (B m E) as (Em & El & Ea & En & Li & Di & Ui). unfold mdp_n. rewrite Em, El.
  assert (ML : nth n mat [] = repeat p (length actions)) by (unfold mat; rewrite app_nth2, Lr, Nat.sub_diag by lia; reflexivity).
  assert (MR : forall a, (a < length actions)%nat -> nth a (repeat p (length actions)) [] = p).
  { intros a La. rewrite (nth_indep _ [] p) by (rewrite repeat_length; exact La). apply nth_repeat. }
  assert (MF : forall s, (s < n)%nat -> nth s mat [] = nth s rows []) by (intros s Ls; unfold mat; apply app_nth1; lia).
  split; [exact Lm|]. split; [exact Ea|]. split; [exact RL|]. split; [exact En|]. split; [exact SH|]. split.
  { intros s a j Ls La Lj. rewrite MF by exact Ls. destruct (Nr s Ls) as [_ N]. destruct (N a La) as (_ & _ & X). rewrite X by lia.
    destruct (Nat.ltb_spec j n); [|lia]. split; [reflexivity|]. apply (share_pos n); [apply G; assumption|exact Lj]. }
  split. { intros a j La Lj. rewrite ML, MR by exact La. apply Np, Lj. }
  split.
  { intros s a Ls La. destruct (Nat.eq_dec s n) as [->|X]; [rewrite ML, MR by exact La; exact Z|]. rewrite MF by lia.
    destruct (Nr s ltac:(lia)) as [_ N]. destruct (N a La) as (_ & _ & Y). rewrite Y, Nat.ltb_irrefl by lia. reflexivity. }
  split; [|split; [exact Di|rewrite Li, app_length; cbn; lia]].
  intros s Ls. unfold vecR in *. rewrite Ui by (rewrite app_length; cbn; lia). apply one_init; assumption.
Qed.
Print Assumptions C69_MDP_random.

(** A reserved label is rejected by MC_random, CTMC_random and MDP_random. *)
Theorem C69_reserved_label : forall n labels ri d ch name,
  (0 < n)%nat -> In "init"%string labels -> (forall i, (i <= n)%nat -> good_draws n (d i)) ->
  MC_random (K:=R) n labels ri d ch name = Err SyntaxError.
Proof.
  intros n labels ri d ch name Pn I G. unfold MC_random.
  destruct (build_rows n (fun i => do p <- rprobs n (d i); Ok (p ++ [n0])) (fun i j => if (j <? n)%nat then share (d i) j else 0)) as (rows & -> & _).
  { intros i Li. apply row_zero_ok; [exact Pn|apply G; lia]. }
  destruct (init_row_ok n ri (d n) Pn (fun _ => G n ltac:(lia))) as (p & -> & _). cbn [bind].
  unfold labelsForRandomModel. apply memb_str in I. rewrite I. reflexivity.
Qed.
Print Assumptions C69_reserved_label.

(** ** C79: MDP_random with deterministic=True *)

Lemma rsum_upd (p : list R) i x : (i < length p)%nat -> rsum (upd p i x) = rsum p - nth i p 0 + x.
Proof.
  revert i; induction p as [|y p IH]; intros [|i] L; cbn [length] in L; try lia; cbn [upd nth]; rewrite !rsum_cons; [lra|].
  rewrite IH by lia. lra.
Qed.
Lemma scatter_ok (l : list (nat * R)) : forall p : list R, NoDup (map fst l) ->
  (forall i, In i (map fst l) -> (i < length p)%nat /\ nth i p 0 = 0) ->
  exists q, mfold (fun p ij => pyset p (Z.of_nat (fst ij)) (snd ij)) l p = Ok q /\ length q = length p /\ rsum q = rsum p + rsum (map snd l) /\
    (forall i x, In (i, x) l -> nth i q 0 = x) /\ (forall i, ~ In i (map fst l) -> nth i q 0 = nth i p 0).
Proof.
  induction l as [|[i x] l IH]; intros p ND H; cbn [mfold].
  - exists p. split; [reflexivity|]. split; [reflexivity|]. split; [cbn; lra|]. split; [intros ? ? []|reflexivity].
  - cbn [map fst] in ND, H. inversion ND as [|? ? NI ND']; subst. destruct (H i (or_introl eq_refl)) as [Li Zi].
    cbn [fst snd]. rewrite pyset_ok by lia. cbn [bind]. rewrite Nat2Z.id.
    destruct (IH (upd p i x) ND') as (q & E & L & S & V & U).
    { intros j J. rewrite upd_length. destruct (H j (or_intror J)) as [Lj Zj]. split; [exact Lj|]. rewrite upd_nth by exact Li.
      destruct (Nat.eqb_spec i j); [subst; contradiction|exact Zj]. }
    exists q. split; [exact E|]. split; [rewrite L; apply upd_length|]. split.
    + rewrite S, rsum_upd, Zi by exact Li. cbn [map snd]. rewrite rsum_cons. lra.
    + split.
      * intros j y [[= <- <-]|J]; [|apply V, J]. rewrite U by exact NI. rewrite upd_nth, Nat.eqb_refl by exact Li. reflexivity.
      * intros j J. cbn [map fst In] in J. rewrite U by tauto. rewrite upd_nth by exact Li. destruct (Nat.eqb_spec i j); [subst; tauto|reflexivity].
Qed.

(** [alphabet] lists the labels without repetition, and [dest s a o] is the id
    of a state carrying the o-th of them. *)
Definition good_dest (labels alphabet : list string) (dest : nat -> nat) : Prop :=
  NoDup alphabet /\ (forall x, In x alphabet <-> In x labels) /\
  forall o, (o < length alphabet)%nat -> (dest o < length labels)%nat /\ nth (dest o) labels EmptyString = nth o alphabet EmptyString.

Lemma det_row_ok n labels alphabet dest draws : (length labels <= n)%nat -> labels <> [] -> good_dest labels alphabet dest -> good_draws (length alphabet) draws ->
  exists p : list R, mdp_random_row n (length alphabet) true draws dest = Ok p /\ length p = S n /\ is_dist p /\
    (forall o, (o < length alphabet)%nat -> nth (dest o) p 0 = share draws o) /\
    (forall j, (forall o, (o < length alphabet)%nat -> dest o <> j) -> nth j p 0 = 0).
Proof.
  intros Ln NE (ND & SA & DS) G. unfold mdp_random_row.
  assert (Pa : (0 < length alphabet)%nat).
  { destruct labels as [|x labels]; [congruence|]. assert (I : In x alphabet) by (apply SA; left; reflexivity). destruct alphabet; [destruct I|cbn; lia]. }
  destruct (rprobs_ok _ _ Pa G) as (probs & -> & Lp & Sp & Np). cbn [bind].
  set (l := combine (map dest (seq 0 (length alphabet))) probs).
  assert (Ld : length (map dest (seq 0 (length alphabet))) = length alphabet) by (rewrite map_length, seq_length; reflexivity).
  assert (MF : map fst l = map dest (seq 0 (length alphabet))).
  { unfold l. clear -Ld Lp. revert probs Lp. generalize dependent (map dest (seq 0 (length alphabet))). generalize (length alphabet). clear.
    intros k l <-. induction l as [|x l IH]; intros [|y p] L; cbn in *; try lia; [reflexivity|]. f_equal. apply IH. lia. }
  assert (MS : map snd l = probs).
  { unfold l. clear -Ld Lp. revert probs Lp. generalize dependent (map dest (seq 0 (length alphabet))). generalize (length alphabet). clear.
    intros k l <-. induction l as [|x l IH]; intros [|y p] L; cbn in *; try lia; [reflexivity|]. f_equal. apply IH. lia. }
  assert (ID : NoDup (map fst l)).
  { rewrite MF. apply NoDup_nth with (d := dest O). rewrite Ld. intros i j Li Lj. rewrite !(map_nth dest), !seq_nth by lia. cbn.
    intros E. apply (NoDup_nth alphabet EmptyString); [exact ND|exact Li|exact Lj|]. destruct (DS i Li) as [_ <-], (DS j Lj) as [_ <-]. congruence. }
  destruct (scatter_ok l (vzeros n) ID) as (q & -> & Lq & Sq & Vq & Uq).
  { intros i I. rewrite MF in I. apply in_map_iff in I as (o & <- & I). apply in_seq in I. unfold vzeros. rewrite repeat_length.
    split; [destruct (DS o ltac:(lia)); lia|]. apply nth_repeat. }
  cbn [bind]. nR. unfold vzeros in Lq, Sq, Uq. rewrite repeat_length in Lq.
  assert (Z0 : rsum (repeat (@n0 R RNum) n) = 0) by (clear; induction n; cbn [repeat]; rewrite ?rsum_cons; [reflexivity|nR; lra]).
  rewrite Z0, MS, Sp in Sq.
  assert (Vo : forall o, (o < length alphabet)%nat -> nth (dest o) q 0 = share draws o).
  { intros o Lo. rewrite <- Np by exact Lo. apply Vq. unfold l.
    replace (dest o) with (nth o (map dest (seq 0 (length alphabet))) (dest O)) by (rewrite (map_nth dest), seq_nth by lia; reflexivity).
    rewrite <- combine_nth by lia. apply nth_In. rewrite combine_length, Ld, Lp. lia. }
  assert (Uo : forall j, (forall o, (o < length alphabet)%nat -> dest o <> j) -> nth j q 0 = 0).
  { intros j J. rewrite Uq; [apply nth_repeat|]. rewrite MF. intros I. apply in_map_iff in I as (o & E & I). apply in_seq in I. apply (J o); [lia|exact E]. }
  eexists. split; [reflexivity|]. split; [rewrite app_length, Lq; cbn; lia|]. split; [split|split].
  - intros x I. apply in_app_or in I as [I|[<-|[]]]; [|lra]. apply (In_nth _ _ 0) in I as (j & Lj & <-).
    destruct (in_dec Nat.eq_dec j (map dest (seq 0 (length alphabet)))) as [I|I].
    + apply in_map_iff in I as (o & <- & I). apply in_seq in I. rewrite Vo by lia. apply Rlt_le, (share_pos (length alphabet)); [exact G|lia].
    + rewrite Uo; [lra|]. intros o Lo E. apply I. apply in_map_iff. exists o. split; [exact E|apply in_seq; lia].
  - rewrite rsum_app, Sq. cbn. lra.
  - intros o Lo. rewrite app_nth1 by (rewrite Lq; destruct (DS o Lo); lia). apply Vo, Lo.
  - intros j J. destruct (Nat.lt_ge_cases j n) as [Lj|Lj]; [rewrite app_nth1 by lia; apply Uo, J|].
    rewrite app_nth2 by lia. destruct (j - length q)%nat as [|[|k]]; reflexivity.
Qed.

(** Provided every label fits (nb_states >= len(labelling)), from every state
    but the initial one each action leads, for each label, to at most one
    state. *)
Theorem C79_deterministic_partial : forall n labels actions alphabet (ri : bool) d dest ch name,
  (0 < n)%nat -> (length labels <= n)%nat -> labels <> [] -> ~ In "init"%string labels -> (forall k, (ch k < length labels)%nat) ->
  (forall s a, (s < n)%nat -> (a < length actions)%nat -> good_draws (length alphabet) (d s a) /\ good_dest labels alphabet (dest s a)) ->
  (ri = true -> good_draws n (d n O)) ->
  exists m, MDP_random n labels actions alphabet ri true d dest ch name = Ok m /\
    mdp_n m = S n /\ random_labels n labels (mdp_lab m) /\ mdp_act m = actions /\
    (forall ra, In ra (mdp_mat m) -> length ra = length actions /\ forall r, In r ra -> length r = S n /\ is_dist r) /\
    (forall a j, (a < length actions)%nat -> (j < n)%nat ->
       nth j (nth a (nth n (mdp_mat m) []) []) 0 = if ri then share (d n O) j else if (j =? 0)%nat then 1 else 0) /\
    forall s a j j', (s < n)%nat -> (a < length actions)%nat -> (j <= n)%nat -> (j' <= n)%nat ->
      0 < nth j (nth a (nth s (mdp_mat m) []) []) 0 -> 0 < nth j' (nth a (nth s (mdp_mat m) []) []) 0 ->
      nth j (mdp_lab m) EmptyString = nth j' (mdp_lab m) EmptyString -> j = j'.
Proof.
  intros n labels actions alphabet ri d dest ch name Pn Ln NE NI C G GI. unfold MDP_random.
  edestruct (build_list n (fun s => mmap (fun a => mdp_random_row n (length alphabet) true (d s a) (dest s a)) (seq 0 (length actions)))
    (fun s ra => length ra = length actions /\ forall a, (a < length actions)%nat ->
       length (nth a ra []) = S n /\ is_dist (nth a ra []) /\
       forall j, 0 < nth j (nth a ra []) 0 -> exists o, (o < length alphabet)%nat /\ dest s a o = j) [])
    as (rows & -> & Lr & Nr).
  { intros s Ls. destruct (build_list (length actions) (fun a => mdp_random_row n (length alphabet) true (d s a) (dest s a))
      (fun a p => length p = S n /\ is_dist p /\ forall j, 0 < nth j p 0 -> exists o, (o < length alphabet)%nat /\ dest s a o = j) []) as (ra & E & La & N).
    { intros a La. destruct (G s a Ls La) as [G1 G2]. destruct (det_row_ok n labels alphabet (dest s a) (d s a) Ln NE G2 G1) as (p & E & Lp & Dp & V & U).
      exists p. split; [exact E|]. split; [exact Lp|]. split; [exact Dp|]. intros j Pj.
      destruct (in_dec Nat.eq_dec j (map (dest s a) (seq 0 (length alphabet)))) as [I|I].
      - apply in_map_iff in I as (o & <- & I). apply in_seq in I. exists o. split; [lia|reflexivity].
      - exfalso. rewrite U in Pj; [lra|]. intros o Lo Ed. apply I. apply in_map_iff. exists o. split; [exact Ed|apply in_seq; lia]. }
    exists ra. auto. }
  destruct (init_row_ok n ri (d n O) Pn GI) as (p & -> & Lp & Dp & Z & Np).
  destruct (labels_ok n labels ch NE NI C) as (l & -> & Ll & NIl & RL). cbn [bind].
  set (mat := rows ++ [repeat p (length actions)]).
  assert (Lm : length mat = S n) by (unfold mat; rewrite app_length, Lr; cbn; lia).
  assert (SH : forall ra, In ra mat -> length ra = length actions /\ forall r, In r ra -> length r = S n /\ is_dist r).
  { intros ra I. unfold mat in I. apply in_app_or in I as [I|[<-|[]]].
    - apply (In_nth _ _ []) in I as (s & Ls & <-). destruct (Nr s ltac:(lia)) as [La N]. split; [exact La|].
      intros r J. apply (In_nth _ _ []) in J as (a & Ha & <-). destruct (N a ltac:(lia)) as (X & Y & _). auto.
    - split; [apply repeat_length|]. intros r J. apply repeat_spec in J as ->. auto. }
  destruct (C16_MDP_constructor mat (l ++ ["init"%string]) actions name) as [[_ A] [B _]].
  destruct A as [m E].
  { split; [apply in_or_app; right; left; reflexivity|]. split; [rewrite app_length; cbn; lia|].
    intros ra I a La. destruct (SH ra I) as [X Y]. exists (nth a ra []). split; [apply nth_error_nth'; lia|]. apply row_ok_one, Y, nth_In. lia. }
  exists m. split; [exact E|]. destruct (B m E) as (Em & El & Ea & En & _). unfold mdp_n. rewrite Em, El.
  split; [exact Lm|]. split; [exact RL|]. split; [exact Ea|]. split; [exact SH|]. split.
  { intros a j La Lj. unfold mat. rewrite app_nth2, Lr, Nat.sub_diag by lia. cbn [nth].
    rewrite (nth_indep (repeat p (length actions)) [] p) by (rewrite repeat_length; exact La). rewrite nth_repeat. apply Np, Lj. }
  intros s a j j' Ls La Lj Lj'. unfold mat. rewrite app_nth1 by lia. destruct (Nr s Ls) as [_ N]. destruct (N a La) as (_ & _ & X).
  intros P P'. destruct (X j P) as (o & Lo & <-), (X j' P') as (o' & Lo' & <-). destruct (G s a Ls La) as [_ (ND & _ & DS)].
  destruct (DS o Lo) as [Bo Eo], (DS o' Lo') as [Bo' Eo']. destruct RL as (_ & _ & RL & _). rewrite !RL by lia. rewrite Eo, Eo'.
  intros EE. f_equal. apply (NoDup_nth alphabet EmptyString); assumption.
Qed.
Print Assumptions C79_deterministic_partial.

(** Not from the initial state when it is random, as it is by default: every
    state is then a successor, and as soon as there are fewer labels than states
    two of them have the same label. *)
Theorem C79_initial_state_refuted : forall n labels actions alphabet d dest ch name a,
  (length labels < n)%nat -> labels <> [] -> ~ In "init"%string labels -> (forall k, (ch k < length labels)%nat) ->
  (forall s a, (s < n)%nat -> (a < length actions)%nat -> good_draws (length alphabet) (d s a) /\ good_dest labels alphabet (dest s a)) ->
  good_draws n (d n O) -> (a < length actions)%nat ->
  exists m j j', MDP_random n labels actions alphabet true true d dest ch name = Ok m /\
    j <> j' /\ nth j (mdp_lab m) EmptyString = nth j' (mdp_lab m) EmptyString /\
    nth n (mdp_lab m) EmptyString = "init"%string /\
    0 < nth j (nth a (nth n (mdp_mat m) []) []) 0 /\ 0 < nth j' (nth a (nth n (mdp_mat m) []) []) 0.
Proof.
  intros n labels actions alphabet d dest ch name a Ln NE NI C G GI La.
  destruct (C79_deterministic_partial n labels actions alphabet true d dest ch name ltac:(lia) ltac:(lia) NE NI C G (fun _ => GI)) as (m & E & _ & RL & _ & _ & I & _).
  destruct RL as (_ & RI & RF & RA).
  pose proof (RA (length labels) Ln) as J. apply (In_nth _ _ EmptyString) in J as (k & Lk & Ek).
  exists m, k, (length labels). split; [exact E|]. split; [lia|]. split; [rewrite RF by lia; exact Ek|]. split; [exact RI|].
  rewrite !I by lia. split; apply (share_pos n); (exact GI || lia).
Qed.
Print Assumptions C79_initial_state_refuted.

(** With more labels than states the destination may not exist. *)
Theorem C79_many_labels_refuted : exists n labels actions alphabet d dest,
  (0 < n)%nat /\ (n < length labels)%nat /\ good_dest labels alphabet (dest O O) /\ (forall s a, good_draws (length alphabet) (d s a)) /\
  forall ri ch, MDP_random (K:=R) n labels actions alphabet ri true d dest ch EmptyString = Err IndexError.
Proof.
  exists 1%nat, ["x"; "y"]%string, ["a"%string], ["x"; "y"]%string, (fun _ _ => [1; 1]%Z), (fun _ _ o => o).
  split; [lia|]. split; [cbn; lia|]. split.
  - split; [nodup|]. split; [reflexivity|]. intros o L. split; [exact L|reflexivity].
  - split; [|reflexivity]. intros s a. split; [reflexivity|]. intros z [<-|[<-|[]]]; lia.
Qed.
Print Assumptions C79_many_labels_refuted.

(** GoHMM_random: sigma stays non-negative, hence the model is accepted. *)
Lemma round3_within (x : R) : IZR (round3 x) - /2 <= 1000 * x <= IZR (round3 x) + /2.
Proof.
  unfold round3. nR. set (y := 1000 * x). pose proof (Int_part_spec y) as B. set (f := Int_part y) in *.
  destruct (nltb (2 * (y - IZR f)) 1) eqn:E1; [apply Rltb_true in E1; lra|apply Rltb_false in E1].
  destruct (nltb 1 (2 * (y - IZR f))) eqn:E2; [apply Rltb_true in E2; rewrite plus_IZR; lra|apply Rltb_false in E2].
  destruct (Z.even f); [lra|rewrite plus_IZR; lra].
Qed.
(** Means and deviations are the drawn ones rounded to three decimals: they are
    multiples of 1/1000, at most 1/2000 away. *)
Definition rounded (x y : R) : Prop := Rabs (x - y) <= 1/2000 /\ exists z, x = IZR z / 1000.
Theorem C69_GoHMM_random : forall n nd (ri : bool) d (u : nat -> nat -> R * R) name,
  (0 < n)%nat -> (0 < nd)%nat -> (forall i, (i < n)%nat -> good_draws n (d i)) -> (ri = true -> good_draws n (d n)) ->
  (forall s k, 0 <= snd (u s k)) ->
  exists m, GoHMM_random n nd ri d u name = Ok m /\ go_n m = n /\ wf_gohmm nd m /\ all_dist (go_mat m) /\ go_name m = name /\
    (forall i j, (i < n)%nat -> (j < n)%nat -> matR (go_mat m) i j = share (d i) j /\ 0 < matR (go_mat m) i j) /\
    (forall s k, (s < n)%nat -> (k < nd)%nat -> 0 <= stddev m s k /\ rounded (mean m s k) (fst (u s k)) /\ rounded (stddev m s k) (snd (u s k))) /\
    is_dist (go_ini m) /\ (forall s, (s < n)%nat -> vecR (go_ini m) s = if ri then share (d n) s else if (s =? 0)%nat then 1 else 0).
Proof.
  intros n nd ri d u name Pn Pd G GI U. unfold GoHMM_random.
  assert (PD : forall k dr (p : list R), good_draws k dr -> length p = k -> rsum p = 1 -> (forall j, (j < k)%nat -> nth j p 0 = share dr j) -> is_dist p).
  { intros k dr p Gd L S N. split; [|exact S]. intros x I. apply (In_nth _ _ 0) in I as (j & Lj & <-). rewrite N by lia. apply Rlt_le, (share_pos k); [exact Gd|lia]. }
  destruct (build_list n (fun i => rprobs n (d i)) (fun i p => length p = n /\ rsum p = 1 /\ forall j, (j < n)%nat -> nth j p 0 = share (d i) j) [])
    as (rows & -> & Lr & Nr).
  { intros i Li. apply rprobs_ok; [exact Pn|apply G, Li]. }
  cbn [bind]. set (out := vbuild n _).
  assert (Lo : length out = n) by (unfold out, vbuild; rewrite map_length, seq_length; reflexivity).
  assert (Ho : forall o, In o out -> length o = nd /\ forall q, In q o -> 0 <= snd q).
  { intros o I. unfold out, vbuild in I. apply in_map_iff in I as (s & <- & _). split; [rewrite map_length, seq_length; reflexivity|].
    intros q J. apply in_map_iff in J as (k & <- & _). cbn [snd]. nR. specialize (U s k). unfold Rdiv. apply Rmult_le_pos; [|lra].
    apply IZR_le. unfold round3. nR. destruct (Z.lt_ge_cases (Int_part (1000 * snd (u s k))) 0) as [H|H].
    - exfalso. destruct (Int_part_spec (1000 * snd (u s k))) as [_ H2]. assert (IZR (Int_part (1000 * snd (u s k))) <= -1) by (apply IZR_le; lia). lra.
    - repeat match goal with |- context [if ?b then _ else _] => destruct b end; lia. }
  assert (Hv : forall s k, (s < n)%nat -> (k < nd)%nat -> rounded (fst (nth k (nth s out []) (0, 0))) (fst (u s k)) /\ rounded (snd (nth k (nth s out []) (0, 0))) (snd (u s k))).
  { assert (RR : forall x, rounded (IZR (round3 x) / 1000) x).
    { intros x. split; [|eauto]. pose proof (round3_within x). apply Rabs_le. lra. }
    intros s k Hs Hk. unfold out. rewrite vbuild_nth, vbuild_nth by assumption. cbn [fst snd]. nR. auto. }
  assert (INI : exists i, (if ri then do p <- rprobs n (d n); Ok (IniList p) else Ok (IniInt 0)) = Ok i /\ ini_ok n i /\
     forall ini, ini_vec n i ini -> is_dist ini /\ length ini = n /\ forall s, (s < n)%nat -> vecR ini s = if ri then share (d n) s else if (s =? 0)%nat then 1 else 0).
  { destruct ri.
    - destruct (rprobs_ok n _ Pn (GI eq_refl)) as (p & -> & L & S & N). cbn [bind]. eexists. split; [reflexivity|]. split; [cbn; lra|].
      cbn [ini_vec]. intros ini ->. split; [apply (PD n _ _ (GI eq_refl) L S N)|]. split; [exact L|exact N].
    - eexists. split; [reflexivity|]. split; [cbn; lia|]. cbn [ini_vec]. intros ini [L V].
      assert (V' : forall s, (s < n)%nat -> vecR ini s = if (s =? 0)%nat then 1 else 0).
      { intros s Ls. rewrite V by exact Ls. rewrite Z.mod_0_l by lia. destruct (Z.eqb_spec (Z.of_nat s) 0), (Nat.eqb_spec s 0); try lia; reflexivity. }
      split; [|auto]. split.
      + intros x I. apply (In_nth _ _ 0) in I as (s & Ls & <-). change (nth s ini 0) with (vecR ini s). rewrite V' by lia. destruct (s =? 0)%nat; lra.
      + rewrite rsum_Sum, L. rewrite (Sum_ext _ _ (fun s => if (s =? 0)%nat then 1 else 0)) by (intros; apply V'; assumption).
        apply (Sum_indicator_in n O (fun _ => 1)). exact Pn. }
  destruct INI as (i & -> & Oi & Vi). cbn [bind].
  assert (RO : forall r, In r rows -> row_ok (rsum r)).
  { intros r I. apply (In_nth _ _ []) in I as (a & La & <-). apply row_ok_one, Nr. lia. }
  destruct (model_init_spec n i) as (Hok & Hvec & _). destruct (proj2 Hok Oi) as [ini Ei]. destruct (Vi ini (Hvec ini Ei)) as (I1 & I2 & I3).
  assert (LC : length (concat out) = (nd * n)%nat).
  { rewrite <- Lo. clear -Ho. induction out as [|o out IH]; cbn [concat length]; [lia|]. rewrite app_length, IH by (intros o' I; apply Ho; right; exact I).
    destruct (Ho o (or_introl eq_refl)) as [-> _]. lia. }
  clearbody out. unfold GoHMM_new. destruct out as [|o0 out'] eqn:Eo; [cbn in Lo; lia|]. destruct (Ho o0 (or_introl eq_refl)) as [L0 _].
  replace (forallb (fun o => (length o =? length o0)%nat) (o0 :: out')) with true.
  2:{ symmetry. apply forallb_forall. intros o I. apply Nat.eqb_eq. destruct (Ho o I) as [-> _]. congruence. }
  cbn [negb]. destruct (concat (o0 :: out')) as [|q cs] eqn:Ec; [cbn [length] in LC; nia|]. rewrite <- Ec in *.
  replace (existsb (fun p => (snd p <? n0)%num) (concat (o0 :: out'))) with false.
  2:{ symmetry. destruct (existsb _ _) eqn:X; [|reflexivity]. apply existsb_exists in X as (z & I & X). apply in_concat in I as (o & I1' & I2').
      destruct (Ho o I1') as [_ Y]. specialize (Y z I2'). apply Rltb_true in X. nR. lra. }
  unfold base_hmm_init. rewrite Lr, Ei. cbn [bind]. rewrite (proj2 (check_rows rows) RO). cbn [bind].
  rewrite LC, L0. replace (2 * (nd * n) =? nd * n * 2)%nat with true by (symmetry; apply Nat.eqb_eq; lia). cbn [negb].
  eexists. split; [reflexivity|]. unfold wf_gohmm, mean, stddev, go_n. cbn [go_mat go_out go_ini go_name]. rewrite Lr. split; [reflexivity|].
  assert (ROW : forall r, In r rows -> length r = n /\ is_dist r).
  { intros r I. apply (In_nth _ _ []) in I as (a & La & <-). destruct (Nr a ltac:(lia)) as (A & B & C). split; [exact A|]. apply (PD n (d a)); auto. apply G; lia. }
  split; [split; [split; [exact Lr|intros r I; apply ROW, I]|split; [exact Lo|split; [intros o I; apply Ho, I|split; [exact I2|apply I1]]]]|].
  split; [intros r I; apply ROW, I|]. split; [reflexivity|].
  split. { intros a b La Lb. unfold matR. destruct (Nr a La) as (_ & _ & N). rewrite N by exact Lb. split; [reflexivity|]. apply (share_pos n); [apply G, La|exact Lb]. }
  split; [|split; [exact I1|exact I3]].
  intros s k Hs Hk. split; [|apply Hv; assumption]. assert (J : In (nth s (o0 :: out') []) (o0 :: out')) by (apply nth_In; lia).
  destruct (Ho _ J) as [Lj Nj]. apply Nj, nth_In. lia.
Qed.
Print Assumptions C69_GoHMM_random.

Example C69_C78_C79_instance :
  good_draws 2 [3; 7]%Z /\ good_draws 1 [10]%Z /\ share [3; 7]%Z 1 = 7/10 /\ good_dest ["x"; "y"; "x"]%string ["y"; "x"]%string (fun o => if (o =? 0)%nat then 1%nat else 2%nat).
Proof.
  split; [split; [reflexivity|intros z [<-|[<-|[]]]; lia]|]. split; [split; [reflexivity|intros z [<-|[]]; lia]|]. split; [unfold share; cbn; lra|].
  split; [nodup|]. split; [cbn; intuition congruence|]. intros [|[|o]] L; cbn in *; try lia; (split; [lia|reflexivity]).
Qed.

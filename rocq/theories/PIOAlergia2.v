(** C58, C59, C95, C96, C98, C99: IOAlergia, counterexamples, initial state, merge
    test and prefix tree. *)
From Coq Require Import String ZArith Reals Lra Lia Bool List Permutation.
From Verif Require Import Num Py SNum SPath LSum MTools MSet MModels MCtor SSet SBW SCtor LSet LCtor SLik LLik LBWMDP LRun SAlergia MAlergia LAlergia LAlergia2 LAlergia3 LAlergia4 LAlergia5 PCtor PAlergia LTools
  MIOAlergia SIOAlergia LIOAlergia LIOAlergia2 LIOAlergia3 LIOAlergia4 LIOAlergia5 PIOAlergia.
Import ListNotations.
Local Open Scope R_scope.

(** ** Computing the learned model *)
Lemma ini_eq labels ini : uniform_on_init labels ini -> ini = map (fun x => if String.eqb x "init" then 1 / INR (label_count "init" labels) else 0) labels.
Proof.
  intros (L & _ & H). apply (nth_ext _ _ 0 0); [rewrite map_length; exact L|]. intros i Li. rewrite L in Li. etransitivity; [apply (H i Li)|].
  set (g := fun x => _). rewrite (nth_indep _ 0 (g EmptyString)) by (rewrite map_length; exact Li). rewrite map_nth. reflexivity.
Qed.
Definition learned (h : ioheap) (red : list nat) (acts : list string) : mdp R :=
  let labels := map (obs h) red ++ ["init"%string] in
  mkMDP (all_rows h red acts) labels acts (map (fun x => if String.eqb x "init" then 1 / INR (label_count "init" labels) else 0) labels) "unknown_MDP".
Lemma computed s (eps : R) fuel acts obss h red : io_usable s -> (total_length s <= fuel)%nat ->
  (do ao <- actions_observations String.eqb (seqs s); Ok (isort_list String.leb (fst ao), isort_list String.leb (snd ao))) = Ok (acts, obss) ->
  io_loop fuel acts obss eps (fst (buildIOFPTA trace_eqb trace_leb (traces s))) [O]
      (flat_map (successors (fst (buildIOFPTA trace_eqb trace_leb (traces s)))) (snd (buildIOFPTA trace_eqb trace_leb (traces s)))) = Some (h, red) ->
  ioalergia_fit trace_eqb trace_leb fuel s eps false = Some (Ok (learned h red acts)).
Proof.
  intros U Fu EA EL. destruct (io_fit_any s eps fuel U Fu) as (acts' & obss' & h' & red' & m & f & rows & o0 & E & L & A & Em & El & Ea & _ & Ui & En & _).
  rewrite EA in A. injection A as <- <-. rewrite EL in L. injection L as <- <-. rewrite (E false). do 2 f_equal. apply ini_eq in Ui.
  destruct m as [ma la ac ini na]. cbn in *. subst. reflexivity.
Qed.
Ltac usable := split; [split; [reflexivity|repeat constructor; cbn; intuition discriminate]|split; [intros ? I; cbn in I; intuition (subst; try lia)|split; [intros ? I; cbn in I; intuition (subst; reflexivity)|]]].

(** C58: the distributions of a state are stored in the first rows, whatever the
    actions.  The single training trace has probability 0, and the other action
    gets its transition. *)
Definition two_actions : tset (list string) := mkset [["init"; "a"; "t"; "b"; "u"]%string] [1%Z] (Some 1%Z).
Lemma two_actions_usable : io_usable two_actions.
Proof. usable. eexists. split; [left; reflexivity|cbn; lia]. Qed.
Theorem C58_refuted : exists s t t', io_usable s /\ In t (seqs s) /\ ~ In t' (seqs s) /\
  forall (epsilon : R) fuel, (total_length s <= fuel)%nat -> exists m,
    ioalergia_fit trace_eqb trace_leb fuel s epsilon false = Some (Ok m) /\
    mdp_trace_prob m t = 0 /\ mdp_trace_prob m t' = 1 / 2.
Proof.
  exists two_actions, ["init"; "a"; "t"; "b"; "u"]%string, ["init"; "a"; "t"; "a"; "u"]%string.
  split; [apply two_actions_usable|]. split; [left; reflexivity|]. split; [intros [I|[]]; discriminate I|].
  intros eps fuel Fu. cbn in Fu. eexists. split.
  - apply (computed two_actions eps fuel ["a"; "b"]%string ["init"; "t"; "u"]%string); [apply two_actions_usable|exact Fu|reflexivity|].
    replace fuel with (5 + (fuel - 5))%nat by lia. vm_compute. reflexivity.
  - unfold mdp_trace_prob, trace_prob, sumL, act_mat, is_label, Sum, sumL. cbn. unfold dist_row; cbn. split; lra.
Qed.
Print Assumptions C58_refuted.

(** ** Counting the continuations of a prefix *)
Lemma zs_string (l : list string) x v : NoDup l -> zs l (fun a => if String.eqb a x then v else 0%Z) = if in_dec string_dec x l then v else 0%Z.
Proof.
  induction l as [|a l IH]; intros ND; [reflexivity|]. inversion ND as [|? ? NI ND']; subst. rewrite zs_cons, IH by exact ND'.
  destruct (String.eqb_spec a x) as [Q|Q]; destruct (in_dec string_dec x l) as [J|J]; destruct (in_dec string_dec x (a :: l)) as [J'|J']; subst; try contradiction; try lia.
  - exfalso. apply J'. left; reflexivity.
  - exfalso. apply J'. right; exact J.
  - exfalso. destruct J' as [J'|J']; [apply Q, J'|apply J, J'].
Qed.
Lemma pcount_split T w a l : (forall t n, In (t, n) T -> Nat.odd (length t) = true) -> Nat.odd (length w) = true -> NoDup l ->
  (forall o, seen T (w ++ [a; o]) -> In o l) -> zs l (fun o => pcount T (w ++ [a; o])) = pcount T (w ++ [a]).
Proof.
  intros OT OW ND C. unfold pcount. change (zs l (fun o => zs T (fun tm => if starts (w ++ [a; o]) (fst tm) then snd tm else 0%Z)) = zs T (fun tm => if starts (w ++ [a]) (fst tm) then snd tm else 0%Z)).
  rewrite zs_swap. apply zs_ext. intros (t, n) I. cbn [fst snd]. destruct (starts (w ++ [a]) t) eqn:S.
  - pose proof (OT t n I) as Ot. apply starts_spec in S as (z & Et). destruct z as [|o z].
    { exfalso. rewrite Et, app_nil_r, app_length, Nat.odd_add, OW in Ot. discriminate Ot. }
    transitivity (zs l (fun x => if String.eqb x o then n else 0%Z)).
    + apply zs_ext. intros x _. assert (E : starts (w ++ [a; x]) t = String.eqb x o); [|rewrite E; reflexivity].
      rewrite Et. clear. induction w as [|b w IH]; cbn [app starts]; rewrite ?String.eqb_refl; cbn [andb]; [apply andb_true_r|exact IH].
    + rewrite zs_string by exact ND. destruct (in_dec string_dec o l) as [J|J]; [reflexivity|]. exfalso. apply J, C. split; [rewrite app_length, Nat.odd_add, OW; reflexivity|].
      exists t, n. split; [exact I|]. apply starts_spec. exists z. rewrite Et, <- !app_assoc. reflexivity.
  - apply zs_zero. intros o _. destruct (starts (w ++ [a; o]) t) eqn:S'; [|reflexivity]. exfalso. assert (S2 : starts (w ++ [a]) t = true); [|congruence].
    apply (starts_trans _ (w ++ [a; o])); [|exact S']. apply starts_spec. exists [o]. rewrite <- app_assoc. reflexivity.
Qed.

(** ** C99: the prefix tree *)
Lemma tree_size s : length (fst (buildIOFPTA trace_eqb trace_leb (traces s))) = length (labels_list (traces s)).
Proof. rewrite h_length. unfold labels_list. rewrite map_length. reflexivity. Qed.
Theorem C99_prefix_tree : forall s, io_usable s ->
  let h := fst (buildIOFPTA trace_eqb trace_leb (traces s)) in
  let word i := io_lbl (io h i) in
  (* one state per prefix ending with an observation *)
  (forall i j, (i < length h)%nat -> (j < length h)%nat -> word i = word j -> i = j) /\
  (forall w, seen (traces s) w <-> exists i, (i < length h)%nat /\ word i = w) /\
  (* its observation and its counter *)
  (forall i, (i < length h)%nat -> obs h i = last (word i) EmptyString /\ io_cnt (io h i) = pcount (traces s) (word i)) /\
  (* its transitions *)
  (forall i a j n, (i < length h)%nat -> In (j, n) (edges h i a) <-> (j < length h)%nat /\ (exists o, word j = word i ++ [a; o]) /\ n = pcount (traces s) (word j)) /\
  (forall i a, (i < length h)%nat -> NoDup (map fst (edges h i a)) /\ total h i a = pcount (traces s) (word i ++ [a])) /\
  (* the initial states *)
  (forall i, In i (snd (buildIOFPTA trace_eqb trace_leb (traces s))) <-> (i < length h)%nat /\ length (word i) = 1%nat).
Proof.
  intros s U h word. assert (LH : length h = length (labels_list (traces s))) by apply tree_size.
  assert (LH' : length h = length (label_sort trace_leb (prefix_counts trace_eqb (traces s)))) by apply h_length.
  assert (WN : forall i, (i < length h)%nat -> word i = nth i (labels_list (traces s)) []) by (intros i Li; unfold word, h; rewrite h_nth by (rewrite <- LH'; exact Li); reflexivity).
  assert (ED : forall i a j n, (i < length h)%nat -> In (j, n) (edges h i a) <-> (j < length h)%nat /\ (exists o, word j = word i ++ [a; o]) /\ n = pcount (traces s) (word j)).
  { intros i a j n Li. unfold h. rewrite h_edges. fold h. rewrite <- LH'. split.
    - intros (_ & Lj & (o & E) & En). rewrite !WN by assumption. split; [exact Lj|]. split; [exists o; exact E|exact En].
    - intros (Lj & (o & E) & En). rewrite !WN in * by assumption. split; [exact Li|]. split; [exact Lj|]. split; [exists o; exact E|exact En]. }
  assert (INJ : forall i j, (i < length h)%nat -> (j < length h)%nat -> word i = word j -> i = j).
  { intros i j Li Lj E. rewrite !WN in E by assumption. apply (ps_inj (traces s)); [rewrite <- LH'; exact Li|rewrite <- LH'; exact Lj|exact E]. }
  assert (ON : forall w, seen (traces s) w <-> exists i, (i < length h)%nat /\ word i = w).
  { intros w. rewrite <- (ps_seen s). fold (labels_list (traces s)). split.
    - intros I. apply (In_nth _ _ []) in I as (i & Li & <-). exists i. rewrite LH. split; [exact Li|apply WN; rewrite LH; exact Li].
    - intros (i & Li & <-). rewrite WN by exact Li. apply nth_In. rewrite <- LH. exact Li. }
  split; [exact INJ|]. split; [exact ON|]. split.
  { intros i Li. rewrite WN by exact Li. unfold h. rewrite h_obs, h_nth by (rewrite <- LH'; exact Li). split; reflexivity. }
  split; [exact ED|]. split.
  - intros i a Li. pose proof (h_wf (traces s) (map (fun w => last w EmptyString) (labels_list (traces s)))) as W.
    specialize (W ltac:(intros w I; apply (in_map (fun w => last w EmptyString)); exact I)). assert (ND : NoDup (map fst (edges h i a))) by (apply (dests_NoDup (map (fun w => last w EmptyString) (labels_list (traces s)))); exact W).
    split; [exact ND|]. rewrite total_zs. assert (OI : Nat.odd (length (word i)) = true) by (apply (proj2 (ON (word i))); eauto).
    rewrite <- (pcount_split (traces s) (word i) a (map (obs h) (map fst (edges h i a)))).
    + rewrite !zs_map. apply zs_ext. intros (j, n) I. cbn [fst snd]. apply ED in I as (Lj & (o & E) & ->); [|exact Li].
      unfold h at 1. rewrite h_obs by (rewrite <- LH'; exact Lj). fold (labels_list (traces s)). rewrite <- WN by exact Lj. rewrite E, last_app2. reflexivity.
    + intros t n I. apply U. apply (in_combine_l _ _ _ _ I).
    + exact OI.
    + apply NoDup_map_in; [exact ND|]. intros x y Ix Iy E. apply in_map_iff in Ix as ((x' & nx) & <- & Ix). apply in_map_iff in Iy as ((y' & ny) & <- & Iy). cbn [fst] in *.
      apply ED in Ix as (Lx & (ox & Ex) & _); [|exact Li]. apply ED in Iy as (Ly & (oy & Ey) & _); [|exact Li]. apply INJ; [exact Lx|exact Ly|].
      unfold h in E. rewrite !h_obs in E by (rewrite <- LH'; assumption). fold (labels_list (traces s)) in E. rewrite <- !WN in E by assumption. rewrite Ex, Ey, !last_app2 in E. rewrite Ex, Ey, E. reflexivity.
    + intros o Se. apply ON in Se as (j & Lj & Ej). apply in_map_iff. exists j. split.
      * unfold h. rewrite h_obs by (rewrite <- LH'; exact Lj). fold (labels_list (traces s)). rewrite <- WN by exact Lj. rewrite Ej. apply last_app2.
      * apply in_map_iff. exists (j, pcount (traces s) (word j)). split; [reflexivity|]. apply ED; eauto.
  - intros i. rewrite initial_In. rewrite <- LH'. split; intros (Li & E); (split; [exact Li|]); [rewrite WN by exact Li; exact E|rewrite WN in E by exact Li; exact E].
Qed.
Print Assumptions C99_prefix_tree.

(** ** C98: the merge test *)
Section Test.
  Context (s : tset (list string)) (U : io_usable s).
  Let T := traces s.
  Let h := fst (buildIOFPTA trace_eqb trace_leb T).
  Let word i := io_lbl (io h i).
  Lemma tree_facts :
    (forall i j, (i < length h)%nat -> (j < length h)%nat -> word i = word j -> i = j) /\
    (forall w, seen T w <-> exists i, (i < length h)%nat /\ word i = w) /\
    (forall i, (i < length h)%nat -> obs h i = last (word i) EmptyString /\ io_cnt (io h i) = pcount T (word i)) /\
    (forall i a j n, (i < length h)%nat -> In (j, n) (edges h i a) <-> (j < length h)%nat /\ (exists o, word j = word i ++ [a; o]) /\ n = pcount T (word j)) /\
    (forall i a, (i < length h)%nat -> NoDup (map fst (edges h i a)) /\ total h i a = pcount T (word i ++ [a])) /\
    (forall i, In i (snd (buildIOFPTA trace_eqb trace_leb T)) <-> (i < length h)%nat /\ length (word i) = 1%nat).
  Proof. exact (C99_prefix_tree s U). Qed.
  Lemma tree_wf : iwf (map (fun w => last w EmptyString) (labels_list T)) h.
  Proof. apply h_wf. intros w I. apply (in_map (fun w => last w EmptyString)). exact I. Qed.
  Lemma tree_successor i a o j : (i < length h)%nat -> successor h i a o = Some j <-> (j < length h)%nat /\ word j = word i ++ [a; o].
  Proof.
    intros Li. destruct tree_facts as (INJ & ON & OB & ED & _). split.
    - intros E. apply successor_Some in E as (Eo & c & I). apply ED in I as (Lj & (o' & E) & _); [|exact Li]. split; [exact Lj|].
      rewrite (proj1 (OB j Lj)) in Eo. rewrite E, last_app2 in Eo. subst o'. exact E.
    - intros (Lj & E). unfold successor. assert (Eo : obs h j = o) by (rewrite (proj1 (OB j Lj)); rewrite E; apply last_app2). rewrite <- Eo.
      apply first_obs_In; [apply (w_det _ _ tree_wf)|]. apply in_map_iff. exists (j, pcount T (word j)). split; [reflexivity|]. apply ED; eauto.
  Qed.
  Lemma tree_no_successor i a o : (i < length h)%nat -> ~ seen T (word i ++ [a; o]) -> successor h i a o = None.
  Proof.
    intros Li N. destruct (successor h i a o) as [j|] eqn:E; [|reflexivity]. exfalso. apply N. apply tree_successor in E as (Lj & E); [|exact Li].
    destruct tree_facts as (_ & ON & _). apply (proj2 (ON _)). exists j. auto.
  Qed.
  Lemma tree_freq i a o j : (i < length h)%nat -> successor h i a o = Some j -> getTransitionProb h i a j = pcount T (word i ++ [a; o]).
  Proof.
    intros Li E. apply tree_successor in E as (Lj & E); [|exact Li]. destruct tree_facts as (_ & _ & _ & ED & TT & _).
    unfold getTransitionProb. rewrite (freq_of _ j (pcount T (word i ++ [a; o]))); [reflexivity|apply TT, Li|]. rewrite <- E. apply ED; eauto.
  Qed.
  Lemma seen_pos w : seen T w -> (0 < pcount T w)%Z.
  Proof. intros (_ & t & n & I & S). apply (pcount_pos T w t n); [intros t' n' J; apply (T_seqs s U t' n' J)|exact I|exact S]. Qed.
  Lemma pcount_mono w u : seen T (w ++ u) -> (0 < pcount T w)%Z.
  Proof.
    intros (_ & t & n & I & S). apply (pcount_pos T w t n); [intros t' n' J; apply (T_seqs s U t' n' J)|exact I|]. apply (starts_trans _ (w ++ u)); [|exact S]. apply starts_app.
  Qed.
  Definition close_after (eps : R) (u v : list string) (a o : string) : Prop :=
    close eps (pcount T (u ++ [a; o])) (pcount T (u ++ [a])) (pcount T (v ++ [a; o])) (pcount T (v ++ [a])).
  Lemma tree_hoeffding eps i j a o : 0 < eps -> (i < length h)%nat -> (j < length h)%nat ->
    hoeffding h i j a o eps = true <-> (seen T (word i ++ [a; o]) -> seen T (word j ++ [a; o]) -> close_after eps (word i) (word j) a o).
  Proof.
    intros He Li Lj. destruct tree_facts as (_ & ON & _ & _ & TT & _). unfold hoeffding.
    destruct (successor h i a o) as [x|] eqn:Ex.
    2:{ split; [|reflexivity]. intros _ S _. exfalso. apply ON in S as (x & Lx & S). assert (successor h i a o = Some x) by (apply tree_successor; auto). congruence. }
    destruct (successor h j a o) as [y|] eqn:Ey.
    2:{ split; [|reflexivity]. intros _ _ S. exfalso. apply ON in S as (x' & Lx & S). assert (successor h j a o = Some x') by (apply tree_successor; auto). congruence. }
    assert (Si : seen T (word i ++ [a; o])) by (apply tree_successor in Ex as (Lx & E); [|exact Li]; apply ON; eauto).
    assert (Sj : seen T (word j ++ [a; o])) by (apply tree_successor in Ey as (Ly & E); [|exact Lj]; apply ON; eauto).
    rewrite (tree_freq i a o x Li Ex), (tree_freq j a o y Lj Ey). rewrite (proj2 (TT i a Li)), (proj2 (TT j a Lj)).
    assert (Pi : (0 < pcount T (word i ++ [a]))%Z) by (apply (pcount_mono _ [o]); rewrite <- app_assoc; exact Si).
    assert (Pj : (0 < pcount T (word j ++ [a]))%Z) by (apply (pcount_mono _ [o]); rewrite <- app_assoc; exact Sj).
    destruct (Z.eqb_spec (pcount T (word i ++ [a]) * pcount T (word j ++ [a])) 0) as [Z|_]; [lia|]. unfold close_after, close. rewrite nabs_Rabs. nR.
    replace (1 / 2 * ln (2 / eps)) with (ln (2 / eps) / 2) by field. split.
    - intros E _ _. apply Rltb_true in E. exact E.
    - intros E. apply Rltb_true. apply E; assumption.
  Qed.
  Definition flat (w : list (string * string)) : list string := flat_map (fun ao => [fst ao; snd ao]) w.
  Lemma flat_even w : Nat.even (length (flat w)) = true.
  Proof. induction w as [|(a, o) w IH]; [reflexivity|exact IH]. Qed.
  Lemma even_flat : forall n v, (length v <= n)%nat -> Nat.even (length v) = true -> exists w, v = flat w.
  Proof.
    induction n as [|n IH]; intros v L E; [destruct v; [exists []; reflexivity|cbn in L; lia]|]. destruct v as [|a [|o v]]; [exists []; reflexivity|discriminate E|].
    destruct (IH v ltac:(cbn in L; lia) E) as (w & ->). exists ((a, o) :: w). reflexivity.
  Qed.
  Lemma tree_follow w : forall i x, (i < length h)%nat -> follow h i w = Some x <-> (x < length h)%nat /\ word x = word i ++ flat w.
  Proof.
    destruct tree_facts as (INJ & ON & _).
    induction w as [|(a, o) w IH]; intros i x Li.
    - cbn. rewrite app_nil_r. split; [intros [= <-]; auto|]. intros (Lx & E). f_equal. symmetry. apply INJ; assumption.
    - cbn [follow]. destruct (successor h i a o) as [j|] eqn:Ej.
      + apply tree_successor in Ej as (Lj & Ej); [|exact Li]. rewrite (IH j x Lj), Ej, <- app_assoc. reflexivity.
      + split; [discriminate|]. intros (Lx & E). exfalso. assert (S : seen T (word i ++ [a; o])).
        { apply (ps_seen s). apply (ps_down (traces s) (word i ++ [a; o]) (flat w)).
          - assert (O : Nat.odd (length (word i)) = true) by (apply (proj2 (ON (word i))); eauto). rewrite app_length, Nat.odd_add, O. reflexivity.
          - apply (ps_seen s). rewrite <- app_assoc. apply ON. exists x. auto. }
        apply ON in S as (y & Ly & Ey). assert (successor h i a o = Some y) by (apply tree_successor; auto). congruence.
  Qed.
  Context (acts obss : list string) (HA : forall a, In a acts <-> at_odd (seqs s) a) (HO : forall o, In o obss <-> at_even (seqs s) o).
  Lemma seen_letters u w : Nat.odd (length u) = true -> seen T (u ++ flat w) -> forall a o, In (a, o) w -> In a acts /\ In o obss.
  Proof.
    intros Ou (_ & t & n & I & S) a o J. apply in_split in J as (w1 & w2 & ->). apply starts_spec in S as (z & Et). apply (T_seqs s U) in I as (I & _).
    assert (F : u ++ flat (w1 ++ (a, o) :: w2) = (u ++ flat w1) ++ a :: o :: flat w2) by (unfold flat; rewrite flat_map_app; cbn; rewrite <- app_assoc; reflexivity).
    rewrite F in Et. assert (O : Nat.odd (length (u ++ flat w1)) = true) by (rewrite app_length, Nat.odd_add, Ou, <- Nat.negb_even, flat_even; reflexivity).
    apply Nat.odd_spec in O as (k & Ek). split; [apply HA; exists t, k|apply HO; exists t, (k + 1)%nat]; (split; [exact I|]); rewrite Et, <- app_assoc, nth_error_app2 by lia.
    - rewrite Ek, Nat.sub_diag. reflexivity.
    - rewrite Ek. replace (2 * (k + 1) - (2 * k + 1))%nat with 1%nat by lia. reflexivity.
  Qed.
  Lemma merge_test eps fuel i j : 0 < eps -> (i < length h)%nat -> (j < length h)%nat -> (length h < fuel)%nat ->
    exists b, io_compatible fuel acts obss h eps (Some i) (Some j) = Some b /\
      (b = true <-> forall w, Nat.even (length w) = true -> seen T (word i ++ w) -> seen T (word j ++ w) ->
         last (word i ++ w) EmptyString = last (word j ++ w) EmptyString /\
         forall a o, seen T (word i ++ w ++ [a; o]) -> seen T (word j ++ w ++ [a; o]) -> close_after eps (word i ++ w) (word j ++ w) a o).
  Proof.
    intros He Li Lj Fu. assert (LN : length h = length (label_sort trace_leb (prefix_counts trace_eqb T))) by apply h_length.
    destruct tree_facts as (INJ & ON & OB & _).
    destruct (tree_of T (length h) j) as (D & TD & ID); [lia|lia|].
    assert (LD : (length D <= length h)%nat).
    { rewrite <- (seq_length (length h) 0). apply NoDup_incl_length; [apply (proj1 (tree_nodup h) j D TD)|]. intros x I. apply ID in I as (Lx & _). apply in_seq. lia. }
    destruct (io_compatible_spec acts obss h eps (w_keys _ _ tree_wf) fuel i j D TD ltac:(lia)) as (b & Eb & Hb). exists b. split; [exact Eb|]. rewrite Hb.
    assert (OI : forall x, (x < length h)%nat -> Nat.odd (length (word x)) = true) by (intros x Lx; apply (proj2 (ON (word x))); eauto). split.
    - intros G v Ev Si Sj. destruct (even_flat (length v) v (le_n _) Ev) as (w & ->). pose proof Si as Si'. pose proof Sj as Sj'.
      apply ON in Si as (x & Lx & Ex). apply ON in Sj as (y & Ly & Ey).
      destruct (G w x y) as (A & B); [apply (seen_letters (word i)); [apply OI, Li|exact Si']|apply tree_follow; auto|apply tree_follow; auto|].
      rewrite (proj1 (OB x Lx)), (proj1 (OB y Ly)) in A. rewrite Ex, Ey in A. split; [exact A|]. intros a o Sa Sb.
      rewrite app_assoc in Sa, Sb. pose proof Sa as Sa'. destruct (seen_letters (word i ++ flat w) [(a, o)]) with (a := a) (o := o) as (Ia & Io); [apply Si'|exact Sa'|left; reflexivity|].
      specialize (B a o Ia Io). apply tree_hoeffding in B; [rewrite Ex, Ey in B; exact B|exact He|exact Lx|exact Ly|rewrite Ex; exact Sa|rewrite Ey; exact Sb].
    - intros G w x y _ Fx Fy. apply tree_follow in Fx as (Lx & Ex); [|exact Li]. apply tree_follow in Fy as (Ly & Ey); [|exact Lj].
      destruct (G (flat w) (flat_even w)) as (A & B); [apply ON; eauto|apply ON; eauto|]. rewrite (proj1 (OB x Lx)), (proj1 (OB y Ly)). rewrite Ex, Ey. split; [exact A|].
      intros a o _ _. apply tree_hoeffding; [exact He|exact Lx|exact Ly|]. rewrite Ex, Ey. intros Sa Sb. apply B; [rewrite app_assoc; exact Sa|rewrite app_assoc; exact Sb].
  Qed.
End Test.

(** The test on the prefix tree: two states are found compatible iff, after every word
    possible from both, the same observation has been seen, and each observation seen
    from both under the same action has close frequencies. *)
Theorem C98_merge_test : forall s (epsilon : R) fuel acts obss i j, 0 < epsilon <= 2 -> io_usable s ->
  (do ao <- actions_observations String.eqb (seqs s); Ok (isort_list String.leb (fst ao), isort_list String.leb (snd ao))) = Ok (acts, obss) ->
  let T := traces s in let h := fst (buildIOFPTA trace_eqb trace_leb T) in let u := io_lbl (io h i) in let v := io_lbl (io h j) in
  (i < length h)%nat -> (j < length h)%nat -> (length h < fuel)%nat ->
  exists b, io_compatible fuel acts obss h epsilon (Some i) (Some j) = Some b /\
    (b = true <-> forall w, Nat.even (length w) = true -> seen T (u ++ w) -> seen T (v ++ w) ->
      last (u ++ w) EmptyString = last (v ++ w) EmptyString /\
      forall a o, seen T (u ++ w ++ [a; o]) -> seen T (v ++ w ++ [a; o]) ->
        close epsilon (pcount T ((u ++ w) ++ [a; o])) (pcount T ((u ++ w) ++ [a])) (pcount T ((v ++ w) ++ [a; o])) (pcount T ((v ++ w) ++ [a]))).
Proof.
  intros s eps fuel acts obss i j He U EA T h u v Li Lj Fu.
  destruct (actions_observations_exact String.eqb string_eqb_decides (seqs s) (proj1 (proj2 (proj2 U)))) as (a0 & o0 & E & NA & NO & IA & IO). rewrite E in EA. injection EA as <- <-.
  destruct (sorted_string a0 NA) as (_ & _ & IA'). destruct (sorted_string o0 NO) as (_ & _ & IO').
  apply (merge_test s U _ _ (fun a => iff_trans (IA' a) (IA a)) (fun o => iff_trans (IO' o) (IO o)) eps fuel i j); [lra|assumption..].
Qed.
Print Assumptions C98_merge_test.
(** C98: an observation seen from only one of the two states is not compared.  The
    states after s and after s a s are merged, although a always leads to s from
    the first one and never from the second one. *)
Definition disjoint_set : tset (list string) := mkset [["s"; "a"; "s"; "a"; "t"]%string] [1000%Z] (Some 1%Z).
Lemma disjoint_usable : io_usable disjoint_set.
Proof. usable. eexists. split; [left; reflexivity|cbn; lia]. Qed.
Theorem C98_refuted : exists s u v a o, io_usable s /\ seen (traces s) u /\ seen (traces s) v /\
  let c := pcount (traces s) in
  last u EmptyString = last v EmptyString /\ (0 < c (u ++ [a]))%Z /\ (0 < c (v ++ [a]))%Z /\
  ~ close (1/10) (c (u ++ [a; o])) (c (u ++ [a])) (c (v ++ [a; o])) (c (v ++ [a])) /\
  forall fuel, (total_length s <= fuel)%nat -> exists m,
    ioalergia_fit trace_eqb trace_leb fuel s (1/10) false = Some (Ok m) /\
    label_count (last u EmptyString) (mdp_lab m) = 1%nat /\ nth 0 (mdp_lab m) EmptyString = last u EmptyString /\
    act_mat m a 0 0 = 1 / 2.
Proof.
  exists disjoint_set, ["s"]%string, ["s"; "a"; "s"]%string, "a"%string, "s"%string. split; [apply disjoint_usable|].
  split; [split; [reflexivity|eexists; eexists; split; [left; reflexivity|reflexivity]]|]. split; [split; [reflexivity|eexists; eexists; split; [left; reflexivity|reflexivity]]|].
  cbn zeta. split; [reflexivity|]. split; [vm_compute; reflexivity|]. split; [vm_compute; reflexivity|]. split.
  { change (~ close (1/10) 1000 1000 0 1000). unfold close. pose proof bound1000 as (A & B). replace (2 / (1/10)) with 20 by lra.
    replace (1000 / 1000 - 0 / 1000) with 1 by lra. rewrite Rabs_R1. lra. }
  intros fuel Fu. cbn in Fu. eexists. split.
  - apply (computed disjoint_set (1/10) fuel ["a"]%string ["s"; "t"]%string); [apply disjoint_usable|exact Fu|reflexivity|].
    replace fuel with (5 + (fuel - 5))%nat by lia. vm_compute. reflexivity.
  - split; [reflexivity|]. split; [reflexivity|]. unfold act_mat. cbn. unfold dist_row; cbn. lra.
Qed.
Print Assumptions C98_refuted.

(** ** C59: the frequencies of merged states *)

(** C59: the frequencies are not added.  The states after s and s a s are merged; a
    leads from them once to s and twice to t. *)
Definition loop_set : tset (list string) := mkset [["s"; "a"; "s"; "a"; "t"]; ["s"; "a"; "t"]]%string [1; 1]%Z (Some 1%Z).
Lemma loop_usable : io_usable loop_set.
Proof. usable. eexists. split; [left; reflexivity|cbn; lia]. Qed.
Lemma ln4 : 1 < ln 4.
Proof. rewrite <- (ln_exp 1). apply ln_increasing; [apply exp_pos|]. pose proof exp_le_3. lra. Qed.
Lemma loop_close : Rabs (1 / 2 - 1 / 1) < (sqrt (1 / 2) + sqrt (1 / 1)) * sqrt (ln (2 / (1 / 2)) / 2).
Proof.
  replace (1 / 2 - 1 / 1) with (- (1 / 2)) by lra. rewrite Rabs_Ropp, Rabs_pos_eq by lra. replace (2 / (1/2)) with 4 by lra. replace (1 / 1) with 1 by lra. rewrite sqrt_1.
  assert (A : 0 < sqrt (1 / 2)) by (apply sqrt_lt_R0; lra). assert (B : 1 / 2 < sqrt (ln 4 / 2)).
  { replace (1 / 2) with (sqrt (1 / 2 * (1 / 2))) by (apply sqrt_square; lra). pose proof ln4. apply sqrt_lt_1_alt. lra. }
  assert (0 < sqrt (1 / 2) * sqrt (ln 4 / 2)) by (apply Rmult_lt_0_compat; lra). lra.
Qed.
Lemma io_promote f acts obss (eps : R) h red b bl : first_red (S f) acts obss h eps b red = Some None ->
  io_loop (S f) acts obss eps h red (b :: bl) = io_loop f acts obss eps h (red ++ [b]) (new_blue h (red ++ [b]) bl).
Proof. intros E. cbn [io_loop]. rewrite E. reflexivity. Qed.
Lemma io_merge f acts obss (eps : R) h red b bl r h' : first_red (S f) acts obss h eps b red = Some (Some r) -> merge (S f) obss h r b = Some h' ->
  io_loop (S f) acts obss eps h red (b :: bl) = io_loop f acts obss eps h' red (new_blue h' red bl).
Proof. intros E E'. cbn [io_loop]. rewrite E, E'. reflexivity. Qed.
Lemma compatible_step f acts obss (h : ioheap) (eps : R) x y : obs h x = obs h y ->
  (forall a o, In (a, o) (all_pairs acts obss) -> hoeffding h x y a o eps = true /\ io_compatible f acts obss h eps (successor h x a o) (successor h y a o) = Some true) ->
  io_compatible (S f) acts obss h eps (Some x) (Some y) = Some true.
Proof.
  intros E G. cbn [io_compatible]. rewrite E, String.eqb_refl. cbn [negb]. induction (all_pairs acts obss) as [|(a, o) l IH]; [reflexivity|].
  cbn [map all_opt fst snd]. destruct (G a o (or_introl eq_refl)) as (-> & ->). cbn [negb]. apply IH. intros a' o' I. apply G. right; exact I.
Qed.
Ltac norm_io := match goal with |- io_loop ?f ?al ?ol ?a ?h ?r ?b = ?x =>
  let h' := eval vm_compute in h in let r' := eval vm_compute in r in let b' := eval vm_compute in b in change (io_loop f al ol a h' r' b' = x) end.
Lemma loop_run fuel : (5 <= fuel)%nat -> exists h, io_loop fuel ["a"]%string ["s"; "t"]%string (1/2) (fst (buildIOFPTA trace_eqb trace_leb (traces loop_set))) [O]
      (flat_map (successors (fst (buildIOFPTA trace_eqb trace_leb (traces loop_set)))) (snd (buildIOFPTA trace_eqb trace_leb (traces loop_set)))) = Some (h, [0; 3]%nat) /\
   edges h 0 "a" = [(0%nat, 1%Z); (3%nat, 1%Z)] /\ edges h 3 "a" = [] /\ actionAllowed h 0 "a" = true /\ actionAllowed h 3 "a" = false /\ obs h 0 = "s"%string /\ obs h 3 = "t"%string.
Proof.
  intros Fu. eexists. split.
  2: shelve.
  replace fuel with (5 + (fuel - 5))%nat by lia. norm_io. cbn [Nat.add].
  erewrite io_merge with (r := 0%nat); [| |vm_compute; reflexivity].
  2:{ cbn [first_red].
      assert (HB : forall (h : ioheap) x y, successor h 0 "a" "t" = Some x -> successor h 1 "a" "t" = Some y -> getTransitionProb h 0 "a" x = 1%Z -> total h 0 "a" = 2%Z -> getTransitionProb h 1 "a" y = 1%Z -> total h 1 "a" = 1%Z ->
          hoeffding h 0 1 "a" "t" (1/2) = true).
      { intros h x y E1 E2 E3 E4 E5 E6. unfold hoeffding. rewrite E1, E2, E3, E4, E5, E6. cbn [Z.mul Pos.mul Z.eqb]. apply Rltb_true. rewrite nabs_Rabs. nR. exact loop_close. }
      rewrite compatible_step; [reflexivity|reflexivity|]. intros a o I. cbn in I. destruct I as [[= <- <-]|[[= <- <-]|[]]].
      - split; vm_compute; reflexivity.
      - split; [apply (HB _ 3%nat 2%nat); reflexivity|vm_compute; reflexivity]. }
  norm_io. rewrite io_promote by (vm_compute; reflexivity). norm_io. vm_compute. reflexivity.
  Unshelve. vm_compute. auto 10.
Qed.

Theorem C59_refuted : exists s u v a o, io_usable s /\ seen (traces s) u /\ seen (traces s) v /\ u <> v /\
  let c := pcount (traces s) in
  last u EmptyString = last v EmptyString /\
  forall fuel, (total_length s <= fuel)%nat -> exists m,
    ioalergia_fit trace_eqb trace_leb fuel s (1/2) false = Some (Ok m) /\
    (* a single state for u and v *)
    label_count (last u EmptyString) (mdp_lab m) = 1%nat /\ nth 0 (mdp_lab m) EmptyString = last u EmptyString /\
    label_count o (mdp_lab m) = 1%nat /\ nth 1 (mdp_lab m) EmptyString = o /\
    IZR (c (u ++ [a; o]) + c (v ++ [a; o])) / IZR (c (u ++ [a]) + c (v ++ [a])) = 2 / 3 /\
    act_mat m a 0 1 = 1 / 2.
Proof.
  exists loop_set, ["s"]%string, ["s"; "a"; "s"]%string, "a"%string, "t"%string. split; [apply loop_usable|].
  split; [split; [reflexivity|eexists; eexists; split; [left; reflexivity|reflexivity]]|]. split; [split; [reflexivity|eexists; eexists; split; [left; reflexivity|reflexivity]]|].
  split; [discriminate|]. cbn zeta. split; [reflexivity|]. intros fuel Fu. cbn in Fu.
  destruct (loop_run fuel ltac:(lia)) as (h & EL & E0 & E3 & A0 & A3 & O0 & O3). eexists. split.
  - apply (computed loop_set (1/2) fuel ["a"]%string ["s"; "t"]%string); [apply loop_usable|exact Fu|reflexivity|exact EL].
  - unfold learned. cbn [mdp_lab map app]. rewrite O0, O3. split; [reflexivity|]. split; [reflexivity|]. split; [reflexivity|]. split; [reflexivity|]. split; [vm_compute; lra|].
    unfold act_mat, all_rows, state_rows. cbn [mdp_act mdp_mat map filter]. cbn. rewrite A0. cbn. unfold dist_row, total. rewrite E0. cbn. lra.
Qed.
Print Assumptions C59_refuted.

(** C59, for an action met after a single one of the merged prefixes: the
    probabilities are the frequencies.  Missing: actions met after several merged
    prefixes (refuted above; C94 says that each weight is the frequency of one of the
    merged prefixes). *)
Lemma unmerged T m o0 f rows w a : (forall t n, In (t, n) T -> Nat.odd (length t) = true) -> io_model T m o0 f rows -> kept T o0 w ->
  (forall w' o, kept T o0 w' -> f w' = f w -> seen T (w' ++ [a; o]) -> w' = w) ->
  forall D o, learned_dist T o0 f (mdp_n m) (f w) a D -> seen T (w ++ [a; o]) ->
    vecR D (f (w ++ [a; o])) = IZR (pcount T (w ++ [a; o])) / IZR (pcount T (w ++ [a])).
Proof.
  intros OT Q K UN D o (_ & _ & c & E & Nn & Hc & Hw) Se.
  assert (KX : forall o, seen T (w ++ [a; o]) -> kept T o0 (w ++ [a; o])) by (intros o' S; split; [exact S|right; rewrite app_length; cbn; lia]).
  assert (LF : forall o, seen T (w ++ [a; o]) -> (f (w ++ [a; o]) < mdp_n m)%nat) by (intros o' S; pose proof (io_labels _ _ _ _ _ Q _ (KX o' S)); lia).
  assert (LB : forall o, seen T (w ++ [a; o]) -> nth (f (w ++ [a; o])) (mdp_lab m) EmptyString = o) by (intros o' S; rewrite (proj2 (io_labels _ _ _ _ _ Q _ (KX o' S))); apply last_app2).
  assert (CJ : forall j, (0 < c j)%Z -> exists o, seen T (w ++ [a; o]) /\ f (w ++ [a; o]) = j /\ c j = pcount T (w ++ [a; o])).
  { intros j P. destruct (Hw j P) as (w' & o' & K' & Ew & Ej & S & Ec). assert (Ww : w' = w) by apply (UN w' o' K' Ew S). subst w'. exists o'. auto. }
  assert (CP : forall o, seen T (w ++ [a; o]) -> c (f (w ++ [a; o])) = pcount T (w ++ [a; o])).
  { intros o' S. assert (P : (0 < c (f (w ++ [a; o'])))%Z) by (apply Hc; [apply LF, S|]; exists w, o'; auto). destruct (CJ _ P) as (o2 & S2 & E2 & ->).
    assert (o' = o2) as <-; [|reflexivity]. rewrite <- (LB o' S), <- (LB o2 S2). rewrite E2. reflexivity. }
  rewrite E by apply LF, Se. rewrite CP by exact Se. do 2 f_equal. rewrite fold_right_zs.
  set (js := filter (fun j => (0 <? c j)%Z) (seq 0 (mdp_n m))).
  assert (ZJ : zs (seq 0 (mdp_n m)) c = zs js c).
  { unfold js. clear - Nn. induction (seq 0 (mdp_n m)) as [|j l IH]; [reflexivity|]. cbn [filter]. rewrite zs_cons, IH. destruct (Z.ltb_spec 0 (c j)) as [P|P]; [reflexivity|]. pose proof (Nn j). lia. }
  rewrite ZJ. rewrite <- (pcount_split T w a (map (fun j => nth j (mdp_lab m) EmptyString) js)).
  - rewrite zs_map. apply zs_ext. intros j I. apply filter_In in I as (_ & P). apply Z.ltb_lt in P. destruct (CJ j P) as (o' & S & <- & Ec). rewrite LB by exact S. exact Ec.
  - exact OT.
  - apply (proj1 (proj1 K)).
  - apply NoDup_map_in; [apply NoDup_filter, seq_NoDup|]. intros x y Ix Iy El. apply filter_In in Ix as (_ & Px). apply filter_In in Iy as (_ & Py). apply Z.ltb_lt in Px, Py.
    destruct (CJ x Px) as (ox & Sx & <- & _). destruct (CJ y Py) as (oy & Sy & <- & _). rewrite !LB in El by assumption. rewrite El. reflexivity.
  - intros o' S. apply in_map_iff. exists (f (w ++ [a; o'])). split; [apply LB, S|]. apply filter_In. split; [apply in_seq; pose proof (LF o' S); lia|]. apply Z.ltb_lt. apply Hc; [apply LF, S|]. exists w, o'; auto.
Qed.
Theorem C59_unmerged_partial : forall (s : tset (list string)) (epsilon : R) fuel, 0 < epsilon <= 2 -> io_usable s -> (total_length s <= fuel)%nat ->
  exists m o0 f rows, ioalergia_fit trace_eqb trace_leb fuel s epsilon false = Some (Ok m) /\ io_model (traces s) m o0 f rows /\
    forall w a, kept (traces s) o0 w -> (exists o, seen (traces s) (w ++ [a; o])) ->
      (forall w' o, kept (traces s) o0 w' -> f w' = f w -> seen (traces s) (w' ++ [a; o]) -> w' = w) ->
      exists q, (q < length (rows (f w)))%nat /\ nth q (rows (f w)) EmptyString = a /\
        forall o, seen (traces s) (w ++ [a; o]) ->
          vecR (nth q (nth (f w) (mdp_mat m) []) []) (f (w ++ [a; o])) = IZR (pcount (traces s) (w ++ [a; o])) / IZR (pcount (traces s) (w ++ [a])).
Proof.
  intros s eps fuel He U Fu. destruct (C94_model s eps fuel He U Fu) as (m & o0 & f & rows & E & Q). exists m, o0, f, rows. split; [exact E|]. split; [exact Q|].
  intros w a K (o & Se) UN. destruct (io_labels _ _ _ _ _ Q w K) as (L & _). destruct (io_rows _ _ _ _ _ Q (f w) L) as (p & Hp & Er & A & _).
  assert (Ia : In a (rows (f w))).
  { rewrite Er. apply filter_In. split.
    - apply (io_acts _ _ _ _ _ Q). destruct Se as (_ & t' & n' & I' & S'). exists t'. pose proof (proj1 (proj1 K)) as O. apply Nat.odd_spec in O as (k & Ek). exists k. split; [apply in_map_iff; exists (t', n'); auto|].
      apply starts_spec in S' as (z & ->). rewrite <- app_assoc, nth_error_app2 by lia. rewrite Ek, Nat.sub_diag. reflexivity.
    - apply Hp. exists (f (w ++ [a; o])), w, o. auto. }
  apply (In_nth _ _ EmptyString) in Ia as (q & Lq & Eq). exists q. split; [exact Lq|]. split; [exact Eq|]. intros o' S.
  apply (unmerged (traces s) m o0 f rows w a); [intros t n I; apply U, (in_combine_l _ _ _ _ I)|exact Q|exact K|exact UN| |exact S]. specialize (A q Lq). rewrite Eq in A. exact A.
Qed.
Print Assumptions C59_unmerged_partial.

(** ** C95: counterexamples *)
Theorem C95_refuted : exists s t, io_usable s /\ same_start s "init" /\ In t (seqs s) /\
  forall (epsilon : R) fuel, (total_length s <= fuel)%nat -> exists m,
    ioalergia_fit trace_eqb trace_leb fuel s epsilon false = Some (Ok m) /\ mdp_trace_prob m t = 0.
Proof.
  exists two_actions, ["init"; "a"; "t"; "b"; "u"]%string. split; [apply two_actions_usable|]. split; [intros t [<-|[]]; eexists; reflexivity|]. split; [left; reflexivity|].
  intros eps fuel Fu. cbn in Fu. eexists. split.
  - apply (computed two_actions eps fuel ["a"; "b"]%string ["init"; "t"; "u"]%string); [apply two_actions_usable|exact Fu|reflexivity|].
    replace fuel with (5 + (fuel - 5))%nat by lia. vm_compute. reflexivity.
  - unfold mdp_trace_prob, trace_prob, sumL, act_mat, is_label, Sum, sumL. cbn. unfold dist_row; cbn. lra.
Qed.
Print Assumptions C95_refuted.

(** With several initial observations only the first one, in alphabetical order, gets a
    state: the others disappear from the model. *)
Definition two_starts : tset (list string) := mkset [["x"; "a"; "y"]; ["z"; "a"; "w"]]%string [1; 1000]%Z (Some 1%Z).
Lemma two_starts_usable : io_usable two_starts.
Proof. usable. eexists. split; [left; reflexivity|cbn; lia]. Qed.
Lemma single_action s a0 : (forall b, at_odd (seqs s) b -> b = a0) -> every_action s.
Proof.
  intros Ea w a o a' Ow (_ & t & n & I & St) A. exists o. rewrite (Ea a' A). replace a with a0 in St.
  - split; [rewrite app_length, Nat.odd_add, Ow; reflexivity|]. exists t, n. split; [exact I|exact St].
  - symmetry. apply Ea. exists t. apply Nat.odd_spec in Ow as (k & Ek). exists k. split; [apply (in_combine_l _ _ _ _ I)|]. apply starts_spec in St as (u & ->). rewrite <- app_assoc, nth_error_app2 by lia. rewrite Ek, Nat.sub_diag. reflexivity.
Qed.
Lemma two_starts_actions : every_action two_starts.
Proof.
  apply (single_action _ "a"%string). intros b (t' & k & I' & E).
  destruct I' as [<-|[<-|[]]]; (destruct k as [|k]; [cbn in E; injection E as <-; reflexivity|]); replace (2 * S k + 1)%nat with (S (S (S (2 * k))))%nat in E by lia; destruct k; discriminate E.
Qed.
Theorem C95_initial_refuted : exists s t, io_usable s /\ every_action s /\ In t (seqs s) /\
  forall (epsilon : R) fuel, (total_length s <= fuel)%nat -> exists m,
    ioalergia_fit trace_eqb trace_leb fuel s epsilon false = Some (Ok m) /\
    ~ In (hd EmptyString t) (mdp_lab m) /\ forall a, mdp_trace_prob m ("init"%string :: a :: t) = 0.
Proof.
  exists two_starts, ["z"; "a"; "w"]%string. split; [apply two_starts_usable|]. split; [apply two_starts_actions|]. split; [right; left; reflexivity|].
  intros eps fuel Fu. cbn in Fu. eexists. split.
  - apply (computed two_starts eps fuel ["a"]%string ["w"; "x"; "y"; "z"]%string); [apply two_starts_usable|exact Fu|reflexivity|].
    replace fuel with (5 + (fuel - 5))%nat by lia. vm_compute. reflexivity.
  - split; [cbn; intuition discriminate|]. intros a. unfold mdp_trace_prob, trace_prob, sumL, is_label, Sum, sumL. cbn. lra.
Qed.
Print Assumptions C95_initial_refuted.

(** ** C96: the initial state *)
Lemma count_app l l1 l2 : label_count l (l1 ++ l2) = (label_count l l1 + label_count l l2)%nat.
Proof. unfold label_count. induction l1 as [|x l1 IH]; [reflexivity|]. cbn [app filter]. destruct (String.eqb l x); cbn [length]; rewrite IH; reflexivity. Qed.
Lemma count_zero l l1 : ~ In l l1 -> label_count l l1 = O.
Proof.
  unfold label_count. induction l1 as [|x l1 IH]; intros N; [reflexivity|]. cbn [filter]. destruct (String.eqb_spec l x) as [E|E]; [exfalso; apply N; left; symmetry; exact E|apply IH]. intros J. apply N. right; exact J.
Qed.
(** The label 'init' only starts the traces. *)
Definition init_first_only (s : tset (list string)) : Prop := forall t k, In t (seqs s) -> nth_error t (2 * k) = Some "init"%string -> k = O.

Lemma lab_shape s m o0 f rows : io_usable s -> io_model (traces s) m o0 f rows -> init_first_only s ->
  exists l, mdp_lab m = o0 :: l ++ ["init"%string] /\ length l = (mdp_n m - 2)%nat /\ ~ In "init"%string l.
Proof.
  intros U Q IF. destruct (io_size _ _ _ _ _ Q) as (k & Hk & Pk). pose proof (io_shape _ _ _ _ _ Q) as W. assert (LL : length (mdp_lab m) = mdp_n m) by apply W.
  destruct (io_o0 _ _ _ _ _ Q) as (S0 & _ & F0). assert (K0 : kept (traces s) o0 [o0]) by (split; [exact S0|left; reflexivity]). destruct (io_labels _ _ _ _ _ Q _ K0) as (_ & L0). rewrite F0 in L0. cbn [last] in L0.
  pose proof (proj1 (io_last _ _ _ _ _ Q)) as LX. rewrite <- LL, <- last_nth in LX. destruct (mdp_lab m) as [|x lab] eqn:El; [cbn in LL; lia|]. cbn in L0. subst x.
  destruct (exists_last (l := lab)) as (l & y & ->); [intros ->; cbn in LL; lia|]. exists l. change (last ((o0 :: l) ++ [y]) EmptyString = "init"%string) in LX. rewrite last_last in LX. subst y.
  cbn [length] in LL. rewrite app_length in LL. cbn [length] in LL. split; [reflexivity|]. split; [lia|].
  intros I. apply (In_nth _ _ EmptyString) in I as (i & Li & Ei). destruct (io_onto _ _ _ _ _ Q (S i)) as (w & K & Fw); [lia|].
  pose proof (proj2 (io_labels _ _ _ _ _ Q w K)) as Lw. rewrite Fw, El in Lw. cbn [nth] in Lw. rewrite app_nth1 in Lw by exact Li. rewrite Ei in Lw.
  pose proof K as ((Ow & t & n & It & S) & D). apply Nat.odd_spec in Ow as (q & Eq). apply starts_spec in S as (u & Et).
  assert (q = O).
  { apply (IF t q); [apply (in_combine_l _ _ _ _ It)|]. rewrite Et, nth_error_app1 by lia. rewrite (nth_error_nth' w EmptyString) by lia. f_equal. rewrite Lw. rewrite last_nth. f_equal. lia. }
  subst q. destruct D as [->|D]; [congruence|lia].
Qed.
(** When the traces do not use the label 'init', the only initial state is the
    additional one, and the first action leads from it to the first state. *)
Theorem C96_initial_state : forall s (epsilon : R) fuel, 0 < epsilon <= 2 -> io_usable s -> ~ at_even (seqs s) "init"%string -> (total_length s <= fuel)%nat ->
  exists m n, ioalergia_fit trace_eqb trace_leb fuel s epsilon false = Some (Ok m) /\ mdp_n m = S n /\
    nth n (mdp_lab m) EmptyString = "init"%string /\ mdp_ini m = repeat 0 n ++ [1] /\
    act_mat m (hd EmptyString (mdp_act m)) n 0 = 1 /\
    forall o, same_start s o -> nth 0 (mdp_lab m) EmptyString = o.
Proof.
  intros s eps fuel He U NI Fu. destruct (io_fit_any s eps fuel U Fu) as (acts & obss & h & red & m & f & rows & o0 & E & _ & _ & _ & _ & _ & Q & Ui & _).
  destruct (io_size _ _ _ _ _ Q) as (k & Hk & Pk). destruct (lab_shape s m o0 f rows U Q) as (l & El & Ll & Nl); [intros t q I J; exfalso; apply NI; exists t, q; auto|].
  exists m, k. split; [exact (E false)|]. split; [exact Hk|]. destruct (io_last _ _ _ _ _ Q) as (LX & RX). rewrite Hk in LX, RX. cbn [Nat.sub] in LX, RX. rewrite Nat.sub_0_r in LX, RX. split; [exact LX|].
  destruct (io_o0 _ _ _ _ _ Q) as (S0 & _ & F0). assert (N0 : o0 <> "init"%string).
  { intros Eo. subst o0. apply NI. destruct S0 as (_ & t & n & It & S). apply starts_spec in S as (u & Et). exists t, O. split; [apply (in_combine_l _ _ _ _ It)|rewrite Et; reflexivity]. }
  split; [|split].
  - apply ini_eq in Ui. rewrite Ui. assert (C : label_count "init" (mdp_lab m) = 1%nat).
    { rewrite El. change (o0 :: l ++ ["init"%string]) with ((o0 :: l) ++ ["init"%string]). rewrite count_app, count_zero; [reflexivity|]. intros [J|J]; [apply N0, J|apply Nl, J]. }
    rewrite C, El. change (o0 :: l ++ ["init"%string]) with ((o0 :: l) ++ ["init"%string]). rewrite map_app. f_equal.
    + assert (LK : length (o0 :: l) = k) by (cbn [length]; lia). rewrite <- LK. assert (NL : ~ In "init"%string (o0 :: l)) by (intros [J|J]; [apply N0, J|apply Nl, J]). clear - NL.
      induction (o0 :: l) as [|x r IH]; [reflexivity|]. cbn [map length repeat]. destruct (String.eqb_spec x "init") as [Ex|Ex]; [exfalso; apply NL; left; exact Ex|]. f_equal. apply IH. intros J. apply NL. right; exact J.
    + cbn. f_equal. lra.
  - pose proof (io_shape _ _ _ _ _ Q) as W. assert (ND : NoDup (mdp_act m)) by apply W. destruct U as (U1 & _ & _ & t0 & I0 & L0). destruct (mdp_act m) as [|a la] eqn:Ea.
    + exfalso. destruct t0 as [|z0 [|z1 t0]]; try (cbn in L0; lia). assert (J : In z1 (mdp_act m)); [|rewrite Ea in J; exact J].
      apply (io_acts _ _ _ _ _ Q). rewrite combine_fst by apply U1. exists (z0 :: z1 :: t0), O. auto.
    + cbn [hd]. change a with (nth 0 (a :: la) EmptyString). rewrite <- Ea. rewrite act_nth by (rewrite Ea; first [exact ND|cbn; lia]). change (nth 0 (nth 0 (nth k (mdp_mat m) []) []) 0 = 1). rewrite RX. reflexivity.
  - intros o SS. rewrite El. cbn [nth]. destruct S0 as (_ & t & n & It & S). apply starts_spec in S as (u & Et). destruct (SS t) as (u' & Et'); [apply (in_combine_l _ _ _ _ It)|]. rewrite Et in Et'. injection Et' as Eo _. exact Eo.
Qed.
Print Assumptions C96_initial_state.

(** When the traces start with 'init' the model has two initial states of probability
    1/2: the one learned from the traces, and the additional one. *)
Theorem C96_refuted : forall s (epsilon : R) fuel, 0 < epsilon <= 2 -> io_usable s -> same_start s "init" -> init_first_only s -> (total_length s <= fuel)%nat ->
  exists m n, ioalergia_fit trace_eqb trace_leb fuel s epsilon false = Some (Ok m) /\ mdp_n m = S (S n) /\
    nth 0 (mdp_lab m) EmptyString = "init"%string /\ nth (S n) (mdp_lab m) EmptyString = "init"%string /\
    mdp_ini m = 1 / 2 :: repeat 0 n ++ [1 / 2].
Proof.
  intros s eps fuel He U SS IF Fu. destruct (io_fit_any s eps fuel U Fu) as (acts & obss & h & red & m & f & rows & o0 & E & _ & _ & _ & _ & _ & Q & Ui & _).
  destruct (io_size _ _ _ _ _ Q) as (k & Hk & Pk). destruct (lab_shape s m o0 f rows U Q IF) as (l & El & Ll & Nl). exists m, (length l). split; [exact (E false)|]. split; [lia|].
  assert (o0 = "init"%string) as ->. { destruct (io_o0 _ _ _ _ _ Q) as ((_ & t & n & It & S) & _). apply starts_spec in S as (u & Et). destruct (SS t) as (u' & Et'); [apply (in_combine_l _ _ _ _ It)|]. rewrite Et in Et'. injection Et' as Eo _. exact Eo. }
  split; [rewrite El; reflexivity|]. split; [rewrite El; cbn [nth]; rewrite app_nth2, Nat.sub_diag by lia; reflexivity|]. apply ini_eq in Ui. rewrite Ui.
  assert (C : label_count "init" (mdp_lab m) = 2%nat) by (rewrite El; change ("init"%string :: l ++ ["init"%string]) with (["init"%string] ++ l ++ ["init"%string]); rewrite !count_app, (count_zero _ l Nl); reflexivity).
  rewrite C, El. cbn [map]. change (String.eqb "init" "init") with true. cbn iota. replace (INR 2) with 2 by (cbn; lra). f_equal. rewrite map_app. f_equal. clear - Nl.
  induction l as [|x r IH]; [reflexivity|]. cbn [map length repeat]. destruct (String.eqb_spec x "init") as [Ex|Ex]; [exfalso; apply Nl; left; exact Ex|]. f_equal. apply IH. intros J. apply Nl. right; exact J.
Qed.
Print Assumptions C96_refuted.

(** ** Instances *)
Example C93_C94_C97_C99_instance : io_usable two_actions /\ io_usable loop_set /\ (total_length loop_set <= 8)%nat.
Proof. split; [apply two_actions_usable|]. split; [apply loop_usable|cbn; lia]. Qed.
Example C58_partial_instance : io_usable two_starts /\ every_action two_starts.
Proof. split; [apply two_starts_usable|apply two_starts_actions]. Qed.
Definition coin : tset (list string) := mkset [["init"; "toss"; "heads"]; ["init"; "toss"; "tails"]]%string [3; 2]%Z (Some 1%Z).
Example C95_C96_instance : io_usable coin /\ every_action coin /\ same_start coin "init" /\ init_first_only coin /\ ~ at_even (seqs loop_set) "init"%string.
Proof.
  split; [usable; eexists; split; [left; reflexivity|cbn; lia]|]. split.
  { apply (single_action _ "toss"%string). intros b (t' & k & I' & E).
    destruct I' as [<-|[<-|[]]]; (destruct k as [|k]; [cbn in E; injection E as <-; reflexivity|]); replace (2 * S k + 1)%nat with (S (S (S (2 * k))))%nat in E by lia; destruct k; discriminate E. }
  split; [intros t [<-|[<-|[]]]; eexists; reflexivity|]. split.
  - intros t k [<-|[<-|[]]] E; (destruct k as [|[|k]]; [reflexivity|discriminate E|]); replace (2 * S (S k))%nat with (S (S (S (S (2 * k)))))%nat in E by lia; destruct k; discriminate E.
  - intros (t & k & [<-|[<-|[]]] & E); (destruct k as [|[|[|k]]]; try discriminate E); replace (2 * S (S (S k)))%nat with (S (S (S (S (S (S (2 * k)))))))%nat in E by lia; destruct k; discriminate E.
Qed.
Example C98_instance : exists acts obss, io_usable loop_set /\
  (do ao <- actions_observations String.eqb (seqs loop_set); Ok (isort_list String.leb (fst ao), isort_list String.leb (snd ao))) = Ok (acts, obss) /\
  (1 < length (fst (buildIOFPTA trace_eqb trace_leb (traces loop_set))))%nat.
Proof. exists ["a"]%string, ["s"; "t"]%string. split; [apply loop_usable|]. split; [reflexivity|vm_compute; lia]. Qed.

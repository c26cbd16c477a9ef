(** C58, C59, C93-C97: IOAlergia. *)
From Coq Require Import String ZArith Reals Lra Lia Bool List Permutation.
From Verif Require Import Num Py SNum SPath LSum MTools MSet MModels MCtor SSet SBW SCtor LSet LCtor SLik LLik LBWMDP LRun SAlergia MAlergia LAlergia LAlergia2 LAlergia3 LAlergia4 LAlergia5 PCtor PAlergia
  MIOAlergia SIOAlergia LIOAlergia LIOAlergia2 LIOAlergia3 LIOAlergia4 LIOAlergia5.
Import ListNotations.
Local Open Scope R_scope.

(** ** The whole algorithm *)
Lemma sorted_string l : NoDup l -> NoDup (isort_list String.leb l) /\ sorted_by String.leb (isort_list String.leb l) /\ forall x, In x (isort_list String.leb l) <-> In x l.
Proof.
  intros ND. pose proof (isort_perm String.leb l) as P. split; [apply (Permutation_NoDup P ND)|]. split; [apply isort_sorted_by; [apply string_leb_total|apply string_leb_trans]|].
  intros x. split; apply Permutation_in; [symmetry|]; exact P.
Qed.
Lemma combine_fst {A B} (l : list A) : forall m : list B, length m = length l -> map fst (combine l m) = l.
Proof. induction l as [|x l IH]; intros [|y m] L; try discriminate; [reflexivity|]. cbn. f_equal. apply IH. injection L as L. exact L. Qed.
Lemma not_nil {A B} (l : list A) (x y : B) : l <> [] -> match l with [] => x | _ :: _ => y end = y.
Proof. destruct l; [congruence|reflexivity]. Qed.
Lemma io_fit_any s (eps : R) fuel : io_usable s -> (total_length s <= fuel)%nat ->
  exists acts obss h red m f rows o0,
    (forall prism, ioalergia_fit trace_eqb trace_leb fuel s eps prism = Some (if prism then Err AttributeError else Ok m)) /\
    io_loop fuel acts obss eps (fst (buildIOFPTA trace_eqb trace_leb (traces s))) [O]
      (flat_map (successors (fst (buildIOFPTA trace_eqb trace_leb (traces s)))) (snd (buildIOFPTA trace_eqb trace_leb (traces s)))) = Some (h, red) /\
    (do ao <- actions_observations String.eqb (seqs s); Ok (isort_list String.leb (fst ao), isort_list String.leb (snd ao))) = Ok (acts, obss) /\
    mdp_mat m = all_rows h red acts /\ mdp_lab m = map (obs h) red ++ ["init"%string] /\ mdp_act m = acts /\
    io_model (traces s) m o0 f rows /\ uniform_on_init (mdp_lab m) (mdp_ini m) /\ mdp_name m = "unknown_MDP"%string /\ (mdp_n m <= 1 + total_length s)%nat.
Proof.
  intros U Fu. destruct (actions_observations_exact String.eqb string_eqb_decides (seqs s) (proj1 (proj2 (proj2 U)))) as (a0 & o0 & E & NA & NO & IA & IO).
  destruct (sorted_string a0 NA) as (NA' & SA & IA'). destruct (sorted_string o0 NO) as (NO' & _ & IO'). pose proof (N_bound s U) as NB.
  destruct (loop_model s U (isort_list String.leb a0) (isort_list String.leb o0) eps fuel) as (h & red & g & DB & EL & V & LV); [exact NO'|intros o; rewrite IO'; apply IO|unfold total_length in Fu; lia|].
  destruct (clean_model s U (isort_list String.leb a0) (isort_list String.leb o0) h red g DB V LV NA' SA) as (m & Em & Q & Ui & Nm & Ea & Hn & Hs & Hm); [intros a; rewrite IA'; apply IA|].
  exists (isort_list String.leb a0), (isort_list String.leb o0), h, red, m. do 3 eexists. split.
  { intros prism. unfold ioalergia_fit. rewrite E. cbn [fst snd]. rewrite not_nil by (destruct U as (_ & _ & _ & t & I & _); intros Q0; rewrite Q0 in I; exact I).
    destruct (buildIOFPTA trace_eqb trace_leb (traces s)) as (h0, ini) eqn:EB. cbn [fst snd] in EL. rewrite EL, Em. destruct prism; reflexivity. }
  split; [exact EL|]. split; [rewrite E; reflexivity|]. split; [exact Hm|]. split.
  { pose proof Em as Em2. unfold cleanMDP in Em2. destruct (mmap _ _); [|discriminate]. cbn [bind] in Em2. destruct (clean_last _ _); [|discriminate]. cbn [bind] in Em2.
    apply (proj1 (proj2 (C16_MDP_constructor _ _ _ _))) in Em2. apply Em2. }
  split; [exact Ea|]. split; [exact Q|]. split; [exact Ui|]. split; [exact Nm|]. rewrite Hn. unfold total_length. lia.
Qed.

(** C93: IOAlergia terminates on every set of MDP traces and returns a valid MDP *)
Theorem C93_valid_mdp : forall (s : tset (list string)) (epsilon : R) fuel,
  0 < epsilon <= 2 -> io_usable s -> (total_length s <= fuel)%nat ->
  exists m, ioalergia_fit trace_eqb trace_leb fuel s epsilon false = Some (Ok m) /\
    wf_mdp m /\ (forall ra r, In ra (mdp_mat m) -> In r ra -> is_dist r \/ r = repeat 0 (mdp_n m)) /\
    is_dist (mdp_ini m) /\ (2 <= mdp_n m <= 1 + total_length s)%nat /\
    (forall a, In a (mdp_act m) <-> at_odd (seqs s) a) /\
    (forall l, In l (mdp_lab m) -> l = "init"%string \/ at_even (seqs s) l).
Proof.
  intros s eps fuel _ U Fu. destruct (io_fit_any s eps fuel U Fu) as (acts & obss & h & red & m & f & rows & o0 & E & _ & _ & _ & EL & _ & Q & Ui & _ & Sz).
  exists m. split; [exact (E false)|]. destruct (io_size _ _ _ _ _ Q) as (k & Hk & Pk). pose proof (io_shape _ _ _ _ _ Q) as W. split; [exact W|].
  assert (MAT : length (mdp_mat m) = S k) by exact Hk. split; [|split; [apply Ui|split; [lia|split]]].
  - intros ra r I J. apply (In_nth _ _ []) in I as (i & Li & <-). destruct (Nat.eq_dec i k) as [->|N].
    + destruct (io_last _ _ _ _ _ Q) as (_ & R). rewrite Hk in R. cbn [Nat.sub] in R. rewrite Nat.sub_0_r in R. rewrite R in J. destruct J as [<-|J].
      * left. split; [intros x [<-|I]; [lra|apply repeat_spec in I; lra]|]. change (rsum (1 :: repeat 0 k)) with (1 + rsum (repeat 0 k)). rewrite repeat_sum. ring.
      * right. apply repeat_spec in J. rewrite Hk. exact J.
    + assert (Li' : (S i < mdp_n m)%nat) by lia. destruct (io_rows _ _ _ _ _ Q i Li') as (p & _ & _ & A & B). apply (In_nth _ _ []) in J as (q & Lq & <-).
      assert (LA : length (nth i (mdp_mat m) []) = length (mdp_act m)) by (apply W, nth_In, Li). destruct (Nat.lt_ge_cases q (length (rows i))) as [L|L].
      * left. apply (A q L).
      * right. apply B. lia.
  - intros a. rewrite (proj2 (io_acts _ _ _ _ _ Q)). assert (EQ : map fst (traces s) = seqs s); [|rewrite EQ; reflexivity].
    apply combine_fst, U.
  - intros l I. apply (In_nth _ _ EmptyString) in I as (i & Li & <-). assert (LL : length (mdp_lab m) = mdp_n m) by apply W. destruct (Nat.eq_dec i k) as [->|N].
    + left. pose proof (proj1 (io_last _ _ _ _ _ Q)) as R. rewrite Hk in R. cbn [Nat.sub] in R. rewrite Nat.sub_0_r in R. exact R.
    + right. destruct (io_onto _ _ _ _ _ Q i) as (w & K & <-); [lia|]. rewrite (proj2 (io_labels _ _ _ _ _ Q w K)). apply (seen_last (seqs s) (traces s)); [intros t n J; apply (in_combine_l _ _ _ _ J)|apply K].
Qed.
Print Assumptions C93_valid_mdp.

(** C94: the learned MDP is read off the traces *)
Theorem C94_model : forall (s : tset (list string)) (epsilon : R) fuel,
  0 < epsilon <= 2 -> io_usable s -> (total_length s <= fuel)%nat ->
  exists m o0 f rows, ioalergia_fit trace_eqb trace_leb fuel s epsilon false = Some (Ok m) /\ io_model (traces s) m o0 f rows.
Proof.
  intros s eps fuel _ U Fu. destruct (io_fit_any s eps fuel U Fu) as (acts & obss & h & red & m & f & rows & o0 & E & _ & _ & _ & EL & _ & Q & _).
  exists m, o0, f, rows. split; [exact (E false)|exact Q].
Qed.
Print Assumptions C94_model.

(** C97: output_file_prism always fails *)
Theorem C97_prism_output_refuted : forall (s : tset (list string)) (epsilon : R) fuel,
  0 < epsilon <= 2 -> io_usable s -> (total_length s <= fuel)%nat ->
  ioalergia_fit trace_eqb trace_leb fuel s epsilon true = Some (Err AttributeError).
Proof. intros s eps fuel _ U Fu. destruct (io_fit_any s eps fuel U Fu) as (acts & obss & h & red & m & f & rows & o0 & E & _). exact (E true). Qed.
Print Assumptions C97_prism_output_refuted.

(** ** C58: the transitions of an action *)

(** When the actions used in state [i] are the first ones, each row is that of its action. *)
Lemma initial_segment T m o0 f rows i u : io_model T m o0 f rows -> (S i < mdp_n m)%nat -> mdp_act m = rows i ++ u ->
  forall a, In a (mdp_act m) ->
    ((exists j, leads T o0 f i a j) -> learned_dist T o0 f (mdp_n m) i a (map (act_mat m a i) (seq 0 (mdp_n m)))) /\
    ((forall j, ~ leads T o0 f i a j) -> forall j, (j < mdp_n m)%nat -> act_mat m a i j = 0) /\
    forall j, (j < mdp_n m)%nat -> 0 < act_mat m a i j <-> leads T o0 f i a j.
Proof.
  intros Q Li Eu a Ia. pose proof (io_shape _ _ _ _ _ Q) as W. destruct (io_rows _ _ _ _ _ Q i Li) as (p & Hp & Er & A & B).
  assert (NA : NoDup (mdp_act m)) by apply W. apply (In_nth _ _ EmptyString) in Ia as (q & Lq & Eq).
  assert (AM : forall j, act_mat m a i j = nth j (nth q (nth i (mdp_mat m) []) []) 0) by (intros j; rewrite <- Eq, act_nth by assumption; reflexivity).
  assert (C : (exists j, leads T o0 f i a j) <-> (q < length (rows i))%nat).
  { rewrite <- Hp. split.
    - intros Pa. assert (Ia : In a (rows i)) by (rewrite Er; apply filter_In; split; [rewrite <- Eq; apply nth_In, Lq|exact Pa]).
      apply (In_nth _ _ EmptyString) in Ia as (q' & Lq' & Eq'). assert (q = q'); [|subst; exact Lq']. apply (proj1 (NoDup_nth (mdp_act m) EmptyString) NA q q' Lq).
      + rewrite Eu, app_length. lia.
      + rewrite Eq, <- Eq'. rewrite Eu. symmetry. apply app_nth1, Lq'.
    - intros L. assert (Ia : In a (rows i)) by (rewrite <- Eq, Eu, app_nth1 by exact L; apply nth_In, L). rewrite Er in Ia. apply filter_In in Ia. apply Ia. }
  assert (LD : (exists j, leads T o0 f i a j) -> learned_dist T o0 f (mdp_n m) i a (map (act_mat m a i) (seq 0 (mdp_n m)))).
  { intros X. apply C in X. specialize (A q X). assert (En : nth q (rows i) EmptyString = a) by (rewrite <- Eq, Eu, app_nth1 by exact X; reflexivity). rewrite En in A.
    assert (M : map (act_mat m a i) (seq 0 (mdp_n m)) = nth q (nth i (mdp_mat m) []) []); [|rewrite M; exact A].
    apply (nth_ext _ _ 0 0); [rewrite map_length, seq_length; symmetry; apply A|]. intros j Lj. rewrite map_length, seq_length in Lj.
    rewrite (nth_indep _ 0 (act_mat m a i O)) by (rewrite map_length, seq_length; exact Lj). rewrite (map_nth (act_mat m a i)). rewrite seq_nth by exact Lj. apply AM. }
  assert (NL : (forall j, ~ leads T o0 f i a j) -> forall j, (j < mdp_n m)%nat -> act_mat m a i j = 0).
  { intros X j Lj. rewrite AM, B; [apply nth_repeat|]. split; [|exact Lq]. destruct (Nat.lt_ge_cases q (length (rows i))) as [L|L]; [|exact L]. apply C in L as (j' & L). exfalso. apply (X j' L). }
  split; [exact LD|]. split; [exact NL|]. intros j Lj. split.
  - intros P. destruct (Nat.lt_ge_cases q (length (rows i))) as [L|L].
    + apply C, LD in L as (_ & _ & c & E & Nn & Hc & _). apply (Hc j Lj). pose proof (Nn j) as N0. destruct (Z.eq_dec (c j) 0) as [Z|Z]; [|lia]. exfalso.
      specialize (E j Lj). rewrite Z in E. unfold vecR in E. rewrite (nth_indep _ 0 (act_mat m a i O)) in E by (rewrite map_length, seq_length; exact Lj). rewrite (map_nth (act_mat m a i)), seq_nth in E by exact Lj. cbn [Nat.add] in E. rewrite E in P. unfold Rdiv in P. lra.
    + exfalso. rewrite NL in P; [lra| |exact Lj]. intros j' X. assert (q < length (rows i))%nat by (apply C; eauto). lia.
  - intros X. destruct (LD ltac:(eauto)) as (_ & (_ & D) & c & E & Nn & Hc & _). specialize (E j Lj). unfold vecR in E. rewrite (nth_indep _ 0 (act_mat m a i O)) in E by (rewrite map_length, seq_length; exact Lj).
    rewrite (map_nth (act_mat m a i)), seq_nth in E by exact Lj. cbn [Nat.add] in E. rewrite E. apply (Hc j Lj) in X. apply Rdiv_lt_0_compat; apply IZR_lt; [exact X|]. rewrite fold_right_zs. apply (zs_pos _ _ j); [intros k _; apply Nn|apply in_seq; lia|exact X].
Qed.

(** Whenever a trace goes on after a prefix, each action has been tried there. *)
Definition every_action (s : tset (list string)) : Prop :=
  forall w a o a', Nat.odd (length w) = true -> seen (traces s) (w ++ [a; o]) -> at_odd (seqs s) a' -> exists o', seen (traces s) (w ++ [a'; o']).

Lemma every_action_segment s m o0 f rows : io_usable s -> every_action s -> io_model (traces s) m o0 f rows ->
  forall i, (S i < mdp_n m)%nat -> exists u, mdp_act m = rows i ++ u.
Proof.
  intros U EA Q i Li. destruct (io_rows _ _ _ _ _ Q i Li) as (p & Hp & Er & _). rewrite Er.
  destruct (rows i) as [|a l] eqn:El; [rewrite <- Er; exists (mdp_act m); reflexivity|]. exists []. rewrite app_nil_r. symmetry.
  assert (P : forall b, In b (mdp_act m) -> p b = true).
  { intros b Ib. apply (io_acts _ _ _ _ _ Q) in Ib. rewrite combine_fst in Ib by apply U. assert (Ia : In a (filter p (mdp_act m))) by (rewrite <- Er; left; reflexivity). apply filter_In in Ia as (_ & Ia).
    apply Hp in Ia as (j & w & o & K & Ew & Se & _). apply Hp. destruct (EA w a o b (proj1 (proj1 K)) Se Ib) as (o' & Se'). exists (f (w ++ [b; o'])), w, o'. auto. }
  clear - P. induction (mdp_act m) as [|b l IH]; [reflexivity|]. cbn. rewrite (P b (or_introl eq_refl)). f_equal. apply IH. intros c I. apply P. right; exact I.
Qed.

(** C58, when every action is tried wherever a trace goes on.  Missing: states where
    only some of the actions are tried (refuted below). *)
Theorem C58_right_action_partial : forall (s : tset (list string)) (epsilon : R) fuel,
  0 < epsilon <= 2 -> io_usable s -> every_action s -> (total_length s <= fuel)%nat ->
  exists m o0 f rows, ioalergia_fit trace_eqb trace_leb fuel s epsilon false = Some (Ok m) /\ io_model (traces s) m o0 f rows /\
    forall i a, (S i < mdp_n m)%nat -> In a (mdp_act m) ->
      ((exists j, leads (traces s) o0 f i a j) -> learned_dist (traces s) o0 f (mdp_n m) i a (map (act_mat m a i) (seq 0 (mdp_n m)))) /\
      ((forall j, ~ leads (traces s) o0 f i a j) -> forall j, (j < mdp_n m)%nat -> act_mat m a i j = 0) /\
      forall j, (j < mdp_n m)%nat -> 0 < act_mat m a i j <-> leads (traces s) o0 f i a j.
Proof.
  intros s eps fuel He U EA Fu. destruct (C94_model s eps fuel He U Fu) as (m & o0 & f & rows & E & Q). exists m, o0, f, rows. split; [exact E|]. split; [exact Q|].
  intros i a Li Ia. destruct (every_action_segment s m o0 f rows U EA Q i Li) as (u & Eu). apply (initial_segment _ _ _ _ _ _ u Q Li Eu a Ia).
Qed.
Print Assumptions C58_right_action_partial.

(** ** C95: the training traces stay possible *)
Lemma mdp_path T m o0 f rows : io_model T m o0 f rows ->
  (forall i a j, (S i < mdp_n m)%nat -> leads T o0 f i a j -> 0 < act_mat m a i j) ->
  forall k rest u, (length rest <= k)%nat -> kept T o0 u -> seen T (u ++ rest) ->
  exists x, length x = length (evens (last u EmptyString :: rest)) /\ hd O x = f u /\ x <> [] /\ (forall i, In i x -> (i < mdp_n m)%nat) /\
    0 < path_weight (map (act_mat m) (odds (last u EmptyString :: rest))) (map (is_label (mdp_lab m)) (evens (last u EmptyString :: rest))) x.
Proof.
  intros Q PA. induction k as [|k IH]; intros rest u Lk K Se.
  - destruct rest; [|cbn in Lk; lia]. destruct (io_labels _ _ _ _ _ Q u K) as (L & El). exists [f u]. split; [reflexivity|]. split; [reflexivity|]. split; [discriminate|]. split; [intros i [<-|[]]; lia|].
    cbn. unfold is_label. rewrite El, String.eqb_refl. lra.
  - destruct rest as [|a [|o rest]].
    + apply (IH [] u); [cbn; lia|exact K|exact Se].
    + exfalso. destruct Se as (O & _). rewrite app_length in O. cbn [length] in O. rewrite Nat.odd_add in O. rewrite (proj1 (proj1 K)) in O. discriminate.
    + destruct (io_labels _ _ _ _ _ Q u K) as (L & El). assert (Se2 : seen T (u ++ [a; o])).
      { destruct Se as (_ & t & n & It & S). split; [rewrite app_length; cbn [length]; rewrite Nat.odd_add, (proj1 (proj1 K)); reflexivity|]. exists t, n. split; [exact It|].
        apply (starts_trans _ (u ++ a :: o :: rest)); [|exact S]. apply starts_spec. exists rest. rewrite <- app_assoc. reflexivity. }
      assert (K2 : kept T o0 (u ++ [a; o])) by (split; [exact Se2|right; rewrite app_length; cbn; lia]).
      destruct (IH rest (u ++ [a; o])) as (x & Lx & Hx & Nx & Rx & Px); [cbn in Lk; lia|exact K2|rewrite <- app_assoc; exact Se|]. rewrite last_app2 in *.
      exists (f u :: x). split; [cbn [evens odds length]; cbn [evens odds length] in Lx; lia|]. split; [reflexivity|]. split; [discriminate|]. split; [intros i [<-|I]; [lia|apply Rx, I]|].
      change (odds (last u EmptyString :: a :: o :: rest)) with (a :: odds (o :: rest)). change (evens (last u EmptyString :: a :: o :: rest)) with (last u EmptyString :: evens (o :: rest)).
      destruct x as [|x0 x]; [congruence|]. cbn in Hx. subst x0. cbn [map]. assert (Pa : 0 < act_mat m a (f u) (f (u ++ [a; o]))) by (apply PA; [exact L|]; exists u, o; auto).
      assert (B : is_label (mdp_lab m) (last u EmptyString) (f u) = 1) by (unfold is_label; rewrite El, String.eqb_refl; reflexivity).
      cbn [path_weight]. rewrite B. destruct (map (is_label (mdp_lab m)) (evens (o :: rest))) as [|b Bs] eqn:EB; [discriminate EB|]. rewrite Rmult_1_l. apply Rmult_lt_0_compat; [exact Pa|exact Px].
Qed.

Lemma act_mat_nn T m o0 f rows a i j : io_model T m o0 f rows -> (i < mdp_n m)%nat -> 0 <= act_mat m a i j.
Proof.
  intros Q Li. pose proof (io_shape _ _ _ _ _ Q) as W. destruct (in_dec string_dec a (mdp_act m)) as [Ia|Ia]; [|rewrite act_out by exact Ia; lra].
  apply (In_nth _ _ EmptyString) in Ia as (q & Lq & <-). rewrite act_nth by (first [apply W|exact Lq]). change (0 <= nth j (nth q (nth i (mdp_mat m) []) []) 0).
  destruct (io_size _ _ _ _ _ Q) as (k & Hk & _). assert (G : nonneg (nth q (nth i (mdp_mat m) []) [])).
  { destruct (Nat.eq_dec i k) as [->|N].
    - destruct (io_last _ _ _ _ _ Q) as (_ & R). rewrite Hk in R. cbn [Nat.sub] in R. rewrite Nat.sub_0_r in R. rewrite R. destruct q as [|q]; cbn [nth].
      + intros x [<-|I]; [lra|apply repeat_spec in I; lra].
      + intros x I. destruct (Nat.lt_ge_cases q (length (mdp_act m) - 1)) as [L|L].
        * rewrite (nth_indep _ [] (repeat 0 (S k))), nth_repeat in I by (rewrite repeat_length; exact L). apply repeat_spec in I. lra.
        * rewrite nth_overflow in I by (rewrite repeat_length; exact L). destruct I.
    - destruct (io_rows _ _ _ _ _ Q i ltac:(lia)) as (p & _ & _ & A & B). destruct (Nat.lt_ge_cases q (length (rows i))) as [L|L].
      + apply (A q L).
      + rewrite B by lia. intros x I. apply repeat_spec in I. lra. }
  destruct (Nat.lt_ge_cases j (length (nth q (nth i (mdp_mat m) []) []))) as [L|L]; [apply G, nth_In, L|rewrite nth_overflow by exact L; lra].
Qed.

(** All traces start with the same observation. *)
Definition same_start (s : tset (list string)) (o : string) : Prop := forall t, In t (seqs s) -> exists u, t = o :: u.

Theorem C95_training_traces_possible_partial : forall (s : tset (list string)) (epsilon : R) fuel o0,
  0 < epsilon <= 2 -> io_usable s -> every_action s -> same_start s o0 -> (total_length s <= fuel)%nat ->
  exists m, ioalergia_fit trace_eqb trace_leb fuel s epsilon false = Some (Ok m) /\
    forall t, In t (seqs s) ->
      (* preceded by the additional initial state, left by the first action *)
      0 < mdp_trace_prob m ("init"%string :: hd EmptyString (mdp_act m) :: t) /\
      (* as such, when the traces start with 'init' *)
      (o0 = "init"%string -> 0 < mdp_trace_prob m t).
Proof.
  intros s eps fuel o0 He U EA SS Fu. destruct (io_fit_any s eps fuel U Fu) as (acts & obss & h & red & m & f & rows & o1 & E & _ & _ & _ & EL & Eac & Q & Ui & _ & Sz).
  exists m. split; [exact (E false)|]. intros t It. destruct (SS t It) as (u & Et). destruct (seqs_T s U t It) as (n & In_T).
  assert (O1 : o1 = o0). { destruct (io_o0 _ _ _ _ _ Q) as (Se & _). destruct Se as (_ & t' & n' & I' & S'). destruct (SS t') as (u' & Et'); [apply (in_combine_l _ _ _ _ I')|]. rewrite Et' in S'. cbn in S'. apply andb_true_iff in S' as (S' & _). apply String.eqb_eq in S'. exact S'. } subst o1.
  assert (SeT : seen (traces s) t) by (split; [apply U, It|]; exists t, n; split; [exact In_T|apply starts_refl]).
  assert (K0 : kept (traces s) o0 [o0]) by (split; [apply (io_o0 _ _ _ _ _ Q)|left; reflexivity]).
  assert (PA : forall i a j, (S i < mdp_n m)%nat -> leads (traces s) o0 f i a j -> 0 < act_mat m a i j).
  { intros i a j Li Le. destruct (every_action_segment s m o0 f rows U EA Q i Li) as (v & Ev). pose proof Le as (w & o & K & Ew & Se & Ej).
    assert (Kj : kept (traces s) o0 (w ++ [a; o])) by (split; [exact Se|right; rewrite app_length; cbn; lia]).
    destruct (initial_segment _ _ _ _ _ i v Q Li Ev a) as (_ & _ & H).
    - apply (io_acts _ _ _ _ _ Q). destruct Se as (_ & t' & n' & I' & S'). exists t'. pose proof (proj1 (proj1 K)) as O. apply Nat.odd_spec in O as (k & Ek). exists k. split; [apply in_map_iff; exists (t', n'); auto|].
      apply starts_spec in S' as (z & ->). rewrite <- app_assoc, nth_error_app2 by lia. rewrite Ek, Nat.sub_diag. reflexivity.
    - apply H; [|exact Le]. rewrite <- Ej. pose proof (io_labels _ _ _ _ _ Q _ Kj). lia. }
  destruct (mdp_path _ _ _ _ _ Q PA (length u) u [o0]) as (x & Lx & Hx & Nx & Rx & Px); [lia|exact K0|cbn [app]; rewrite <- Et; exact SeT|]. cbn [last] in *. rewrite <- Et in *.
  pose proof (proj2 (proj2 (io_o0 _ _ _ _ _ Q))) as F0. rewrite F0 in Hx. destruct (io_size _ _ _ _ _ Q) as (k & Hk & Pk). destruct (io_last _ _ _ _ _ Q) as (Ll & Rl). rewrite Hk in Ll, Rl. cbn [Nat.sub] in Ll, Rl. rewrite Nat.sub_0_r in Ll, Rl.
  assert (LenS : length (times s) = length (seqs s)) by apply U. pose proof (io_shape _ _ _ _ _ Q) as W. destruct Ui as (LI & (NI & SI) & UI). assert (LL : length (mdp_lab m) = mdp_n m) by apply W.
  assert (CP : (0 < label_count "init" (mdp_lab m))%nat) by (apply label_count_pos; rewrite <- Ll; apply nth_In; lia).
  assert (PI : forall i, (i < mdp_n m)%nat -> nth i (mdp_lab m) EmptyString = "init"%string -> 0 < vecR (mdp_ini m) i).
  { intros i Li Ei. rewrite UI by lia. rewrite Ei. cbn. apply Rdiv_lt_0_compat; [lra|]. apply lt_0_INR. exact CP. }
  assert (PI0 : forall i, (i < mdp_n m)%nat -> 0 <= vecR (mdp_ini m) i) by (intros i Li; apply NI, nth_In; lia).
  assert (HAs : forall l A i j, In A (map (act_mat m) l) -> (i < mdp_n m)%nat -> (j < mdp_n m)%nat -> 0 <= A i j) by (intros l A i j I Li _; apply in_map_iff in I as (a & <- & _); apply (act_mat_nn _ _ _ _ _ a i j Q Li)).
  assert (HBs : forall l B i, In B (map (is_label (mdp_lab m)) l) -> (i < mdp_n m)%nat -> 0 <= B i) by (intros l B i I _; apply in_map_iff in I as (a & <- & _); unfold is_label; destruct (String.eqb _ _); lra).
  split.
  - unfold mdp_trace_prob. set (a1 := hd EmptyString (mdp_act m)). apply (trace_prob_pos (mdp_n m) _ _ _ (k :: x)).
    + rewrite map_length. cbn [evens odds length]. rewrite Lx, Et. reflexivity.
    + intros i [<-|I]; [lia|apply Rx, I].
    + exact PI0.
    + apply HAs.
    + apply HBs.
    + discriminate.
    + cbn [hd]. apply PI; [lia|exact Ll].
    + change (odds ("init"%string :: a1 :: t)) with (a1 :: odds t). change (evens ("init"%string :: a1 :: t)) with ("init"%string :: evens t). cbn [map].
      destruct x as [|x0 x]; [congruence|]. cbn in Hx. subst x0. assert (B : is_label (mdp_lab m) "init" k = 1) by (unfold is_label; rewrite Ll; reflexivity).
      cbn [path_weight]. rewrite B. destruct (map (is_label (mdp_lab m)) (evens t)) as [|b Bs] eqn:EB; [rewrite Et in EB; discriminate EB|]. rewrite Rmult_1_l. apply Rmult_lt_0_compat; [|exact Px].
      destruct U as (_ & _ & _ & t0 & I0 & L0). assert (NE : mdp_act m <> []).
      { intros Z. destruct t0 as [|z0 [|z1 t0]]; try (cbn in L0; lia). assert (J : In z1 (mdp_act m)). { apply (io_acts _ _ _ _ _ Q). rewrite combine_fst by exact LenS. exists (z0 :: z1 :: t0), O. auto. } rewrite Z in J. exact J. }
      unfold a1. destruct (mdp_act m) as [|a l] eqn:Em; [congruence|]. cbn [hd]. assert (ND : NoDup (mdp_act m)) by apply W.
      change a with (nth 0 (a :: l) EmptyString). rewrite <- Em. rewrite act_nth by (first [exact ND|rewrite Em; cbn; lia]). change (0 < nth 0 (nth 0 (nth k (mdp_mat m) []) []) 0). rewrite Rl. cbn. lra.
  - intros ->. unfold mdp_trace_prob. apply (trace_prob_pos (mdp_n m) _ _ _ x).
    + rewrite map_length. exact Lx.
    + exact Rx.
    + exact PI0.
    + apply HAs.
    + apply HBs.
    + rewrite Et. discriminate.
    + rewrite Hx. apply PI; [lia|]. rewrite <- F0. apply (io_labels _ _ _ _ _ Q _ K0).
    + exact Px.
Qed.
Print Assumptions C95_training_traces_possible_partial.

(** Theorems C16-C21, C68, C70, C72: constructors, accessors, updateLabelling
    and the create functions. *)
From Coq Require Import String ZArith Bool Reals List Lra Lia Sorting.
From Verif Require Import Num Py SNum LSum MTools LTools MModels MCtor SCtor LCtor.
Import ListNotations.
Local Open Scope R_scope.

(** ** C16: constructors *)

(** What an accepted initial distribution of an MC, MDP or CTMC looks like. *)
Definition uniform_on_init (labels : list string) (ini : list R) : Prop :=
  length ini = length labels /\ is_dist ini /\
  forall s, (s < length labels)%nat ->
    vecR ini s = if String.eqb (nth s labels EmptyString) "init" then 1 / INR (label_count "init" labels) else 0.

Lemma uniform_init_spec labels : In "init"%string labels ->
  uniform_on_init labels (map (fun x => if String.eqb x "init" then 1 / INR (label_count "init" labels) else 0) labels).
Proof.
  intros I. pose proof (label_count_pos _ I) as P. apply lt_INR in P. cbn [INR] in P.
  split; [apply map_length|]. split.
  - split.
    + intros x J. apply in_map_iff in J as [l [<- _]]. destruct (String.eqb l "init"); [|lra].
      apply Rlt_le, Rdiv_lt_0_compat; lra.
    + rewrite init_row_sum. field. lra.
  - intros s L. unfold vecR.
    set (f := fun x => _). rewrite (nth_indep _ 0 (f EmptyString)) by (rewrite map_length; exact L).
    rewrite map_nth. reflexivity.
Qed.

Theorem C16_MC_constructor : forall (matrix : list (list R)) labels name,
  ((exists m, MC_new matrix labels name = Ok m) <->
   In "init"%string labels /\ length labels = length matrix /\ (forall r, In r matrix -> row_ok (rsum r))) /\
  (forall m, MC_new matrix labels name = Ok m ->
     mc_mat m = matrix /\ mc_lab m = labels /\ mc_name m = name /\ uniform_on_init labels (mc_ini m)) /\
  (forall e, MC_new matrix labels name = Err e -> e = ValueError).
Proof.
  intros matrix labels name. unfold MC_new.
  destruct (base_mc_init_cases (length matrix) labels) as [(I & L & ini & E)|[N E]]; rewrite E; cbn [bind].
  - pose proof (proj1 (base_mc_init_ok _ _ _) E) as (_ & _ & Ei).
    destruct (forallb checkProbabilities matrix) eqn:C.
    + split; [|split].
      * split; [intros _|intros _; eauto]. split; [exact I|]. split; [exact L|]. apply check_rows, C.
      * intros m [= <-]. cbn. rewrite Ei. split; [reflexivity|]. split; [reflexivity|]. split; [reflexivity|]. apply uniform_init_spec, I.
      * discriminate.
    + split; [|split].
      * split; [intros [m X]; discriminate|]. intros (_ & _ & F). apply check_rows in F. congruence.
      * discriminate.
      * congruence.
  - split; [|split].
    + split; [intros [m X]; discriminate|]. tauto.
    + discriminate.
    + congruence.
Qed.
Print Assumptions C16_MC_constructor.

Lemma mdp_rows_ok_spec na (matrix : list (list (list R))) :
  (mdp_rows_ok na matrix = Ok tt <->
   forall r, In r matrix -> forall a, (a < na)%nat -> exists x, nth_error r a = Some x /\ row_ok (rsum x)) /\
  forall e, mdp_rows_ok na matrix = Err e -> e = ValueError \/ e = IndexError.
Proof.
  assert (H : forall (r : list (list R)) l,
    (mfold (fun _ a => do x <- at_list r a; if checkProbabilities x then Ok tt else Err ValueError) l tt = Ok tt <->
     forall a, In a l -> exists x, nth_error r a = Some x /\ row_ok (rsum x)) /\
    forall e, mfold (fun _ a => do x <- at_list r a; if checkProbabilities x then Ok tt else Err ValueError) l tt = Err e ->
      e = ValueError \/ e = IndexError).
  { intros r l. induction l as [|a l [IH IHe]]; cbn [mfold].
    - split; [split; [intros _ a []|reflexivity]|discriminate].
    - unfold at_list at 1 3. destruct (nth_error r a) as [x|] eqn:E; cbn [bind].
      + destruct (checkProbabilities x) eqn:C; cbn [bind].
        * split; [|exact IHe]. rewrite IH. split.
          -- intros F b [<-|J]; [exists x; split; [exact E|apply checkProbabilities_iff, C]|apply F, J].
          -- intros F b J. apply F. right; exact J.
        * split; [|intros e [= <-]; auto]. split; [discriminate|]. intros F.
          destruct (F a (or_introl eq_refl)) as [y [Ey R]]. rewrite E in Ey. injection Ey as <-.
          apply checkProbabilities_iff in R. congruence.
      + split; [|intros e [= <-]; auto]. split; [discriminate|]. intros F.
        destruct (F a (or_introl eq_refl)) as [y [Ey R]]. congruence. }
  induction matrix as [|r matrix [IH IHe]]; cbn [mdp_rows_ok].
  - split; [split; [intros _ r []|reflexivity]|discriminate].
  - destruct (H r (seq 0 na)) as [H1 H2]. revert H1 H2.
    destruct (mfold _ (seq 0 na) tt) as [[]|e]; intros H1 H2; cbn [bind].
    + split; [|exact IHe]. rewrite IH. split.
      * intros F r' [<-|J] a L; [apply H1; [reflexivity|apply in_seq; lia]|apply (F r' J a L)].
      * intros F r' J a L. apply (F r'); [right; exact J|exact L].
    + split; [|intros e' [= <-]; apply H2; reflexivity]. split; [discriminate|]. intros F.
      assert (Err e = Ok tt); [|discriminate]. apply H1. intros a J. apply in_seq in J. apply (F r); [left; reflexivity|lia].
Qed.

Theorem C16_MDP_constructor : forall (matrix : list (list (list R))) labels actions name,
  ((exists m, MDP_new matrix labels actions name = Ok m) <->
   In "init"%string labels /\ length labels = length matrix /\
   (forall r, In r matrix -> forall a, (a < length actions)%nat -> exists x, nth_error r a = Some x /\ row_ok (rsum x))) /\
  (forall m, MDP_new matrix labels actions name = Ok m ->
     mdp_mat m = matrix /\ mdp_lab m = labels /\ mdp_act m = actions /\ mdp_name m = name /\ uniform_on_init labels (mdp_ini m)) /\
  (forall e, MDP_new matrix labels actions name = Err e -> e = ValueError \/ e = IndexError).
Proof.
  intros matrix labels actions name. unfold MDP_new.
  destruct (mdp_rows_ok_spec (length actions) matrix) as [Hok He].
  destruct (base_mc_init_cases (length matrix) labels) as [(I & L & ini & E)|[N E]]; rewrite E; cbn [bind].
  - pose proof (proj1 (base_mc_init_ok _ _ _) E) as (_ & _ & Ei).
    destruct (mdp_rows_ok (length actions) matrix) as [[]|e] eqn:C; cbn [bind].
    + split; [|split].
      * split; [intros _|intros _; eauto]. split; [exact I|]. split; [exact L|]. apply Hok; reflexivity.
      * intros m [= <-]. cbn. rewrite Ei. repeat (split; [reflexivity|]). apply uniform_init_spec, I.
      * discriminate.
    + split; [|split].
      * split; [intros [m X]; discriminate|]. intros (_ & _ & F). apply Hok in F. congruence.
      * discriminate.
      * intros e' [= <-]. apply He; reflexivity.
  - split; [|split].
    + split; [intros [m X]; discriminate|]. tauto.
    + discriminate.
    + intros e [= <-]; auto.
Qed.
Print Assumptions C16_MDP_constructor.

(** CTMCs: the rates are not checked at all. *)
Theorem C16_CTMC_constructor : forall (matrix : list (list R)) labels name,
  ((exists m, CTMC_new matrix labels name = Ok m) <-> In "init"%string labels /\ length labels = length matrix) /\
  (forall m, CTMC_new matrix labels name = Ok m ->
     ct_mat m = matrix /\ ct_lab m = labels /\ ct_name m = name /\ uniform_on_init labels (ct_ini m)) /\
  (forall e, CTMC_new matrix labels name = Err e -> e = ValueError).
Proof.
  intros matrix labels name. unfold CTMC_new.
  destruct (base_mc_init_cases (length matrix) labels) as [(I & L & ini & E)|[N E]]; rewrite E; cbn [bind].
  - pose proof (proj1 (base_mc_init_ok _ _ _) E) as (_ & _ & Ei).
    split; [split; [auto|intros _; eauto]|]. split; [|discriminate].
    intros m [= <-]. cbn. rewrite Ei. repeat (split; [reflexivity|]). apply uniform_init_spec, I.
  - split; [split; [intros [m X]; discriminate|tauto]|]. split; [discriminate|congruence].
Qed.
Print Assumptions C16_CTMC_constructor.

Theorem C16_CTMC_negative_rate_refuted : exists (matrix : list (list R)) labels name m,
  CTMC_new matrix labels name = Ok m /\ exists i j, matR (ct_mat m) i j < 0.
Proof.
  exists [[-1]], ["init"%string], EmptyString.
  destruct (C16_CTMC_constructor [[-1]] ["init"%string] EmptyString) as [[_ A] [B _]].
  destruct A as [m E]; [split; [left; reflexivity|reflexivity]|].
  exists m. split; [exact E|]. destruct (B m E) as [-> _]. exists O, O. cbn. lra.
Qed.
Print Assumptions C16_CTMC_negative_rate_refuted.

(** HMMs: the initial vector is only required to have a sum between 1/2 and 3/2
    (given as an int, it must be a valid Python index); its length is not
    checked.  An output given as a list is rejected. *)
Definition ini_ok (n : nat) (i : pyini R) : Prop :=
  match i with
  | IniInt z => (- Z.of_nat n <= z < Z.of_nat n)%Z
  | IniList l => 1/2 < rsum l < 3/2
  end.
Definition ini_vec (n : nat) (i : pyini R) (ini : list R) : Prop :=
  match i with
  | IniInt z => length ini = n /\ forall s, (s < n)%nat -> vecR ini s = if (Z.of_nat s =? z mod Z.of_nat n)%Z then 1 else 0
  | IniList l => ini = l
  end.
Lemma model_init_spec n i :
  ((exists ini, model_init n i = Ok ini) <-> ini_ok n i) /\
  (forall ini, model_init n i = Ok ini -> ini_vec n i ini) /\
  (forall e, model_init n i = Err e -> e = match i with IniInt _ => IndexError | IniList _ => ValueError end).
Proof.
  destruct i as [z|l]; cbn [model_init ini_ok ini_vec].
  - assert (LZ : length (vzeros (K:=R) n) = n) by apply repeat_length.
    destruct (Z.lt_ge_cases z (- Z.of_nat n)) as [A|A]; [|destruct (Z.lt_ge_cases z (Z.of_nat n)) as [B|B]].
    + rewrite pyset_err by (rewrite LZ; lia). split; [split; [intros [? X]; discriminate|lia]|]. split; [discriminate|congruence].
    + split; [split; [lia|]|split].
      * intros _. unfold pyset. rewrite LZ. destruct (Z.ltb_spec z 0).
        -- destruct (Z.ltb_spec (z + Z.of_nat n) 0); [lia|]. destruct (Z.leb_spec (Z.of_nat n) (z + Z.of_nat n)); [lia|]. cbn. eauto.
        -- destruct (Z.ltb_spec z 0); [lia|]. destruct (Z.leb_spec (Z.of_nat n) z); [lia|]. cbn. eauto.
      * assert (G : forall j, (0 <= j < Z.of_nat n)%Z -> (z mod Z.of_nat n = j)%Z ->
            length (upd (vzeros n) (Z.to_nat j) 1) = n /\ forall s, (s < n)%nat ->
            vecR (upd (vzeros n) (Z.to_nat j) 1) s = if (Z.of_nat s =? z mod Z.of_nat n)%Z then 1 else 0).
        { intros j Bj Ej. split; [rewrite upd_length; exact LZ|]. intros s Ls. unfold vecR. rewrite upd_nth by (rewrite LZ; lia).
          rewrite Ej. destruct (Nat.eqb_spec (Z.to_nat j) s); destruct (Z.eqb_spec (Z.of_nat s) j); try lia; [reflexivity|].
          unfold vzeros. nR. apply nth_repeat. }
        intros ini. unfold pyset. rewrite LZ. destruct (Z.ltb_spec z 0).
        -- destruct (Z.ltb_spec (z + Z.of_nat n) 0); [lia|]. destruct (Z.leb_spec (Z.of_nat n) (z + Z.of_nat n)); [lia|].
           cbn [orb]. intros [= <-]. apply G; [lia|]. symmetry. apply Zmod_unique with (q := (-1)%Z); lia.
        -- destruct (Z.ltb_spec z 0); [lia|]. destruct (Z.leb_spec (Z.of_nat n) z); [lia|].
           cbn [orb]. intros [= <-]. apply G; [lia|]. apply Z.mod_small; lia.
      * intros e. unfold pyset. destruct (_ || _)%bool; congruence.
    + rewrite pyset_err by (rewrite LZ; lia). split; [split; [intros [? X]; discriminate|lia]|]. split; [discriminate|congruence].
  - toR. rewrite <- round0_one. destruct (Z.eqb_spec (round0 (rsum l)) 1); cbn [negb].
    + split; [split; [auto|eauto]|]. split; [congruence|discriminate].
    + split; [split; [intros [? X]; discriminate|tauto]|]. split; [discriminate|congruence].
Qed.

Lemma out_rows_spec n (output : list (list R)) :
  (out_rows_ok false n output = Ok tt <-> (n <= length output)%nat /\ forall s, (s < n)%nat -> row_ok (rsum (nth s output []))) /\
  forall e, out_rows_ok false n output = Err e -> e = ValueError \/ e = IndexError.
Proof.
  revert output; induction n as [|n IH]; intros [|r output]; cbn [out_rows_ok length nth].
  - split; [split; [split; [lia|lia]|reflexivity]|discriminate].
  - split; [split; [split; [lia|lia]|reflexivity]|discriminate].
  - split; [split; [discriminate|lia]|intros e [= <-]; auto].
  - destruct (checkProbabilities r) eqn:C.
    + destruct (IH output) as [H1 H2]. split; [|exact H2]. rewrite H1. split; intros [L F]; (split; [lia|]).
      * intros [|s] Hs; [apply checkProbabilities_iff, C|]. apply F; lia.
      * intros s Hs. apply (F (S s)); lia.
    + split; [|intros e [= <-]; auto]. split; [discriminate|]. intros [L F].
      assert (checkProbabilities r = true) by (apply checkProbabilities_iff, (F O); lia). congruence.
Qed.

Theorem C16_HMM_constructor : forall (matrix output : list (list R)) alphabet i name,
  ((exists m, HMM_new matrix output false alphabet i name = Ok m) <->
   ini_ok (length matrix) i /\ (forall r, In r matrix -> row_ok (rsum r)) /\
   (length matrix <= length output)%nat /\ (forall s, (s < length matrix)%nat -> row_ok (rsum (nth s output [])))) /\
  (forall m, HMM_new matrix output false alphabet i name = Ok m ->
     hmm_mat m = matrix /\ hmm_out m = output /\ hmm_alph m = alphabet /\ hmm_name m = name /\
     ini_vec (length matrix) i (hmm_ini m)) /\
  (forall e, HMM_new matrix output false alphabet i name = Err e -> e = ValueError \/ e = IndexError).
Proof.
  intros matrix output alphabet i name. unfold HMM_new, base_hmm_init.
  destruct (model_init_spec (length matrix) i) as (Hok & Hv & He).
  destruct (model_init (length matrix) i) as [ini|e] eqn:E; cbn [bind].
  - destruct (forallb checkProbabilities matrix) eqn:C; cbn [bind].
    + destruct (out_rows_spec (length matrix) output) as [O1 O2].
      destruct (out_rows_ok false (length matrix) output) as [[]|e] eqn:EO; cbn [bind].
      * split; [split; [intros _|intros _; eauto]|split; [|discriminate]].
        -- split; [apply Hok; eauto|]. split; [apply check_rows, C|]. apply O1; reflexivity.
        -- intros m [= <-]. cbn. repeat (split; [reflexivity|]). apply Hv; reflexivity.
      * split; [split; [intros [m X]; discriminate|]|split; [discriminate|intros e' [= <-]; apply O2; reflexivity]].
        intros (_ & _ & L & F). assert (Err e = Ok tt) by (apply O1; auto). discriminate.
    + split; [split; [intros [m X]; discriminate|]|split; [discriminate|intros e' [= <-]; auto]].
      intros (_ & F & _). apply check_rows in F. congruence.
  - split; [split; [intros [m X]; discriminate|]|split; [discriminate|]].
    + intros (H & _). apply Hok in H as [x H]. discriminate.
    + intros e' [= <-]. rewrite (He e eq_refl). destruct i; auto.
Qed.
Print Assumptions C16_HMM_constructor.

(** The documentation allows [output] to be a list; then every HMM with at least
    one state is rejected with an AttributeError. *)
Theorem C16_HMM_list_output_refuted : forall (matrix output : list (list R)) alphabet i name m,
  HMM_new matrix output false alphabet i name = Ok m -> matrix <> [] ->
  HMM_new matrix output true alphabet i name = Err AttributeError.
Proof.
  intros matrix output alphabet i name m. unfold HMM_new. destruct (base_hmm_init matrix i); cbn [bind]; [|discriminate].
  destruct matrix as [|r matrix]; [intros _ N; congruence|].
  destruct output as [|o output]; cbn; [discriminate|]. reflexivity.
Qed.
Print Assumptions C16_HMM_list_output_refuted.

(** An accepted initial vector need not be a distribution, nor have one entry
    per state. *)
Theorem C16_HMM_initial_refuted : exists (matrix output : list (list R)) alphabet i name m,
  HMM_new matrix output false alphabet i name = Ok m /\ rsum (hmm_ini m) <> 1 /\ length (hmm_ini m) <> hmm_n m.
Proof.
  exists [[1]], [[1]], ["a"%string], (IniList [2; -1/2; -1/4]), EmptyString.
  destruct (C16_HMM_constructor [[1]] [[1]] ["a"%string] (IniList [2; -1/2; -1/4]) EmptyString) as [[_ A] [B _]].
  assert (RO : row_ok 1) by (left; replace (1 - 1) with 0 by lra; rewrite Rabs_R0; lra).
  destruct A as [m E].
  { split; [cbn; lra|]. split; [intros r [<-|[]]; cbn; rewrite Rplus_0_r; exact RO|]. split; [cbn; lia|].
    intros s L. cbn in L. assert (s = O) by lia. subst. cbn. rewrite Rplus_0_r; exact RO. }
  exists m. split; [exact E|]. destruct (B m E) as (Em & _ & _ & _ & V). cbn in V. unfold hmm_n. rewrite V, Em. cbn. split; [lra|lia].
Qed.
Print Assumptions C16_HMM_initial_refuted.

Lemma row_ok_one x : x = 1 -> row_ok x.
Proof. intros ->. left. replace (1 - 1) with 0 by lra. rewrite Rabs_R0; lra. Qed.
Lemma row_ok_zero x : x = 0 -> row_ok x.
Proof. intros ->. right. rewrite Rabs_R0; lra. Qed.

Example C16_instance :
  (exists m, MC_new [[1/2; 1/2; 0]; [0; 0; 0]; [1/3; 2/3; 0]] ["a"; "b"; "init"]%string "x" = Ok m) /\
  (exists m, MDP_new [[[1/2; 1/2; 0]]; [[0; 0; 0]]; [[1/3; 2/3; 0]]] ["a"; "b"; "init"]%string ["go"]%string "x" = Ok m) /\
  (exists m, HMM_new [[1/2; 1/2]; [1; 0]] [[1/2; 1/2]; [1; 0]] false ["a"; "b"]%string (IniInt 0) "x" = Ok m).
Proof.
  split; [|split].
  - apply C16_MC_constructor. split; [right; right; left; reflexivity|]. split; [reflexivity|].
    intros r [<-|[<-|[<-|[]]]]; [apply row_ok_one|apply row_ok_zero|apply row_ok_one]; cbn; lra.
  - apply C16_MDP_constructor. split; [right; right; left; reflexivity|]. split; [reflexivity|].
    intros r [<-|[<-|[<-|[]]]] a L; cbn in L; assert (a = O) by lia; subst a; (eexists; split; [reflexivity|]);
      [apply row_ok_one|apply row_ok_zero|apply row_ok_one]; cbn; lra.
  - apply C16_HMM_constructor. split; [cbn; lia|]. split; [intros r [<-|[<-|[]]]; apply row_ok_one; cbn; lra|].
    split; [cbn; lia|]. intros [|[|s]] L; cbn in L; try lia; apply row_ok_one; cbn; lra.
Qed.

(** ** C17: accessors *)

Definition valid_id (n : nat) (s : pyid) (i : nat) : Prop := s = IdInt (Z.of_nat i) /\ (i < n)%nat.
Definition id_error (n : nat) (s : pyid) (e : exn) : Prop :=
  match s with
  | IdInt z => (z < 0 \/ Z.of_nat n <= z)%Z /\ e = IndexError
  | _ => e = TypeError
  end.
Lemma checkStateIndex_spec n s :
  (exists i, valid_id n s i /\ checkStateIndex n s = Ok i) \/ (exists e, id_error n s e /\ checkStateIndex n s = Err e).
Proof.
  destruct s as [z|z|]; cbn; [|right; eauto|right; eauto].
  destruct (Z.ltb_spec z 0); [right; exists IndexError; split; [split; [lia|reflexivity]|reflexivity]|].
  destruct (Z.leb_spec (Z.of_nat n) z); [right; exists IndexError; split; [split; [lia|reflexivity]|reflexivity]|].
  left. exists (Z.to_nat z). split; [|reflexivity]. split; [rewrite Z2Nat.id by lia; reflexivity|lia].
Qed.
Lemma checkStateIndex_valid n s i : valid_id n s i -> checkStateIndex n s = Ok i.
Proof.
  intros [-> L]. cbn. destruct (Z.ltb_spec (Z.of_nat i) 0); [lia|].
  destruct (Z.leb_spec (Z.of_nat n) (Z.of_nat i)); [lia|]. rewrite Nat2Z.id. reflexivity.
Qed.
Lemma checkStateIndex_error n s e : id_error n s e -> checkStateIndex n s = Err e.
Proof.
  destruct s as [z|z|]; cbn; try congruence. intros [B ->].
  destruct (Z.ltb_spec z 0); [reflexivity|]. destruct (Z.leb_spec (Z.of_nat n) z); [reflexivity|lia].
Qed.

(** Matrices with [n] rows of length [n], one label per state. *)
Definition shape (n : nat) (mat : list (list R)) : Prop := length mat = n /\ forall r, In r mat -> length r = n.
Lemma at_mat_ok n mat i j : shape n mat -> (i < n)%nat -> (j < n)%nat -> at_mat mat i j = Ok (matR mat i j).
Proof.
  intros [L R] Li Lj. unfold at_mat, at_list, matR.
  rewrite (nth_error_nth' mat [] (n := i)) by lia. cbn [bind].
  rewrite (nth_error_nth' _ 0 (n := j)); [reflexivity|]. rewrite R; [exact Lj|apply nth_In; lia].
Qed.
Lemma at_list_ok {A} (l : list A) i d : (i < length l)%nat -> at_list l i = Ok (nth i l d).
Proof. intros L. unfold at_list. rewrite (nth_error_nth' l d) by exact L. reflexivity. Qed.

(** MC: the checks come first, whatever the other arguments; then the stored
    values are returned. *)
Theorem C17_MC_accessors : forall (m : mc R) s1 s2 o,
  shape (mc_n m) (mc_mat m) -> length (mc_lab m) = mc_n m ->
  (forall i j, valid_id (mc_n m) s1 i -> valid_id (mc_n m) s2 j ->
     MC_a m s1 s2 = Ok (matR (mc_mat m) i j) /\
     MC_tau m s1 s2 o = Ok (if String.eqb (nth i (mc_lab m) EmptyString) o then matR (mc_mat m) i j else 0) /\
     getLabel (mc_n m) (mc_lab m) s1 = Ok (nth i (mc_lab m) EmptyString) /\
     label_b (mc_n m) (mc_lab m) s1 o = Ok (if String.eqb (nth i (mc_lab m) EmptyString) o then 1 else 0)) /\
  (forall e, id_error (mc_n m) s1 e ->
     MC_a m s1 s2 = Err e /\ MC_tau m s1 s2 o = Err e /\ getLabel (mc_n m) (mc_lab m) s1 = Err e /\
     label_b (K:=R) (mc_n m) (mc_lab m) s1 o = Err e) /\
  (forall i e, valid_id (mc_n m) s1 i -> id_error (mc_n m) s2 e -> MC_a m s1 s2 = Err e /\ MC_tau m s1 s2 o = Err e).
Proof.
  intros m s1 s2 o SH LL. split; [|split].
  - intros i j V1 V2. unfold MC_a, MC_tau, label_b, getLabel.
    rewrite (checkStateIndex_valid _ _ _ V1), (checkStateIndex_valid _ _ _ V2). cbn [bind].
    destruct V1 as [_ L1], V2 as [_ L2].
    rewrite (at_mat_ok _ _ _ _ SH L1 L2), (at_list_ok _ _ EmptyString) by lia. cbn [bind].
    rewrite (String.eqb_sym o). split; [reflexivity|]. split; [|split; reflexivity].
    destruct (String.eqb _ o); reflexivity.
  - intros e X. unfold MC_a, MC_tau, label_b, getLabel. rewrite (checkStateIndex_error _ _ _ X). cbn. auto.
  - intros i e V X. unfold MC_a, MC_tau. rewrite (checkStateIndex_valid _ _ _ V), (checkStateIndex_error _ _ _ X). cbn. auto.
Qed.
Print Assumptions C17_MC_accessors.

Theorem C17_HMM_accessors : forall (m : hmm R) s1 s2 o,
  shape (hmm_n m) (hmm_mat m) -> length (hmm_out m) = hmm_n m ->
  (forall r, In r (hmm_out m) -> length r = length (hmm_alph m)) -> NoDup (hmm_alph m) ->
  (forall i j, valid_id (hmm_n m) s1 i -> valid_id (hmm_n m) s2 j ->
     mat_a (hmm_mat m) s1 s2 = Ok (matR (hmm_mat m) i j) /\
     (forall k, (k < length (hmm_alph m))%nat ->
        HMM_b m s1 (nth k (hmm_alph m) EmptyString) = Ok (matR (hmm_out m) i k) /\
        HMM_tau m s1 s2 (nth k (hmm_alph m) EmptyString) = Ok (matR (hmm_mat m) i j * matR (hmm_out m) i k)) /\
     (~ In o (hmm_alph m) -> HMM_b m s1 o = Ok 0 /\ HMM_tau m s1 s2 o = Ok 0)) /\
  (forall e, id_error (hmm_n m) s1 e -> mat_a (hmm_mat m) s1 s2 = Err e /\ HMM_tau m s1 s2 o = Err e) /\
  (forall i e, valid_id (hmm_n m) s1 i -> id_error (hmm_n m) s2 e ->
     mat_a (hmm_mat m) s1 s2 = Err e /\ HMM_tau m s1 s2 o = Err e) /\
  (forall z, (z < 0 \/ Z.of_nat (hmm_n m) <= z)%Z -> HMM_b m (IdInt z) o = Ok 0 /\ HMM_b m (IdNp z) o = Ok 0).
Proof.
  intros m s1 s2 o SH LO RO ND. split; [|split; [|split]].
  - intros i j V1 V2. unfold HMM_tau, mat_a.
    change (length (hmm_mat m)) with (hmm_n m).
    rewrite (checkStateIndex_valid _ _ _ V1), (checkStateIndex_valid _ _ _ V2). cbn [bind].
    destruct V1 as [-> L1], V2 as [_ L2]. rewrite (at_mat_ok _ _ _ _ SH L1 L2). cbn [bind].
    split; [reflexivity|]. unfold HMM_b.
    destruct (Z.ltb_spec (Z.of_nat i) 0); [lia|]. destruct (Z.leb_spec (Z.of_nat (hmm_n m)) (Z.of_nat i)); [lia|].
    rewrite Nat2Z.id. split.
    + intros k Lk. rewrite (index_of_nth String.eqb String.eqb_eq) by assumption.
      unfold at_mat. rewrite (at_list_ok (hmm_out m) i []) by lia. cbn [bind].
      rewrite (at_list_ok _ k 0) by (rewrite RO; [exact Lk|apply nth_In; lia]). cbn. split; reflexivity.
    + intros N. rewrite (index_of_None String.eqb String.eqb_eq) by exact N. cbn. split; [reflexivity|]. nR. f_equal. ring.
  - intros e X. unfold HMM_tau, mat_a. change (length (hmm_mat m)) with (hmm_n m).
    rewrite (checkStateIndex_error _ _ _ X). cbn. auto.
  - intros i e V X. unfold HMM_tau, mat_a. change (length (hmm_mat m)) with (hmm_n m).
    rewrite (checkStateIndex_valid _ _ _ V), (checkStateIndex_error _ _ _ X). cbn. auto.
  - intros z B. cbn. destruct (Z.ltb_spec z 0); [auto|]. destruct (Z.leb_spec (Z.of_nat (hmm_n m)) z); [auto|lia].
Qed.
Print Assumptions C17_HMM_accessors.

Theorem C17_MDP_accessors : forall (m : mdp R) s1 s2 k o,
  (forall ra, In ra (mdp_mat m) -> length ra = length (mdp_act m) /\ forall r, In r ra -> length r = mdp_n m) ->
  length (mdp_lab m) = mdp_n m -> NoDup (mdp_act m) -> (k < length (mdp_act m))%nat ->
  let act := nth k (mdp_act m) EmptyString in
  (forall i j, valid_id (mdp_n m) s1 i -> valid_id (mdp_n m) s2 j ->
     MDP_a m s1 s2 act = Ok (nth j (nth k (nth i (mdp_mat m) []) []) 0) /\
     MDP_tau m s1 act s2 o = Ok (if String.eqb (nth i (mdp_lab m) EmptyString) o then nth j (nth k (nth i (mdp_mat m) []) []) 0 else 0) /\
     (forall b, ~ In b (mdp_act m) -> MDP_a m s1 s2 b = Err ValueError /\ MDP_tau m s1 b s2 o = Ok 0)) /\
  (forall e, id_error (mdp_n m) s1 e -> MDP_a m s1 s2 act = Err e /\ MDP_tau m s1 act s2 o = Err e) /\
  (forall i e, valid_id (mdp_n m) s1 i -> id_error (mdp_n m) s2 e -> MDP_a m s1 s2 act = Err e /\ MDP_tau m s1 act s2 o = Err e).
Proof.
  intros m s1 s2 k o SH LL ND Lk act. split; [|split].
  - intros i j V1 V2. unfold MDP_a, MDP_tau.
    rewrite (checkStateIndex_valid _ _ _ V1), (checkStateIndex_valid _ _ _ V2). cbn [bind].
    destruct V1 as [_ L1], V2 as [_ L2].
    rewrite (at_list_ok (mdp_lab m) i EmptyString) by lia. cbn [bind].
    unfold act. rewrite (index_of_nth String.eqb String.eqb_eq) by assumption.
    rewrite (at_list_ok (mdp_mat m) i []) by (exact L1). cbn [bind].
    destruct (SH (nth i (mdp_mat m) [])) as [La Lr]; [apply nth_In; exact L1|].
    unfold at_mat. rewrite (at_list_ok _ k []) by lia. cbn [bind].
    rewrite (at_list_ok _ j 0) by (rewrite Lr; [exact L2|apply nth_In; lia]).
    rewrite (String.eqb_sym o). split; [reflexivity|]. split; [destruct (String.eqb _ o); reflexivity|].
    intros b N. rewrite (index_of_None String.eqb String.eqb_eq) by exact N. split; [reflexivity|]. destruct (String.eqb _ o); reflexivity.
  - intros e X. unfold MDP_a, MDP_tau. rewrite (checkStateIndex_error _ _ _ X). cbn. auto.
  - intros i e V X. unfold MDP_a, MDP_tau. rewrite (checkStateIndex_valid _ _ _ V), (checkStateIndex_error _ _ _ X). cbn. auto.
Qed.
Print Assumptions C17_MDP_accessors.

Theorem C17_CTMC_accessors : forall (m : ctmc R) s1 s2 o,
  shape (ct_n m) (ct_mat m) -> length (ct_lab m) = ct_n m ->
  (forall i j, valid_id (ct_n m) s1 i -> valid_id (ct_n m) s2 j ->
     CTMC_e m s1 = Ok (rsum (nth i (ct_mat m) [])) /\
     CTMC_l m s1 s2 o = Ok (if String.eqb (nth i (ct_lab m) EmptyString) o then matR (ct_mat m) i j else 0) /\
     CTMC_tau m s1 s2 o = Ok ((if String.eqb (nth i (ct_lab m) EmptyString) o then matR (ct_mat m) i j else 0) / rsum (nth i (ct_mat m) [])) /\
     CTMC_expected_time m s1 = Ok (1 / rsum (nth i (ct_mat m) []))) /\
  (forall e, id_error (ct_n m) s1 e ->
     CTMC_e m s1 = Err e /\ CTMC_l m s1 s2 o = Err e /\ CTMC_tau m s1 s2 o = Err e /\ CTMC_expected_time m s1 = Err e) /\
  (forall i e, valid_id (ct_n m) s1 i -> id_error (ct_n m) s2 e -> CTMC_l m s1 s2 o = Err e /\ CTMC_tau m s1 s2 o = Err e).
Proof.
  intros m s1 s2 o SH LL. split; [|split].
  - intros i j V1 V2. unfold CTMC_tau, CTMC_expected_time, CTMC_l, CTMC_e.
    rewrite (checkStateIndex_valid _ _ _ V1), (checkStateIndex_valid _ _ _ V2). cbn [bind].
    destruct V1 as [_ L1], V2 as [_ L2].
    rewrite (at_mat_ok _ _ _ _ SH L1 L2), (at_list_ok _ _ EmptyString), (at_list_ok (ct_mat m) i []) by (unfold ct_n in *; lia). cbn [bind].
    split; [reflexivity|]. destruct (String.eqb _ o); cbn [negb bind]; repeat split.
  - intros e X. unfold CTMC_tau, CTMC_expected_time, CTMC_l, CTMC_e. rewrite (checkStateIndex_error _ _ _ X). cbn. auto.
  - intros i e V X. unfold CTMC_tau, CTMC_l. rewrite (checkStateIndex_valid _ _ _ V), (checkStateIndex_error _ _ _ X). cbn. auto.
Qed.
Print Assumptions C17_CTMC_accessors.

(** [pi] does not check its argument: a negative id wraps around. *)
Theorem C17_pi_wraps_refuted : exists (ini : list R) (z : Z), (z < 0)%Z /\ model_pi ini z = Ok 1.
Proof. exists [0; 1], (-1)%Z. split; [lia|reflexivity]. Qed.
Print Assumptions C17_pi_wraps_refuted.

Example C17_instance :
  let m := mkMC [[0; 1]; [1/2; 1/2]] ["a"; "init"]%string [0; 1] "x" in
  shape (mc_n m) (mc_mat m) /\ MC_a m (IdInt 1) (IdInt 0) = Ok (1/2) /\ MC_a m (IdInt (-1)) (IdInt 0) = Err IndexError /\
  MC_a m (IdNp 1) (IdInt 0) = Err TypeError.
Proof. cbn. split; [split; [reflexivity|intros r [<-|[<-|[]]]; reflexivity]|]. auto. Qed.

(** ** C19, C20: createMC *)

(** The rows of [D] and the argument initial_state. *)
Definition ini_arg_ok (n : nat) (i : pyini R) : Prop :=
  match i with
  | IniInt z => (0 <= z < Z.of_nat n)%Z
  | IniList l => length l = n /\ row_ok (rsum l)
  end.
Definition ini_arg_prob (i : pyini R) (s : nat) : R :=
  match i with
  | IniInt z => if (Z.of_nat s =? z)%Z then 1 else 0
  | IniList l => vecR l s
  end.

Lemma fill_gfill states ts m :
  fill (K:=R) states ts m = gfill Z.eqb Z.eqb src dst snd states states ts m.
Proof.
  unfold fill, gfill. revert m; induction ts as [|[[s s'] p] ts IH]; intros m; [reflexivity|]. cbn [mfold].
  change (src (s, s', p)) with s. change (dst (s, s', p)) with s'. change (snd (s, s', p)) with p.
  destruct (index_err Z.eqb s states) as [i|]; cbn [bind]; [|reflexivity].
  destruct (index_err Z.eqb s' states) as [j|]; cbn [bind]; [|reflexivity]. apply IH.
Qed.
Lemma fill_described ts states sts :
  (forall t, In t ts -> In (src t) sts /\ In (dst t) sts) -> StronglySorted Z.lt sts -> states = sts ->
  exists m, fill (K:=R) states ts (zeros2 (length states) (length states)) = Ok m /\ rect (length sts) (length sts) m /\
    described snd ts sts (matR m).
Proof.
  intros Hin S ->. pose proof (SSorted_NoDup _ S) as ND. rewrite fill_gfill.
  destruct (gfill_ok Z.eqb Z.eqb Z.eqb_eq Z.eqb_eq src dst snd sts sts ND ND 0%Z 0%Z ts) as (m & E & RC & G); eauto.
Qed.
Lemma mentioned_in {V} (ts : list (Z * Z * V)) sts : ids_of (mentioned ts) sts ->
  forall t, In t ts -> In (src t) sts /\ In (dst t) sts.
Proof.
  intros [_ I] t It. split; apply I, in_or_app; [left|right]; apply in_map, It.
Qed.
Lemma described_unique {V} (val : Z * Z * V -> R) ts sts D E a b :
  described val ts sts D -> described val ts sts E -> (a < length sts)%nat -> (b < length sts)%nat -> D a b = E a b.
Proof. intros H1 H2 La Lb. eapply last_value_unique; [apply H1|apply H2]; assumption. Qed.

Lemma rsum_Sum (l : list R) : rsum l = Sum (length l) (vecR l).
Proof.
  induction l as [|x l IH] using rev_ind; [reflexivity|].
  rewrite app_length, Nat.add_1_r. unfold Sum. rewrite seq_S, sumL_app, rsum_app, IH. unfold Sum. f_equal.
  - apply sumL_ext. intros i I. apply in_seq in I. unfold vecR. rewrite app_nth1 by lia. reflexivity.
  - cbn. unfold vecR. rewrite app_nth2, Nat.sub_diag by lia. reflexivity.
Qed.

Lemma with_init_nth n m row a : rect n n m -> length row = S n ->
  nth a (with_init m row) [] = if (a <? n)%nat then nth a m [] ++ [0] else if (a =? n)%nat then row else [].
Proof.
  intros [L C] LR. unfold with_init. destruct (Nat.ltb_spec a n).
  - rewrite app_nth1 by (rewrite map_length; lia).
    set (f := fun r => _). rewrite (nth_indep _ [] (f [])) by (rewrite map_length; lia). rewrite map_nth. reflexivity.
  - rewrite app_nth2 by (rewrite map_length; lia). rewrite map_length, L. destruct (Nat.eqb_spec a n).
    + subst. rewrite Nat.sub_diag. reflexivity.
    + destruct (a - n)%nat as [|[|k]] eqn:E; try lia; reflexivity.
Qed.
Lemma with_init_rows n m row (D : nat -> nat -> R) : rect n n m -> length row = S n ->
  (forall a b, (a < n)%nat -> (b < n)%nat -> matR m a b = D a b) ->
  ((forall r, In r (with_init m row) -> row_ok (rsum r)) <-> (forall a, (a < n)%nat -> row_ok (Sum n (D a))) /\ row_ok (rsum row)).
Proof.
  intros [L C] LR G.
  assert (S1 : forall a, (a < n)%nat -> rsum (nth a m [] ++ [0]) = Sum n (D a)).
  { intros a La. rewrite rsum_app, rsum_Sum, C by exact La. unfold Sum. cbn. rewrite !Rplus_0_r.
    apply sumL_ext. intros b I. apply in_seq in I. apply G; lia. }
  unfold with_init. split.
  - intros F. split.
    + intros a La. rewrite <- S1 by exact La. apply F. apply in_or_app. left.
      change (nth a m [] ++ [0]) with ((fun r => r ++ [0]) (nth a m [])). apply in_map, nth_In. lia.
    + apply F, in_or_app. right. left; reflexivity.
  - intros [F1 F2] r I. apply in_app_or in I as [I|[<-|[]]]; [|exact F2].
    apply in_map_iff in I as [r0 [<- I]]. apply (In_nth _ _ []) in I as [a [La <-]]. nR.
    rewrite S1 by lia. apply F1. lia.
Qed.

Lemma upd_sum n j : (j < n)%nat -> rsum (upd (repeat 0 n) j 1) = 1.
Proof.
  revert j; induction n as [|n IH]; intros [|j] L; cbn [repeat upd]; try lia; rewrite rsum_cons.
  - replace (rsum (repeat 0 n)) with 0; [lra|]. clear. induction n; cbn [repeat]; [reflexivity|]. rewrite rsum_cons, <- IHn. lra.
  - rewrite IH by lia. lra.
Qed.

Lemma ini_row_ok n i : ini_arg_ok n i ->
  exists row, match i with
              | IniInt z => pyset (vzeros (K:=R) (n + 1)) z n1
              | IniList l => if negb (length l =? n)%nat then Err ValueError else Ok (l ++ [n0])
              end = Ok row /\ length row = S n /\ row_ok (rsum row) /\ vecR row n = 0 /\
              forall s, (s < n)%nat -> vecR row s = ini_arg_prob i s.
Proof.
  destruct i as [z|l]; cbn [ini_arg_ok ini_arg_prob].
  - intros B. exists (upd (vzeros (n + 1)) (Z.to_nat z) 1).
    assert (LV : length (vzeros (K:=R) (n + 1)) = (n + 1)%nat) by apply repeat_length.
    split; [apply pyset_ok; rewrite LV; lia|]. split; [rewrite upd_length, LV; lia|].
    split; [apply row_ok_one, upd_sum; lia|]. unfold vecR. split.
    + rewrite upd_nth by (rewrite LV; lia). destruct (Nat.eqb_spec (Z.to_nat z) n); [lia|]. apply nth_repeat.
    + intros s Ls. rewrite upd_nth by (rewrite LV; lia).
      destruct (Nat.eqb_spec (Z.to_nat z) s); destruct (Z.eqb_spec (Z.of_nat s) z); try lia; [reflexivity|apply nth_repeat].
  - intros [L R]. rewrite L, Nat.eqb_refl. cbn [negb]. exists (l ++ [0]). split; [reflexivity|].
    split; [rewrite app_length; cbn; lia|]. split; [rewrite rsum_app; cbn; replace (rsum l + (0 + 0)) with (rsum l) by lra; exact R|].
    unfold vecR. split; [rewrite app_nth2, L, Nat.sub_diag by lia; reflexivity|]. intros s Ls. rewrite app_nth1 by lia. reflexivity.
Qed.

Lemma one_init labels n s : ~ In "init"%string labels -> length labels = n -> (s <= n)%nat ->
  (if String.eqb (nth s (labels ++ ["init"%string]) EmptyString) "init" then 1 / INR (label_count "init" (labels ++ ["init"%string])) else 0) =
  if (s =? n)%nat then 1 else 0.
Proof.
  intros NI LL Ls.
  assert (LC : label_count "init" (labels ++ ["init"%string]) = 1%nat).
  { unfold label_count. rewrite filter_app, app_length.
    replace (filter (String.eqb "init") labels) with (@nil string); [reflexivity|].
    clear -NI. induction labels as [|x l IH]; cbn [filter]; [reflexivity|].
    destruct (String.eqb_spec "init" x); [exfalso; apply NI; left; auto|]. apply IH. intros H; apply NI; right; exact H. }
  rewrite LC. cbn [INR]. destruct (Nat.eqb_spec s n).
  - subst s. rewrite app_nth2, LL, Nat.sub_diag by lia. cbn. lra.
  - rewrite app_nth1 by lia. destruct (String.eqb_spec (nth s labels EmptyString) "init"); [|reflexivity].
    exfalso. apply NI. rewrite <- e. apply nth_In. lia.
Qed.

(** C19: the chain built by createMC.  [sts] are the ids used in the
    transitions, in increasing order; the a-th id becomes state [a]. *)
Theorem C19_createMC : forall (ts : list (Z * Z * R)) labels i name sts D,
  ids_of (mentioned ts) sts -> described snd ts sts D ->
  length labels = length sts -> ~ In "init"%string labels -> ini_arg_ok (length sts) i ->
  (forall a, (a < length sts)%nat -> row_ok (Sum (length sts) (D a))) ->
  let n := length sts in
  exists m, fst (createMC ts labels i name) = Ok m /\
    mc_n m = (n + 1)%nat /\ shape (n + 1) (mc_mat m) /\ mc_lab m = labels ++ ["init"%string] /\ mc_name m = name /\
    (forall a b, (a < n)%nat -> (b < n)%nat -> matR (mc_mat m) a b = D a b) /\
    (forall a, (a <= n)%nat -> matR (mc_mat m) a n = 0) /\
    (forall s, (s < n)%nat -> matR (mc_mat m) n s = ini_arg_prob i s) /\
    (forall s, (s <= n)%nat -> vecR (mc_ini m) s = if (s =? n)%nat then 1 else 0).
Proof.
  intros ts labels i name sts D IDS DE LL NI IA RO n.
  unfold createMC. rewrite (proj2 (memb_str_false _ _) NI).
  assert (ES : states_of ts = sts) by (apply sorted_ids; exact IDS). rewrite ES.
  destruct (Nat.ltb_spec (length labels) (length sts)); [lia|].
  destruct (fill_described ts sts sts (mentioned_in ts sts IDS) (proj1 IDS) eq_refl) as (m & Em & RC & DM). rewrite Em.
  cbn [fst]. destruct (ini_row_ok _ _ IA) as (row & Er & Lr & Rr & Rn & Rs). fold n in Er, Lr, Rn, Rs. fold n. rewrite Er. cbn [bind].
  set (mat := with_init m row).
  assert (LM : length mat = S n) by (unfold mat, with_init; rewrite app_length, map_length, (proj1 RC); cbn; lia).
  assert (G : forall a b, (a < n)%nat -> (b < n)%nat -> matR m a b = D a b).
  { intros a b La Lb. apply (described_unique snd ts sts); assumption. }
  assert (Iin : In "init"%string (labels ++ ["init"%string])) by (apply in_or_app; right; left; reflexivity).
  destruct (C16_MC_constructor mat (labels ++ ["init"%string]) name) as (A & B & _).
  destruct (proj2 A) as [mc E].
  { split; [exact Iin|]. split; [rewrite app_length, LM, LL; cbn; unfold n; lia|].
    apply (with_init_rows n m row D RC Lr G). split; [exact RO|exact Rr]. }
  exists mc. split; [exact E|]. destruct (B mc E) as (E1 & E2 & E3 & U1 & U2 & U3).
  unfold mc_n. rewrite E1, E2. split; [rewrite LM; lia|]. split.
  { split; [rewrite LM; lia|]. intros r Ir. unfold mat, with_init in Ir. apply in_app_or in Ir as [Ir|[<-|[]]]; [|lia].
    apply in_map_iff in Ir as [r0 [<- I0]]. apply (In_nth _ _ []) in I0 as [k [Lk <-]].
    rewrite app_length, (proj2 RC); [cbn; unfold n; lia|]. rewrite (proj1 RC) in Lk. exact Lk. }
  split; [reflexivity|]. split; [exact E3|].
  assert (NTH : forall a, nth a mat [] = if (a <? n)%nat then nth a m [] ++ [0] else if (a =? n)%nat then row else []).
  { intros a. apply with_init_nth; assumption. }
  split; [|split; [|split]].
  - intros a b La Lb. unfold matR. rewrite NTH. destruct (Nat.ltb_spec a n); [|lia].
    rewrite app_nth1 by (rewrite (proj2 RC) by exact La; exact Lb). apply G; assumption.
  - intros a La. unfold matR. rewrite NTH. destruct (Nat.ltb_spec a n).
    + rewrite app_nth2; rewrite (proj2 RC) by assumption; [|unfold n; lia]. fold n. rewrite Nat.sub_diag. reflexivity.
    + destruct (Nat.eqb_spec a n); [exact Rn|lia].
  - intros s Ls. unfold matR. rewrite NTH. destruct (Nat.ltb_spec n n); [lia|]. rewrite Nat.eqb_refl. apply Rs, Ls.
  - intros s Ls. rewrite U3 by (rewrite app_length; cbn; unfold n in *; lia).
    apply one_init; [exact NI|lia|exact Ls].
Qed.
Print Assumptions C19_createMC.

(** When the ids are 0..n-1 they are kept. *)
Theorem C19_createMC_ids : forall (ts : list (Z * Z * R)) n,
  (forall z, In z (mentioned ts) <-> (0 <= z < Z.of_nat n)%Z) ->
  ids_of (mentioned ts) (map Z.of_nat (seq 0 n)).
Proof.
  intros ts n H. split.
  - assert (G : forall a k, StronglySorted Z.lt (map Z.of_nat (seq a k))).
    { intros a k; revert a; induction k as [|k IH]; intros a; cbn; constructor; [apply IH|].
      rewrite Forall_forall. intros z I. apply in_map_iff in I as [b [<- I]]. apply in_seq in I. lia. }
    apply G.
  - intros z. rewrite H, in_map_iff. split.
    + intros [b [<- I]]. apply in_seq in I. lia.
    + intros B. exists (Z.to_nat z). split; [lia|]. apply in_seq. lia.
Qed.
Print Assumptions C19_createMC_ids.

(** C20: rejections. *)
Theorem C20_createMC_rejects : forall (ts : list (Z * Z * R)) labels i name sts D,
  ids_of (mentioned ts) sts -> described snd ts sts D ->
  (In "init"%string labels -> fst (createMC ts labels i name) = Err SyntaxError) /\
  (~ In "init"%string labels ->
     ((length labels < length sts)%nat -> fst (createMC ts labels i name) = Err ValueError) /\
     ((length sts < length labels)%nat -> ini_arg_ok (length sts) i -> fst (createMC ts labels i name) = Err ValueError) /\
     ((length sts <= length labels)%nat ->
        (exists a, (a < length sts)%nat /\ ~ row_ok (Sum (length sts) (D a))) -> ini_arg_ok (length sts) i ->
        fst (createMC ts labels i name) = Err ValueError) /\
     ((length sts <= length labels)%nat ->
        (forall l, i = IniList l -> length l <> length sts -> fst (createMC ts labels i name) = Err ValueError) /\
        (forall z, i = IniInt z -> (z < - Z.of_nat (length sts + 1) \/ Z.of_nat (length sts + 1) <= z)%Z ->
           fst (createMC ts labels i name) = Err IndexError))).
Proof.
  intros ts labels i name sts D IDS DE. unfold createMC. split.
  { intros I. apply memb_str in I. rewrite I. reflexivity. }
  intros NI. rewrite (proj2 (memb_str_false _ _) NI).
  assert (ES : states_of ts = sts) by (apply sorted_ids; exact IDS). rewrite ES.
  destruct (fill_described ts sts sts (mentioned_in ts sts IDS) (proj1 IDS) eq_refl) as (m & Em & RC & DM). rewrite Em.
  assert (LM : forall row, length (with_init m row) = S (length sts)).
  { intros row. unfold with_init. rewrite app_length, map_length, (proj1 RC). cbn. lia. }
  assert (ERR : forall row, (length sts <= length labels)%nat ->
    (~ (length (labels ++ ["init"%string]) = length (with_init m row) /\ forall r, In r (with_init m row) -> row_ok (rsum r))) ->
    MC_new (with_init m row) (labels ++ ["init"%string]) name = Err ValueError).
  { intros row _ N. destruct (C16_MC_constructor (with_init m row) (labels ++ ["init"%string]) name) as (A & _ & C).
    destruct (MC_new (with_init m row) (labels ++ ["init"%string]) name) as [x|e] eqn:E; [|rewrite (C e eq_refl); reflexivity].
    exfalso. apply N. apply A. eauto. }
  split; [|split; [|split]].
  - intros L. destruct (Nat.ltb_spec (length labels) (length sts)); [reflexivity|lia].
  - intros L IA. destruct (Nat.ltb_spec (length labels) (length sts)); [lia|]. cbn [fst].
    destruct (ini_row_ok _ _ IA) as (row & Er & Lr & _). rewrite Er. cbn [bind]. apply ERR; [lia|].
    intros [X _]. rewrite LM, app_length in X. cbn in X. lia.
  - intros L (a & La & NR) IA. destruct (Nat.ltb_spec (length labels) (length sts)); [lia|]. cbn [fst].
    destruct (ini_row_ok _ _ IA) as (row & Er & Lr & _). rewrite Er. cbn [bind]. apply ERR; [lia|].
    intros [_ X]. apply (with_init_rows (length sts) m row D RC Lr) in X.
    + apply NR, X, La.
    + intros b c Hb Hc. apply (described_unique snd ts sts); assumption.
  - intros L. destruct (Nat.ltb_spec (length labels) (length sts)); [lia|]. cbn [fst]. split.
    + intros l -> NL. destruct (Nat.eqb_spec (length l) (length sts)); [contradiction|reflexivity].
    + intros z -> B. rewrite pyset_err by (unfold vzeros; rewrite repeat_length; exact B). reflexivity.
Qed.
Print Assumptions C20_createMC_rejects.

(** The ids are renumbered, but an initial state given as an int is not: with the
    ids 1 and 2, [initial_state=1] starts in the state described as 2. *)
Definition ex20 : list (Z * Z * R) := [(1%Z, 2%Z, 1); (2%Z, 1%Z, 1)].
Lemma ex20_ids : ids_of (mentioned ex20) [1; 2]%Z.
Proof.
  split; [repeat constructor|]. cbn. intros z. tauto.
Qed.
Lemma ex20_described : described snd ex20 [1; 2]%Z (fun a b => if (a =? b)%nat then 0 else 1).
Proof.
  intros [|[|a]] [|[|b]] La Lb; cbn in La, Lb; try lia; cbn.
  - right. split; [|reflexivity]. intros t [<-|[<-|[]]]; cbn; lia.
  - left. exists [], (1%Z, 2%Z, 1), [(2%Z, 1%Z, 1)]. repeat split. intros u [<-|[]]; cbn; lia.
  - left. exists [(1%Z, 2%Z, 1)], (2%Z, 1%Z, 1), []. repeat split. intros u [].
  - right. split; [|reflexivity]. intros t [<-|[<-|[]]]; cbn; lia.
Qed.
Theorem C20_initial_id_refuted : exists (ts : list (Z * Z * R)) labels m,
  ids_of (mentioned ts) [1; 2]%Z /\
  fst (createMC ts labels (IniInt 1) EmptyString) = Ok m /\
  (* the state for id 1 is state 0, and the initial state moves to state 1 *)
  matR (mc_mat m) 2 0 = 0 /\ matR (mc_mat m) 2 1 = 1.
Proof.
  exists ex20, ["a"; "b"]%string.
  destruct (C19_createMC ex20 ["a"; "b"]%string (IniInt 1) EmptyString [1; 2]%Z _ ex20_ids ex20_described)
    as (m & E & _ & _ & _ & _ & _ & _ & I & _).
  - reflexivity.
  - intros [X|[X|[]]]; discriminate.
  - cbn. lia.
  - intros [|[|a]] L; cbn in L; try lia; apply row_ok_one; cbn; lra.
  - exists m. split; [exact ex20_ids|]. split; [exact E|]. cbn in I. split; [apply (I 0%nat); lia|apply (I 1%nat); lia].
Qed.
Print Assumptions C20_initial_id_refuted.

(** An int initial_state just outside the states (n, or -1) is accepted: the
    initial state then only loops on itself and no described state is ever
    reached. *)
Theorem C20_initial_out_of_range_refuted : forall (ts : list (Z * Z * R)) labels name sts D,
  ids_of (mentioned ts) sts -> described snd ts sts D ->
  length labels = length sts -> ~ In "init"%string labels ->
  (forall a, (a < length sts)%nat -> row_ok (Sum (length sts) (D a))) ->
  exists m, fst (createMC ts labels (IniInt (Z.of_nat (length sts))) name) = Ok m /\
    matR (mc_mat m) (length sts) (length sts) = 1 /\
    forall s, (s < length sts)%nat -> matR (mc_mat m) (length sts) s = 0.
Proof.
  intros ts labels name sts D IDS DE LL NI RO. set (n := length sts) in *.
  unfold createMC. rewrite (proj2 (memb_str_false _ _) NI).
  assert (ES : states_of ts = sts) by (apply sorted_ids; exact IDS). rewrite ES. fold n.
  destruct (Nat.ltb_spec (length labels) n); [lia|].
  destruct (fill_described ts sts sts (mentioned_in ts sts IDS) (proj1 IDS) eq_refl) as (m & Em & RC & DM).
  fold n in Em, RC. rewrite Em. cbn [fst].
  assert (LV : length (vzeros (K:=R) (n + 1)) = (n + 1)%nat) by apply repeat_length.
  rewrite pyset_ok by (rewrite LV; lia). cbn [bind]. rewrite Nat2Z.id.
  set (row := upd (vzeros (n + 1)) n n1). assert (Lr : length row = S n) by (unfold row; rewrite upd_length, LV; lia).
  destruct (C16_MC_constructor (with_init m row) (labels ++ ["init"%string]) name) as (A & B & _).
  destruct (proj2 A) as [mc E].
  { split; [apply in_or_app; right; left; reflexivity|]. split.
    - unfold with_init. rewrite !app_length, map_length, (proj1 RC), LL. reflexivity.
    - apply (with_init_rows n m row D RC Lr).
      + intros a b La Lb. apply (described_unique snd ts sts); assumption.
      + split; [exact RO|]. apply row_ok_one. apply upd_sum; lia. }
  exists mc. split; [exact E|]. destruct (B mc E) as (-> & _). unfold matR.
  rewrite (with_init_nth n m row n RC Lr). destruct (Nat.ltb_spec n n); [lia|]. rewrite Nat.eqb_refl.
  unfold row. split; [rewrite upd_nth by (rewrite LV; lia); rewrite Nat.eqb_refl; reflexivity|].
  intros s Ls. rewrite upd_nth by (rewrite LV; lia). destruct (Nat.eqb_spec n s); [lia|]. apply nth_repeat.
Qed.
Print Assumptions C20_initial_out_of_range_refuted.

Example C19_C20_instance : exists m,
  fst (createMC ex20 ["a"; "b"]%string (IniList [1/2; 1/2]) "x") = Ok m /\ matR (mc_mat m) 0 1 = 1 /\ matR (mc_mat m) 2 0 = 1/2.
Proof.
  destruct (C19_createMC ex20 ["a"; "b"]%string (IniList [1/2; 1/2]) "x" [1; 2]%Z _ ex20_ids ex20_described)
    as (m & E & _ & _ & _ & _ & A & _ & I & _).
  - reflexivity.
  - intros [X|[X|[]]]; discriminate.
  - cbn. split; [reflexivity|]. apply row_ok_one. lra.
  - intros [|[|a]] L; cbn in L; try lia; apply row_ok_one; cbn; lra.
  - exists m. split; [exact E|]. cbn in A, I. split; [apply (A 0%nat 1%nat); lia|apply (I 0%nat); lia].
Qed.

(** ** C21: the create functions append 'init' to the list of labels given by
    the user, so calling them again with the same list fails. *)
Theorem C21_create_twice_refuted : forall (ts : list (Z * Z * R)) (tm : list (Z * string * Z * R)) labels i name sync,
  (isOk (fst (createMC ts labels i name)) = true ->
     fst (createMC ts (snd (createMC ts labels i name)) i name) = Err SyntaxError) /\
  (isOk (fst (createCTMC ts labels i name sync)) = true ->
     fst (createCTMC ts (snd (createCTMC ts labels i name sync)) i name sync) = Err SyntaxError) /\
  (isOk (fst (createMDP tm labels i name)) = true ->
     fst (createMDP tm (snd (createMDP tm labels i name)) i name) = Err SyntaxError).
Proof.
  intros ts tm labels i name sync.
  assert (M : memb String.eqb "init"%string (labels ++ ["init"%string]) = true)
    by (apply memb_str, in_or_app; right; left; reflexivity).
  split; [|split].
  - unfold createMC at 1 3. destruct (memb String.eqb "init"%string labels); [discriminate|].
    destruct (Nat.ltb _ _); [discriminate|]. destruct (fill _ ts _); [|discriminate].
    intros _. cbn [snd]. unfold createMC. rewrite M. reflexivity.
  - unfold createCTMC at 1 3. destruct (memb String.eqb "init"%string labels); [discriminate|].
    destruct (Nat.ltb _ _); [discriminate|]. destruct (fill _ ts _); [|discriminate].
    intros _. cbn [snd]. unfold createCTMC. rewrite M. reflexivity.
  - unfold createMDP at 1 3. destruct (memb String.eqb "init"%string labels); [discriminate|].
    destruct (Nat.ltb _ _); [discriminate|]. destruct (fill_mdp _ _ tm _); [|discriminate].
    intros _. cbn [snd]. unfold createMDP. rewrite M. reflexivity.
Qed.
Print Assumptions C21_create_twice_refuted.

(** createHMM has no such effect: its result only depends on its arguments (it is
    a function of them in the model), up to the order of the alphabet. *)

(** ** C68: updateLabelling *)


(** With one label per state and some state labelled 'init', the labels are
    replaced; one label short, 'init' is added for the last state; otherwise
    nothing changes.  (Missing for a full proof of C68: see the refutations
    below, on the initial distribution and on lists of other lengths.) *)
Theorem C68_updateLabelling_partial : forall (m : mc R) new,
  (0 < mc_n m)%nat ->
  let m' := fst (MC_updateLabelling m new) in
  mc_mat m' = mc_mat m /\ mc_name m' = mc_name m /\
  (length new = mc_n m -> In "init"%string new -> mc_lab m' = new) /\
  (length new = mc_n m -> ~ In "init"%string new -> mc_lab m' = mc_lab m) /\
  (S (length new) = mc_n m -> mc_lab m' = new ++ ["init"%string]).
Proof.
  intros m new P m'. unfold m', MC_updateLabelling, updateLabelling. clear m'.
  split; [destruct (memb _ _ _); reflexivity|]. split; [destruct (memb _ _ _); reflexivity|]. split; [|split].
  - intros L I. destruct (Nat.eqb_spec (length new) (mc_n m - 1)); [lia|]. apply memb_str in I. rewrite I. reflexivity.
  - intros L N. destruct (Nat.eqb_spec (length new) (mc_n m - 1)); [lia|]. rewrite (proj2 (memb_str_false _ _) N). reflexivity.
  - intros L. destruct (Nat.eqb_spec (length new) (mc_n m - 1)); [|lia].
    rewrite (proj2 (memb_str _ (new ++ ["init"%string]))) by (apply in_or_app; right; left; reflexivity). reflexivity.
Qed.
Print Assumptions C68_updateLabelling_partial.

(** The initial distribution is not recomputed: whenever the states labelled
    'init' change, the model no longer starts in a state labelled 'init', for a
    deterministic start. *)
Theorem C68_initial_stale_refuted : forall (m : mc R) new s t,
  length new = mc_n m -> (s < mc_n m)%nat -> (t < mc_n m)%nat -> s <> t -> vecR (mc_ini m) s = 1 ->
  nth t new EmptyString = "init"%string -> nth s new EmptyString <> "init"%string ->
  let m' := fst (MC_updateLabelling m new) in
  vecR (mc_ini m') s = 1 /\ nth s (mc_lab m') EmptyString <> "init"%string.
Proof.
  intros m new s t L Ls Lt N V It Is m'.
  assert (I : In "init"%string new) by (rewrite <- It; apply nth_In; lia).
  destruct (C68_updateLabelling_partial m new ltac:(lia)) as (_ & _ & E & _). fold m' in E.
  split; [|rewrite (E L I); exact Is].
  unfold m', MC_updateLabelling. destruct (updateLabelling _ _ _). exact V.
Qed.
Print Assumptions C68_initial_stale_refuted.

(** The length is not checked: a longer list is stored. *)
Theorem C68_length_refuted : forall (m : mc R) new, (mc_n m < length new)%nat -> In "init"%string new ->
  mc_lab (fst (MC_updateLabelling m new)) = new /\ (mc_n m < length (mc_lab (fst (MC_updateLabelling m new))))%nat.
Proof.
  intros m new L I. unfold MC_updateLabelling, updateLabelling.
  destruct (Nat.eqb_spec (length new) (mc_n m - 1)); [lia|]. apply memb_str in I. rewrite I. split; [reflexivity|exact L].
Qed.
Print Assumptions C68_length_refuted.

Example C68_instance :
  let m := mkMC [[0; 1]; [1; 0]] ["a"; "init"]%string [0; 1] "x" in
  mc_lab (fst (MC_updateLabelling m ["init"; "b"]%string)) = ["init"; "b"]%string /\
  mc_lab (fst (MC_updateLabelling m ["c"]%string)) = ["c"; "init"]%string /\
  mc_lab (fst (MC_updateLabelling m ["c"; "d"]%string)) = ["a"; "init"]%string.
Proof. repeat split. Qed.

(** ** C70: createHMM, createCTMC, createMDP *)

Lemma fill_out_gfill states alphabet es m :
  fill_out (K:=R) states alphabet es m =
  gfill Z.eqb String.eqb (fun e => fst (fst e)) (fun e => snd (fst e)) snd states alphabet es m.
Proof.
  unfold fill_out, gfill. revert m; induction es as [|[[s o] p] es IH]; intros m; [reflexivity|]. cbn [mfold fst snd].
  destruct (index_err Z.eqb s states) as [i|]; cbn [bind]; [|reflexivity].
  destruct (index_err String.eqb o alphabet) as [j|]; cbn [bind]; [|reflexivity]. apply IH.
Qed.

(** [E a k] is the last probability given for emitting the k-th symbol in the
    a-th state. *)
Definition emits (es : list (Z * string * R)) (sts : list Z) (alphabet : list string) (E : nat -> nat -> R) : Prop :=
  forall a k, (a < length sts)%nat -> (k < length alphabet)%nat ->
    last_value (fun e => fst (fst e) = nth a sts 0%Z /\ snd (fst e) = nth k alphabet EmptyString) snd es (E a k).

Lemma rect_rows n k m (D : nat -> nat -> R) : rect n k m -> (forall a b, (a < n)%nat -> (b < k)%nat -> matR m a b = D a b) ->
  forall a, (a < n)%nat -> rsum (nth a m []) = Sum k (D a).
Proof.
  intros [L C] G a La. rewrite rsum_Sum, C by exact La. apply sumL_ext. intros b I. apply in_seq in I. apply G; lia.
Qed.

Theorem C70_createHMM : forall ts es i name alphabet sts D E,
  ids_of (mentioned ts) sts -> described snd ts sts D ->
  NoDup alphabet -> (forall o, In o alphabet <-> exists e, In e es /\ snd (fst e) = o) ->
  emits es sts alphabet E ->
  let n := length sts in
  ((exists e, In e es /\ ~ In (fst (fst e)) sts) -> createHMM (K:=R) ts es i name alphabet = Err ValueError) /\
  ((forall e, In e es -> In (fst (fst e)) sts) ->
     ((exists m, createHMM ts es i name alphabet = Ok m) <->
        ini_ok n i /\ (forall a, (a < n)%nat -> row_ok (Sum n (D a)) /\ row_ok (Sum (length alphabet) (E a)))) /\
     (forall m, createHMM ts es i name alphabet = Ok m ->
        hmm_n m = n /\ hmm_alph m = alphabet /\ hmm_name m = name /\ ini_vec n i (hmm_ini m) /\
        rect n n (hmm_mat m) /\ rect n (length alphabet) (hmm_out m) /\
        (forall a b, (a < n)%nat -> (b < n)%nat -> matR (hmm_mat m) a b = D a b) /\
        (forall a k, (a < n)%nat -> (k < length alphabet)%nat -> matR (hmm_out m) a k = E a k))).
Proof.
  intros ts es i name alphabet sts D E IDS DE ND AL EM n.
  pose proof (SSorted_NoDup _ (proj1 IDS)) as NS.
  assert (ES : states_of ts = sts) by (apply sorted_ids; exact IDS).
  unfold createHMM. rewrite ES.
  destruct (fill_described ts sts sts (mentioned_in ts sts IDS) (proj1 IDS) eq_refl) as (m & Em & RC & DM). rewrite Em. cbn [bind].
  rewrite fill_out_gfill. split.
  - intros (e & Ie & Ne).
    assert (X : forall es m0, In e es -> (forall x, In x es -> In (snd (fst x)) alphabet) ->
       gfill (A:=Z) (B:=string) Z.eqb String.eqb (fun e : Z * string * R => fst (fst e)) (fun e => snd (fst e)) snd sts alphabet es m0 = Err ValueError).
    { clear -Ne. intros es; induction es as [|x es IH]; intros m0 I A; [destruct I|]. unfold gfill. cbn [mfold].
      unfold index_err at 1. destruct (index_of Z.eqb (fst (fst x)) sts) as [a|] eqn:Ea; cbn [bind].
      - assert (Ix : In (snd (fst x)) alphabet) by (apply A; left; reflexivity).
        destruct (index_of_In String.eqb String.eqb_eq _ _ Ix) as [b Eb]. unfold index_err at 1. rewrite Eb. cbn [bind].
        apply IH; [|intros y Iy; apply A; right; exact Iy]. destruct I as [<-|I]; [|exact I]. exfalso. apply Ne.
        apply (index_of_Some Z.eqb Z.eqb_eq) in Ea. eapply nth_error_In, Ea.
      - reflexivity. }
    rewrite X; [reflexivity|exact Ie|]. intros x Ix. apply AL. eauto.
  - intros IE.
    destruct (gfill_ok Z.eqb String.eqb Z.eqb_eq String.eqb_eq (fun e : Z * string * R => fst (fst e)) (fun e => snd (fst e)) snd sts alphabet NS ND 0%Z EmptyString es)
      as (o & Eo & RO & GO).
    { intros e Ie. split; [apply IE, Ie|apply AL; eauto]. }
    rewrite Eo. cbn [bind].
    assert (GM : forall a b, (a < n)%nat -> (b < n)%nat -> matR m a b = D a b).
    { intros a b La Lb. apply (described_unique snd ts sts); assumption. }
    assert (GE : forall a k, (a < n)%nat -> (k < length alphabet)%nat -> matR o a k = E a k).
    { intros a k La Lk. eapply last_value_unique; [apply GO|apply EM]; assumption. }
    destruct (C16_HMM_constructor m o alphabet i name) as (A & B & _).
    assert (Lm : length m = n) by apply RC. assert (Lo : length o = n) by apply RO.
    rewrite Lm in A. split.
    + rewrite A. split.
      * intros (I1 & R1 & _ & R2). split; [exact I1|]. intros a La. split.
        -- rewrite <- (rect_rows _ _ _ _ RC GM) by exact La. apply R1, nth_In. lia.
        -- rewrite <- (rect_rows _ _ _ _ RO GE) by exact La. apply R2. exact La.
      * intros (I1 & F). split; [exact I1|]. split; [|split; [lia|]].
        -- intros r Ir. apply (In_nth _ _ []) in Ir as (a & La & <-). rewrite (rect_rows _ _ _ _ RC GM) by (fold n; lia). apply F. lia.
        -- intros a La. rewrite (rect_rows _ _ _ _ RO GE) by exact La. apply F. lia.
    + intros h Eh. destruct (B h Eh) as (E1 & E2 & E3 & E4 & E5). rewrite Lm in E5.
      unfold hmm_n. rewrite E1, E2. repeat (split; [first [assumption|reflexivity]|]). exact GE.
Qed.
Print Assumptions C70_createHMM.

Theorem C70_createCTMC : forall (ts : list (Z * Z * R)) labels i name sync sts D,
  ids_of (mentioned ts ++ map fst sync ++ map snd sync) sts -> described snd ts sts D ->
  length labels = length sts -> ~ In "init"%string labels ->
  let n := length sts in
  match i with IniInt z => (0 <= z < Z.of_nat n)%Z | IniList l => length l = n end ->
  exists m, fst (createCTMC ts labels i name sync) = Ok m /\
    ct_n m = (n + 1)%nat /\ shape (n + 1) (ct_mat m) /\ ct_lab m = labels ++ ["init"%string] /\ ct_name m = name /\
    (forall a b, (a < n)%nat -> (b < n)%nat -> matR (ct_mat m) a b = D a b) /\
    (forall a, (a <= n)%nat -> matR (ct_mat m) a n = 0) /\
    (forall s, (s < n)%nat -> matR (ct_mat m) n s = ini_arg_prob i s) /\
    (forall s, (s <= n)%nat -> vecR (ct_ini m) s = if (s =? n)%nat then 1 else 0).
Proof.
  intros ts labels i name sync sts D IDS DE LL NI n IA.
  unfold createCTMC. rewrite (proj2 (memb_str_false _ _) NI).
  assert (ES : sorted_set Z.eqb Z.leb (map (fun t => fst (fst t)) ts ++ map (fun t => snd (fst t)) ts ++ map fst sync ++ map snd sync) = sts).
  { apply sorted_ids. unfold mentioned in IDS. rewrite <- !app_assoc in IDS. exact IDS. }
  rewrite ES. fold n. destruct (Nat.ltb_spec (length labels) n); [unfold n in *; lia|].
  destruct (fill_described ts sts sts) as (m & Em & RC & DM); [|apply IDS|reflexivity|].
  { intros t It. destruct IDS as [_ I]. split; apply I, in_or_app; left; apply in_or_app; [left|right]; apply in_map, It. }
  fold n in Em, RC. rewrite Em. cbn [fst].
  assert (X : exists row, match i with
                     | IniInt z => pyset (vzeros (K:=R) (n + 1)) z n1
                     | IniList l => assign_row (n + 1) (l ++ [n0])
                     end = Ok row /\ length row = S n /\ vecR row n = 0 /\ forall s, (s < n)%nat -> vecR row s = ini_arg_prob i s).
  { destruct i as [z|l].
    - destruct (ini_row_ok n (IniInt z) IA) as (row & E & L & _ & R1 & R2). eauto.
    - exists (l ++ [0]). unfold assign_row. rewrite app_length, IA. cbn [length]. rewrite Nat.eqb_refl. split; [reflexivity|].
      split; [rewrite app_length, IA; cbn; lia|]. unfold vecR. split; [rewrite app_nth2, IA, Nat.sub_diag by lia; reflexivity|].
      intros s Ls. rewrite app_nth1 by lia. reflexivity. }
  destruct X as (row & Er & Lr & Rn & Rs). rewrite Er. cbn [bind].
  set (mat := with_init m row).
  assert (LM : length mat = S n) by (unfold mat, with_init; rewrite app_length, map_length, (proj1 RC); cbn; lia).
  destruct (C16_CTMC_constructor mat (labels ++ ["init"%string]) name) as (A & B & _).
  destruct (proj2 A) as [mc E].
  { split; [apply in_or_app; right; left; reflexivity|]. rewrite app_length, LM, LL; cbn; unfold n; lia. }
  exists mc. split; [exact E|]. destruct (B mc E) as (E1 & E2 & E3 & U1 & U2 & U3).
  unfold ct_n. rewrite E1, E2. split; [rewrite LM; lia|]. split.
  { split; [rewrite LM; lia|]. intros r Ir. unfold mat, with_init in Ir. apply in_app_or in Ir as [Ir|[<-|[]]]; [|lia].
    apply in_map_iff in Ir as [r0 [<- I0]]. apply (In_nth _ _ []) in I0 as [k [Lk <-]].
    rewrite app_length, (proj2 RC); [cbn; lia|]. rewrite (proj1 RC) in Lk. exact Lk. }
  split; [reflexivity|]. split; [exact E3|].
  assert (NTH : forall a, nth a mat [] = if (a <? n)%nat then nth a m [] ++ [0] else if (a =? n)%nat then row else []).
  { intros a. apply with_init_nth; assumption. }
  split; [|split; [|split]].
  - intros a b La Lb. unfold matR. rewrite NTH. destruct (Nat.ltb_spec a n); [|lia].
    rewrite app_nth1 by (rewrite (proj2 RC) by exact La; exact Lb). apply (described_unique snd ts sts (matR m) D); assumption.
  - intros a La. unfold matR. rewrite NTH. destruct (Nat.ltb_spec a n).
    + rewrite app_nth2; rewrite (proj2 RC) by assumption; [|lia]. rewrite Nat.sub_diag. reflexivity.
    + destruct (Nat.eqb_spec a n); [exact Rn|lia].
  - intros s Ls. unfold matR. rewrite NTH. destruct (Nat.ltb_spec n n); [lia|]. rewrite Nat.eqb_refl. apply Rs, Ls.
  - intros s Ls. rewrite U3 by (rewrite app_length; cbn; unfold n in *; lia). apply one_init; [exact NI|lia|exact Ls].
Qed.
Print Assumptions C70_createCTMC.

(** createMDP.  [D a k b]: last probability given for the k-th action (in
    alphabetical order) from the a-th to the b-th id. *)
Definition tsrc (t : Z * string * Z * R) : Z := fst (fst (fst t)).
Definition tact (t : Z * string * Z * R) : string := snd (fst (fst t)).
Definition tdst (t : Z * string * Z * R) : Z := snd (fst t).
Definition str_lt (x y : string) : Prop := String.compare x y = Lt.
Definition actions_of (ts : list (Z * string * Z * R)) (acts : list string) : Prop :=
  StronglySorted str_lt acts /\ forall a, In a acts <-> exists t, In t ts /\ tact t = a.
Definition mdp_described (ts : list (Z * string * Z * R)) (sts : list Z) (acts : list string) (D : nat -> nat -> nat -> R) : Prop :=
  forall a k b, (a < length sts)%nat -> (k < length acts)%nat -> (b < length sts)%nat ->
    last_value (fun t => tsrc t = nth a sts 0%Z /\ tact t = nth k acts EmptyString /\ tdst t = nth b sts 0%Z) snd ts (D a k b).

Lemma str_lt_trans x y z : str_lt x y -> str_lt y z -> str_lt x z.
Proof.
  unfold str_lt. revert y z; induction x as [|a x IH]; intros [|b y] [|c z]; cbn; try congruence.
  assert (CE : forall a b, Ascii.compare a b = Eq -> a = b) by (intros; apply Ascii.compare_eq_iff; assumption).
  assert (CL : forall a b, Ascii.compare a b = Lt <-> (Ascii.N_of_ascii a < Ascii.N_of_ascii b)%N) by (intros; apply N.compare_lt_iff).
  assert (CR : forall a, Ascii.compare a a = Eq) by (intros; apply N.compare_refl).
  destruct (Ascii.compare a b) eqn:E1; [apply CE in E1; subst b| |discriminate].
  - destruct (Ascii.compare a c) eqn:E2; [|reflexivity|discriminate]. apply IH.
  - intros _. destruct (Ascii.compare b c) eqn:E2; [apply CE in E2; subst c; rewrite E1; reflexivity| |discriminate].
    intros _. apply CL in E1, E2. destruct (Ascii.compare a c) eqn:E3; [|reflexivity|].
    + apply CE in E3. subst c. exact (False_ind _ (N.lt_irrefl _ (N.lt_trans _ _ _ E1 E2))).
    + rewrite (proj2 (CL a c)) in E3; [discriminate|]. exact (N.lt_trans _ _ _ E1 E2).
Qed.
Lemma str_lt_irrefl x : ~ str_lt x x.
Proof.
  unfold str_lt. induction x as [|a x IH]; cbn; [discriminate|].
  replace (Ascii.compare a a) with Eq; [exact IH|]. symmetry. apply N.compare_refl.
Qed.
Lemma sorted_actions l : StronglySorted str_lt (sorted_set String.eqb String.leb l).
Proof.
  apply (sorted_set_sorted String.eqb String.leb String.eqb_eq str_lt).
  - intros x y L N. unfold String.leb in L. unfold str_lt. destruct (String.compare x y) eqn:E; [|reflexivity|discriminate].
    exfalso. apply N, String.compare_eq_iff, E.
  - intros x y L. unfold String.leb in L. unfold str_lt. rewrite String.compare_antisym. destruct (String.compare x y); try discriminate. reflexivity.
  - apply str_lt_trans.
Qed.
Lemma actions_unique ts l m : actions_of ts l -> actions_of ts m -> l = m.
Proof.
  intros [S1 I1] [S2 I2]. assert (I : forall a, In a l <-> In a m) by (intros; rewrite I1, I2; reflexivity).
  clear I1 I2. revert m S2 I; induction S1 as [|x l S1 IH F1]; intros m S2 I.
  - destruct m as [|y m]; [reflexivity|]. exfalso. apply (I y). left; reflexivity.
  - destruct S2 as [|y m S2 F2]; [exfalso; apply (I x); left; reflexivity|].
    rewrite Forall_forall in F1, F2.
    assert (x = y).
    { destruct (proj1 (I x) (or_introl eq_refl)) as [E|J]; [congruence|].
      destruct (proj2 (I y) (or_introl eq_refl)) as [E|J']; [exact E|]. exfalso. eapply str_lt_irrefl, str_lt_trans; [apply F1, J'|apply F2, J]. }
    subst y. f_equal. apply IH; [exact S2|]. intros a. split; intros J.
    + destruct (proj1 (I a) (or_intror J)) as [<-|]; [|assumption]. exfalso. eapply str_lt_irrefl, F1, J.
    + destruct (proj2 (I a) (or_intror J)) as [<-|]; [|assumption]. exfalso. eapply str_lt_irrefl, F2, J.
Qed.

Definition rect3 (n k : nat) (m : list (list (list R))) : Prop :=
  length m = n /\ forall i, (i < n)%nat -> rect k n (nth i m []).
Lemma fill_mdp_ok sts acts (NS : NoDup sts) (NA : NoDup acts) ts :
  (forall t, In t ts -> In (tsrc t) sts /\ In (tact t) acts /\ In (tdst t) sts) ->
  exists m, fill_mdp (K:=R) sts acts ts (repeat (zeros2 (length acts) (length sts)) (length sts)) = Ok m /\
    rect3 (length sts) (length acts) m /\ mdp_described ts sts acts (fun a k b => matR (nth a m []) k b).
Proof.
  set (n := length sts). set (q := length acts).
  induction ts as [|t ts IH] using rev_ind; intros I.
  - exists (repeat (zeros2 q n) n). split; [reflexivity|].
    assert (NT : forall i, (i < n)%nat -> nth i (repeat (zeros2 (K:=R) q n) n) [] = zeros2 q n).
    { intros i Li. rewrite (nth_indep _ [] (zeros2 q n)) by (rewrite repeat_length; exact Li). apply nth_repeat. }
    split.
    + split; [apply repeat_length|]. intros i Li. rewrite NT by exact Li. apply zeros2_rect.
    + intros a k b La Lk Lb. fold n in La, Lb. right. split; [intros t []|]. rewrite NT by exact La. apply zeros2_get.
  - destruct IH as (m & E & RC & G). { intros u Iu. apply I, in_or_app. left; exact Iu. }
    destruct (I t) as (Ia & Ik & Ib); [apply in_or_app; right; left; reflexivity|].
    destruct (index_of_In Z.eqb Z.eqb_eq _ _ Ia) as [i Ei]. destruct (index_of_In String.eqb String.eqb_eq _ _ Ik) as [c Ec].
    destruct (index_of_In Z.eqb Z.eqb_eq _ _ Ib) as [j Ej].
    pose proof (index_of_Some Z.eqb Z.eqb_eq _ _ _ Ei) as Ni. pose proof (index_of_Some String.eqb String.eqb_eq _ _ _ Ec) as Nc.
    pose proof (index_of_Some Z.eqb Z.eqb_eq _ _ _ Ej) as Nj.
    assert (Li : (i < n)%nat) by (apply nth_error_Some; congruence).
    assert (Lc : (c < q)%nat) by (apply nth_error_Some; congruence).
    assert (Lj : (j < n)%nat) by (apply nth_error_Some; congruence).
    destruct RC as [LM RC].
    exists (upd m i (mat_set (nth i m []) c j (snd t))). split.
    { unfold fill_mdp in *. rewrite mfold_app, E. destruct t as [[[s a] s'] p]. cbn [mfold bind].
      change (tsrc (s, a, s', p)) with s in Ei. change (tact (s, a, s', p)) with a in Ec. change (tdst (s, a, s', p)) with s' in Ej.
      unfold index_err. rewrite Ei, Ec, Ej. reflexivity. }
    split.
    { split; [rewrite upd_length; exact LM|]. intros k Hk. rewrite upd_nth by lia.
      destruct (Nat.eqb_spec i k); [subst; apply mat_set_rect|]; apply RC; assumption. }
    intros a k b La Lk Lb. fold n in La, Lb. fold q in Lk. rewrite upd_nth by lia.
    apply nth_error_nth with (d := 0%Z) in Ni. apply nth_error_nth with (d := EmptyString) in Nc. apply nth_error_nth with (d := 0%Z) in Nj.
    destruct (Nat.eqb_spec i a) as [<-|Na].
    + rewrite (mat_set_get _ _ _ _ _ _ _ _ (RC i Li) Lc Lj).
      destruct (Nat.eqb_spec c k) as [<-|Nk]; [destruct (Nat.eqb_spec j b) as [<-|Nb]|]; cbn [andb].
      * apply (proj1 (last_value_snoc _ _ _ _ 0)). auto.
      * apply (proj2 (last_value_snoc _ _ _ _ _)); [|apply G; assumption]. intros (_ & _ & X). apply Nb. apply (NoDup_nth sts 0%Z); [exact NS|exact Lj|exact Lb|congruence].
      * apply (proj2 (last_value_snoc _ _ _ _ _)); [|apply G; assumption]. intros (_ & X & _). apply Nk. apply (NoDup_nth acts EmptyString); [exact NA|exact Lc|exact Lk|congruence].
    + apply (proj2 (last_value_snoc _ _ _ _ _)); [|apply G; assumption]. intros (X & _). apply Na. apply (NoDup_nth sts 0%Z); [exact NS|exact Li|exact La|congruence].
Qed.

Lemma mmap_const {A B} (x : B) (f : A -> res B) l : (forall a, f a = Ok x) -> mmap f l = Ok (repeat x (length l)).
Proof. intros F. induction l as [|a l IH]; cbn; [reflexivity|]. rewrite F, IH. reflexivity. Qed.

Theorem C70_createMDP : forall (ts : list (Z * string * Z * R)) labels i name sts acts D,
  ids_of (map tsrc ts ++ map tdst ts) sts -> actions_of ts acts -> mdp_described ts sts acts D ->
  length labels = length sts -> ~ In "init"%string labels -> ini_arg_ok (length sts) i ->
  let n := length sts in let q := length acts in
  (forall a k, (a < n)%nat -> (k < q)%nat -> row_ok (Sum n (D a k))) ->
  exists m, fst (createMDP ts labels i name) = Ok m /\
    mdp_n m = (n + 1)%nat /\ mdp_act m = acts /\ mdp_lab m = labels ++ ["init"%string] /\ mdp_name m = name /\
    (forall s k, (s <= n)%nat -> (k < q)%nat -> length (nth s (mdp_mat m) []) = q /\ length (nth k (nth s (mdp_mat m) []) []) = S n) /\
    (forall a k b, (a < n)%nat -> (k < q)%nat -> (b < n)%nat -> matR (nth a (mdp_mat m) []) k b = D a k b) /\
    (forall a k, (a <= n)%nat -> (k < q)%nat -> matR (nth a (mdp_mat m) []) k n = 0) /\
    (forall k s, (k < q)%nat -> (s < n)%nat -> matR (nth n (mdp_mat m) []) k s = ini_arg_prob i s) /\
    (forall s, (s <= n)%nat -> vecR (mdp_ini m) s = if (s =? n)%nat then 1 else 0).
Proof.
  intros ts labels i name sts acts D IDS AC DE LL NI IA n q RO.
  unfold createMDP. rewrite (proj2 (memb_str_false _ _) NI).
  assert (ES : sorted_set Z.eqb Z.leb (map (fun t => fst (fst (fst t))) ts ++ map (fun t => snd (fst t)) ts) = sts)
    by (apply sorted_ids; exact IDS).
  assert (EA : sorted_set String.eqb String.leb (map (fun t => snd (fst (fst t))) ts) = acts).
  { apply (actions_unique ts); [|exact AC]. split; [apply sorted_actions|]. intros a. rewrite sorted_set_In by apply String.eqb_eq.
    rewrite in_map_iff. unfold tact. firstorder. }
  rewrite ES, EA. fold n q. destruct (Nat.ltb_spec (length labels) n); [unfold n in *; lia|].
  assert (NS : NoDup sts) by (apply SSorted_NoDup, IDS).
  assert (NA : NoDup acts).
  { rewrite <- EA. apply sorted_set_NoDup. apply String.eqb_eq. }
  destruct (fill_mdp_ok sts acts NS NA ts) as (m & Em & [LM RC] & DM).
  { intros t It. destruct IDS as [_ J]. split; [apply J, in_or_app; left; apply in_map, It|]. split.
    - apply (proj2 AC). eauto.
    - apply J, in_or_app; right; apply in_map, It. }
  fold n q in Em, LM, RC. rewrite Em. cbn [fst].
  destruct (ini_row_ok _ _ IA) as (row & Er & Lr & Rr & Rn & Rs). fold n in Er, Lr, Rn, Rs.
  assert (Er' : match i with
                | IniInt z => pyset (vzeros (K:=R) (n + 1)) z n1
                | IniList l => assign_row (n + 1) (l ++ [n0])
                end = Ok row).
  { destruct i as [z|l]; [exact Er|]. cbn in IA. destruct (length l =? n)%nat eqn:EL; cbn [negb] in Er; [|discriminate].
    unfold assign_row. rewrite app_length. cbn [length]. rewrite (proj1 IA). fold n. rewrite Nat.eqb_refl. exact Er. }
  rewrite (mmap_const row) by (intros _; exact Er'). rewrite seq_length. cbn [bind].
  set (mat := map (map (fun r => r ++ [n0])) m ++ [repeat row q]).
  assert (L1 : length mat = S n) by (unfold mat; rewrite app_length, map_length, LM; cbn; lia).
  assert (GM : forall a k b, (a < n)%nat -> (k < q)%nat -> (b < n)%nat -> matR (nth a m []) k b = D a k b).
  { intros a k b La Lk Lb. eapply last_value_unique; [apply (DM a k b)|apply DE]; assumption. }
  assert (NT : forall a, (a < n)%nat -> nth a mat [] = map (fun r => r ++ [0]) (nth a m [])).
  { intros a La. unfold mat. rewrite app_nth1 by (rewrite map_length; lia).
    set (f := map (fun r : list R => r ++ [0])). change (map (map (fun r => r ++ [n0])) m) with (map f m).
    rewrite (nth_indep _ [] (f [])) by (rewrite map_length; lia). apply map_nth. }
  assert (NTn : nth n mat [] = repeat row q).
  { unfold mat. rewrite app_nth2; rewrite map_length, LM; [|lia]. rewrite Nat.sub_diag. reflexivity. }
  assert (NK : forall a k, (a < n)%nat -> (k < q)%nat -> nth k (nth a mat []) [] = nth k (nth a m []) [] ++ [0]).
  { intros a k La Lk. rewrite NT by exact La. set (f := fun r : list R => r ++ [0]).
    rewrite (nth_indep _ [] (f [])) by (rewrite map_length, (proj1 (RC a La)); exact Lk). apply map_nth. }
  assert (NKn : forall k, (k < q)%nat -> nth k (nth n mat []) [] = row).
  { intros k Lk. rewrite NTn. rewrite (nth_indep _ [] row) by (rewrite repeat_length; exact Lk). apply nth_repeat. }
  assert (LQ : forall s, (s <= n)%nat -> length (nth s mat []) = q).
  { intros s Ls. destruct (Nat.eq_dec s n) as [->|]; [rewrite NTn; apply repeat_length|].
    rewrite NT by lia. rewrite map_length. apply RC. lia. }
  destruct (C16_MDP_constructor mat (labels ++ ["init"%string]) acts name) as (A & B & _).
  destruct (proj2 A) as [mm E].
  { split; [apply in_or_app; right; left; reflexivity|]. split; [rewrite app_length, L1, LL; cbn; unfold n; lia|].
    intros r Ir k Lk. apply (In_nth _ _ []) in Ir as (a & La & <-). rewrite L1 in La.
    exists (nth k (nth a mat []) []). split; [apply nth_error_nth'; rewrite LQ by lia; exact Lk|].
    destruct (Nat.eq_dec a n) as [->|N]; [rewrite NKn by exact Lk; exact Rr|]. rewrite NK by (try exact Lk; lia).
    rewrite rsum_app. cbn. rewrite !Rplus_0_r. rewrite (rect_rows _ _ _ (D a) (RC a ltac:(lia))); [apply RO; [lia|exact Lk]| |exact Lk].
    intros k' b Lk' Lb. apply GM; [lia|assumption|assumption]. }
  exists mm. split; [exact E|]. destruct (B mm E) as (E1 & E2 & E3 & E4 & U1 & U2 & U3).
  unfold mdp_n. rewrite E1, E2, E3, E4. split; [lia|]. repeat (split; [reflexivity|]).
  split; [|split; [|split; [|split]]].
  - intros s k Ls Lk. split; [apply LQ, Ls|]. destruct (Nat.eq_dec s n) as [->|N]; [rewrite NKn by exact Lk; exact Lr|].
    rewrite NK by (try exact Lk; lia). rewrite app_length, (proj2 (RC s ltac:(lia))) by exact Lk. cbn. lia.
  - intros a k b La Lk Lb. rewrite <- GM by assumption. unfold matR. rewrite NK by assumption.
    rewrite app_nth1; [reflexivity|]. rewrite (proj2 (RC a La)) by exact Lk. exact Lb.
  - intros a k La Lk. unfold matR. destruct (Nat.eq_dec a n) as [->|N]; [rewrite NKn by exact Lk; exact Rn|].
    rewrite NK by (try exact Lk; lia). rewrite app_nth2; rewrite (proj2 (RC a ltac:(lia))) by exact Lk; [|lia]. rewrite Nat.sub_diag. reflexivity.
  - intros k s Lk Ls. unfold matR. rewrite NKn by exact Lk. apply Rs, Ls.
  - intros s Ls. rewrite U3 by (rewrite app_length; cbn; unfold n in *; lia). apply one_init; [exact NI|exact LL|exact Ls].
Qed.
Print Assumptions C70_createMDP.

(** A list of the wrong length is accepted as initial_state when it is empty: the
    single zero is broadcast over the row of the initial state, which then has
    no outgoing transition (CTMC; the same holds for MDPs). *)
Theorem C70_createCTMC_broadcast_refuted : forall (ts : list (Z * Z * R)) labels name sync sts D,
  ids_of (mentioned ts ++ map fst sync ++ map snd sync) sts -> described snd ts sts D -> sts <> [] ->
  length labels = length sts -> ~ In "init"%string labels ->
  exists m, fst (createCTMC ts labels (IniList []) name sync) = Ok m /\ forall s, (s <= length sts)%nat -> matR (ct_mat m) (length sts) s = 0.
Proof.
  intros ts labels name sync sts D IDS DE NE LL NI. set (n := length sts) in *.
  unfold createCTMC. rewrite (proj2 (memb_str_false _ _) NI).
  assert (ES : sorted_set Z.eqb Z.leb (map (fun t => fst (fst t)) ts ++ map (fun t => snd (fst t)) ts ++ map fst sync ++ map snd sync) = sts).
  { apply sorted_ids. unfold mentioned in IDS. rewrite <- !app_assoc in IDS. exact IDS. }
  rewrite ES. fold n. destruct (Nat.ltb_spec (length labels) n); [lia|].
  destruct (fill_described ts sts sts) as (m & Em & RC & DM); [|apply IDS|reflexivity|].
  { intros t It. destruct IDS as [_ I]. split; apply I, in_or_app; left; apply in_or_app; [left|right]; apply in_map, It. }
  fold n in Em, RC. rewrite Em. cbn [fst].
  assert (P : n <> O) by (destruct sts; [congruence|discriminate]).
  unfold assign_row. cbn [app length]. destruct (Nat.eqb_spec 1 (n + 1)) as [?|NQ]; [lia|]. cbn [bind].
  set (row := repeat (@n0 R RNum) (n + 1)). assert (Lr : length row = S n) by (unfold row; rewrite repeat_length; lia).
  destruct (C16_CTMC_constructor (with_init m row) (labels ++ ["init"%string]) name) as (A & B & _).
  destruct (proj2 A) as [mc E].
  { split; [apply in_or_app; right; left; reflexivity|]. unfold with_init. rewrite !app_length, map_length, (proj1 RC), LL. reflexivity. }
  exists mc. split; [exact E|]. destruct (B mc E) as (-> & _). intros s Ls. unfold matR.
  rewrite (with_init_nth n m row n RC Lr). destruct (Nat.ltb_spec n n); [lia|]. rewrite Nat.eqb_refl.
  unfold row. rewrite nth_repeat. reflexivity.
Qed.
Print Assumptions C70_createCTMC_broadcast_refuted.

Example C70_instance :
  let ts := [(0%Z, "go"%string, 1%Z, 1); (1%Z, "go"%string, 0%Z, 1)] in
  exists m, fst (createMDP ts ["a"; "b"]%string (IniInt 0) "x") = Ok m /\ mdp_act m = ["go"%string] /\
            matR (nth 0 (mdp_mat m) []) 0 1 = 1.
Proof.
  intros ts.
  destruct (C70_createMDP ts ["a"; "b"]%string (IniInt 0) "x" [0; 1]%Z ["go"%string] (fun a _ b => if (a =? b)%nat then 0 else 1))
    as (m & E & _ & A & _ & _ & _ & G & _).
  - split; [repeat constructor|]. cbn. intros z; tauto.
  - split; [repeat constructor|]. intros a. cbn. split.
    + intros [<-|[]]. eexists. split; [left; reflexivity|reflexivity].
    + intros [t [[<-|[<-|[]]] <-]]; left; reflexivity.
  - intros [|[|a]] [|k] [|[|b]] La Lk Lb; cbn in La, Lk, Lb; try lia; cbn.
    + right. split; [|reflexivity]. intros t [<-|[<-|[]]] (X & _ & Y); cbn in X, Y; lia.
    + left. exists [], (0%Z, "go"%string, 1%Z, 1), [(1%Z, "go"%string, 0%Z, 1)]. repeat split. intros u [<-|[]] (X & _); cbn in X; lia.
    + left. exists [(0%Z, "go"%string, 1%Z, 1)], (1%Z, "go"%string, 0%Z, 1), []. repeat split. intros u [].
    + right. split; [|reflexivity]. intros t [<-|[<-|[]]] (X & _ & Y); cbn in X, Y; lia.
  - reflexivity.
  - intros [X|[X|[]]]; discriminate.
  - cbn. lia.
  - intros [|[|a]] k La Lk; cbn in La; try lia; apply row_ok_one; cbn; lra.
  - exists m. split; [exact E|]. split; [exact A|]. apply (G 0%nat 0%nat 1%nat); cbn; lia.
Qed.

(** ** C72: createGoHMM never succeeds *)
Theorem C72_createGoHMM_refuted : forall (ts : list (Z * Z * R)) output i name,
  createGoHMM ts output i name = Err (match output with [] => IndexError | _ => TypeError end).
Proof.
  intros ts [|o output] i name; cbn [createGoHMM]; [reflexivity|].
  destruct (ids_exist (mentioned ts)) as [sts IDS].
  assert (ES : states_of ts = sts) by (apply sorted_ids; exact IDS). rewrite ES.
  destruct (fill_described ts sts sts (mentioned_in ts sts IDS) (proj1 IDS) eq_refl) as (m & Em & _ & _). rewrite Em. reflexivity.
Qed.
Print Assumptions C72_createGoHMM_refuted.

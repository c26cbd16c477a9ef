(** Preparation of the training set (C47-C49) and CTMC.toMC (C54). *)
From Coq Require Import String ZArith QArith Reals Lra Lia Bool Arith List.
From Verif Require Import Num Py MTools MSet MModels MCtor MPrep SNum SSet SCtor LSum LSet LCtor PCtor.
Import ListNotations.
Local Open Scope nat_scope.

Section Prep.
  Context {F : Type} (eqe : pv F -> pv F -> bool) (EQ : decides_eq eqe).
  Notation ini := (@VStr F "init").

  (** The label init is the observation of some trace: at an even position in
      traces with actions or dwell times, anywhere otherwise. *)
  Definition has_init (s : tset (list (pv F))) : Prop :=
    match ty s with
    | Some 1%Z | Some 4%Z => at_even (seqs s) ini
    | Some 0%Z => exists t, In t (seqs s) /\ In ini t
    | _ => False
    end.
  Definition known_type (s : tset (list (pv F))) : Prop := ty s = Some 0%Z \/ ty s = Some 1%Z \/ ty s = Some 3%Z \/ ty s = Some 4%Z.
  (** Traces with actions have odd length. *)
  Definition odd_traces (s : tset (list (pv F))) : Prop := ty s = Some 1%Z -> forall t, In t (seqs s) -> Nat.odd (length t) = true.

  Lemma optZ_eqb_eq a b : optZ_eqb a b = true <-> a = b.
  Proof. destruct a, b; cbn; try (split; congruence). rewrite Z.eqb_eq. split; congruence. Qed.

  Lemma alphabet_spec s : known_type s -> ty s <> Some 3%Z -> odd_traces s -> exists al,
    (if optZ_eqb (ty s) (Some 1%Z) then do r <- actions_observations eqe (seqs s); Ok (snd r) else getAlphabet eqe s) = Ok al /\ (memb eqe ini al = true <-> has_init s).
  Proof.
    intros KT T3 OD. destruct KT as [T|[T|[T|T]]]; [..|congruence|]; unfold has_init; rewrite T; cbn [optZ_eqb Z.eqb].
    - destruct (getAlphabet_untimed eqe EQ s T) as (al & E & _ & A). exists al. split; [exact E|]. rewrite (memb_In eqe EQ). apply A.
    - destruct (actions_observations_exact eqe EQ (seqs s) (OD T)) as (a & o & E & _ & _ & A & O). rewrite E. cbn [bind snd]. exists o. split; [reflexivity|]. rewrite (memb_In eqe EQ). apply O.
    - destruct (getAlphabet_timed eqe EQ s T) as (al & E & _ & A). exists al. split; [exact E|]. rewrite (memb_In eqe EQ). apply A.
  Qed.

  Lemma getTrainingSet_set model s : getTrainingSet eqe model (UserSet s) =
    (if negb (optZ_eqb (ty s) (Some 3%Z)) && negb (optZ_eqb model (Some HMM_ID)) then
      do al <- (if optZ_eqb (ty s) (Some 1%Z) then do r <- actions_observations eqe (seqs s); Ok (snd r) else getAlphabet eqe s);
      let '(s', al') := if negb (memb eqe ini al) then (mkset (map (cons ini) (seqs s)) (times s) (ty s), al) else (s, remove_first eqe ini al) in
      Ok (mkPrep s' (Some al') (UserSet s'))
    else Ok (mkPrep s None (UserSet s))).
  Proof. reflexivity. Qed.
  (** What the preparation does to a Set. *)
  Lemma prepare_spec model s : known_type s -> odd_traces s ->
    exists p, getTrainingSet eqe model (UserSet s) = Ok p /\ pr_user p = UserSet (pr_set p) /\
      ((ty s = Some 3%Z \/ model = Some HMM_ID \/ has_init s) /\ pr_set p = s \/
       (ty s <> Some 3%Z /\ model <> Some HMM_ID /\ ~ has_init s) /\ pr_set p = mkset (map (cons ini) (seqs s)) (times s) (ty s)).
  Proof.
    intros KT OD. rewrite getTrainingSet_set. destruct (optZ_eqb (ty s) (Some 3%Z)) eqn:E3; cbn [negb andb].
    - apply optZ_eqb_eq in E3. eexists. split; [reflexivity|]. split; [reflexivity|]. left. auto.
    - destruct (optZ_eqb model (Some HMM_ID)) eqn:EM; cbn [negb andb].
      + apply optZ_eqb_eq in EM. eexists. split; [reflexivity|]. split; [reflexivity|]. left. auto.
      + assert (N3 : ty s <> Some 3%Z) by (intros X; apply optZ_eqb_eq in X; congruence). assert (NM : model <> Some HMM_ID) by (intros X; apply optZ_eqb_eq in X; congruence).
        destruct (alphabet_spec s KT N3 OD) as (al & -> & A). cbn [bind]. destruct (memb eqe ini al); cbn [negb].
        * eexists. split; [reflexivity|]. split; [reflexivity|]. left. split; [right; right; apply A; reflexivity|reflexivity].
        * eexists. split; [reflexivity|]. split; [reflexivity|]. right. split; [|reflexivity]. repeat split; auto. intros H. apply A in H. discriminate.
  Qed.
End Prep.

(** ** C47 *)
(** Untimed traces without actions: either some trace contains init and nothing
    changes, or init is put in front of every trace. *)
Theorem C47_untimed_partial : forall F (eqe : pv F -> pv F -> bool) model s, decides_eq eqe -> ty s = Some 0%Z ->
  exists p, getTrainingSet eqe model (UserSet s) = Ok p /\ times (pr_set p) = times s /\ ty (pr_set p) = ty s /\
    (seqs (pr_set p) = seqs s /\ (model = Some HMM_ID \/ exists t, In t (seqs s) /\ In (VStr "init") t) \/
     seqs (pr_set p) = map (cons (VStr "init")) (seqs s) /\ forall t, In t (seqs s) -> ~ In (VStr "init") t).
Proof.
  intros F eqe model s EQ T. destruct (prepare_spec eqe EQ model s) as (p & E & _ & [(H & P)|((_ & _ & H) & P)]).
  - left. exact T.
  - intros T1. congruence.
  - exists p. split; [exact E|]. rewrite P. cbn [seqs times ty]. split; [reflexivity|]. split; [reflexivity|]. left. split; [reflexivity|]. destruct H as [H|[H|H]]; [congruence|auto|]. right. unfold has_init in H. rewrite T in H. exact H.
  - exists p. split; [exact E|]. rewrite P. cbn [seqs times ty]. split; [reflexivity|]. split; [reflexivity|]. right. split; [reflexivity|]. intros t I J. apply H. unfold has_init. rewrite T. eauto.
Qed.
Print Assumptions C47_untimed_partial.

(** Sets of vectors, and sets for an HMM, are not changed. *)
Theorem C47_unchanged_partial : forall F (eqe : pv F -> pv F -> bool) model s, (ty s = Some 3%Z \/ model = Some HMM_ID) ->
  getTrainingSet eqe model (UserSet s) = Ok (mkPrep s None (UserSet s)).
Proof.
  intros F eqe model s H. rewrite getTrainingSet_set. destruct H as [H| ->].
  - rewrite H. reflexivity.
  - rewrite andb_false_r. reflexivity.
Qed.
Print Assumptions C47_unchanged_partial.

(** A timed trace: labels at even positions, dwell times at odd ones, odd length. *)
Definition timed {F} (t : list (pv F)) : Prop :=
  Nat.odd (length t) = true /\ (forall k x, nth_error t (2 * k) = Some x -> exists l, x = VStr l) /\ (forall k x, nth_error t (2 * k + 1) = Some x -> exists d, x = VFlt d).

(** Timed traces without init are shifted by one position: none of them is a
    timed trace any more. *)
Theorem C47_timed_refuted : forall F (eqe : pv F -> pv F -> bool) model s, decides_eq eqe -> ty s = Some 4%Z -> model <> Some HMM_ID ->
  (forall t, In t (seqs s) -> timed t) -> ~ at_even (seqs s) (VStr "init") ->
  exists p, getTrainingSet eqe model (UserSet s) = Ok p /\ forall t, In t (seqs (pr_set p)) -> ~ timed t.
Proof.
  intros F eqe model s EQ T M W NI. destruct (prepare_spec eqe EQ model s) as (p & E & _ & [(H & P)|(_ & P)]).
  - right. right. right. exact T.
  - intros T1. congruence.
  - exfalso. destruct H as [H|[H|H]]; [congruence|contradiction|]. unfold has_init in H. rewrite T in H. contradiction.
  - exists p. split; [exact E|]. rewrite P. cbn [seqs]. intros t I (O & _ & D). apply in_map_iff in I as (u & <- & I). destruct (W u I) as (Ou & _). cbn [length] in O. rewrite Nat.odd_succ, <- Nat.negb_odd, Ou in O. discriminate.
Qed.
Print Assumptions C47_timed_refuted.

(** Traces with actions and without init: the observations become the actions. *)
Theorem C47_mdp_refuted : forall F (eqe : pv F -> pv F -> bool) model s, decides_eq eqe -> ty s = Some 1%Z -> model <> Some HMM_ID ->
  (forall t, In t (seqs s) -> Nat.odd (length t) = true) -> ~ at_even (seqs s) (VStr "init") ->
  exists p, getTrainingSet eqe model (UserSet s) = Ok p /\ forall x, at_odd (seqs (pr_set p)) x <-> at_even (seqs s) x.
Proof.
  intros F eqe model s EQ T M W NI. destruct (prepare_spec eqe EQ model s) as (p & E & _ & [(H & P)|(_ & P)]).
  - right. left. exact T.
  - intros _. exact W.
  - exfalso. destruct H as [H|[H|H]]; [congruence|contradiction|]. unfold has_init in H. rewrite T in H. contradiction.
  - exists p. split; [exact E|]. rewrite P. cbn [seqs]. intros x. split.
    + intros (t & k & I & J). apply in_map_iff in I as (u & <- & I). exists u, k. split; [exact I|]. rewrite Nat.add_1_r in J. exact J.
    + intros (u & k & I & J). exists (VStr "init" :: u), k. split; [apply in_map, I|]. rewrite Nat.add_1_r. exact J.
Qed.
Print Assumptions C47_mdp_refuted.

(** A list of traces is never taken for traces of an MDP. *)
Theorem C47_list_refuted : forall F (eqe : pv F -> pv F -> bool) model l p, getTrainingSet eqe model (UserList l) = Ok p -> ty (pr_set p) <> Some MDP_ID.
Proof.
  intros F eqe model l p. unfold getTrainingSet, asSet. intros E T.
  assert (A : forall s, newSet (lex_eqb eqe) l None None = Ok s -> (l = [] /\ s = mkset [] [] None) \/ (exists z, (z = 0 \/ z = 3 \/ z = 4)%Z /\ ty s = Some z /\ seqs s <> [])).
  { intros s. destruct l as [|s0 l]; cbn [newSet]; [intros [= <-]; auto|]. unfold infer_type. intros N. right.
    destruct (nth_error s0 1) as [v1|]; [|discriminate]. destruct (nth_error s0 0) as [v0|]; [|discriminate].
    assert (B : exists z, (z = 0 \/ z = 3 \/ z = 4)%Z /\ (match v1, v0 with VFlt _, VStr _ => Ok 4%Z | _, VVec _ => Ok 3%Z | _, _ => Ok 0%Z end : res Z) = Ok z) by (destruct v1, v0; eexists; (split; [|reflexivity]); auto).
    destruct B as (z & Z1 & Z2). rewrite Z2 in N. cbn [bind] in N. destruct (setFromList _ _) as [ss ts] eqn:SF. injection N as <-. exists z. split; [exact Z1|]. split; [reflexivity|]. cbn [seqs].
    intros ->. unfold setFromList in SF. cbn [fold_left] in SF.
    assert (G : forall m (r : list (list (pv F)) * list Z), fst r <> [] -> fst (fold_left (setFromList_step (lex_eqb eqe)) m r) <> []).
    { clear. induction m as [|x m IH]; intros [a b] N; [exact N|]. cbn [fold_left]. apply IH. unfold setFromList_step. destruct (memb _ x a); [destruct (index_of _ x a); exact N|]. destruct (index_of _ x (a ++ [x])); cbn [fst]; destruct a; discriminate. }
    apply (G l (setFromList_step (lex_eqb eqe) ([], []) s0)); [|rewrite SF; reflexivity]. unfold setFromList_step. cbn [memb existsb app]. destruct (index_of _ s0 [s0]); discriminate. }
  destruct (newSet (lex_eqb eqe) l None None) as [s|e] eqn:N; [|discriminate]. cbn [bind] in E. destruct (A s eq_refl) as [(-> & ->)|(z & Z1 & Z2 & Z3)].
  - cbn in E. destruct (negb (optZ_eqb model (Some HMM_ID))); cbn in E; injection E as <-; discriminate.
  - assert (G : mdp_guess (seqs s) = false) by (destruct (seqs s); [congruence|reflexivity]). rewrite G, andb_false_r in E.
    assert (TS : ty (pr_set p) = ty s).
    { cbn [bind] in E. destruct (negb (optZ_eqb (ty s) (Some 3%Z)) && negb (optZ_eqb model (Some HMM_ID))); [|injection E as <-; reflexivity].
      destruct (if optZ_eqb (ty s) (Some 1%Z) then do r <- actions_observations eqe (seqs s); Ok (snd r) else getAlphabet eqe s) as [al|]; [|discriminate]. cbn [bind] in E. destruct (negb (memb _ _ al)); injection E as <-; reflexivity. }
    rewrite TS, Z2 in T. unfold MDP_ID in T. injection T as ->. lia.
Qed.
Print Assumptions C47_list_refuted.

(** Only some of the traces start with init: the others are left without. *)
Theorem C47_mixed_refuted : exists (s : tset (list (pv Q))) p t, ty s = Some 0%Z /\
  getTrainingSet (fun a b => match a, b with VStr x, VStr y => String.eqb x y | _, _ => false end) (Some MC_ID) (UserSet s) = Ok p /\
  In t (seqs (pr_set p)) /\ ~ In (VStr "init") t.
Proof.
  exists (mkset [[VStr "init"; VStr "a"]; [VStr "a"; VStr "b"]] [1; 1]%Z (Some 0%Z)). eexists. exists [VStr "a"; VStr "b"].
  split; [reflexivity|]. split; [vm_compute; reflexivity|]. split; [right; left; reflexivity|]. cbn. intuition discriminate.
Qed.
Print Assumptions C47_mixed_refuted.

(** ** C48 *)
(** A list of traces given by the user is not changed. *)
Theorem C48_list : forall F (eqe : pv F -> pv F -> bool) model l p, getTrainingSet eqe model (UserList l) = Ok p -> pr_user p = UserList l.
Proof.
  intros F eqe model l p. unfold getTrainingSet. destruct (asSet eqe (UserList l)) as [s|]; cbn [bind]; [|discriminate].
  destruct (negb (optZ_eqb (ty s) (Some 3%Z)) && negb (optZ_eqb model (Some HMM_ID))); [|intros [= <-]; reflexivity].
  destruct (if optZ_eqb (ty s) (Some 1%Z) then do r <- actions_observations eqe (seqs s); Ok (snd r) else getAlphabet eqe s) as [al|]; cbn [bind]; [|discriminate]. destruct (negb (memb _ _ al)); intros [= <-]; reflexivity.
Qed.
Print Assumptions C48_list.

(** A Set is changed exactly when it has a trace, no observation init, and is
    used for another model than an HMM or GoHMM. *)
Theorem C48_set_partial : forall F (eqe : pv F -> pv F -> bool) model s, decides_eq eqe -> known_type s -> odd_traces s ->
  exists p, getTrainingSet eqe model (UserSet s) = Ok p /\
    (pr_user p = UserSet s <-> ty s = Some 3%Z \/ model = Some HMM_ID \/ has_init s \/ seqs s = []).
Proof.
  intros F eqe model s EQ KT OD. destruct (prepare_spec eqe EQ model s KT OD) as (p & E & U & [(H & P)|((H1 & H2 & H3) & P)]); exists p; (split; [exact E|]); rewrite U, P.
  - split; [tauto|reflexivity].
  - split.
    + intros [= Q]. right. right. right. destruct s as [[|t ss] ts o]; [reflexivity|]. cbn [seqs times ty] in Q. injection Q as Q _.
      exfalso. apply (f_equal (@length _)) in Q. cbn [length] in Q. lia.
    + intros [X|[X|[X|X]]]; try contradiction. destruct s as [ss ts o]. cbn [seqs times ty] in *. subst ss. reflexivity.
Qed.
Print Assumptions C48_set_partial.

(** A second fit with the same Set changes nothing more. *)
Theorem C48_second_fit : forall F (eqe : pv F -> pv F -> bool) model s, decides_eq eqe -> known_type s -> odd_traces s -> ty s <> Some 1%Z ->
  exists p p', getTrainingSet eqe model (UserSet s) = Ok p /\ getTrainingSet eqe model (pr_user p) = Ok p' /\ pr_user p' = pr_user p.
Proof.
  intros F eqe model s EQ KT OD N1. destruct (prepare_spec eqe EQ model s KT OD) as (p & E & U & [(H & P)|((H1 & H2 & H3) & P)]).
  - exists p, p. rewrite U, P. auto.
  - assert (KT' : known_type (pr_set p)) by (rewrite P; exact KT). assert (OD' : odd_traces (pr_set p)) by (rewrite P; intros X; cbn in X; contradiction).
    destruct (prepare_spec eqe EQ model (pr_set p) KT' OD') as (q & E' & U' & [(H & P')|((_ & _ & H) & P')]); exists p, q; (split; [exact E|]); rewrite U; (split; [exact E'|]); rewrite U', P'; [reflexivity|].
    destruct (seqs (pr_set p)) as [|t ss] eqn:S.
    + destruct (pr_set p) as [ss ts o]. cbn in *. subst ss. reflexivity.
    + exfalso. apply H. assert (I : exists u, t = VStr "init" :: u). { rewrite P in S. cbn [seqs] in S. destruct (seqs s); [discriminate|]. injection S as <- _. eauto. }
      destruct I as (u & ->). destruct KT' as [T|[T|[T|T]]]; unfold has_init; rewrite T; rewrite ?S.
      * exists (VStr "init" :: u). split; left; reflexivity.
      * exists (VStr "init" :: u), 0. split; [left; reflexivity|reflexivity].
      * rewrite P in T. cbn in T. contradiction.
      * exists (VStr "init" :: u), 0. split; [left; reflexivity|reflexivity].
Qed.
Print Assumptions C48_second_fit.

Definition str_eqb (a b : pv Q) : bool :=
  match a, b with
  | VStr x, VStr y => String.eqb x y
  | VFlt x, VFlt y => (Qnum x =? Qnum y)%Z && (Qden x =? Qden y)%positive
  | VInt x, VInt y => (x =? y)%Z
  | VVec x, VVec y => lex_eqb (fun p q => (Qnum p =? Qnum q)%Z && (Qden p =? Qden q)%positive) x y
  | _, _ => false
  end.
Lemma str_eqb_eq : decides_eq str_eqb.
Proof.
  assert (A : forall p q : Q, (Qnum p =? Qnum q)%Z && (Qden p =? Qden q)%positive = true <-> p = q).
  { intros [a b] [c d]. cbn. rewrite andb_true_iff, Z.eqb_eq, Pos.eqb_eq. split; [intros (-> & ->); reflexivity|intros [= -> ->]; auto]. }
  assert (B : forall l m : list Q, lex_eqb (fun p q => (Qnum p =? Qnum q)%Z && (Qden p =? Qden q)%positive) l m = true <-> l = m).
  { induction l as [|a l IH]; intros [|b m]; cbn [lex_eqb]; try (split; congruence). rewrite andb_true_iff, A, IH. split; [intros (-> & ->); reflexivity|intros [= -> ->]; auto]. }
  intros [] []; cbn; try (split; congruence).
  - rewrite String.eqb_eq. split; congruence.
  - rewrite A. split; congruence.
  - rewrite B. split; congruence.
  - rewrite Z.eqb_eq. split; congruence.
Qed.

Theorem C48_refuted : exists (s s' : tset (list (pv Q))) p, getTrainingSet str_eqb (Some MC_ID) (UserSet s) = Ok p /\ pr_user p = UserSet s' /\ seqs s' <> seqs s.
Proof. exists (mkset [[VStr "a"; VStr "b"]] [3%Z] (Some 0%Z)). do 2 eexists. split; [vm_compute; reflexivity|]. split; [reflexivity|discriminate]. Qed.
Print Assumptions C48_refuted.

Lemma timed_one F l : timed [@VStr F l].
Proof. split; [reflexivity|]. split; intros [|k] x E; cbn in E; try discriminate; [injection E as <-; eauto|..]; destruct k; discriminate. Qed.
Lemma timed_cons F l d t : timed t -> timed (VStr l :: @VFlt F d :: t).
Proof.
  intros (A & B & C). split; [cbn [length]; rewrite Nat.odd_succ, Nat.even_succ; exact A|]. split; intros [|k] x E.
  - cbn in E. injection E as <-. eauto.
  - replace (2 * S k) with (S (S (2 * k))) in E by lia. exact (B k x E).
  - cbn in E. injection E as <-. eauto.
  - replace (2 * S k + 1) with (S (S (2 * k + 1))) in E by lia. exact (C k x E).
Qed.

(** Non-vacuity *)
Example C47_instance_timed : let s := mkset [[VStr "a"; VFlt (1 # 2)%Q; VStr "b"]; [VStr "c"]] [1; 2]%Z (Some 4%Z) in
  exists p, getTrainingSet str_eqb (Some CTMC_ID) (UserSet s) = Ok p /\ forall t, In t (seqs (pr_set p)) -> ~ timed t.
Proof.
  intros s. apply C47_timed_refuted; [apply str_eqb_eq|reflexivity|discriminate| |].
  - intros t [<-|[<-|[]]]; [apply timed_cons|]; apply timed_one.
  - intros (t & k & I & E). assert (V : In (VStr "init") t) by (eapply nth_error_In; exact E). destruct I as [<-|[<-|[]]]; cbn in V; repeat destruct V as [V|V]; try discriminate V; contradiction.
Qed.
Example C47_instance_untimed : exists p, getTrainingSet str_eqb None (UserSet (mkset [[VStr "a"; VStr "b"]; [VStr "b"]] [1; 2]%Z (Some 0%Z))) = Ok p /\
  seqs (pr_set p) = [[VStr "init"; VStr "a"; VStr "b"]; [VStr "init"; VStr "b"]].
Proof. eexists. split; vm_compute; reflexivity. Qed.

(** ** C49 *)
(** The kinds of traces each model can learn from: labels for MC, HMM, CTMC and
    PCTMC, action-label pairs for MDP, vectors for GoHMM, timed labels for CTMC
    and PCTMC. *)
Definition usable (t m : Z) : Prop :=
  (t = 0 /\ (m = MC_ID \/ m = HMM_ID \/ m = CTMC_ID \/ m = PCTMC_ID) \/ t = 1 /\ m = MDP_ID \/ t = 3 /\ m = GOHMM_ID \/ t = 4 /\ (m = CTMC_ID \/ m = PCTMC_ID))%Z.
Theorem C49_usable_accepted : forall t m, usable t m -> checkCompatible t m = Ok tt.
Proof. intros t m H. unfold usable in H. repeat match goal with H : _ \/ _ |- _ => destruct H | H : _ /\ _ |- _ => destruct H end; subst; reflexivity. Qed.
Theorem C49_check_partial : forall t m, In t [0; 1; 3; 4]%Z -> (0 <= m <= 5)%Z ->
  (checkCompatible t m = Err RuntimeError <-> (t = 1 /\ (m = MC_ID \/ m = GOHMM_ID) \/ t = 3 /\ (m = MC_ID \/ m = MDP_ID))%Z) /\
  (checkCompatible t m = Err RuntimeError \/ checkCompatible t m = Ok tt).
Proof.
  intros t m T M. assert (Mc : (m = 0 \/ m = 1 \/ m = 2 \/ m = 3 \/ m = 4 \/ m = 5)%Z) by lia. unfold MC_ID, GOHMM_ID, MDP_ID.
  destruct T as [<-|[<-|[<-|[<-|[]]]]]; destruct Mc as [->|[->|[->|[->|[->| ->]]]]]; cbn; (split; [split; [try discriminate; intros _; lia|intros H; try reflexivity; exfalso; lia]|auto]).
Qed.
Theorem C49_refuted : exists t m, In t [0; 1; 3; 4]%Z /\ (0 <= m <= 5)%Z /\ ~ usable t m /\ checkCompatible t m = Ok tt.
Proof. exists 4%Z, MDP_ID. split; [cbn; auto|]. split; [unfold MDP_ID; lia|]. split; [unfold usable, MDP_ID, MC_ID, HMM_ID, CTMC_ID, PCTMC_ID, GOHMM_ID; lia|reflexivity]. Qed.
(** Never TypeError, whatever the types. *)
Theorem C49_error_refuted : forall t m, checkCompatible t m <> Err TypeError.
Proof.
  intros t m. unfold checkCompatible. destruct (_ && _); [|discriminate]. unfold pyget. repeat match goal with |- context [if ?b then _ else _] => destruct b; cbn [bind]; try discriminate | |- context [nth_error ?l ?i] => destruct (nth_error l i); cbn [bind]; try discriminate end.
Qed.
Print Assumptions C49_check_partial.
Print Assumptions C49_refuted.
Print Assumptions C49_usable_accepted.
Print Assumptions C49_error_refuted.

(** ** C54 *)
Local Open Scope R_scope.
Lemma rsum_div k l : rsum (map (fun x => x / k) l) = rsum l / k.
Proof. induction l as [|x l IH]; [cbn; unfold Rdiv; rewrite Rmult_0_l; reflexivity|]. cbn [map]. rewrite !rsum_cons, IH. unfold Rdiv. lra. Qed.
Definition scaled (m m' : list (list R)) : Prop :=
  length m' = length m /\ forall i j, matR m' i j = matR m i j / rsum (nth i m []).
Theorem C54_toMC_partial : forall (m : ctmc R) name, In "init"%string (ct_lab m) -> length (ct_lab m) = length (ct_mat m) ->
  (forall r, In r (ct_mat m) -> rsum r <> 0) ->
  exists c, fst (toMC m name) = Ok c /\ mc_lab c = ct_lab m /\ mc_name c = name /\ scaled (ct_mat m) (mc_mat c) /\
    (forall r, In r (mc_mat c) -> rsum r = 1).
Proof.
  intros m name I L E. unfold toMC. cbn [fst]. set (new := map _ (ct_mat m)).
  assert (S1 : forall r, In r new -> rsum r = 1).
  { intros r J. apply in_map_iff in J as (row & <- & J). toR. rewrite rsum_div. field. apply E, J. }
  destruct (C16_MC_constructor new (ct_lab m) name) as (A & B & _). destruct (proj2 A) as (c & Ec).
  - split; [exact I|]. split; [unfold new; rewrite map_length; exact L|]. intros r J. left. rewrite S1 by exact J. unfold Rminus. rewrite Rplus_opp_r, Rabs_R0. lra.
  - destruct (B c Ec) as (Em & El & En & _). exists c. split; [exact Ec|]. split; [exact El|]. split; [exact En|]. rewrite Em. split; [|exact S1].
    split; [apply map_length|]. intros i j. unfold matR, vecR, new. destruct (lt_dec i (length (ct_mat m))) as [Li|Li].
    + rewrite (nth_indep _ [] (map (fun x => ndiv x (nsum [])) [])) by (rewrite map_length; exact Li). rewrite (map_nth (fun row => map (fun x => ndiv x (nsum row)) row)).
      rewrite nsum_rsum. destruct (lt_dec j (length (nth i (ct_mat m) []))) as [Lj|Lj].
      * rewrite (nth_indep _ 0 (ndiv 0 (rsum (nth i (ct_mat m) [])))) by (rewrite map_length; exact Lj). rewrite (map_nth (fun x => ndiv x (rsum (nth i (ct_mat m) [])))). reflexivity.
      * rewrite !nth_overflow by (rewrite ?map_length; lia). unfold Rdiv. rewrite Rmult_0_l. reflexivity.
    + rewrite (nth_overflow (map _ _)) by (rewrite map_length; lia). rewrite (nth_overflow (ct_mat m)) by lia. destruct j; cbn; unfold Rdiv; rewrite Rmult_0_l; reflexivity.
Qed.
Print Assumptions C54_toMC_partial.
(** The call also replaces the rates of the CTMC: all its exit rates become 1. *)
Theorem C54_mutation_refuted : forall (m : ctmc R) name i, (forall r, In r (ct_mat m) -> rsum r <> 0) -> (i < length (ct_mat m))%nat ->
  ct_e (snd (toMC m name)) i = 1.
Proof.
  intros m name i E L. unfold toMC, ct_e. cbn [snd ct_mat]. rewrite (nth_indep _ [] (map (fun x => ndiv x (nsum [])) [])) by (rewrite map_length; exact L). rewrite (map_nth (fun row => map (fun x => ndiv x (nsum row)) row)).
  toR. rewrite rsum_div. field. apply E, nth_In, L.
Qed.
Print Assumptions C54_mutation_refuted.
Example C54_instance : exists c, fst (toMC (mkCTMC [[1; 2]; [4; 0]] ["init"; "a"]%string [1; 0] "x") "y") = Ok c /\ matR (mc_mat c) 0 1 = 2 / 3 /\
  ct_e (snd (toMC (mkCTMC [[1; 2]; [4; 0]] ["init"; "a"]%string [1; 0] "x") "y")) 1 = 1.
Proof.
  set (m := mkCTMC _ _ _ _). assert (E : forall r, In r (ct_mat m) -> rsum r <> 0) by (intros r [<-|[<-|[]]]; cbn; lra).
  destruct (C54_toMC_partial m "y") as (c & Ec & _ & _ & (_ & S) & _); [left; reflexivity|reflexivity|exact E|].
  exists c. split; [exact Ec|]. split; [rewrite S; cbn; field|]. apply C54_mutation_refuted; [exact E|cbn; lia].
Qed.

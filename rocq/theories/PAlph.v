(** What a state can generate: C140. *)
From Coq Require Import String ZArith Bool Reals List Lra Lia.
From Verif Require Import Num Py SNum LSum MTools LTools SPath SBW SLik MModels MCtor LCtor MRun SRun LRun PCtor PRun MAlph SLaw PLaw.
Import ListNotations.
Local Open Scope R_scope.

Lemma filter_nodup_map {A B} (f : A -> B) (g : A -> bool) l : NoDup (map f l) -> NoDup (map f (filter g l)).
Proof.
  induction l as [|x l IH]; intros N; [constructor|]. cbn in *. inversion N as [|? ? N1 N2]; subst. destruct (g x); [|apply IH, N2]. cbn. constructor; [|apply IH, N2].
  intros I. apply N1. apply in_map_iff in I as (y & <- & I). apply in_map, (filter_In g y l). exact I.
Qed.
Lemma map_seq_nth (l : list string) : map (fun i => nth i l EmptyString) (seq 0 (length l)) = l.
Proof.
  induction l as [|x l IH]; [reflexivity|]. cbn [length seq map nth]. f_equal. rewrite <- seq_shift, map_map. exact IH.
Qed.
(** An entry of positive weight is selected by some draw. *)
Lemma positive_selected p k : is_dist p -> (k < length p)%nat -> 0 < vecR p k -> exists r, unit_draw r /\ selected p r k.
Proof.
  intros D L P. pose proof (cell_unit p k D) as [A B]. unfold cell in A, B. cbn [fst snd] in A, B. exists (rsum (firstn k p) + vecR p k / 2). split; [unfold unit_draw; lra|].
  split; [exact L|]. split; [exact P|]. left. lra.
Qed.
Lemma resolve_iff_positive p : is_dist p -> forall k, (exists r, unit_draw r /\ resolveRandom p r = Ok k) <-> (k < length p)%nat /\ 0 < vecR p k.
Proof.
  intros D k. split.
  - intros (r & U & E). apply selected_iff in E; [|apply D|apply U]. destruct E as (A & B & _). auto.
  - intros [L P]. destruct (positive_selected p k D L P) as (r & U & S). exists r. split; [exact U|]. apply selected_iff; [apply D|apply U|exact S].
Qed.

(** getAlphabet(state) lists, in the order of the alphabet and without repetition,
    exactly the observations which next_obs can return in that state. *)
Theorem C140_hmm_alphabet : forall (m : hmm R) s i, wf_hmm m -> all_dist (hmm_out m) -> valid_id (hmm_n m) s i ->
  exists L, HMM_getAlphabet m s = Ok L /\ NoDup L /\ (exists keep, L = map (fun k => nth k (hmm_alph m) EmptyString) (filter keep (seq 0 (length (hmm_alph m))))) /\
    forall o, In o L <-> exists r, unit_draw r /\ HMM_next_obs m (Z.of_nat i) r = Ok o.
Proof.
  intros m s i (_ & Lo & Lr & ND & _) AO [-> Li]. unfold HMM_getAlphabet. rewrite (proj2 (Z.eqb_neq _ _)) by lia.
  assert (I : In (nth i (hmm_out m) []) (hmm_out m)) by (apply nth_In; lia). pose proof (Lr _ I) as Lrow. pose proof (AO _ I) as D.
  unfold checkStateIndex. rewrite (proj2 (Z.ltb_ge _ _)) by lia. rewrite (proj2 (Z.leb_gt _ _)) by lia. cbn [bind]. rewrite Nat2Z.id, (at_list_nth _ i []) by lia. cbn [bind].
  rewrite (LBW.mmap_ok _ (fun k => nth k (hmm_alph m) EmptyString)). 2:{ intros k J. apply filter_In in J as [J _]. apply in_seq in J. apply at_list_nth. lia. }
  eexists. split; [reflexivity|]. rewrite Lrow. split; [apply filter_nodup_map; rewrite map_seq_nth; exact ND|]. split; [eexists; reflexivity|].
  intros o. rewrite in_map_iff. unfold HMM_next_obs. rewrite (pyget_nth _ i []) by lia. cbn [bind]. split.
  - intros (k & <- & J). apply filter_In in J as [J P]. apply in_seq in J. apply Rltb_true in P. nR.
    destruct (proj2 (resolve_iff_positive _ D k)) as (r & U & E); [split; [lia|exact P]|]. exists r. split; [exact U|]. rewrite E. cbn [bind]. apply at_list_nth. lia.
  - intros (r & U & E). destruct (resolveRandom (nth i (hmm_out m) []) r) as [k|] eqn:Ek; cbn [bind] in E; [|discriminate].
    destruct (proj1 (resolve_iff_positive _ D k)) as [Lk P]; [eauto|]. rewrite (at_list_nth _ k EmptyString) in E by lia. injection E as E. exists k. split; [exact E|].
    apply filter_In. split; [apply in_seq; lia|]. apply Rltb_true. exact P.
Qed.
Print Assumptions C140_hmm_alphabet.
(** The default argument and invalid ids. *)
Theorem C140_hmm_alphabet_ids : forall (m : hmm R) s,
  HMM_getAlphabet m (IdInt (-1)) = Ok (hmm_alph m) /\ (s <> IdInt (-1) -> s <> IdNp (-1) -> forall e, id_error (hmm_n m) s e -> HMM_getAlphabet m s = Err e).
Proof.
  intros m s. split; [reflexivity|]. intros N1 N2 e E. unfold HMM_getAlphabet, id_error in *. destruct s as [z|z|].
  - destruct (Z.eqb_spec z (-1)) as [->|Nz]; [congruence|]. destruct E as [E ->]. unfold checkStateIndex. destruct (Z.ltb_spec z 0); [reflexivity|]. rewrite (proj2 (Z.leb_le _ _)) by lia. reflexivity.
  - destruct (Z.eqb_spec z (-1)) as [->|Nz]; [congruence|]. subst e. reflexivity.
  - subst e. reflexivity.
Qed.
Print Assumptions C140_hmm_alphabet_ids.

(** getActions(state) lists, without repetition, exactly the actions with which
    next can return. *)
Theorem C140_mdp_actions : forall (m : mdp R) s i, wf_mdp m -> mdp_dist m -> valid_id (mdp_n m) s i ->
  exists L, MDP_getActions m s = Ok L /\ NoDup L /\
    forall a, In a L <-> exists r x, unit_draw r /\ mdp_next m i a r = Ok x.
Proof.
  intros m s i (SH & Ll & ND & _) DM [-> Li]. unfold MDP_getActions. rewrite (proj2 (Z.eqb_neq _ _)) by lia. rewrite (pyget_nth _ i O) by (rewrite seq_length; exact Li). rewrite seq_nth by exact Li. cbn [bind plus].
  eexists. split; [reflexivity|]. assert (Ira : In (nth i (mdp_mat m) []) (mdp_mat m)) by (apply nth_In; exact Li). destruct (SH _ Ira) as [La Lr]. split.
  - unfold getActions. assert (E : forall (f : nat -> bool) l, flat_map (fun k => if f k then [nth k (mdp_act m) EmptyString] else []) l = map (fun k => nth k (mdp_act m) EmptyString) (filter f l)).
    { intros f l. induction l as [|x l IH]; [reflexivity|]. cbn. rewrite IH. destruct (f x); reflexivity. }
    rewrite E. apply filter_nodup_map. rewrite map_seq_nth. exact ND.
  - intros a. rewrite getActions_In. unfold mdp_next. split.
    + intros (k & Lk & <- & P). assert (Ir : In (nth k (nth i (mdp_mat m) []) []) (nth i (mdp_mat m) [])) by (apply nth_In; lia).
      assert (D : is_dist (nth k (nth i (mdp_mat m) []) [])) by (destruct (DM _ _ Ira Ir) as [N [Z|O]]; [lra|split; assumption]).
      assert (U : unit_draw 0) by (unfold unit_draw; lra). destruct (dist_selects _ 0 D U) as (c & Ec & _). exists 0. eexists. split; [exact U|].
      rewrite (index_of_nth String.eqb String.eqb_eq) by assumption. rewrite (at_list_nth (mdp_mat m) i []) by exact Li. cbn [bind]. rewrite (at_list_nth _ k []) by lia. cbn [bind]. rewrite Ec. cbn [bind].
      rewrite (at_list_nth (mdp_lab m) i EmptyString) by lia. reflexivity.
    + intros (r & x & U & E). destruct (index_of String.eqb a (mdp_act m)) as [k|] eqn:Ek; [|discriminate]. apply (LCtor.index_of_Some String.eqb String.eqb_eq) in Ek as Ek'.
      assert (Lk : (k < length (mdp_act m))%nat) by (apply nth_error_Some; rewrite Ek'; discriminate). exists k. split; [exact Lk|]. split; [apply nth_error_nth, Ek'|].
      rewrite (at_list_nth (mdp_mat m) i []) in E by exact Li. cbn [bind] in E. rewrite (at_list_nth _ k []) in E by lia. cbn [bind] in E.
      assert (Ir : In (nth k (nth i (mdp_mat m) []) []) (nth i (mdp_mat m) [])) by (apply nth_In; lia). destruct (DM _ _ Ira Ir) as [N [Z|O]]; [|lra].
      destruct U as [U0 U1]. rewrite (proj2 (resolveRandom_err _ r N U0)) in E; [discriminate|]. right. exact Z.
Qed.
Print Assumptions C140_mdp_actions.
(** Unlike for the other accessors, a negative id is not an error: it counts from
    the end. *)
Theorem C140_mdp_negative_refuted : forall (m : mdp R) z, (- Z.of_nat (mdp_n m) <= z < -1)%Z ->
  MDP_getActions m (IdInt z) = Ok (getActions m (Z.to_nat (z + Z.of_nat (mdp_n m)))).
Proof.
  intros m z B. unfold MDP_getActions. rewrite (proj2 (Z.eqb_neq _ _)) by lia. unfold pyget. rewrite seq_length. rewrite (proj2 (Z.ltb_lt z 0)) by lia.
  replace ((z + Z.of_nat (mdp_n m) <? 0) || (Z.of_nat (mdp_n m) <=? z + Z.of_nat (mdp_n m)))%Z%bool with false. 2:{ symmetry. apply orb_false_iff. split; [apply Z.ltb_ge|apply Z.leb_gt]; lia. }
  rewrite (nth_error_nth' _ O) by (rewrite seq_length; lia). rewrite seq_nth by lia. reflexivity.
Qed.
Print Assumptions C140_mdp_negative_refuted.

Example C140_instance : wf_hmm ex_hmm /\ all_dist (hmm_out ex_hmm) /\ valid_id (hmm_n ex_hmm) (IdInt 0) 0 /\ HMM_getAlphabet ex_hmm (IdInt 0) = Ok ["a"]%string /\ hmm_alph ex_hmm = ["a"; "b"]%string.
Proof.
  destruct C23_instance as (A & _ & B & _). split; [exact A|]. split; [exact B|]. split; [split; [reflexivity|cbn; lia]|]. split; [|reflexivity].
  unfold HMM_getAlphabet. cbn. toR. rewrite ?Rltb_leb. nR. rewrite (proj2 (Rleb_false 1 0)) by lra. rewrite (proj2 (Rleb_true 0 0)) by lra. reflexivity.
Qed.
Definition alph_mdp : mdp R := mkMDP [[[1/2; 1/2]; [0; 1]]; [[1; 0]; [0; 0]]] ["init"; "a"]%string ["l"; "r"]%string [1; 0] EmptyString.
Example C140_instance_mdp : wf_mdp alph_mdp /\ mdp_dist alph_mdp /\ valid_id (mdp_n alph_mdp) (IdInt 1) 1 /\ ~ In "r"%string (getActions alph_mdp 1) /\ In "l"%string (getActions alph_mdp 1).
Proof.
  split; [|split; [|split; [split; [reflexivity|cbn; lia]|]]].
  - split; [|split; [reflexivity|split; [|split; [reflexivity|intros x [<-|[<-|[]]]; lra]]]].
    + intros ra [<-|[<-|[]]]; (split; [reflexivity|]); intros r [<-|[<-|[]]]; reflexivity.
    + repeat constructor; cbn; intuition discriminate.
  - intros ra r [<-|[<-|[]]] [<-|[<-|[]]]; (split; [intros x [<-|[<-|[]]]; lra|cbn; lra]).
  - rewrite !getActions_In. split.
    + intros (k & L & E & P). destruct k as [|[|k]]; cbn in *; [discriminate|lra|lia].
    + exists O. cbn. split; [lia|]. split; [reflexivity|lra].
Qed.

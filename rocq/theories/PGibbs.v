(** Theorems C150: the log-likelihood of a set is at most minus its entropy,
    and the model that generated the traces has the best score. *)
From Coq Require Import String ZArith Bool Reals List Lia Lra.
From Verif Require Import Num Py SNum SPath LSum MSet SSet LSet MModels MLik MBW LFB LEM SBW LBW LBWSet SLik LPath LLik LLik2 PLik SGibbs LGibbs.
Import ListNotations.
Local Open Scope R_scope.

Lemma zsum_pos (l : list Z) : (forall t, In t l -> (1 <= t)%Z) -> l <> [] -> (0 < zsum l)%Z.
Proof.
  intros P NE. assert (G : forall l : list Z, (forall t, In t l -> (1 <= t)%Z) -> (0 <= zsum l)%Z).
  { clear. induction l as [|t l IH]; intros P; [cbn; lia|]. cbn. specialize (P t (or_introl eq_refl)) as Pt. specialize (IH (fun u I => P u (or_intror I))). cbn in *. lia. }
  destruct l as [|t l]; [congruence|]. cbn. specialize (P t (or_introl eq_refl)) as Pt. specialize (G l (fun u I => P u (or_intror I))). cbn in *. lia.
Qed.
Lemma combine_fst {A B} (l : list A) (r : list B) F : length r = length l -> sumL (combine l r) (fun x => F (fst x)) = sumL l F.
Proof. intros E. rewrite <- sumL_map. revert r E. induction l as [|a l IH]; intros [|b r] E; try discriminate; [reflexivity|]. cbn [combine map fst snd]. rewrite !sumL_cons, IH by (cbn in E; lia). reflexivity. Qed.
Lemma combine_snd {A B} (l : list A) (r : list B) F : length r = length l -> sumL (combine l r) (fun x => F (snd x)) = sumL r F.
Proof. intros E. rewrite <- sumL_map. revert r E. induction l as [|a l IH]; intros [|b r] E; try discriminate; [reflexivity|]. cbn [combine map fst snd]. rewrite !sumL_cons, IH by (cbn in E; lia). reflexivity. Qed.
Lemma zsum_sumL l : IZR (zsum l) = sumL l IZR.
Proof. induction l as [|t l IH]; [reflexivity|]. rewrite sumL_cons, <- IH, <- plus_IZR. reflexivity. Qed.
Lemma weighted_times {A} (s : tset A) : length (times s) = length (seqs s) -> map snd (weighted s) = times s.
Proof. unfold weighted. destruct s as [l r]; cbn. revert r. induction l as [|a l IH]; intros [|b r] E; try discriminate; [reflexivity|]. cbn. rewrite IH by (cbn in E; lia). reflexivity. Qed.

Section OneSet.
  Context (s : tset (list string)) (T : nat).
  Hypothesis U : usable s.
  Hypothesis NE : seqs s <> [].
  Hypothesis ND : NoDup (seqs s).
  Hypothesis Hl : forall tr, In tr (seqs s) -> length tr = S T.

  Lemma total_pos : 0 < IZR (zsum (times s)).
  Proof.
    apply IZR_lt, zsum_pos; [apply U|]. destruct U as [L _]. intros E. rewrite E in L. destruct (seqs s); [apply NE; reflexivity|discriminate].
  Qed.
  Lemma share_pos t : In t (times s) -> 0 < share s t.
  Proof. intros I. apply Rdiv_lt_0_compat; [|exact total_pos]. destruct U as (_ & P & _). specialize (P t I). apply IZR_lt. lia. Qed.
  Lemma shares_one : sumL (weighted s) (fun st => share s (snd st)) = 1.
  Proof.
    unfold weighted. rewrite (combine_snd _ _ (share s)) by apply U. unfold share. rewrite sumL_div_r, <- zsum_sumL. field. pose proof total_pos. lra.
  Qed.
  Lemma avg_shares P : (forall tr, In tr (seqs s) -> 0 < P tr) -> avg_ll P (weighted s) = sumL (weighted s) (fun st => share s (snd st) * ln (P (fst st))).
  Proof.
    intros Pp. unfold avg_ll, set_ll. rewrite <- sumL_div_r. rewrite weighted_times by apply U. apply sumL_ext. intros [tr t] I. cbn [fst snd].
    destruct (Rlt_dec 0 (P tr)) as [_|N]; [|exfalso; apply N, Pp; apply in_combine_l in I; exact I]. unfold share. field. pose proof total_pos. lra.
  Qed.
  Lemma score_gibbs x : proper x -> (forall tr, In tr (seqs s) -> 0 < law x tr) ->
    avg_ll (law x) (weighted s) <= neg_entropy s /\
    (avg_ll (law x) (weighted s) = neg_entropy s <-> forall tr t, In (tr, t) (weighted s) -> law x tr = share s t).
  Proof.
    intros Pr Pp. rewrite avg_shares by exact Pp. unfold neg_entropy. change (combine (seqs s) (times s)) with (weighted s).
    destruct (gibbs (weighted s) (fun st => share s (snd st)) (fun st => law x (fst st))) as [A B].
    - intros [tr t] I. left. apply share_pos. apply in_combine_r in I. exact I.
    - intros [tr t] I. left. apply Pp. apply in_combine_l in I. exact I.
    - intros [tr t] I _. apply Pp. apply in_combine_l in I. exact I.
    - exact shares_one.
    - unfold weighted. rewrite (combine_fst _ _ (law x)) by apply U. exact (law_part x _ T Pr ND Hl).
    - split; [exact A|]. rewrite B. split; [intros H tr t I; exact (H _ I)|intros H [tr t] I; exact (H _ _ I)].
  Qed.
End OneSet.

(** No model does better than minus the entropy of the set, and only a model
    that gives every trace its share in the set reaches it. *)
Theorem C150_score_bound : forall (x : source) (s : tset (list string)) (T : nat), proper x -> usable s -> seqs s <> [] -> NoDup (seqs s) ->
  (forall tr, In tr (seqs s) -> length tr = S T) -> (forall tr, In tr (seqs s) -> 0 < law x tr) ->
  exists v, score x s = Ok v /\ v <= neg_entropy s /\
    (v = neg_entropy s <-> forall tr t, In (tr, t) (weighted s) -> law x tr = share s t).
Proof.
  intros x s T Pr U NE ND Hl Pp. exists (avg_ll (law x) (weighted s)). split; [apply score_eq; assumption|]. apply (score_gibbs s T); assumption.
Qed.
Print Assumptions C150_score_bound.

(** When the traces appear in the set as often as the model x says, no model y
    of the same or of another kind has a better score. *)
Theorem C150_generator_best : forall (x y : source) (s : tset (list string)) (T : nat), proper x -> proper y -> usable s -> seqs s <> [] -> NoDup (seqs s) ->
  (forall tr, In tr (seqs s) -> length tr = S T) ->
  (forall tr t, In (tr, t) (weighted s) -> law x tr = share s t) ->
  (forall tr, In tr (seqs s) -> 0 < law y tr) ->
  exists vx vy, score x s = Ok vx /\ score y s = Ok vy /\ vy <= vx /\
    (vy = vx <-> forall tr, In tr (seqs s) -> law y tr = law x tr).
Proof.
  intros x y s T Px Py U NE ND Hl Fx Pp.
  assert (Mem : forall tr, In tr (seqs s) -> exists t, In (tr, t) (weighted s) /\ In t (times s)).
  { intros tr I. destruct (In_nth _ _ [] I) as (i & Li & <-). exists (nth i (times s) 0%Z). destruct U as [L _]. split; [|apply nth_In; lia].
    unfold weighted. rewrite <- (combine_nth (seqs s) (times s) i [] 0%Z) by lia. apply nth_In. rewrite combine_length, L. lia. }
  assert (Ppx : forall tr, In tr (seqs s) -> 0 < law x tr).
  { intros tr I. destruct (Mem tr I) as (t & J & It). rewrite (Fx tr t J). apply (share_pos s T); assumption. }
  destruct (C150_score_bound x s T Px U NE ND Hl Ppx) as (vx & Ex & _ & Qx). destruct (C150_score_bound y s T Py U NE ND Hl Pp) as (vy & Ey & Ly & Qy).
  apply Qx in Fx as E. exists vx, vy. repeat (split; [assumption|]). rewrite E. split; [exact Ly|]. rewrite Qy. split.
  - intros H tr I. destruct (Mem tr I) as (t & J & _). rewrite (H tr t J). symmetry. apply Fx, J.
  - intros H tr t J. rewrite <- (Fx tr t J). apply H. apply in_combine_l in J. exact J.
Qed.
Print Assumptions C150_generator_best.

(** The set holding one trace once, and its score. *)
Definition once (tr : list string) : tset (list string) := mkset [tr] [1%Z] (Some 0%Z).
Definition value (r : res R) : R := match r with Ok v => v | _ => 0 end.

Lemma usable_once tr : tr <> [] -> usable (once tr).
Proof. intros N. split; [reflexivity|]. split; [intros t [<-|[]]; lia|]. intros [E|[]]. auto. Qed.
Lemma score_once x tr : proper x -> tr <> [] -> 0 < law x tr -> value (score x (once tr)) = ln (law x tr).
Proof.
  intros Pr N P. rewrite score_eq by auto using usable_once. cbn. unfold avg_ll, set_ll, sumL. cbn. destruct (Rlt_dec _ _); [|lra]. field.
Qed.

(** Expected score of one trace of T + 1 symbols generated by x (C139: [run]
    returns a trace with this probability): x itself is the best model, and
    any other with the same expected score has the same law. *)
Theorem C150_expected_score : forall (x y : source) (alphabet : list string) (T : nat), proper x -> proper y -> NoDup alphabet ->
  (forall o, In o (symbols x) -> In o alphabet) ->
  (forall tr, length tr = S T -> 0 < law x tr -> 0 < law y tr) ->
  let expected z := sumL (words alphabet (S T)) (fun tr => law x tr * value (score z (once tr))) in
  expected y <= expected x /\ (expected y = expected x <-> forall tr, In tr (words alphabet (S T)) -> law y tr = law x tr).
Proof.
  intros x y alph T Px Py ND Hx Ac expected. set (L := words alph (S T)).
  assert (Ne : forall tr, In tr L -> tr <> []). { intros tr I E. subst. apply words_length in I. discriminate. }
  assert (E : forall z, proper z -> (forall tr, In tr L -> 0 < law x tr -> 0 < law z tr) -> expected z = sumL L (fun tr => law x tr * ln (law z tr))).
  { intros z Pz Hz. apply sumL_ext. intros tr I. destruct (Rle_lt_or_eq_dec _ _ (law_nonneg x tr Px (Ne tr I))) as [P|Z]; [|rewrite <- Z; ring].
    rewrite score_once by auto. reflexivity. }
  rewrite (E x), (E y) by (auto; intros tr I; apply Ac; apply words_length in I; exact I).
  apply gibbs.
  - intros tr I. apply law_nonneg; auto.
  - intros tr I. apply law_nonneg; auto.
  - intros tr I. apply Ac. apply words_length in I. exact I.
  - apply law_total; assumption.
  - apply (law_part y L T Py); [apply words_NoDup, ND|]. intros tr I. apply words_length in I. exact I.
Qed.
Print Assumptions C150_expected_score.

(** MDPs, for each sequence of actions enabled in every state of both models. *)
Definition mdp_proper (m : mdp R) (acts alphabet : list string) : Prop :=
  wf_mdp m /\ nonneg_mdp m /\ rsum (mdp_ini m) = 1 /\
  (forall a s, In a acts -> (s < mdp_n m)%nat -> Sum (mdp_n m) (act_mat m a s) = 1) /\
  (forall o, In o (mdp_lab m) -> In o alphabet).

Theorem C150_mdp_expected_score : forall (m m2 : mdp R) (alphabet acts : list string), NoDup alphabet ->
  mdp_proper m acts alphabet -> mdp_proper m2 acts alphabet ->
  (forall obs, length obs = S (length acts) -> 0 < mdp_trace_prob m (interleave obs acts) -> 0 < mdp_trace_prob m2 (interleave obs acts)) ->
  let expected z := sumL (words alphabet (S (length acts))) (fun obs => mdp_trace_prob m (interleave obs acts) *
                      value (mdp_logLikelihood z (once (interleave obs acts)))) in
  expected m2 <= expected m /\
  (expected m2 = expected m <-> forall obs, In obs (words alphabet (S (length acts))) -> mdp_trace_prob m2 (interleave obs acts) = mdp_trace_prob m (interleave obs acts)).
Proof.
  intros m m2 alph acts ND P1 P2 Ac expected. set (L := words alph (S (length acts))).
  assert (Od : forall obs, In obs L -> Nat.odd (length (interleave obs acts)) = true).
  { intros obs I. apply words_length in I. clear - I. revert acts I. induction obs as [|o obs IH]; intros [|a acts] E; try discriminate; [reflexivity|]. cbn in *. apply IH. lia. }
  assert (Ne : forall obs, In obs L -> interleave obs acts <> []). { intros obs I E. specialize (Od obs I). rewrite E in Od. discriminate. }
  assert (Nn : forall z obs, mdp_proper z acts alph -> In obs L -> 0 <= mdp_trace_prob z (interleave obs acts)).
  { intros z obs (W & N & _) I. apply mdp_trace_prob_nonneg; [exact N|apply W|apply Od, I]. }
  assert (E : forall z, mdp_proper z acts alph -> (forall obs, In obs L -> 0 < mdp_trace_prob m (interleave obs acts) -> 0 < mdp_trace_prob z (interleave obs acts)) ->
    expected z = sumL L (fun obs => mdp_trace_prob m (interleave obs acts) * ln (mdp_trace_prob z (interleave obs acts)))).
  { intros z Pz Hz. apply sumL_ext. intros obs I. destruct (Rle_lt_or_eq_dec _ _ (Nn m obs P1 I)) as [P|Z]; [|rewrite <- Z; ring]. f_equal.
    rewrite C27_mdp_logLikelihood; [|apply Pz|apply Pz|apply usable_once, Ne, I|discriminate|intros tr [<-|[]]; apply Od, I].
    specialize (Hz obs I P). unfold value, avg_ll, set_ll, sumL, weighted, once. cbn [seqs times combine map fst snd]. destruct (Rlt_dec _ _) as [_|Nl]; [|contradiction].
    unfold rsum, zsum. cbn [fold_right Z.add]. field. }
  rewrite (E m), (E m2) by (auto; intros obs I; apply Ac; apply words_length in I; exact I).
  apply gibbs; auto.
  - intros obs I. apply Ac. apply words_length in I. exact I.
  - destruct P1 as (W & N & Si & Ha & Hl). apply C28_mdp_distribution; assumption.
  - destruct P2 as (W & N & Si & Ha & Hl). right. apply C28_mdp_distribution; assumption.
Qed.
Print Assumptions C150_mdp_expected_score.

(** ** Instances *)

(** Generator: a chain that moves from a to b with probability 3/4. *)
Definition gen : mc R := mkMC [[1/4; 3/4]; [0; 1]] ["a"; "b"]%string [1; 0] "gen"%string.
(** Another model: a single hidden state, both symbols equally likely. *)
Definition coin : hmm R := mkHMM [[1]] [[1/2; 1/2]] ["a"; "b"]%string [1] "coin"%string.
(** A wrong model: always from a to b. *)
Definition sure : mc R := mkMC [[0; 1]; [0; 1]] ["a"; "b"]%string [1; 0] "sure"%string.
Definition four : tset (list string) := mkset [["a"; "a"]; ["a"; "b"]]%string [1; 3]%Z (Some 0%Z).

Lemma two_proper p lab l1 l2 : 0 <= p <= 1 -> lab = [l1; l2] -> proper (FromMC (mkMC [[1 - p; p]; [0; 1]] lab [1; 0] "m"%string)).
Proof.
  intros Hp ->. split; [|split].
  - split; [split; [reflexivity|intros r [<-|[<-|[]]]; reflexivity]|]. split; [reflexivity|]. split; [reflexivity|]. intros v [<-|[<-|[]]]; lra.
  - split; [intros r [<-|[<-|[]]] v [<-|[<-|[]]]; lra|intros r [<-|[<-|[]]]; cbn; lra].
  - cbn. lra.
Qed.
Lemma gen_proper : proper (FromMC gen).
Proof. unfold gen. replace (1/4) with (1 - 3/4) by lra. apply (two_proper (3/4) _ "a"%string "b"%string); [lra|reflexivity]. Qed.
Lemma sure_proper : proper (FromMC sure).
Proof. pose proof (two_proper 1 _ "a"%string "b"%string ltac:(lra) eq_refl) as H. replace (1 - 1) with 0 in H by lra. exact H. Qed.
Lemma coin_proper : proper (FromHMM coin).
Proof.
  cbn. repeat split; cbn; auto; try (intros r [<-|[]]); cbn; try lra; auto.
  - repeat constructor; cbn; intuition discriminate.
  - intros v [<-|[]]; lra.
  - intros v [<-|[<-|[]]]; lra.
Qed.
Lemma four_usable : usable four.
Proof. split; [reflexivity|]. split; [intros t [<-|[<-|[]]]; lia|]. cbn. intros [E|[E|[]]]; discriminate. Qed.
Lemma gen_aa : mc_trace_prob gen ["a"; "a"]%string = 1/4.
Proof. unfold mc_trace_prob, trace_prob, sumL. cbn. lra. Qed.
Lemma gen_ab : mc_trace_prob gen ["a"; "b"]%string = 3/4.
Proof. unfold mc_trace_prob, trace_prob, sumL. cbn. lra. Qed.
Lemma coin_aa : hmm_trace_prob coin ["a"; "a"]%string = 1/4.
Proof. unfold hmm_trace_prob, trace_prob, sumL, emit, Sum, sumL. cbn. lra. Qed.
Lemma coin_ab : hmm_trace_prob coin ["a"; "b"]%string = 1/4.
Proof. unfold hmm_trace_prob, trace_prob, sumL, emit, Sum, sumL. cbn. lra. Qed.
Lemma sure_aa : mc_trace_prob sure ["a"; "a"]%string = 0.
Proof. unfold mc_trace_prob, trace_prob, sumL. cbn. lra. Qed.
Lemma sure_ab : mc_trace_prob sure ["a"; "b"]%string = 1.
Proof. unfold mc_trace_prob, trace_prob, sumL. cbn. lra. Qed.

Lemma four_shares : forall tr t, In (tr, t) (weighted four) -> law (FromMC gen) tr = share four t.
Proof.
  intros tr t [[= <- <-]|[[= <- <-]|[]]]; unfold share; cbn [law four times]; [rewrite gen_aa|rewrite gen_ab]; cbn [zsum fold_right Z.add Pos.add Pos.succ]; lra.
Qed.
Lemma four_length tr : In tr (seqs four) -> length tr = 2%nat.
Proof. intros [<-|[<-|[]]]; reflexivity. Qed.
Lemma four_NoDup : NoDup (seqs four).
Proof. repeat constructor; cbn; intuition discriminate. Qed.

(** The hypotheses of the theorems hold and the inequality is strict. *)
Example C150_instance : exists vx vy, score (FromMC gen) four = Ok vx /\ score (FromHMM coin) four = Ok vy /\ vy < vx /\ vx = neg_entropy four.
Proof.
  assert (Pc : forall tr, In tr (seqs four) -> 0 < law (FromHMM coin) tr).
  { intros tr [<-|[<-|[]]]; cbn [law]; [rewrite coin_aa|rewrite coin_ab]; lra. }
  assert (Pg : forall tr, In tr (seqs four) -> 0 < law (FromMC gen) tr).
  { intros tr [<-|[<-|[]]]; cbn [law]; [rewrite gen_aa|rewrite gen_ab]; lra. }
  assert (NE : seqs four <> []) by discriminate.
  destruct (C150_generator_best (FromMC gen) (FromHMM coin) four 1 gen_proper coin_proper four_usable NE four_NoDup four_length four_shares Pc) as (vx & vy & Ex & Ey & Le & Eq).
  destruct (C150_score_bound (FromMC gen) four 1 gen_proper four_usable NE four_NoDup four_length Pg) as (v & Ev & _ & Qv).
  exists vx, vy. split; [exact Ex|]. split; [exact Ey|]. split.
  - destruct (Rle_lt_or_eq_dec _ _ Le) as [|E]; [assumption|]. exfalso. apply Eq with (tr := ["a"; "b"]%string) in E; [|right; left; reflexivity].
    cbn [law] in E. rewrite gen_ab, coin_ab in E. lra.
  - rewrite Ev in Ex. injection Ex as <-. apply Qv, four_shares.
Qed.

Example C150_expected_instance :
  let expected z := sumL (words ["a"; "b"]%string 2) (fun tr => law (FromMC gen) tr * value (score z (once tr))) in
  expected (FromHMM coin) < expected (FromMC gen).
Proof.
  intros expected.
  assert (Pc : forall o o', In o ["a"; "b"]%string -> In o' ["a"; "b"]%string -> hmm_trace_prob coin [o; o'] = 1/4).
  { intros o o' [<-|[<-|[]]] [<-|[<-|[]]]; unfold hmm_trace_prob, trace_prob, sumL, emit, Sum, sumL; cbn; lra. }
  destruct (C150_expected_score (FromMC gen) (FromHMM coin) ["a"; "b"]%string 1 gen_proper coin_proper) as [Le Eq].
  - repeat constructor; cbn; intuition discriminate.
  - cbn. tauto.
  - intros tr L P. destruct tr as [|o [|o' [|]]]; try discriminate. cbn [law] in *.
    assert (Z : forall u, ~ In u ["a"; "b"]%string -> forall n, is_label ["a"; "b"]%string u n = 0 \/ (2 <= n)%nat).
    { intros u N n. destruct n as [|[|n]]; [left|left|right; lia]; unfold is_label; cbn [nth].
      - destruct (String.eqb_spec "a"%string u) as [E|E]; [exfalso; apply N; cbn; auto|reflexivity].
      - destruct (String.eqb_spec "b"%string u) as [E|E]; [exfalso; apply N; cbn; auto|reflexivity]. }
    assert (D : In o ["a"; "b"]%string /\ In o' ["a"; "b"]%string).
    { unfold mc_trace_prob, trace_prob, sumL in P. cbn -[is_label In] in P.
      destruct (in_dec String.string_dec o ["a"; "b"]%string) as [I|N], (in_dec String.string_dec o' ["a"; "b"]%string) as [I'|N']; [split; assumption| | |]; exfalso;
      repeat match goal with N : ~ In ?u _ |- _ => destruct (Z u N 0%nat) as [Z0|Z0]; [|lia]; destruct (Z u N 1%nat) as [Z1|Z1]; [|lia]; rewrite ?Z0, ?Z1 in P; clear N Z0 Z1 end; lra. }
    rewrite Pc by apply D. lra.
  - fold (expected (FromHMM coin)) in *. fold (expected (FromMC gen)) in *.
    destruct (Rle_lt_or_eq_dec _ _ Le) as [|E]; [assumption|]. exfalso.
    assert (A : law (FromHMM coin) ["a"; "b"]%string = law (FromMC gen) ["a"; "b"]%string) by (apply Eq; [exact E|cbn; tauto]).
    cbn [law] in A. rewrite gen_ab, coin_ab in A. lra.
Qed.

(** Traces the other model cannot emit are left out of its score, so a wrong
    model can do better than the generator. *)
Theorem C150_impossible_traces_refuted : exists (x y : source) (s : tset (list string)) vx vy,
  proper x /\ proper y /\ usable s /\ NoDup (seqs s) /\ (forall tr, In tr (seqs s) -> length tr = 2%nat) /\
  (forall tr t, In (tr, t) (weighted s) -> law x tr = share s t) /\
  score x s = Ok vx /\ score y s = Ok vy /\ vx < vy.
Proof.
  exists (FromMC gen), (FromMC sure), four, (avg_ll (law (FromMC gen)) (weighted four)), (avg_ll (law (FromMC sure)) (weighted four)).
  split; [exact gen_proper|]. split; [exact sure_proper|]. split; [exact four_usable|]. split; [exact four_NoDup|]. split; [exact four_length|]. split; [exact four_shares|].
  split; [apply score_eq; [exact gen_proper|exact four_usable]|]. split; [apply score_eq; [exact sure_proper|exact four_usable]|].
  unfold avg_ll, set_ll, sumL, weighted. cbn [law four seqs times combine map fst snd rsum fold_right zsum Z.add Pos.add Pos.succ].
  rewrite gen_aa, gen_ab, sure_aa, sure_ab. repeat (destruct (Rlt_dec _ _); try lra). rewrite ln_1.
  assert (A : ln (1/4) < 0) by (rewrite <- ln_1; apply ln_increasing; lra). assert (B : ln (3/4) < 0) by (rewrite <- ln_1; apply ln_increasing; lra). lra.
Qed.
Print Assumptions C150_impossible_traces_refuted.

Definition gen_mdp : mdp R := mkMDP [[[1/4; 3/4]]; [[0; 1]]] ["a"; "b"]%string ["l"]%string [1; 0] "gen"%string.
Definition half_mdp : mdp R := mkMDP [[[1/2; 1/2]]; [[0; 1]]] ["a"; "b"]%string ["l"]%string [1; 0] "half"%string.
Example C150_mdp_instance : mdp_proper gen_mdp ["l"; "l"]%string ["a"; "b"]%string /\ mdp_proper half_mdp ["l"; "l"]%string ["a"; "b"]%string /\
  mdp_trace_prob gen_mdp ["a"; "l"; "a"; "l"; "b"]%string = 3/16 /\ mdp_trace_prob half_mdp ["a"; "l"; "a"; "l"; "b"]%string = 1/4.
Proof.
  assert (G : forall p, 0 <= p <= 1 -> mdp_proper (mkMDP [[[1 - p; p]]; [[0; 1]]] ["a"; "b"]%string ["l"]%string [1; 0] "m"%string) ["l"; "l"]%string ["a"; "b"]%string).
  { intros p Hp. split; [|split; [|split; [|split]]].
    - split; [|split; [reflexivity|split; [repeat constructor; cbn; tauto|split; [reflexivity|]]]].
      + intros ra [<-|[<-|[]]]; (split; [reflexivity|intros r [<-|[]]; reflexivity]).
      + intros v [<-|[<-|[]]]; lra.
    - intros ra [<-|[<-|[]]] r [<-|[]] v [<-|[<-|[]]]; lra.
    - cbn. lra.
    - intros a s I L. assert (a = "l"%string) as -> by (cbn in I; intuition congruence). change (s < 2)%nat in L.
      destruct s as [|[|s]]; [| |lia]; unfold act_mat, Sum, sumL; cbn; lra.
    - cbn. tauto. }
  assert (E : gen_mdp = mkMDP [[[1 - 3/4; 3/4]]; [[0; 1]]] ["a"; "b"]%string ["l"]%string [1; 0] "gen"%string) by (unfold gen_mdp; replace (1 - 3/4) with (1/4) by lra; reflexivity).
  assert (E' : half_mdp = mkMDP [[[1 - 1/2; 1/2]]; [[0; 1]]] ["a"; "b"]%string ["l"]%string [1; 0] "half"%string) by (unfold half_mdp; replace (1 - 1/2) with (1/2) by lra; reflexivity).
  split; [rewrite E; apply (G (3/4)); lra|]. split; [rewrite E'; apply (G (1/2)); lra|].
  split; unfold mdp_trace_prob, trace_prob, sumL, act_mat, Sum, sumL; cbn; lra.
Qed.

(** C160: sets generated from a model approach its probabilities, and the model
    that generated them ends up with the best score. *)
From Coq Require Import String ZArith Bool Reals List Lra Lia.
From Verif Require Import Num Py SNum LSum MSet SSet LSet MModels MRun SRun SBW SLik SPath LLik2 SGibbs LGibbs PLik PBWHMM PRun SLaw PLaw PBest PGibbs SChance LChance LChance2.
Import ListNotations.
Local Open Scope R_scope.

(** The probability of an event is a number between 0 and 1 determined by the event. *)
Theorem C160_chance : forall k E p, chance k E p -> 0 <= p <= 1 /\ forall p', chance k E p' -> p' = p.
Proof.
  intros k E p C. split; [|intros p' C'; apply (chance_unique k E); assumption].
  assert (Z : chance k (fun _ => False) 0).
  { apply chance_boxes. exists []. split; [intros b []|]. split; [constructor|]. split; [reflexivity|]. intros d _. split; [intros []|intros (b & [] & _)]. }
  assert (O : chance k (fun _ => True) 1).
  { apply chance_boxes. exists [repeat (0, 1) k]. split; [intros b [<-|[]]; split; [apply repeat_length|intros ab I; apply repeat_spec in I; subst; cbn; lra]|]. split; [repeat constructor|]. split.
    - unfold sumL. cbn. rewrite Rplus_0_r. clear. induction k as [|k IH]; cbn; [reflexivity|]. rewrite IH. ring.
    - intros d U. split; [intros _|auto]. exists (repeat (0, 1) k). split; [left; reflexivity|]. generalize 0%nat. clear -U. induction k as [|k IH]; intros i; [exact I|]. cbn [repeat inbox]. split; [|apply IH].
      specialize (U i). unfold unit_draw, within in *. cbn [fst snd]. split; [lra|]. destruct (Req_dec (d i) 0); [right; lra|left; lra]. }
  split; [apply (chance_le k (fun _ => False) E)|apply (chance_le k E (fun _ => True))]; auto. intros d _ [].
Qed.
Print Assumptions C160_chance.

Lemma trace_eqb_decides : decides_eq trace_eqb.
Proof. intros a b. destruct (trace_eqb_spec a b); split; intros; congruence. Qed.
Lemma stochastic_dist M : stochastic M -> all_dist M.
Proof. intros [N S] r I. split; [apply N, I|apply S, I]. Qed.

Section Sampled.
  Context (x : source) (T : nat) (size : Z) (k : nat) (run : Z -> (nat -> R) -> res (list string)).
  Hypothesis Sx : sampled x T size k run.
  Hypothesis Px : proper x.
  Lemma sampled_law tr : length tr = S T -> chance k (fun d => run size d = Ok tr) (law x tr).
  Proof.
    intros L. destruct Sx as [m T0|m T0]; cbn [law proper] in *.
    - destruct Px as (W & St & Si). destruct (C139_mc_run_law m tr W (stochastic_dist _ St)) as (boxes & H); [split; [apply W|exact Si]|intros ->; discriminate|].
      exists boxes. rewrite L in H. replace (S T0 - 1)%nat with T0 in H by lia. exact H.
    - destruct Px as (W & St & So & Si). destruct (C139_hmm_run_law m tr W (stochastic_dist _ St) (stochastic_dist _ So)) as (boxes & H); [split; [apply W|exact Si]|].
      exists boxes. rewrite L in H. rewrite <- hmm_move_trace; [exact H|exact W|apply St|intros ->; discriminate].
  Qed.
  Lemma sampled_total d : (forall i, unit_draw (d i)) -> exists tr, run size d = Ok tr /\ length tr = S T /\ 0 < law x tr.
  Proof.
    intros U. destruct Sx as [m T0|m T0]; cbn [law proper] in *.
    - destruct Px as (W & St & Si). assert (DI : is_dist (mc_ini m)) by (split; [apply W|exact Si]).
      destruct (C22_mc_run m T0 d W (stochastic_dist _ St) DI U) as (s & y & _ & _ & _ & E). eexists. split; [exact E|]. exact (C22_mc_run_possible m T0 d _ W (stochastic_dist _ St) DI U E).
    - destruct Px as (W & St & So & Si). assert (DI : is_dist (hmm_ini m)) by (split; [apply W|exact Si]).
      destruct (C23_hmm_run m (S T0) d W (stochastic_dist _ St) (stochastic_dist _ So) DI U) as (s & y & _ & _ & _ & E). eexists. split; [exact E|].
      destruct (C23_hmm_run_possible m (S T0) d _ W (stochastic_dist _ St) (stochastic_dist _ So) DI U E) as [L P]. split; [exact L|]. rewrite <- hmm_move_trace; [exact P|exact W|apply St|]. intros E0. rewrite E0 in L. discriminate.
  Qed.
  Context (alph : list string).
  Hypothesis Na : NoDup alph.
  Hypothesis Ha : forall o, In o (symbols x) -> In o alph.
  Lemma possible_word tr : length tr = S T -> 0 < law x tr -> In tr (words alph (S T)).
  Proof.
    intros L P. destruct (in_dec (list_eq_dec String.string_dec) tr (words alph (S T))) as [I|NI]; [exact I|exfalso].
    pose proof (law_part x (tr :: words alph (S T)) T Px) as H. rewrite sumL_cons, (law_total x alph T Px Na Ha) in H.
    assert (law x tr + 1 <= 1); [|lra]. apply H; [constructor; [exact NI|apply words_NoDup, Na]|]. intros t [<-|I]; [exact L|apply (words_length alph), I].
  Qed.
  Let outs := words alph (S T).
  Lemma outs_law tr : In tr outs -> chance k (fun d => run size d = Ok tr) (law x tr).
  Proof. intros I. apply sampled_law, (words_length alph), I. Qed.
  Lemma outs_total d : (forall i, unit_draw (d i)) -> exists tr, In tr outs /\ run size d = Ok tr.
  Proof. intros U. destruct (sampled_total d U) as (tr & E & L & P). exists tr. split; [apply possible_word; assumption|exact E]. Qed.
  Lemma emits_possible l d : (forall i, unit_draw (d i)) -> emits k run size l d -> forall tr, In tr l -> length tr = S T /\ 0 < law x tr.
  Proof.
    intros U H tr I. rewrite emits_nth in H. apply In_nth_error in I as [i E]. specialize (H i tr E). destruct (sampled_total _ (later_unit (i * k) d U)) as (tr' & E' & L & P). assert (tr' = tr) as <- by congruence. auto.
  Qed.
  Lemma concentrated F N eps (bad : list (list string) -> bool) (Ev : (nat -> R) -> Prop) : (0 < N)%nat -> 0 < eps ->
    (forall l, bad l = true -> eps <= Rabs (sumL l F / INR N - mean outs (law x) F)) ->
    (forall d l, (forall i, unit_draw (d i)) -> length l = N -> emits k run size l d -> (Ev d <-> bad l = true)) ->
    exists q, chance (N * k) Ev q /\ q <= variance outs (law x) F / (INR N * eps ^ 2).
  Proof.
    intros HN He Hb HE. exists (sumL (filter bad (words outs N)) (prodP (law x))). split.
    - assert (ND : NoDup outs) by apply words_NoDup, Na. apply (chance_ext (N * k) (fun d => exists l, In l (filter bad (words outs N)) /\ emits k run size l d)).
      + intros d U. split.
        * intros (l & I & H). apply filter_In in I as [I B]. apply (HE d l U); [apply (words_length outs), I|exact H|exact B].
        * intros E. destruct (emits_total k run size outs outs_total N d U) as (l & I & H). exists l. split; [|exact H]. apply filter_In. split; [exact I|]. apply (HE d l U); [apply (words_length outs), I|exact H|exact E].
      + apply set_chance; [exact ND|exact outs_law].
    - apply chebyshev; [|apply law_total; assumption|exact HN|exact He|].
      + intros tr I. apply law_nonneg; [exact Px|]. intros ->. apply words_length in I. discriminate.
      + intros l _ B _. apply Hb, B.
  Qed.
  (** Scores of the generated set. *)
  Lemma generated_score y l d : (forall i, unit_draw (d i)) -> l <> [] -> emits k run size l d -> proper y -> (forall tr, length tr = S T -> 0 < law x tr -> 0 < law y tr) ->
    exists ss vs, generated trace_eqb k run size (length l) d = Ok (ss, vs) /\ score y (mkset ss vs (Some 0%Z)) = Ok (sumL l (fun tr => ln (law y tr)) / INR (length l)).
  Proof.
    intros U NE H Py AC. destruct (generated_emits trace_eqb trace_eqb_decides k run size l d H) as (ss & vs & E & NDs & L & IN & PV & Z & Sm). exists ss, vs. split; [exact E|].
    rewrite score_eq; [|exact Py|].
    - f_equal. unfold avg_ll, set_ll, weighted. cbn [seqs times]. rewrite <- (Sm (fun tr => ln (law y tr))). f_equal.
      + apply sumL_ext. intros [tr t] I. cbn [fst snd]. apply in_combine_l in I. apply IN in I. destruct (emits_possible l d U H tr I) as [Lt Pt]. destruct (Rlt_dec _ _) as [_|N]; [reflexivity|]. exfalso. apply N, AC; assumption.
      + f_equal. replace (map snd (combine ss vs)) with vs; [rewrite Z, <- INR_IZR_INZ; reflexivity|]. clear -L. revert vs L. induction ss as [|s ss IH]; intros [|v vs] L; try discriminate; [reflexivity|]. cbn in *. f_equal. apply IH. lia.
    - split; [exact L|]. split; [intros v I; specialize (PV v I); lia|]. cbn. intros I. apply IN in I. destruct (emits_possible l d U H [] I) as [Q _]. discriminate.
  Qed.
End Sampled.

(** The traces of a set are independent: any list of traces has the product of their
    probabilities. *)
Theorem C160_independent : forall x T size k run (trs : list (list string)), sampled x T size k run -> proper x -> (forall tr, In tr trs -> length tr = S T) ->
  chance (length trs * k) (fun d => forall i tr, nth_error trs i = Some tr -> run size (later (i * k) d) = Ok tr) (fold_right Rmult 1 (map (law x) trs)).
Proof.
  intros x T size k run trs Sx Px Hl. apply (chance_ext _ (emits k run size trs)); [intros d _; apply emits_nth|].
  replace (fold_right Rmult 1 (map (law x) trs)) with (prodP (law x) trs) by (clear; induction trs as [|t trs IH]; [reflexivity|]; cbn; rewrite <- IH; reflexivity).
  apply (emits_chance k run size trs); [|auto]. intros tr I. apply (sampled_law x T size k run); auto.
Qed.
Print Assumptions C160_independent.

(** The average over the generated set of any function of the traces is within eps of its
    expected value, except with probability at most variance / (N eps^2). *)
Theorem C160_average : forall x T size k run alphabet (F : list string -> R) N eps, sampled x T size k run -> proper x -> NoDup alphabet -> (forall o, In o (symbols x) -> In o alphabet) ->
  (0 < N)%nat -> 0 < eps ->
  exists q, chance (N * k) (fun d => ~ exists ss vs, generated trace_eqb k run size N d = Ok (ss, vs) /\ Rabs (average F ss vs - mean (words alphabet (S T)) (law x) F) < eps) q /\
    q <= variance (words alphabet (S T)) (law x) F / (INR N * eps ^ 2).
Proof.
  intros x T size k run alph F N eps Sx Px Na Ha HN He. set (mu := mean (words alph (S T)) (law x) F).
  apply (concentrated x T size k run Sx Px alph Na Ha F N eps (fun l => if Rle_dec eps (Rabs (sumL l F / INR N - mu)) then true else false)); [exact HN|exact He| |].
  - intros l B. destruct (Rle_dec _ _) as [L|]; [exact L|discriminate].
  - intros d l U L H. destruct (generated_emits trace_eqb trace_eqb_decides k run size l d H) as (ss & vs & E & NDs & Lv & IN & PV & Z & Sm). rewrite L in E, Z.
    assert (Av : average F ss vs = sumL l F / INR N).
    { unfold average. rewrite Sm. f_equal.  f_equal. transitivity (IZR (zsum vs)); [|rewrite Z, <- INR_IZR_INZ; reflexivity].
      clear. induction vs as [|v vs IH]; [reflexivity|]. rewrite sumL_cons, IH. cbn [zsum]. rewrite plus_IZR. reflexivity. }
    destruct (Rle_dec _ _) as [G|G]; split; intros Q; try reflexivity; try discriminate.
    + intros (ss' & vs' & E' & Q'). assert (ss' = ss /\ vs' = vs) as [-> ->] by (rewrite E in E'; split; congruence). rewrite Av in Q'. fold mu in Q'. lra.
    + exfalso. apply Q. exists ss, vs. split; [exact E|]. rewrite Av. fold mu. lra.
Qed.
Print Assumptions C160_average.

(** In particular the share of a trace in the set. *)
Theorem C160_frequency : forall x T size k run (tr : list string) N eps, sampled x T size k run -> proper x -> length tr = S T -> (0 < N)%nat -> 0 < eps ->
  exists q, chance (N * k) (fun d => ~ exists ss vs, generated trace_eqb k run size N d = Ok (ss, vs) /\
      Rabs (sumL (combine ss vs) (fun sv => if list_eq_dec String.string_dec (fst sv) tr then IZR (snd sv) else 0) / INR N - law x tr) < eps) q /\
    q <= law x tr * (1 - law x tr) / (INR N * eps ^ 2).
Proof.
  intros x T size k run tr N eps Sx Px Lt HN He. set (alph := nodup String.string_dec (symbols x ++ tr)).
  assert (Na : NoDup alph) by apply NoDup_nodup. assert (Ha : forall o, In o (symbols x) -> In o alph) by (intros o I; apply nodup_In, in_or_app; left; exact I).
  assert (It : In tr (words alph (S T))). { rewrite <- Lt. apply words_In. intros o I. apply nodup_In, in_or_app. right. exact I. }
  set (F := fun t => if list_eq_dec String.string_dec t tr then 1 else 0).
  assert (One : forall G : list string -> R, sumL (words alph (S T)) (fun t => law x t * (if list_eq_dec String.string_dec t tr then G t else 0)) = law x tr * G tr).
  { intros G. pose proof (words_NoDup alph (S T) Na) as ND. revert ND It. generalize (words alph (S T)). intros L ND. induction L as [|a L IH]; intros I; [destruct I|]. inversion ND; subst. rewrite sumL_cons.
    destruct I as [->|I].
    - destruct (list_eq_dec String.string_dec tr tr); [|congruence]. rewrite sumL_zero_ext; [ring|]. intros t J. destruct (list_eq_dec String.string_dec t tr); [subst; contradiction|ring].
    - rewrite IH by assumption. destruct (list_eq_dec String.string_dec a tr); [subst; contradiction|ring]. }
  assert (Mu : mean (words alph (S T)) (law x) F = law x tr) by (unfold mean, F; rewrite (One (fun _ => 1)); ring).
  assert (Va : variance (words alph (S T)) (law x) F = law x tr * (1 - law x tr)).
  { unfold variance. rewrite Mu. rewrite (sumL_ext _ _ (fun t => law x t * (if list_eq_dec String.string_dec t tr then 1 - 2 * law x tr else 0) + law x t * law x tr ^ 2)).
    - rewrite sumL_plus, (One (fun _ => 1 - 2 * law x tr)), sumL_scal_r, (law_total x alph T Px Na Ha). ring.
    - intros t _. unfold F. destruct (list_eq_dec _ _ _); ring. }
  destruct (C160_average x T size k run alph F N eps Sx Px Na Ha HN He) as (q & C & B). rewrite Mu, Va in *. exists q. split; [|exact B].
  refine (chance_ext _ _ _ _ _ C). intros d U. apply not_iff_compat. destruct (emits_total k run size _ (outs_total x T size k run Sx Px alph Na Ha) N d U) as (l & I & H).
  destruct (generated_emits trace_eqb trace_eqb_decides k run size l d H) as (ss0 & vs0 & E0 & _ & _ & _ & _ & Z & _). rewrite (words_length _ _ _ I) in E0, Z.
  assert (Sh : forall ss vs, generated trace_eqb k run size N d = Ok (ss, vs) -> average F ss vs = sumL (combine ss vs) (fun sv => if list_eq_dec String.string_dec (fst sv) tr then IZR (snd sv) else 0) / INR N).
  { intros ss vs E. assert (ss = ss0 /\ vs = vs0) as [-> ->] by (rewrite E in E0; split; congruence). unfold average. f_equal.
    - apply sumL_ext. intros sv _. unfold F. destruct (list_eq_dec _ _ _); ring.
    - f_equal. transitivity (IZR (zsum vs0)); [|rewrite Z, <- INR_IZR_INZ; reflexivity]. clear. induction vs0 as [|v vs IH]; [reflexivity|]. rewrite sumL_cons, IH. cbn [zsum]. rewrite plus_IZR. reflexivity. }
  split; intros (ss & vs & E & Q); exists ss, vs; (split; [exact E|]); [rewrite <- (Sh ss vs E)|rewrite (Sh ss vs E)]; exact Q.
Qed.
Print Assumptions C160_frequency.

(** The score that a model y gives to a set generated by x is within eps of the expected
    score of one trace, except with probability at most variance / (N eps^2). *)
Theorem C160_score : forall x y T size k run alphabet N eps, sampled x T size k run -> proper x -> proper y -> NoDup alphabet -> (forall o, In o (symbols x) -> In o alphabet) ->
  (forall tr, length tr = S T -> 0 < law x tr -> 0 < law y tr) -> (0 < N)%nat -> 0 < eps ->
  exists q, chance (N * k) (fun d => ~ exists ss vs v, generated trace_eqb k run size N d = Ok (ss, vs) /\ score y (mkset ss vs (Some 0%Z)) = Ok v /\
      Rabs (v - mean (words alphabet (S T)) (law x) (fun tr => ln (law y tr))) < eps) q /\
    q <= variance (words alphabet (S T)) (law x) (fun tr => ln (law y tr)) / (INR N * eps ^ 2).
Proof.
  intros x y T size k run alph N eps Sx Px Py Na Ha AC HN He. set (F := fun tr => ln (law y tr)). set (mu := mean (words alph (S T)) (law x) F).
  apply (concentrated x T size k run Sx Px alph Na Ha F N eps (fun l => if Rle_dec eps (Rabs (sumL l F / INR N - mu)) then true else false)); [exact HN|exact He| |].
  - intros l B. destruct (Rle_dec _ _) as [L|]; [exact L|discriminate].
  - intros d l U L H. destruct (generated_score x T size k run Sx Px y l d U ltac:(intros ->; cbn in L; lia) H Py AC) as (ss & vs & E & Sc). rewrite L in E, Sc. fold F in Sc.
    destruct (Rle_dec _ _) as [G|G]; split; intros Q; try reflexivity; try discriminate.
    + intros (ss' & vs' & v & E' & Sc' & Q'). assert (ss' = ss /\ vs' = vs) as [-> ->] by (rewrite E in E'; split; congruence). assert (v = sumL l F / INR N) as -> by congruence. lra.
    + exfalso. apply Q. exists ss, vs, (sumL l F / INR N). split; [exact E|]. split; [exact Sc|lra].
Qed.
Print Assumptions C160_score.

(** If the model y gives another probability to some trace, then the probability that it
    scores at least as well as x on a set of N traces generated by x is at most C / N. *)
Theorem C160_generator_wins : forall x y T size k run, sampled x T size k run -> proper x -> proper y ->
  (forall tr, length tr = S T -> 0 < law x tr -> 0 < law y tr) -> (exists tr, length tr = S T /\ law y tr <> law x tr) ->
  exists C, forall N, (0 < N)%nat ->
    exists q, chance (N * k) (fun d => ~ exists ss vs vx vy, generated trace_eqb k run size N d = Ok (ss, vs) /\
        score x (mkset ss vs (Some 0%Z)) = Ok vx /\ score y (mkset ss vs (Some 0%Z)) = Ok vy /\ vy < vx) q /\ q <= C / INR N.
Proof.
  intros x y T size k run Sx Px Py AC (t0 & L0 & Df). set (alph := nodup String.string_dec (symbols x ++ symbols y ++ t0)).
  assert (Na : NoDup alph) by apply NoDup_nodup. assert (Ha : forall o, In o (symbols x) -> In o alph) by (intros o I; apply nodup_In, in_or_app; left; exact I).
  assert (Hy : forall o, In o (symbols y) -> In o alph) by (intros o I; apply nodup_In, in_or_app; right; apply in_or_app; left; exact I).
  assert (I0 : In t0 (words alph (S T))). { rewrite <- L0. apply words_In. intros o I. apply nodup_In, in_or_app. right. apply in_or_app. right. exact I. }
  set (L := words alph (S T)) in *. set (F := fun tr => ln (law x tr) - ln (law y tr)). set (mu := mean L (law x) F).
  assert (Ne : forall tr, In tr L -> tr <> []). { intros tr I E. subst. apply words_length in I. discriminate. }
  assert (Mu : 0 < mu).
  { destruct (gibbs L (law x) (law y)) as [Le Eq].
    - intros tr I. apply law_nonneg; auto.
    - intros tr I. apply law_nonneg; auto.
    - intros tr I P. apply AC; [apply (words_length alph), I|exact P].
    - apply law_total; assumption.
    - unfold L. rewrite law_total by assumption. lra.
    - assert (mu = sumL L (fun a => law x a * ln (law x a)) - sumL L (fun a => law x a * ln (law y a))) as ->.
      { unfold mu, mean, F. rewrite <- sumL_minus. apply sumL_ext. intros; ring. }
      destruct (Rle_lt_or_eq_dec _ _ Le) as [S|E]; [lra|]. exfalso. apply Df. apply (proj1 Eq E t0 I0). }
  exists (variance L (law x) F / mu ^ 2). intros N HN. assert (PN : 0 < INR N) by (apply lt_0_INR; lia).
  destruct (concentrated x T size k run Sx Px alph Na Ha F N mu (fun l => if Rle_dec (sumL l F) 0 then true else false) (fun d => ~ exists ss vs vx vy, generated trace_eqb k run size N d = Ok (ss, vs) /\
        score x (mkset ss vs (Some 0%Z)) = Ok vx /\ score y (mkset ss vs (Some 0%Z)) = Ok vy /\ vy < vx) HN Mu) as (q & C & B).
  - intros l B. destruct (Rle_dec _ _) as [G|]; [|discriminate]. fold L mu. assert (sumL l F / INR N <= 0).
    { unfold Rdiv. rewrite <- (Rmult_0_l (/ INR N)). apply Rmult_le_compat_r; [apply Rlt_le, Rinv_0_lt_compat, PN|exact G]. }
    rewrite Rabs_left by lra. lra.
  - intros d l U Ll H. assert (NE : l <> []) by (intros ->; cbn in Ll; lia).
    destruct (generated_score x T size k run Sx Px x l d U NE H Px ltac:(auto)) as (ss & vs & E & Scx). destruct (generated_score x T size k run Sx Px y l d U NE H Py AC) as (ss' & vs' & E' & Scy).
    assert (ss' = ss /\ vs' = vs) as [-> ->] by (rewrite E in E'; split; congruence). rewrite Ll in *.
    assert (SF : sumL l F = sumL l (fun tr => ln (law x tr)) - sumL l (fun tr => ln (law y tr))) by (unfold F; apply sumL_minus).
    assert (Cmp : sumL l (fun tr => ln (law y tr)) / INR N < sumL l (fun tr => ln (law x tr)) / INR N <-> 0 < sumL l F).
    { rewrite SF. split; intros Q.
      - apply (Rmult_lt_compat_r (INR N)) in Q; [|exact PN]. unfold Rdiv in Q. rewrite !Rmult_assoc, Rinv_l, !Rmult_1_r in Q by lra. lra.
      - unfold Rdiv. apply Rmult_lt_compat_r; [apply Rinv_0_lt_compat, PN|lra]. }
    destruct (Rle_dec _ _) as [G|G]; split; intros Q; try reflexivity; try discriminate.
    + intros (ss' & vs' & vx & vy & E2 & Ex & Ey & Q'). assert (ss' = ss /\ vs' = vs) as [-> ->] by (rewrite E in E2; split; congruence).
      rewrite Scx in Ex. rewrite Scy in Ey. injection Ex as <-. injection Ey as <-. apply Cmp in Q'. lra.
    + exfalso. apply Q. exists ss, vs. eexists _, _. split; [exact E|]. split; [exact Scx|]. split; [exact Scy|]. apply Cmp. lra.
  - exists q. split; [exact C|]. eapply Rle_trans; [exact B|]. right. fold L. field. split; lra.
Qed.
Print Assumptions C160_generator_wins.

(** 3000 traces of two labels: the share of "a" "b" is within 0.05 of 3/4, with probability at least 39/40. *)
Example C160_frequency_instance :
  exists q, chance (3000 * 2) (fun d => ~ exists ss vs, generated trace_eqb 2 (fun z => mc_run gen z (-1)) 1 3000 d = Ok (ss, vs) /\
      Rabs (sumL (combine ss vs) (fun sv => if list_eq_dec String.string_dec (fst sv) ["a"; "b"]%string then IZR (snd sv) else 0) / INR 3000 - 3/4) < 1/20) q /\ q <= 1/40.
Proof.
  destruct (C160_frequency (FromMC gen) 1 1 2 _ ["a"; "b"]%string 3000 (1/20) (sampled_mc gen 1) gen_proper eq_refl ltac:(lia) ltac:(lra)) as (q & C & B).
  cbn [law] in *. rewrite gen_ab in *. exists q. split; [exact C|]. eapply Rle_trans; [exact B|]. rewrite INR_IZR_INZ. change (Z.of_nat 3000) with 3000%Z. lra.
Qed.
(** The chain wins against the coin on the sets it generates. *)
Example C160_wins_instance : exists C, forall N, (0 < N)%nat ->
    exists q, chance (N * 2) (fun d => ~ exists ss vs vx vy, generated trace_eqb 2 (fun z => mc_run gen z (-1)) 1 N d = Ok (ss, vs) /\
        score (FromMC gen) (mkset ss vs (Some 0%Z)) = Ok vx /\ score (FromHMM coin) (mkset ss vs (Some 0%Z)) = Ok vy /\ vy < vx) q /\ q <= C / INR N.
Proof.
  apply (C160_generator_wins (FromMC gen) (FromHMM coin) 1 1 2 _ (sampled_mc gen 1) gen_proper coin_proper).
  - intros tr L P. apply (possible_word (FromMC gen) 1 gen_proper ["a"; "b"]%string) in P; [|repeat constructor; cbn; intuition discriminate|cbn; tauto|exact L].
    cbn [words flat_map map app] in P. cbn [law]. destruct P as [<-|[<-|[<-|[<-|[]]]]]; unfold hmm_trace_prob, trace_prob, sumL, emit, Sum, sumL; cbn; lra.
  - exists ["a"; "b"]%string. split; [reflexivity|]. cbn [law]. rewrite gen_ab, coin_ab. lra.
Qed.
(** Sampling an HMM: three tosses, seven values of random() each. *)
Example C160_average_instance : exists q, chance (100 * 7) (fun d => ~ exists ss vs, generated trace_eqb 7 (fun z => hmm_run coin z (-1)) 3 100 d = Ok (ss, vs) /\
    Rabs (average (fun tr => if String.eqb (hd EmptyString tr) "a" then 1 else 0) ss vs - mean (words ["a"; "b"]%string 3) (hmm_trace_prob coin) (fun tr => if String.eqb (hd EmptyString tr) "a" then 1 else 0)) < 1) q /\ q <= variance (words ["a"; "b"]%string 3) (hmm_trace_prob coin) (fun tr => if String.eqb (hd EmptyString tr) "a" then 1 else 0) / 100.
Proof.
  destruct (C160_average (FromHMM coin) 2 3 7 _ ["a"; "b"]%string (fun tr => if String.eqb (hd EmptyString tr) "a" then 1 else 0) 100 1 (sampled_hmm coin 2) coin_proper) as (q & C & B);
    [repeat constructor; cbn; intuition discriminate|cbn; tauto|lia|lra|]. exists q. split; [exact C|]. eapply Rle_trans; [exact B|]. right. cbn [law]. rewrite INR_IZR_INZ. change (Z.of_nat 100) with 100%Z. field.
Qed.

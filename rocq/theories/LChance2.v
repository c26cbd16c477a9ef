(** Consecutive runs of a simulator: their joint probabilities, and the distance between
    averages over the generated set and expected values. *)
From Coq Require Import String ZArith Bool Reals List Lra Lia FunctionalExtensionality.
From Verif Require Import Num Py SNum LSum SRun MSet SSet LSet MRun PRun SLik SLaw SChance PLaw LLik2 LGibbs LChance.
Import ListNotations.
Local Open Scope R_scope.

Lemma later_later a b (d : nat -> R) : later a (later b d) = later (b + a) d.
Proof. apply functional_extensionality. intros j. unfold later. f_equal. lia. Qed.
Lemma words_S {A} (L : list A) N (G : list A -> R) : sumL (words L (S N)) G = sumL L (fun a => sumL (words L N) (fun l => G (a :: l))).
Proof. cbn [words]. rewrite sumL_flat_map. apply sumL_ext. intros a _. apply sumL_map. Qed.
Lemma words_incl {A} (L : list A) N l : In l (words L N) -> forall a, In a l -> In a L.
Proof.
  revert l. induction N as [|N IH]; intros l I a J; cbn [words] in I.
  - destruct I as [<-|[]]. destruct J.
  - apply in_flat_map in I as (b & Ib & I). apply in_map_iff in I as (l' & <- & I). destruct J as [<-|J]; [exact Ib|exact (IH l' I a J)].
Qed.
(** Sums over a list, by distinct elements and their number of occurrences. *)
Lemma sum_occ {A} (eqb : A -> A -> bool) (F : A -> R) ss l : decides_eq eqb -> NoDup ss -> (forall a, In a l -> In a ss) ->
  sumL ss (fun t => IZR (Z.of_nat (occ eqb t l)) * F t) = sumL l F.
Proof.
  intros D ND. induction l as [|a l IH]; intros I.
  - rewrite sumL_zero_ext; [reflexivity|]. intros t _. cbn. ring.
  - rewrite sumL_cons, <- IH by (intros; apply I; right; assumption).
    rewrite (sumL_ext ss _ (fun t => (if eqb t a then F a else 0) + IZR (Z.of_nat (occ eqb t l)) * F t)).
    + rewrite sumL_plus. f_equal. specialize (I a (or_introl eq_refl)). clear -ND D I. induction ss as [|b ss IH]; [destruct I|]. inversion ND; subst. rewrite sumL_cons.
      destruct (eqb b a) eqn:E.
      * apply D in E. subst. rewrite sumL_zero_ext; [ring|]. intros t J. destruct (eqb t a) eqn:E; [apply D in E; subst; contradiction|reflexivity].
      * rewrite IH; [ring|assumption|]. destruct I as [->|I]; [|exact I]. rewrite (proj2 (D a a) eq_refl) in E. discriminate.
    + intros t _. unfold occ. cbn [filter]. destruct (eqb t a) eqn:E; [|cbn [length]; ring]. apply D in E. subst. cbn [length]. rewrite Nat2Z.inj_succ, succ_IZR. ring.
Qed.

(** ** Chebyshev's inequality *)
Section Chebyshev.
  Context {A : Type} (L : list A) (P F : A -> R).
  Definition prodP (l : list A) : R := fold_right (fun a p => P a * p) 1 l.
  Hypothesis P0 : forall a, In a L -> 0 <= P a.
  Hypothesis P1 : sumL L P = 1.
  Let mu := mean L P F.
  Let dev N (l : list A) : R := sumL l F - INR N * mu.
  Lemma prodP_nonneg N l : In l (words L N) -> 0 <= prodP l.
  Proof.
    intros I. assert (J := words_incl _ _ _ I). clear I. induction l as [|a l IH]; cbn [prodP fold_right]; [lra|]. apply Rmult_le_pos; [apply P0, J; left; reflexivity|apply IH; intros; apply J; right; assumption].
  Qed.
  Lemma prodP_total N : sumL (words L N) prodP = 1.
  Proof.
    induction N as [|N IH]; [unfold sumL; cbn; ring|]. rewrite words_S. rewrite (sumL_ext L _ P); [exact P1|]. intros a _. rewrite (sumL_ext _ _ (fun l => P a * prodP l)) by reflexivity.
    rewrite (sumL_scal_l (words L N) (P a) prodP), IH. ring.
  Qed.
  Lemma mean_zero : sumL L (fun a => P a * (F a - mu)) = 0.
  Proof. rewrite (sumL_ext L _ (fun a => P a * F a - P a * mu)) by (intros; ring). rewrite sumL_minus, sumL_scal_r, P1. unfold mu, mean. ring. Qed.
  Lemma dev_cons N a l : dev (S N) (a :: l) = (F a - mu) + dev N l.
  Proof. unfold dev. rewrite sumL_cons, S_INR. ring. Qed.
  Lemma dev_zero N : sumL (words L N) (fun l => prodP l * dev N l) = 0.
  Proof.
    induction N as [|N IH]; [unfold sumL, dev; cbn; unfold sumL; cbn; ring|]. rewrite words_S.
    rewrite (sumL_ext L _ (fun a => P a * (F a - mu))); [apply mean_zero|]. intros a _.
    rewrite (sumL_ext _ _ (fun l => P a * (F a - mu) * prodP l + P a * (prodP l * dev N l))) by (intros l _; rewrite dev_cons; change (prodP (a :: l)) with (P a * prodP l); ring).
    rewrite sumL_plus, (sumL_scal_l _ (P a * (F a - mu)) prodP), (sumL_scal_l _ (P a)), prodP_total, IH. ring.
  Qed.
  Lemma dev_square N : sumL (words L N) (fun l => prodP l * dev N l ^ 2) = INR N * variance L P F.
  Proof.
    induction N as [|N IH]; [unfold sumL, dev; cbn; unfold sumL; cbn; ring|]. rewrite words_S.
    rewrite (sumL_ext L _ (fun a => P a * (F a - mu) ^ 2 + P a * (INR N * variance L P F))).
    - rewrite sumL_plus, sumL_scal_r, P1, S_INR. unfold variance at 2. fold mu. unfold variance. fold mu. ring.
    - intros a _. rewrite (sumL_ext _ _ (fun l => P a * (F a - mu) ^ 2 * prodP l + (2 * P a * (F a - mu) * (prodP l * dev N l) + P a * (prodP l * dev N l ^ 2)))) by (intros l _; rewrite dev_cons; change (prodP (a :: l)) with (P a * prodP l); ring).
      rewrite sumL_plus, sumL_plus, (sumL_scal_l _ (P a * (F a - mu) ^ 2) prodP), (sumL_scal_l _ (2 * P a * (F a - mu))), (sumL_scal_l _ (P a)), prodP_total, dev_zero, IH. ring.
  Qed.
  Lemma chebyshev N eps (bad : list A -> bool) : (0 < N)%nat -> 0 < eps ->
    (forall l, In l (words L N) -> bad l = true -> 0 < prodP l -> eps <= Rabs (sumL l F / INR N - mu)) ->
    sumL (filter bad (words L N)) prodP <= variance L P F / (INR N * eps ^ 2).
  Proof.
    intros HN He Hb. assert (PN : 0 < INR N) by (apply lt_0_INR; lia).
    replace (variance L P F / (INR N * eps ^ 2)) with (INR N * variance L P F / (INR N * eps) ^ 2) by (field; lra). rewrite <- dev_square.
    unfold Rdiv. rewrite <- sumL_scal_r. rewrite sumL_filter. apply sumL_le. intros l I. pose proof (prodP_nonneg N l I) as Pl.
    assert (Q : 0 < / (INR N * eps) ^ 2) by (apply Rinv_0_lt_compat, pow_lt, Rmult_lt_0_compat; assumption).
    assert (G : 0 <= prodP l * dev N l ^ 2 * / (INR N * eps) ^ 2) by (apply Rmult_le_pos; [apply Rmult_le_pos; [exact Pl|apply pow2_ge_0]|lra]).
    destruct (bad l) eqn:B; [|exact G]. destruct (Rle_lt_or_eq_dec _ _ Pl) as [Pp|Z]; [|rewrite <- Z in *; lra].
    specialize (Hb l I B Pp). assert (Hd : INR N * eps <= Rabs (dev N l)).
    { unfold dev. replace (sumL l F - INR N * mu) with (INR N * (sumL l F / INR N - mu)) by (field; lra). rewrite Rabs_mult, (Rabs_pos_eq (INR N)) by lra. apply Rmult_le_compat_l; lra. }
    assert (Hs : (INR N * eps) ^ 2 <= dev N l ^ 2). { rewrite <- (pow2_abs (dev N l)). apply pow_incr. split; [apply Rmult_le_pos; lra|exact Hd]. }
    rewrite Rmult_assoc. rewrite <- (Rmult_1_r (prodP l)) at 1. apply Rmult_le_compat_l; [exact Pl|].
    apply (Rmult_le_reg_r ((INR N * eps) ^ 2)); [apply pow_lt, Rmult_lt_0_compat; assumption|]. rewrite Rmult_assoc, Rinv_l, Rmult_1_l, Rmult_1_r; [exact Hs|]. apply Rgt_not_eq, pow_lt, Rmult_lt_0_compat; assumption.
  Qed.
End Chebyshev.

(** ** A simulator called again and again *)
Section Runs.
  Context {A : Type} (eqb : A -> A -> bool) (D : decides_eq eqb) (k : nat) (run : Z -> (nat -> R) -> res A) (size : Z) (outs : list A) (P : A -> R).
  Hypothesis ND : NoDup outs.
  Hypothesis law : forall a, In a outs -> chance k (fun d => run size d = Ok a) (P a).
  Hypothesis total : forall d, (forall i, unit_draw (d i)) -> exists a, In a outs /\ run size d = Ok a.
  Fixpoint emits (l : list A) (d : nat -> R) : Prop :=
    match l with [] => True | a :: l' => run size d = Ok a /\ emits l' (later k d) end.
  Lemma emits_nth l d : emits l d <-> forall i a, nth_error l i = Some a -> run size (later (i * k) d) = Ok a.
  Proof.
    revert d. induction l as [|b l IH]; intros d.
    - split; [intros _ [|i] a E; discriminate|intros _; exact I].
    - cbn [emits]. rewrite IH. split.
      + intros [E H] [|i] a Ea; [injection Ea as <-; exact E|]. specialize (H i a Ea). rewrite later_later in H. exact H.
      + intros H. split; [exact (H 0%nat b eq_refl)|]. intros i a Ea. rewrite later_later. exact (H (S i) a Ea).
  Qed.
  Lemma emits_chance l : (forall a, In a l -> In a outs) -> chance (length l * k) (emits l) (prodP P l).
  Proof.
    induction l as [|a l IH]; intros I; [exact chance_sure|]. cbn [length Nat.mul emits prodP fold_right]. apply (chance_prod k (length l * k)); [apply law, I; left; reflexivity|].
    apply IH. intros; apply I; right; assumption.
  Qed.
  Lemma emits_total N d : (forall i, unit_draw (d i)) -> exists l, In l (words outs N) /\ emits l d.
  Proof.
    revert d. induction N as [|N IH]; intros d U; [exists []; split; [left; reflexivity|exact I]|].
    destruct (total d U) as (a & Ia & Ea). destruct (IH (later k d) (later_unit k d U)) as (l & Il & El). exists (a :: l). split; [|split; assumption].
    cbn [words]. apply in_flat_map. exists a. split; [exact Ia|]. apply in_map, Il.
  Qed.
  Lemma emits_unique l l' d : length l = length l' -> emits l d -> emits l' d -> l = l'.
  Proof.
    revert l' d. induction l as [|a l IH]; intros [|a' l'] d E H H'; try discriminate; [reflexivity|]. destruct H as [H1 H2], H' as [H1' H2']. f_equal; [congruence|]. apply (IH l' (later k d)); [cbn in E; lia|assumption|assumption].
  Qed.
  Lemma set_chance N (bad : list A -> bool) : chance (N * k) (fun d => exists l, In l (filter bad (words outs N)) /\ emits l d) (sumL (filter bad (words outs N)) (prodP P)).
  Proof.
    assert (W : forall l, In l (filter bad (words outs N)) -> In l (words outs N) /\ length l = N).
    { intros l I. apply filter_In in I as [I _]. split; [exact I|apply (words_length outs), I]. }
    apply chance_union.
    - apply NoDup_filter, words_NoDup, ND.
    - intros l I. destruct (W l I) as [I' E]. rewrite <- E. apply emits_chance. exact (words_incl _ _ _ I').
    - intros a b d Ia Ib _ Ea Eb. apply (emits_unique a b d); [rewrite (proj2 (W a Ia)), (proj2 (W b Ib)); reflexivity|exact Ea|exact Eb].
  Qed.
  Lemma generated_emits l d : emits l d -> exists ss vs, generated eqb k run size (length l) d = Ok (ss, vs) /\ NoDup ss /\ length vs = length ss /\ (forall t, In t ss <-> In t l) /\ (forall v, In v vs -> (0 < v)%Z) /\
    zsum vs = Z.of_nat (length l) /\ forall F, sumL (combine ss vs) (fun sv => IZR (snd sv) * F (fst sv)) = sumL l F.
  Proof.
    intros H. rewrite emits_nth in H. destruct l as [|a0 l0] eqn:El.
    { exists [], []. split; [reflexivity|]. split; [constructor|]. split; [reflexivity|]. split; [intros t; split; intros []|]. split; [intros v []|]. split; [reflexivity|]. intros F. reflexivity. }
    rewrite <- El in *. clear l0 El.
    destruct (C26_generateSet eqb (fun i z => run z (later (i * k) d)) (length l) (PInt size) None None (fun _ => size) (fun i => nth i l a0) D) as (ss & vs & E & NDs & IN & V & Z).
    - intros i _. reflexivity.
    - intros i Li. apply H. apply nth_error_nth', Li.
    - assert (M : map (fun i => nth i l a0) (seq 0 (length l)) = l).
      { clear. induction l as [|b l IH]; [reflexivity|]. cbn [length seq map nth]. f_equal. rewrite <- seq_shift, map_map. exact IH. }
      rewrite M in *. exists ss, vs. split; [exact E|]. split; [exact NDs|]. split; [rewrite V, map_length; reflexivity|]. split; [exact IN|]. split; [|split; [exact Z|]].
      + intros v I. rewrite V in I. apply in_map_iff in I as (t & <- & I). apply IN in I. unfold occ.
        assert (In t (filter (eqb t) l)) by (apply filter_In; split; [exact I|apply D; reflexivity]). destruct (filter (eqb t) l); [contradiction|cbn [length]; lia].
      + intros F. rewrite V. rewrite <- (sum_occ eqb F ss l D NDs) by (intros a I; apply IN, I). clear. induction ss as [|t ss IH]; [reflexivity|]. cbn [map combine]. rewrite !sumL_cons. cbn [fst snd]. rewrite IH. reflexivity.
  Qed.
End Runs.

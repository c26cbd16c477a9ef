(** Several averages of a generated set at once, for any simulator. *)
From Coq Require Import String ZArith Bool Reals List Lra Lia Classical.
From Verif Require Import Num Py SNum LSum MSet SSet LSet MModels MRun SRun LRun SLik LLik2 LGibbs SLaw PLaw SChance LChance LChance2.
Import ListNotations.
Local Open Scope R_scope.

Lemma chance_always k : chance k (fun _ => True) 1.
Proof.
  induction k as [|k IH]; [exact chance_sure|]. apply (chance_ext (1 + k) (fun d => True /\ True)); [tauto|]. rewrite <- (Rmult_1_l 1). apply (chance_prod 1 k (fun _ => True) (fun _ => True)); [|exact IH].
  apply chance_boxes. exists [[(0, 1)]]. split; [intros b [<-|[]]; split; [reflexivity|intros ab [<-|[]]; cbn; lra]|]. split; [repeat constructor|]. split; [unfold sumL; cbn; ring|].
  intros d U. split; [intros _; exists [(0, 1)]; split; [left; reflexivity|]; cbn; specialize (U 0%nat); unfold unit_draw in U; unfold within; cbn; split; [split; [lra|destruct (Req_dec (d 0%nat) 0); [right|left]; lra]|exact I]|auto].
Qed.
Lemma decided {A} (dec : forall a b : A, {a = b} + {a <> b}) (L : list A) (Q : A -> Prop) : exists f : A -> bool, forall a, In a L -> (f a = true <-> Q a).
Proof.
  induction L as [|a L (f & H)]; [exists (fun _ => true); intros a []|]. destruct (classic (Q a)) as [Y|N].
  - exists (fun b => if dec b a then true else f b). intros b [->|I]; [destruct (dec b b); [tauto|congruence]|]. destruct (dec b a) as [->|]; [tauto|apply H, I].
  - exists (fun b => if dec b a then false else f b). intros b [->|I]; [destruct (dec b b); [split; [discriminate|tauto]|congruence]|]. destruct (dec b a) as [->|]; [split; [discriminate|tauto]|apply H, I].
Qed.
Lemma filter_or {A} (f g : A -> bool) (L : list A) w : (forall a, In a L -> 0 <= w a) -> sumL (filter (fun a => f a || g a) L) w <= sumL (filter f L) w + sumL (filter g L) w.
Proof.
  intros N. rewrite !sumL_filter, <- sumL_plus. apply sumL_le. intros a I. specialize (N a I). destruct (f a), (g a); cbn; lra.
Qed.

Section Runs.
  Context {A : Type} (dec : forall a b : A, {a = b} + {a <> b}) (k : nat) (run : Z -> (nat -> R) -> res A) (size : Z) (outs : list A) (P : A -> R).
  Hypothesis ND : NoDup outs.
  Hypothesis law : forall a, In a outs -> chance k (fun d => run size d = Ok a) (P a).
  Hypothesis total : forall d, (forall i, unit_draw (d i)) -> exists a, In a outs /\ run size d = Ok a.
  Lemma outs_nonneg a : In a outs -> 0 <= P a.
  Proof.
    intros I. destruct (law a I) as (B & U & _ & <- & _). change (rsum (map volume B)) with (sumL B volume). apply sumL_nonneg. intros b J. apply (volume_nonneg k), U, J.
  Qed.
  Lemma outs_one : sumL outs P = 1.
  Proof.
    apply (chance_unique k (fun d => exists a, In a outs /\ run size d = Ok a)).
    - apply chance_union; [exact ND|exact law|]. intros a b d _ _ _ E E'. congruence.
    - apply (chance_ext k (fun _ => True)); [|apply chance_always]. intros d U. split; [intros _; apply total, U|auto].
  Qed.
  Lemma concentrated_gen (Fs : list ((A -> R) * R)) N (Q : list A -> Prop) (Ev : (nat -> R) -> Prop) : (0 < N)%nat -> (forall F eps, In (F, eps) Fs -> 0 < eps) ->
    (forall l, (forall a, In a l -> In a outs /\ 0 < P a) -> length l = N -> Q l -> exists F eps, In (F, eps) Fs /\ eps <= Rabs (sumL l F / INR N - mean outs P F)) ->
    (forall d l, (forall i, unit_draw (d i)) -> length l = N -> emits k run size l d -> (Ev d <-> Q l)) ->
    exists q, chance (N * k) Ev q /\ q <= sumL Fs (fun Fe => variance outs P (fst Fe) / snd Fe ^ 2) / INR N.
  Proof.
    intros HN He Hb HE. assert (PN : 0 < INR N) by (apply lt_0_INR; lia). pose proof outs_nonneg as P0. pose proof outs_one as P1.
    destruct (decided (list_eq_dec dec) (words outs N) Q) as (bad & HQ).
    exists (sumL (filter bad (words outs N)) (prodP P)). split.
    - apply (chance_ext (N * k) (fun d => exists l, In l (filter bad (words outs N)) /\ emits k run size l d)).
      + intros d U. split.
        * intros (l & I & H). apply filter_In in I as [I B]. apply (HE d l U); [apply (words_length outs), I|exact H|apply HQ; assumption].
        * intros E. destruct (emits_total k run size outs total N d U) as (l & I & H). exists l. split; [|exact H]. apply filter_In. split; [exact I|]. apply HQ; [exact I|]. apply (HE d l U); [apply (words_length outs), I|exact H|exact E].
      + apply set_chance; assumption.
    - set (dv := fun (Fe : (A -> R) * R) l => if Rle_dec (snd Fe) (Rabs (sumL l (fst Fe) / INR N - mean outs P (fst Fe))) then true else false).
      apply Rle_trans with (sumL (filter (fun l => existsb (fun Fe => dv Fe l) Fs) (words outs N)) (prodP P)).
      + rewrite !sumL_filter. apply sumL_le. intros l I. pose proof (prodP_nonneg outs P P0 N l I) as Pl. destruct (bad l) eqn:B; [|destruct (existsb _ _); lra].
        destruct (Rle_lt_or_eq_dec _ _ Pl) as [Pp|Z]; [|rewrite <- Z; destruct (existsb _ _); lra].
        assert (Pos : forall a, In a l -> In a outs /\ 0 < P a).
        { assert (Inc := words_incl _ _ _ I). clear -Pp P0 Inc. intros a J. split; [apply Inc, J|].
          destruct (Rle_lt_or_eq_dec _ _ (P0 a (Inc a J))) as [|Z]; [assumption|exfalso]. assert (prodP P l = 0); [|lra]. clear -J Z. induction l as [|t l IH]; [destruct J|]. change (prodP P (t :: l)) with (P t * prodP P l).
          destruct J as [->|J]; [rewrite <- Z; ring|rewrite (IH J); ring]. }
        apply HQ in B; [|exact I]. destruct (Hb l Pos (words_length outs _ _ I) B) as (F & e & IF & Le).
        assert (existsb (fun Fe => dv Fe l) Fs = true) as ->; [|lra]. apply existsb_exists. exists (F, e). split; [exact IF|]. unfold dv. cbn [fst snd]. destruct (Rle_dec _ _); [reflexivity|contradiction].
      + clear Hb HQ. induction Fs as [|[F e] Fs IH].
        * cbn [existsb]. rewrite sumL_filter, sumL_zero_ext by reflexivity. unfold sumL. cbn. lra.
        * rewrite (sumL_cons (F, e)). cbn [fst snd]. eapply Rle_trans; [apply (filter_or (dv (F, e)) (fun l => existsb (fun Fe => dv Fe l) Fs)); intros l I; apply (prodP_nonneg outs P P0 N l I)|].
          unfold Rdiv. rewrite Rmult_plus_distr_r. apply Rplus_le_compat; [|apply IH; intros F0 e0 J; apply (He F0 e0); right; exact J].
          specialize (He F e (or_introl eq_refl)). eapply Rle_trans; [apply (chebyshev outs P F P0 P1 N e); [exact HN|exact He|]|].
          -- intros l _ B _. unfold dv in B. cbn [fst snd] in B. destruct (Rle_dec _ _); [assumption|discriminate].
          -- right. field. split; lra.
  Qed.
End Runs.

(** The GoHMM constructor: C16. *)
From Coq Require Import String ZArith Bool Reals List Lra Lia.
From Verif Require Import Num Py SNum LSum MTools LTools MModels MCtor SCtor LCtor PCtor.
Import ListNotations.
Local Open Scope R_scope.

Lemma concat_len {A} d (l : list (list A)) : (forall o, In o l -> length o = d) -> length (concat l) = (d * length l)%nat.
Proof. induction l as [|o l IH]; intros E; cbn [concat length]; [lia|]. rewrite app_length, IH, (E o) by (auto using in_eq, in_cons). lia. Qed.

(** Accepted: one list of distributions for each state, all of the same length,
    which is not 0; no negative deviation; rows and initial vector as for HMMs. *)
Definition go_outputs_ok (n : nat) (output : list (list (R * R))) : Prop :=
  length output = n /\ (exists d, (0 < d)%nat /\ forall o, In o output -> length o = d) /\ forall o mu sigma, In o output -> In (mu, sigma) o -> 0 <= sigma.
Theorem C16_GoHMM_constructor : forall (matrix : list (list R)) (output : list (list (R * R))) i name,
  ((exists m, GoHMM_new matrix output i name = Ok m) <->
   output <> [] /\ go_outputs_ok (length matrix) output /\ ini_ok (length matrix) i /\ (forall r, In r matrix -> row_ok (rsum r))) /\
  (forall m, GoHMM_new matrix output i name = Ok m -> go_mat m = matrix /\ go_out m = output /\ go_name m = name /\ ini_vec (length matrix) i (go_ini m)) /\
  (forall e, GoHMM_new matrix output i name = Err e -> e = ValueError \/ (e = IndexError /\ (output = [] \/ ~ ini_ok (length matrix) i))) /\
  (forall o mu sigma, In o output -> In (mu, sigma) o -> sigma < 0 -> GoHMM_new matrix output i name = Err ValueError).
Proof.
  intros matrix output i name. unfold GoHMM_new. destruct output as [|o0 output].
  { split; [split; [intros [m X]; discriminate|intros [N _]; congruence]|]. split; [discriminate|]. split; [intros e [= <-]; auto|intros o mu sg []]. }
  remember (o0 :: output) as out eqn:Eo. assert (I0 : In o0 out) by (subst; left; reflexivity). assert (NE : out <> []) by (subst; discriminate). clear Eo.
  destruct (forallb (fun o => (length o =? length o0)%nat) out) eqn:F; cbn [negb].
  2:{ assert (NF : ~ exists d, (0 < d)%nat /\ forall o, In o out -> length o = d).
      { intros (d & _ & E). rewrite <- not_true_iff_false in F. apply F, forallb_forall. intros o I. apply Nat.eqb_eq. rewrite (E o I), (E o0 I0). reflexivity. }
      split; [split; [intros [m X]; discriminate|intros (_ & (_ & X & _) & _); tauto]|]. split; [discriminate|]. split; [intros e [= <-]; auto|reflexivity]. }
  assert (E : forall o, In o out -> length o = length o0) by (intros o I; apply Nat.eqb_eq; rewrite forallb_forall in F; apply F, I). clear F.
  pose proof (concat_len _ _ E) as CL. assert (L0 : (0 < length o0)%nat \/ concat out = []).
  { destruct (length o0); [right; apply length_zero_iff_nil; lia|left; lia]. }
  destruct L0 as [L0|L0].
  2:{ rewrite L0 in *. split; [split; [intros [m X]; discriminate|]|].
    - intros (_ & (_ & (d & Pd & Ed) & _) & _). cbn in CL. rewrite (Ed o0 I0) in CL. destruct out; [congruence|]. cbn [length] in CL. nia.
    - split; [discriminate|]. split; [intros e [= <-]; auto|reflexivity]. }
  assert (NC : concat out <> []). { intros Z. rewrite Z in CL. destruct out; [congruence|]. cbn in CL. lia. }
  remember (concat out) as co eqn:Ec. destruct co as [|c cs]; [congruence|]. rewrite Ec in *. clear c cs Ec NC.
  destruct (existsb (fun p => (snd p <? n0)%num) (concat out)) eqn:X.
  { apply existsb_exists in X as ([mu sg] & I & X). apply in_concat in I as (o & I & J). apply Rltb_true in X. nR. cbn [snd] in X.
    split; [split; [intros [m Y]; discriminate|intros (_ & (_ & _ & Y) & _); specialize (Y o mu sg I J); lra]|]. split; [discriminate|]. split; [intros e [= <-]; auto|reflexivity]. }
  assert (NN : forall o mu sg, In o out -> In (mu, sg) o -> 0 <= sg).
  { intros o mu sg I J. destruct (Rle_lt_dec 0 sg) as [|N]; [assumption|]. exfalso. rewrite <- not_true_iff_false in X. apply X, existsb_exists. exists (mu, sg). split; [apply in_concat; eauto|]. apply Rltb_true. exact N. }
  clear X. unfold base_hmm_init. destruct (model_init_spec (length matrix) i) as (Hok & Hv & He).
  assert (LAST : forall o mu sigma, In o out -> In (mu, sigma) o -> sigma < 0 -> False) by (intros o mu sg I J N; specialize (NN o mu sg I J); lra).
  destruct (model_init (length matrix) i) as [ini|e] eqn:Ei; cbn [bind].
  2:{ split; [split; [intros [m Y]; discriminate|]|].
      - intros (_ & _ & Y & _). destruct (proj2 Hok Y) as [? ?]. discriminate.
      - split; [discriminate|]. split; [|intros; exfalso; eauto]. intros e' [= <-]. specialize (He e eq_refl). destruct i; [right|left; exact He]. split; [exact He|]. right. intros Y. destruct (proj2 Hok Y). discriminate. }
  destruct (forallb checkProbabilities matrix) eqn:C; cbn [bind].
  2:{ split; [split; [intros [m Y]; discriminate|]|split; [discriminate|split; [intros e' [= <-]; auto|intros; exfalso; eauto]]].
      intros (_ & _ & _ & Y). apply check_rows in Y. congruence. }
  rewrite CL. destruct (Nat.eqb_spec (2 * (length o0 * length out)) (length o0 * length matrix * 2)) as [Q|Q]; cbn [negb].
  - assert (LO : length out = length matrix) by nia.
    split; [split; [intros _|intros _; eauto]|].
    + split; [exact NE|]. split; [|split; [apply Hok; eauto|apply check_rows, C]]. split; [exact LO|]. split; [exists (length o0); auto|exact NN].
    + split; [|split; [discriminate|intros; exfalso; eauto]]. intros m [= <-]. cbn. repeat (split; [reflexivity|]). apply Hv. reflexivity.
  - split; [split; [intros [m Y]; discriminate|]|split; [discriminate|split; [intros e' [= <-]; auto|intros; exfalso; eauto]]].
    intros (_ & (Y & _) & _). rewrite Y in Q. lia.
Qed.
Print Assumptions C16_GoHMM_constructor.

Example C16_GoHMM_instance :
  (exists m, GoHMM_new [[1/2; 1/2]; [1; 0]] [[(3, 1/2); (0, 2)]; [(-1, 0); (7, 1)]] (IniInt 1) "g"%string = Ok m) /\
  GoHMM_new [[1/2; 1/2]; [1; 0]] [[(3, 1/2); (0, 2)]; [(-1, -1); (7, 1)]] (IniInt 1) "g"%string = Err ValueError.
Proof.
  split.
  - apply C16_GoHMM_constructor. split; [discriminate|]. split; [|split; [cbn; lia|]].
    + split; [reflexivity|]. split; [exists 2%nat; split; [lia|]; intros o [<-|[<-|[]]]; reflexivity|].
      intros o mu sg [<-|[<-|[]]] [[= <- <-]|[[= <- <-]|[]]]; lra.
    + intros r [<-|[<-|[]]]; apply row_ok_one; cbn; lra.
  - eapply C16_GoHMM_constructor; [right; left; reflexivity|left; reflexivity|lra].
Qed.

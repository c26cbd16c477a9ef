(** Theorems C144: learning and likelihood do not depend on the numbering of the
    states, on the names of the labels, nor on the scale of the counts. *)
From Coq Require Import String ZArith Bool Reals List Lia Lra Psatz.
From Verif Require Import Num Py SNum SPath LSum MSet SSet MModels MLik MBW LFB LEM SBW LBW LBWSet LBWMC LBWHMM LBWMDP LBWLoop SLik LLik LLik2 LPath LEMGen PLik PBWMC PBWHMM PBWMDP SSym LSym.
Import ListNotations.
Local Open Scope R_scope.

Definition reset {A B} (h : A -> B) (c : Z) (s : tset A) : tset B := mkset (map h (seqs s)) (map (Z.mul c) (times s)) (ty s).
Lemma weighted_reset {A B} (h : A -> B) c (s : tset A) : weighted (reset h c s) = rewritten h c (weighted s).
Proof.
  unfold weighted, reset, rewritten. cbn [seqs times]. generalize (times s). induction (seqs s) as [|x l IH]; intros [|t ts]; cbn; try reflexivity.
  f_equal. apply IH.
Qed.
Lemma usable_reset {A B} (h : list A -> list B) c (s : tset (list A)) : (0 < c)%Z -> (forall x, h x = [] -> x = []) -> usable s -> usable (reset h c s).
Proof.
  intros Hc Hh (L & P & N). unfold usable, reset. cbn [seqs times]. rewrite !map_length. split; [exact L|]. split.
  - intros t I. cbn [times] in I. apply in_map_iff in I. destruct I as [u [<- I]]. specialize (P u I). nia.
  - intros I. apply in_map_iff in I. destruct I as [x [E I]]. apply N. rewrite <- (Hh x E). exact I.
Qed.
Lemma map_nil_inv {A B} (g : A -> B) x : map g x = [] -> x = [].
Proof. destruct x; [reflexivity|discriminate]. Qed.
Lemma is_label_sym lab lab2 g o i f : renaming g -> nth i lab2 EmptyString = g (nth (f i) lab EmptyString) ->
  is_label lab2 (g o) i = is_label lab o (f i).
Proof.
  intros Hg E. unfold is_label. rewrite E. destruct (String.eqb_spec (nth (f i) lab EmptyString) o) as [->|N]; [rewrite String.eqb_refl; reflexivity|].
  destruct (String.eqb_spec (g (nth (f i) lab EmptyString)) (g o)) as [E'|]; [|reflexivity]. exfalso. apply N. apply Hg. exact E'.
Qed.
Lemma Forall2_map_map {A B C} (P : B -> C -> Prop) (f : A -> B) (g : A -> C) l : (forall x, In x l -> P (f x) (g x)) -> Forall2 P (map f l) (map g l).
Proof. induction l as [|x l IH]; intros H; cbn; constructor; [apply H; left; reflexivity|apply IH; intros; apply H; right; assumption]. Qed.
Lemma Forall2_repeat {B C} (P : B -> C -> Prop) x y k : P x y -> Forall2 P (repeat x k) (repeat y k).
Proof. intros H. induction k; cbn; constructor; auto. Qed.

Lemma same_fit_weaken {M} (R1 R2 : M -> M -> Prop) c d r r2 : (forall x y, R1 x y -> R2 x y) -> same_fit R1 c d r r2 -> same_fit R2 c d r r2.
Proof. intros H. destruct r as [[[[x k] l] b]|], r2 as [[[[y k2] l2] b2]|]; cbn; try tauto. intros (A & B & C & D). auto. Qed.

(** the three cases of a round where one side fails *)
Ltac errs U :=
  let l := fresh "l" in let l2 := fresh "l2" in let U1 := fresh "U1" in let U2 := fresh "U2" in
  match type of U with match ?a with _ => _ end => destruct a as [l|] end;
  match type of U with match ?a with _ => _ end => destruct a as [l2|] end; cbn [bind] in *; try contradiction; try congruence;
  destruct l, l2; try congruence; destruct U as [U1 U2]; first [discriminate (U1 eq_refl)|discriminate (U2 eq_refl)].

(** ** Markov chains *)
Section MC.
  Variables (f : nat -> nat) (g : string -> string) (c : Z) (m m2 : mc R).
  Hypothesis Hf : renumbering (mc_n m) f.
  Hypothesis Hg : renaming g.
  Hypothesis Hc : (0 < c)%Z.
  Hypothesis Hs : same_mc f g m m2.

  Lemma mc_ws_sym tr : Forall2 (wrel (mc_n m) f 1) (mc_ws m2 (map g tr)) (mc_ws m tr).
  Proof.
    unfold mc_ws. rewrite map_map. apply Forall2_map_map. intros o _ i j Hi Hj. destruct Hs as (N & L & _ & M).
    unfold mc_tau. unfold lab. rewrite (L i Hi). change (@mget R RNum) with matR. rewrite (M i j Hi Hj).
    assert (E : String.eqb (g o) (g (nth (f i) (mc_lab m) EmptyString)) = String.eqb o (nth (f i) (mc_lab m) EmptyString)).
    { destruct (String.eqb_spec o (nth (f i) (mc_lab m) EmptyString)) as [->|NE]; [apply String.eqb_refl|].
      destruct (String.eqb_spec (g o) (g (nth (f i) (mc_lab m) EmptyString))) as [E'|]; [|reflexivity]. exfalso. apply NE, Hg, E'. }
    rewrite E. destruct (negb _); nR; ring.
  Qed.

  Variable set : list (list string * Z).
  Hypothesis Hwf : wf_mc m.
  Hypothesis Hnn : nonneg_mat (mc_mat m).
  Hypothesis Hwf2 : wf_mc m2.
  Notation set2 := (rewritten (map g) c set).

  Lemma mc_nn_sym : nonneg_mat (mc_mat m2).
  Proof.
    destruct Hs as (N & _ & _ & M). intros r Ir x Ix. apply (mat_from_entries (mc_mat m2) (mc_n m2) (fun y => 0 <= y)) with (r := r); [apply Hwf2| |exact Ir|exact Ix].
    intros i j Hi Hj. rewrite N in Hi, Hj. change (@mget R RNum) with matR. rewrite M by assumption. apply (mget_nonneg (mc_mat m)). exact Hnn.
  Qed.
  Lemma mc_P_sym tr : mcP m2 (map g tr) = mcP m tr.
  Proof.
    unfold mcP. destruct Hs as (N & L & I & M). rewrite N.
    rewrite (tot_sym (mc_n m) f 1 Hf _ (vget (mc_ini m)) _ (mc_ws m tr) _ (fun _ => 1) (mc_ws_sym tr)); [rewrite pow1; ring|exact I|reflexivity].
  Qed.
  Lemma round_mc_sym p : same_round (same_mc f g) (IZR c) 0 (round_MC p set m) (round_MC p set2 m2).
  Proof.
    pose proof (proj2 (proj2 (proj2 Hwf))) as Ni. pose proof (proj2 (proj2 (proj2 Hwf2))) as Ni2. pose proof mc_nn_sym as Hnn2.
    assert (HN : forall x t, In (x, t) set -> (processWork_MC m2 (map g x) (c * t) = None <-> processWork_MC m x t = None)).
    { intros x t _. rewrite (pw_mc m2 Hwf2), (pw_mc m Hwf), mc_P_sym. destruct (Req_EM_T (mcP m x) 0); split; intros; (reflexivity || discriminate). }
    pose proof (unwrap_sym p (processWork_MC m) (processWork_MC m2) (map g) c set HN) as U.
    destruct (round_MC p set m) as [[m' ll]|e] eqn:E1; destruct (round_MC p set2 m2) as [[m2' ll2]|e2] eqn:E2; cbn [same_round].
    - destruct (round_MC_spec m Hwf set Hnn Ni p m' ll E1) as (A & B & C & D & Sq & G & L & _).
      destruct (round_MC_spec m2 Hwf2 set2 Hnn2 Ni2 p m2' ll2 E2) as (A2 & B2 & C2 & D2 & Sq2 & G2 & L2 & _).
      destruct Hs as (N & La & In & Ma). split.
      + unfold same_mc. rewrite D, D2, A, A2, B, B2. split; [exact N|]. split; [exact La|]. split; [exact In|]. intros i j Hi Hj.
        change matR with (@mget R RNum). rewrite G2 by (rewrite N; assumption). rewrite G by (apply Hf; assumption).
        unfold mcDEN, mcNUM. rewrite N.
        rewrite (est_sym (IZR c) 1 (GA (mc_n m) set (vget (mc_ini m)) (mc_ws m) (fun _ _ => 1) (ones1 (mc_ws m)) (f i)) _
                   (XI (mc_n m) set (vget (mc_ini m)) (mc_ws m) (fun _ _ => 1) (ones1 (mc_ws m)) (f i)) _ (mget (mc_mat m) (f i)) _ (f j) j); [ring| | | |].
        * apply (IZR_lt 0). exact Hc.
        * apply (GA_sym (mc_n m) f 1 (map g) c set (vget (mc_ini m)) (vget (mc_ini m2)) (mc_ws m) (mc_ws m2) (fun _ _ => 1) (fun _ _ => 1)); auto; try lra;
            [intros; apply mc_ws_sym|]. intros x t I. apply (ones_sym (mc_n m) f 1 (map g) set (mc_ws m) (mc_ws m2)) with (t := t); [intros; apply mc_ws_sym|exact I].
        * rewrite Rmult_1_l.
          apply (XI_sym (mc_n m) f 1 (map g) c set (vget (mc_ini m)) (vget (mc_ini m2)) (mc_ws m) (mc_ws m2) (fun _ _ => 1) (fun _ _ => 1)); auto; try lra;
            [intros; apply mc_ws_sym|]. intros x t I. apply (ones_sym (mc_n m) f 1 (map g) set (mc_ws m) (mc_ws m2)) with (t := t); [intros; apply mc_ws_sym|exact I].
        * rewrite Rmult_1_l. apply (Ma i j Hi Hj).
      + rewrite L, L2. rewrite Rplus_0_r.
        pose proof (set_ll_sym (mc_n m) f 1 (map g) c set (vget (mc_ini m)) (vget (mc_ini m2)) (mc_ws m) (mc_ws m2) (fun _ _ => 1) (fun _ _ => 1) Hf Rlt_0_1 In (fun x t _ => mc_ws_sym x) (fun _ _ _ _ _ => eq_refl)) as Q.
        rewrite ln_1, Rmult_0_r, Rmult_0_l, Rplus_0_r in Q. change (set_ll (mcP m) set) with (set_ll (Pof (mc_n m) (vget (mc_ini m)) (mc_ws m) (fun _ _ => 1)) set).
        rewrite <- Q. unfold mcP. rewrite N. reflexivity.
    - unfold round_MC, update_MC in E1, E2; errs U.
    - unfold round_MC, update_MC in E1, E2; errs U.
    - unfold round_MC, update_MC in E1, E2; errs U.
  Qed.
End MC.

(** C144: one round.  The renumbered and renamed chain, on the renamed traces with
    every count multiplied by [c], gives the renumbered and renamed result (and
    fails exactly when the original fails, with the same exception). *)
Theorem C144_mc_round : forall f g c (m m2 : mc R) set p, renumbering (mc_n m) f -> renaming g -> (0 < c)%Z ->
  wf_mc m -> nonneg_mat (mc_mat m) -> wf_mc m2 -> same_mc f g m m2 ->
  same_round (same_mc f g) (IZR c) 0 (round_MC p set m) (round_MC p (rewritten (map g) c set) m2).
Proof. intros. apply round_mc_sym; assumption. Qed.
Print Assumptions C144_mc_round.

(** The whole of fit: same number of rounds, same reason to stop. *)
Theorem C144_mc_fit : forall f g c (m m2 : mc R) set p eps max_it, renumbering (mc_n m) f -> renaming g -> (0 < c)%Z ->
  wf_mc m -> nonneg_mat (mc_mat m) -> wf_mc m2 -> same_mc f g m m2 -> pos_times set ->
  same_fit (same_mc f g) (IZR c) 0 (bw_loop (round_MC p set) eps max_it None 0 m)
    (bw_loop (round_MC p (rewritten (map g) c set)) (IZR c * eps) max_it None 0 m2).
Proof.
  intros f g c m m2 set p eps max_it Hf Hg Hc W N W2 Hs HT.
  apply (same_fit_weaken (fun x y => same_mc f g x y /\ (mc_n x = mc_n m /\ mc_ok x) /\ mc_ok y)); [intros x y [H _]; exact H|].
  apply (bw_loop_sym _ (IZR c) 0) with (prev := None); [apply (IZR_lt 0); exact Hc| |].
  - intros x y [Hxy [[Hn [Wx Nx]] [Wy Ny]]]. rewrite <- Hn in Hf.
    pose proof (C144_mc_round f g c x y set p Hf Hg Hc Wx Nx Wy Hxy) as Q.
    destruct (round_MC p set x) as [[x' l]|] eqn:E1, (round_MC p _ y) as [[y' l2]|] eqn:E2; cbn in Q |- *; try exact Q. destruct Q as [Q1 Q2].
    split; [|exact Q2]. split; [exact Q1|].
    destruct (round_mc_ok x set p x' l (conj Wx Nx) E1 HT) as [O1 [O2 _]].
    destruct (round_mc_ok y _ p y' l2 (conj Wy Ny) E2 (pos_rewritten _ _ _ Hc HT)) as [O3 _]. split; [split; [congruence|exact O1]|exact O3].
  - split; [exact Hs|]. split; [split; [reflexivity|split; assumption]|]. split; [exact W2|]. apply (mc_nn_sym f g m m2); assumption.
Qed.
Print Assumptions C144_mc_fit.

(** The probability of a trace and the log-likelihood of a set. *)
Theorem C144_mc_likelihood : forall f g c (m m2 : mc R) s, renumbering (mc_n m) f -> renaming g -> (0 < c)%Z ->
  wf_mc m -> wf_mc m2 -> same_mc f g m m2 ->
  (forall tr, mc_trace_prob m2 (map g tr) = mc_trace_prob m tr) /\
  (usable s -> mc_logLikelihood m2 (reset (map g) c s) = mc_logLikelihood m s).
Proof.
  intros f g c m m2 s Hf Hg Hc W W2 (N & L & I & M).
  assert (T : forall tr, mc_trace_prob m2 (map g tr) = mc_trace_prob m tr).
  { intros tr. unfold mc_trace_prob. rewrite N, map_length, map_map.
    destruct tr as [|o tr]; [unfold trace_prob; cbn; ring|].
    rewrite (trace_prob_sym (mc_n m) f 1 1 _ (vecR (mc_ini m)) _ (repeat (matR (mc_mat m)) (length (o :: tr) - 1)) _ (map (is_label (mc_lab m)) (o :: tr))).
    - rewrite !pow1. ring.
    - exact Hf.
    - discriminate.
    - exact I.
    - apply Forall2_repeat. intros i j Hi Hj. rewrite M by assumption. ring.
    - apply Forall2_map_map. intros x _ i Hi. rewrite (is_label_sym (mc_lab m) _ g x i f Hg (L i Hi)). ring. }
  split; [exact T|]. intros U. rewrite !C27_mc_logLikelihood; try assumption; [|apply usable_reset; auto; intros x; apply map_nil_inv].
  rewrite weighted_reset. f_equal. apply avg_ll_sym; [exact Hc|]. intros; apply T.
Qed.
Print Assumptions C144_mc_likelihood.

(** ** Hidden Markov models *)
Section HMM.
  Variables (f : nat -> nat) (g : string -> string) (c : Z) (m m2 : hmm R).
  Notation n := (hmm_n m).
  Hypothesis Hf : renumbering n f.
  Hypothesis Hg : renaming g.
  Hypothesis Hc : (0 < c)%Z.
  Hypothesis Hs : same_hmm f g m m2.

  Lemma emit_sym o i : (i < n)%nat -> emit m2 (g o) i = emit m o (f i).
  Proof.
    intros Hi. destruct Hs as (N & A & _ & _ & O). unfold emit. rewrite A, map_length. apply Sum_ext. intros j Hj.
    rewrite (nth_indep _ EmptyString (g EmptyString)) by (rewrite map_length; exact Hj). rewrite map_nth.
    change (nth j (nth i (hmm_out m2) []) 0) with (matR (hmm_out m2) i j). rewrite (O i j Hi Hj).
    destruct (String.eqb_spec (nth j (hmm_alph m) EmptyString) o) as [->|NE]; [rewrite String.eqb_refl; reflexivity|].
    destruct (String.eqb_spec (g (nth j (hmm_alph m) EmptyString)) (g o)) as [E|]; [exfalso; apply NE, Hg, E|reflexivity].
  Qed.
  Lemma hW_sym tr : Forall2 (wrel n f 1) (hW m2 (map g tr)) (hW m tr).
  Proof.
    unfold hW, ew. rewrite map_map. apply Forall2_map_map. intros o _ i j Hi Hj. rewrite emit_sym by exact Hi.
    destruct Hs as (_ & _ & _ & M & _). rewrite M by assumption. ring.
  Qed.
  Lemma letter_sym j tr : (j < length (hmm_alph m))%nat -> map (letter (hmm_alph m2) j) (map g tr) = map (letter (hmm_alph m) j) tr.
  Proof.
    intros Hj. rewrite map_map. apply map_ext. intros o. destruct Hs as (_ & A & _). unfold letter. rewrite A.
    rewrite (nth_indep _ EmptyString (g EmptyString)) by (rewrite map_length; exact Hj). rewrite map_nth.
    destruct (String.eqb_spec (nth j (hmm_alph m) EmptyString) o) as [->|NE]; [rewrite String.eqb_refl; reflexivity|].
    destruct (String.eqb_spec (g (nth j (hmm_alph m) EmptyString)) (g o)) as [E|]; [exfalso; apply NE, Hg, E|reflexivity].
  Qed.
  Variable set : list (list string * Z).
  Hypothesis Hwf : wf_hmm m.
  Hypothesis Hnn : nonneg_hmm m.
  Hypothesis Hwf2 : wf_hmm m2.
  Notation set2 := (rewritten (map g) c set).
  Notation one := (fun (_ : list string) (_ : nat) => 1).

  Lemma hmm_nn_sym : nonneg_hmm m2.
  Proof.
    destruct Hs as (N & A & _ & M & O). split.
    - intros r Ir x Ix. apply (mat_from_entries (hmm_mat m2) (hmm_n m2) (fun y => 0 <= y)) with (r := r); [apply Hwf2| |exact Ir|exact Ix].
      intros i j Hi Hj. rewrite N in Hi, Hj. change (@mget R RNum) with matR. rewrite M by assumption. apply (mget_nonneg (hmm_mat m)). apply Hnn.
    - intros r Ir x Ix. destruct Hwf2 as (_ & L & Lr & _). pose proof (Lr r Ir) as L3. apply (In_nth _ _ []) in Ir. destruct Ir as [i [Hi E]].
      apply (In_nth _ _ 0) in Ix. destruct Ix as [j [Hj E2]]. subst x r. rewrite L, N in Hi. rewrite L3, A, map_length in Hj.
      change (0 <= matR (hmm_out m2) i j). rewrite O by assumption. apply (mget_nonneg (hmm_out m)). apply Hnn.
  Qed.
  Lemma round_hmm_sym p : same_round (same_hmm f g) (IZR c) 0 (round_HMM p set m) (round_HMM p set2 m2).
  Proof.
    pose proof hmm_nn_sym as Hnn2. pose proof Hs as (N & A0 & In & Ma & Oa).
    assert (HW : forall x t, List.In (x, t) set -> Forall2 (wrel n f 1) (hW m2 (map g x)) (hW m x)) by (intros; apply hW_sym).
    assert (H1 : forall x t, List.In (x, t) set -> forall i, (i < n)%nat -> one (map g x) i = one x (f i)) by reflexivity.
    assert (HN : forall x t, List.In (x, t) set -> (processWork_HMM m2 (map g x) (c * t) = None <-> processWork_HMM m x t = None)).
    { intros x t I. rewrite (pw_hmm m2 Hwf2), (pw_hmm m Hwf), N.
      pose proof (P_sym_zero n f 1 (map g) set (vget (hmm_ini m)) (vget (hmm_ini m2)) (hW m) (hW m2) one one Hf Rlt_0_1 In HW H1 x t I) as Q.
      destruct (Req_EM_T _ 0), (Req_EM_T _ 0); split; intros; (reflexivity || discriminate || tauto). }
    pose proof (unwrap_sym p (processWork_HMM m) (processWork_HMM m2) (map g) c set HN) as U.
    assert (Cp : 0 < IZR c) by (apply (IZR_lt 0); exact Hc).
    assert (D : forall i, (i < n)%nat -> hDEN m2 set2 i = IZR c * hDEN m set (f i)).
    { intros i Hi. unfold hDEN. rewrite N. apply (GA_sym n f 1 (map g)); auto; try lra.
      intros x t I. apply (ones_sym n f 1 (map g) set (hW m) (hW m2)) with (t := t); [exact HW|exact I]. }
    destruct (round_HMM p set m) as [[m' ll]|e] eqn:E1; destruct (round_HMM p set2 m2) as [[m2' ll2]|e2] eqn:E2; cbn [same_round];
      [|unfold round_HMM, update_HMM in E1, E2; errs U..].
    destruct (round_HMM_spec m Hwf set Hnn p m' ll E1) as (A & B & C & D1 & Lo & Ro & Li & G & GB & GI & L & _).
    destruct (round_HMM_spec m2 Hwf2 set2 Hnn2 p m2' ll2 E2) as (A2 & B2 & C2 & D2 & Lo2 & Ro2 & Li2 & G2 & GB2 & GI2 & L2 & _).
    split.
    - unfold same_hmm. rewrite C, C2, A, A2. split; [exact N|]. split; [exact A0|]. split; [|split].
      + intros i Hi. change vecR with (@vget R RNum). rewrite GI2 by (rewrite N; exact Hi). rewrite GI by (apply Hf; exact Hi).
        assert (EI : forall k, (k < n)%nat -> hIN m2 set2 k = IZR c * hIN m set (f k)).
        { intros k Hk. unfold hIN. rewrite N. apply (IN_sym n f 1 (map g)); auto; lra. }
        rewrite N, EI by exact Hi. rewrite (Sum_ext n (hIN m2 set2) (fun k => IZR c * hIN m set (f k))) by exact EI.
        rewrite Sum_scal_l, (Sum_renum n f (hIN m set) Hf). unfold Rdiv. rewrite Rinv_mult.
        replace (IZR c * hIN m set (f i) * (/ IZR c * / Sum n (hIN m set))) with (IZR c * / IZR c * (hIN m set (f i) * / Sum n (hIN m set))) by ring.
        rewrite Rinv_r by lra. ring.
      + intros i j Hi Hj. change matR with (@mget R RNum). rewrite G2 by (rewrite N; assumption). rewrite G by (apply Hf; assumption).
        rewrite (est_sym (IZR c) 1 (hDEN m set (f i)) _ (hNUM m set (f i)) _ (mget (hmm_mat m) (f i)) _ (f j) j); auto; [ring| |rewrite Rmult_1_l; apply Ma; assumption].
        rewrite Rmult_1_l. unfold hNUM. rewrite N. apply (XI_sym n f 1 (map g)); auto; try lra.
        intros x t I. apply (ones_sym n f 1 (map g) set (hW m) (hW m2)) with (t := t); [exact HW|exact I].
      + intros i j Hi Hj. change matR with (@mget R RNum). rewrite GB2 by (rewrite ?N, ?A0, ?map_length; assumption). rewrite GB by (try apply Hf; assumption).
        rewrite (est_sym (IZR c) 1 (hDEN m set (f i)) _ (hNB m set (f i)) _ (mget (hmm_out m) (f i)) _ j j); auto; [ring| |rewrite Rmult_1_l; apply Oa; assumption].
        rewrite Rmult_1_l. unfold hNB. rewrite N. apply (GA_sym n f 1 (map g)); auto; try lra.
        intros x t I. apply letter_sym. exact Hj.
    - rewrite L, L2, Rplus_0_r, N.
      pose proof (set_ll_sym n f 1 (map g) c set (vget (hmm_ini m)) (vget (hmm_ini m2)) (hW m) (hW m2) one one Hf Rlt_0_1 In HW H1) as Q.
      rewrite Q, ln_1. ring.
  Qed.
End HMM.

Theorem C144_hmm_round : forall f g c (m m2 : hmm R) set p, renumbering (hmm_n m) f -> renaming g -> (0 < c)%Z ->
  wf_hmm m -> nonneg_hmm m -> wf_hmm m2 -> same_hmm f g m m2 ->
  same_round (same_hmm f g) (IZR c) 0 (round_HMM p set m) (round_HMM p (rewritten (map g) c set) m2).
Proof. intros. apply round_hmm_sym; assumption. Qed.
Print Assumptions C144_hmm_round.
Theorem C144_hmm_fit : forall f g c (m m2 : hmm R) set p eps max_it, renumbering (hmm_n m) f -> renaming g -> (0 < c)%Z ->
  wf_hmm m -> nonneg_hmm m -> wf_hmm m2 -> same_hmm f g m m2 -> pos_times set ->
  same_fit (same_hmm f g) (IZR c) 0 (bw_loop (round_HMM p set) eps max_it None 0 m)
    (bw_loop (round_HMM p (rewritten (map g) c set)) (IZR c * eps) max_it None 0 m2).
Proof.
  intros f g c m m2 set p eps max_it Hf Hg Hc W N W2 Hs HT.
  apply (same_fit_weaken (fun x y => same_hmm f g x y /\ (hmm_n x = hmm_n m /\ hmm_ok x) /\ hmm_ok y)); [intros x y [H _]; exact H|].
  apply (bw_loop_sym _ (IZR c) 0) with (prev := None); [apply (IZR_lt 0); exact Hc| |].
  - intros x y [Hxy [[Hn [Wx Nx]] [Wy Ny]]]. rewrite <- Hn in Hf.
    pose proof (C144_hmm_round f g c x y set p Hf Hg Hc Wx Nx Wy Hxy) as Q.
    destruct (round_HMM p set x) as [[x' l]|] eqn:E1, (round_HMM p _ y) as [[y' l2]|] eqn:E2; cbn in Q |- *; try exact Q. destruct Q as [Q1 Q2].
    split; [|exact Q2]. split; [exact Q1|].
    destruct (round_hmm_ok x set p x' l (conj Wx Nx) E1 HT) as [O1 [O2 _]].
    destruct (round_hmm_ok y _ p y' l2 (conj Wy Ny) E2 (pos_rewritten _ _ _ Hc HT)) as [O3 _]. split; [split; [congruence|exact O1]|exact O3].
  - split; [exact Hs|]. split; [split; [reflexivity|split; assumption]|]. split; [exact W2|]. apply (hmm_nn_sym f g m m2); assumption.
Qed.
Print Assumptions C144_hmm_fit.
Theorem C144_hmm_likelihood : forall f g c (m m2 : hmm R) s, renumbering (hmm_n m) f -> renaming g -> (0 < c)%Z ->
  wf_hmm m -> wf_hmm m2 -> same_hmm f g m m2 ->
  (forall tr, hmm_trace_prob m2 (map g tr) = hmm_trace_prob m tr) /\
  (usable s -> hmm_logLikelihood m2 (reset (map g) c s) = hmm_logLikelihood m s).
Proof.
  intros f g c m m2 s Hf Hg Hc W W2 Hs. pose proof Hs as (N & A & I & M & O).
  assert (T : forall tr, hmm_trace_prob m2 (map g tr) = hmm_trace_prob m tr).
  { intros tr. unfold hmm_trace_prob. rewrite N, map_length, map_map.
    destruct tr as [|o tr]; [unfold trace_prob; cbn; ring|].
    rewrite (trace_prob_sym (hmm_n m) f 1 1 _ (vecR (hmm_ini m)) _ (repeat (matR (hmm_mat m)) (length (o :: tr) - 1)) _ (map (emit m) (o :: tr))).
    - rewrite !pow1. ring.
    - exact Hf.
    - discriminate.
    - exact I.
    - apply Forall2_repeat. intros i j Hi Hj. rewrite M by assumption. ring.
    - apply Forall2_map_map. intros x _ i Hi. rewrite (emit_sym f g m m2) by assumption. ring. }
  split; [exact T|]. intros U. rewrite !C27_hmm_logLikelihood; try assumption; [|apply usable_reset; auto; intros x; apply map_nil_inv].
  rewrite weighted_reset. f_equal. apply avg_ll_sym; [exact Hc|]. intros; apply T.
Qed.
Print Assumptions C144_hmm_likelihood.

(** ** Markov decision processes *)
Lemma pairs_rename g h : forall tr, pairs_of (rename2 g h tr) = map (fun oa => (g (fst oa), h (snd oa))) (pairs_of tr).
Proof.
  fix IH 1. intros [|o [|a tr]]; [reflexivity|reflexivity|]. cbn [rename2 pairs_of map fst snd]. f_equal. apply IH.
Qed.
Lemma rename_last g h : forall tr, Nat.odd (length tr) = true -> last (rename2 g h tr) EmptyString = g (last tr EmptyString).
Proof.
  fix IH 1. intros [|o [|a tr]] Od; [discriminate|reflexivity|]. cbn [rename2]. specialize (IH tr).
  destruct tr as [|o' tr]; [discriminate|]. assert (Od' : Nat.odd (length (o' :: tr)) = true) by exact Od. specialize (IH Od').
  destruct tr as [|a' tr]; [exact IH|]. cbn [rename2] in IH |- *. change (last (o :: a :: o' :: a' :: tr) EmptyString) with (last (o' :: a' :: tr) EmptyString).
  rewrite <- IH. reflexivity.
Qed.
Lemma rename_odd g h : forall tr, length (rename2 g h tr) = length tr.
Proof. fix IH 1. intros [|o [|a tr]]; [reflexivity|reflexivity|]. cbn [rename2 length]. do 2 f_equal. apply IH. Qed.
Lemma evens_rename g h : forall tr, evens (rename2 g h tr) = map g (evens tr).
Proof. fix IH 1. intros [|o [|a tr]]; [reflexivity|reflexivity|]. cbn [rename2 evens odds map]. f_equal. apply IH. Qed.
Lemma odds_rename g h : forall tr, odds (rename2 g h tr) = map h (odds tr).
Proof. fix IH 1. intros [|o [|a tr]]; [reflexivity|reflexivity|]. cbn [rename2 evens odds map]. f_equal. apply IH. Qed.

Section MDP.
  Variables (f : nat -> nat) (g h : string -> string) (c : Z) (m m2 : mdp R).
  Notation n := (mdp_n m).
  Hypothesis Hf : renumbering n f.
  Hypothesis Hg : renaming g.
  Hypothesis Hh : renaming h.
  Hypothesis Hc : (0 < c)%Z.
  Hypothesis Hs : same_mdp f g h m m2.

  Lemma act_sym a i j : (i < n)%nat -> (j < n)%nat -> act_mat m2 (h a) i j = act_mat m a (f i) (f j).
  Proof.
    intros Hi Hj. destruct Hs as (N & A & _ & _ & M). unfold act_mat. rewrite A, map_length. apply Sum_ext. intros k Hk.
    rewrite (nth_indep _ EmptyString (h EmptyString)) by (rewrite map_length; exact Hk). rewrite map_nth.
    change (nth j (nth k (nth i (mdp_mat m2) []) []) 0) with (matR (nth i (mdp_mat m2) []) k j). rewrite (M i k j Hi Hk Hj).
    destruct (String.eqb_spec (nth k (mdp_act m) EmptyString) a) as [->|NE]; [rewrite String.eqb_refl; reflexivity|].
    destruct (String.eqb_spec (h (nth k (mdp_act m) EmptyString)) (h a)) as [E|]; [exfalso; apply NE, Hh, E|reflexivity].
  Qed.
  Lemma dW_sym tr : Forall2 (wrel n f 1) (dW m2 (rename2 g h tr)) (dW m tr).
  Proof.
    unfold dW, ew. rewrite pairs_rename, map_map. apply Forall2_map_map. intros [o a] _ i j Hi Hj. unfold dA, db. cbn [fst snd].
    rewrite act_sym by assumption. destruct Hs as (_ & _ & L & _). rewrite (is_label_sym (mdp_lab m) _ g o i f Hg (L i Hi)). ring.
  Qed.
  Lemma df_sym tr : Nat.odd (length tr) = true -> forall i, (i < n)%nat -> df m2 (rename2 g h tr) i = df m tr (f i).
  Proof. intros Od i Hi. unfold df. rewrite rename_last by exact Od. destruct Hs as (_ & _ & L & _). apply (is_label_sym _ _ g _ i f Hg (L i Hi)). Qed.
  Lemma dc_sym j tr : (j < length (mdp_act m))%nat -> dc m2 j (rename2 g h tr) = dc m j tr.
  Proof.
    intros Hj. unfold dc. rewrite pairs_rename, map_map. apply map_ext. intros [o a]. cbn [snd]. destruct Hs as (_ & A & _). unfold letter. rewrite A.
    rewrite (nth_indep _ EmptyString (h EmptyString)) by (rewrite map_length; exact Hj). rewrite map_nth.
    destruct (String.eqb_spec (nth j (mdp_act m) EmptyString) a) as [->|NE]; [rewrite String.eqb_refl; reflexivity|].
    destruct (String.eqb_spec (h (nth j (mdp_act m) EmptyString)) (h a)) as [E|]; [exfalso; apply NE, Hh, E|reflexivity].
  Qed.
  Variable set : list (list string * Z).
  Hypothesis Hwf : wf_mdp m.
  Hypothesis Hnn : nonneg_mdp m.
  Hypothesis Hwf2 : wf_mdp m2.
  Hypothesis Hodd : forall tr t, In (tr, t) set -> Nat.odd (length tr) = true.
  Notation set2 := (rewritten (rename2 g h) c set).

  Lemma mdp_nn_sym : nonneg_mdp m2.
  Proof.
    destruct Hs as (N & A & _ & _ & M). intros ra Ira r Ir x Ix. destruct (proj1 Hwf2 ra Ira) as [La Lr]. pose proof (Lr r Ir) as L3.
    apply (In_nth _ _ []) in Ira. destruct Ira as [i [Hi E]]. apply (In_nth _ _ []) in Ir. destruct Ir as [a [Ha E1]].
    apply (In_nth _ _ 0) in Ix. destruct Ix as [j [Hj E2]]. subst ra r x. rewrite La, A, map_length in Ha. rewrite L3, N in Hj.
    change (length (mdp_mat m2)) with (mdp_n m2) in Hi. rewrite N in Hi.
    change (0 <= matR (nth i (mdp_mat m2) []) a j). rewrite M by assumption. apply (tget_nonneg m (f i) a (f j) Hnn).
  Qed.
  Lemma round_mdp_sym p : same_round (same_mdp f g h) (IZR c) 0 (round_MDP p set m) (round_MDP p set2 m2).
  Proof.
    pose proof mdp_nn_sym as Hnn2. pose proof Hs as (N & A0 & Lb & In & Ma).
    assert (HW : forall x t, List.In (x, t) set -> Forall2 (wrel n f 1) (dW m2 (rename2 g h x)) (dW m x)) by (intros; apply dW_sym).
    assert (H1 : forall x t, List.In (x, t) set -> forall i, (i < n)%nat -> df m2 (rename2 g h x) i = df m x (f i)) by (intros x t I; apply df_sym, (Hodd x t I)).
    assert (HN : forall x t, List.In (x, t) set -> (processWork_MDP m2 (rename2 g h x) (c * t) = None <-> processWork_MDP m x t = None)).
    { intros x t I. rewrite (pw_mdp m2 Hwf2), (pw_mdp m Hwf), N.
      pose proof (P_sym_zero n f 1 (rename2 g h) set (vget (mdp_ini m)) (vget (mdp_ini m2)) (dW m) (dW m2) (df m) (df m2) Hf Rlt_0_1 In HW H1 x t I) as Q.
      destruct (Req_EM_T _ 0), (Req_EM_T _ 0); split; intros; (reflexivity || discriminate || tauto). }
    pose proof (unwrap_sym p (processWork_MDP m) (processWork_MDP m2) (rename2 g h) c set HN) as U.
    assert (Cp : 0 < IZR c) by (apply (IZR_lt 0); exact Hc).
    destruct (round_MDP p set m) as [[m' ll]|e] eqn:E1; destruct (round_MDP p set2 m2) as [[m2' ll2]|e2] eqn:E2; cbn [same_round];
      [|unfold round_MDP, update_MDP in E1, E2; errs U..].
    destruct (round_MDP_spec m Hwf set Hnn p m' ll E1) as (A & B & C & D & E & F & G & L & _).
    destruct (round_MDP_spec m2 Hwf2 set2 Hnn2 p m2' ll2 E2) as (A2 & B2 & C2 & D2 & F2 & E2' & G2 & L2 & _).
    split.
    - unfold same_mdp. rewrite E, F2, A, A2, B, B2, C, C2. split; [exact N|]. split; [exact A0|]. split; [exact Lb|]. split; [exact In|].
      intros i a j Hi Ha Hj. change matR with (@mget R RNum). pose proof (G2 i a j) as Q. pose proof (G (f i) a (f j)) as Q2. unfold tget at 1 in Q. unfold tget at 1 in Q2.
      rewrite Q by (rewrite ?N, ?A0, ?map_length; assumption). rewrite Q2 by (try apply Hf; assumption).
      rewrite (est_sym (IZR c) 1 (dDEN m set (f i) a) _ (dNUM m set (f i) a) _ (tget (mdp_mat m) (f i) a) _ (f j) j); auto; [ring| | |rewrite Rmult_1_l; apply Ma; assumption].
      + unfold dDEN. rewrite N. apply (GA_sym n f 1 (rename2 g h)); auto; try lra. intros x t I. apply dc_sym. exact Ha.
      + rewrite Rmult_1_l. unfold dNUM. rewrite N. apply (XI_sym n f 1 (rename2 g h)); auto; try lra. intros x t I. apply dc_sym. exact Ha.
    - rewrite L, L2, Rplus_0_r, N.
      pose proof (set_ll_sym n f 1 (rename2 g h) c set (vget (mdp_ini m)) (vget (mdp_ini m2)) (dW m) (dW m2) (df m) (df m2) Hf Rlt_0_1 In HW H1) as Q.
      rewrite Q, ln_1. ring.
  Qed.
End MDP.

Theorem C144_mdp_round : forall f g h c (m m2 : mdp R) set p, renumbering (mdp_n m) f -> renaming g -> renaming h -> (0 < c)%Z ->
  wf_mdp m -> nonneg_mdp m -> wf_mdp m2 -> same_mdp f g h m m2 -> (forall tr t, In (tr, t) set -> Nat.odd (length tr) = true) ->
  same_round (same_mdp f g h) (IZR c) 0 (round_MDP p set m) (round_MDP p (rewritten (rename2 g h) c set) m2).
Proof. intros. apply round_mdp_sym; assumption. Qed.
Print Assumptions C144_mdp_round.
Theorem C144_mdp_fit : forall f g h c (m m2 : mdp R) set p eps max_it, renumbering (mdp_n m) f -> renaming g -> renaming h -> (0 < c)%Z ->
  wf_mdp m -> nonneg_mdp m -> wf_mdp m2 -> same_mdp f g h m m2 -> (forall tr t, In (tr, t) set -> Nat.odd (length tr) = true) -> pos_times set ->
  same_fit (same_mdp f g h) (IZR c) 0 (bw_loop (round_MDP p set) eps max_it None 0 m)
    (bw_loop (round_MDP p (rewritten (rename2 g h) c set)) (IZR c * eps) max_it None 0 m2).
Proof.
  intros f g h c m m2 set p eps max_it Hf Hg Hh Hc W N W2 Hs Od HT.
  apply (same_fit_weaken (fun x y => same_mdp f g h x y /\ (mdp_n x = mdp_n m /\ mdp_ok x) /\ mdp_ok y)); [intros x y [H _]; exact H|].
  apply (bw_loop_sym _ (IZR c) 0) with (prev := None); [apply (IZR_lt 0); exact Hc| |].
  - intros x y [Hxy [[Hn [Wx Nx]] [Wy Ny]]]. rewrite <- Hn in Hf.
    pose proof (C144_mdp_round f g h c x y set p Hf Hg Hh Hc Wx Nx Wy Hxy Od) as Q.
    destruct (round_MDP p set x) as [[x' l]|] eqn:E1, (round_MDP p _ y) as [[y' l2]|] eqn:E2; cbn in Q |- *; try exact Q. destruct Q as [Q1 Q2].
    split; [|exact Q2]. split; [exact Q1|].
    destruct (round_mdp_ok x set p x' l (conj Wx Nx) E1 HT) as [O1 [O2 _]].
    destruct (round_mdp_ok y _ p y' l2 (conj Wy Ny) E2 (pos_rewritten _ _ _ Hc HT)) as [O3 _]. split; [split; [congruence|exact O1]|exact O3].
  - split; [exact Hs|]. split; [split; [reflexivity|split; assumption]|]. split; [exact W2|]. apply (mdp_nn_sym f g h m m2); assumption.
Qed.
Print Assumptions C144_mdp_fit.
Theorem C144_mdp_likelihood : forall f g h c (m m2 : mdp R) s, renumbering (mdp_n m) f -> renaming g -> renaming h -> (0 < c)%Z ->
  wf_mdp m -> nonneg_mdp m -> wf_mdp m2 -> same_mdp f g h m m2 ->
  (forall tr, mdp_trace_prob m2 (rename2 g h tr) = mdp_trace_prob m tr) /\
  (usable s -> seqs s <> [] -> (forall tr, In tr (seqs s) -> Nat.odd (length tr) = true) ->
   mdp_logLikelihood m2 (reset (rename2 g h) c s) = mdp_logLikelihood m s).
Proof.
  intros f g h c m m2 s Hf Hg Hh Hc W Nn W2 Hs. pose proof Hs as (N & A & L & I & M).
  assert (T : forall tr, mdp_trace_prob m2 (rename2 g h tr) = mdp_trace_prob m tr).
  { intros tr. unfold mdp_trace_prob. rewrite N, evens_rename, odds_rename, !map_map.
    destruct tr as [|o tr]; [unfold trace_prob; cbn; ring|].
    rewrite (trace_prob_sym (mdp_n m) f 1 1 _ (vecR (mdp_ini m)) _ (map (act_mat m) (odds (o :: tr))) _ (map (is_label (mdp_lab m)) (evens (o :: tr)))).
    - rewrite !pow1. ring.
    - exact Hf.
    - discriminate.
    - exact I.
    - apply Forall2_map_map. intros x _ i j Hi Hj. rewrite (act_sym f g h m m2) by assumption. ring.
    - apply Forall2_map_map. intros x _ i Hi. rewrite (is_label_sym (mdp_lab m) _ g x i f Hg (L i Hi)). ring. }
  split; [exact T|]. intros U NE Od. rewrite !C27_mdp_logLikelihood; try assumption.
  - rewrite weighted_reset. f_equal. apply avg_ll_sym; [exact Hc|]. intros; apply T.
  - apply (mdp_nn_sym f g h m m2); assumption.
  - apply usable_reset; auto. intros [|o [|a x]]; (reflexivity || discriminate).
  - cbn [reset seqs]. intros E. apply map_nil_inv in E. contradiction.
  - cbn [reset seqs]. intros tr Itr. apply in_map_iff in Itr. destruct Itr as [x [<- Ix]]. rewrite rename_odd. auto.
Qed.
Print Assumptions C144_mdp_likelihood.

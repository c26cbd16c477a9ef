(** C149: CTMCs learned from traces without times.  When all labels are different
    the jump probabilities approach the observed frequencies, at the rate of C149
    for MCs. *)
From Coq Require Import String ZArith Bool Reals List Lia Lra.
From Verif Require Import Num Py SNum SPath LSum MSet SSet LSet MModels MLik MBW LFB LEM SBW LBW LBWSet SLik LPath LLik LLik2 LBWMC SExp LFit PLik PBWMC PBWCT PBWCTU SLimit LLimit PLimit SObs LObs PObs.
Import ListNotations.
Local Open Scope R_scope.
Local Open Scope string_scope.

Lemma jc_dist m : wf_ctmc m -> nonneg_mat (ct_mat m) -> live m -> forall r, In r (mc_mat (jump_chain m)) -> is_dist r.
Proof. intros W N Lv r Ir. split; [exact (jc_nonneg m N r Ir)|exact (jc_rows m W Lv r Ir)]. Qed.
Lemma untimed_run (it : nat -> ctmc R) p fixed set : wf_ctmc (it 0%nat) -> nonneg_mat (ct_mat (it 0%nat)) -> live (it 0%nat) -> no_fixed fixed -> pos_times set ->
  endless (round_CTMC_untimed p fixed set) it ->
  endless (round_MC p set) (fun k => jump_chain (it k)) /\ forall k, ct_ok (it k) /\ live (it k).
Proof.
  intros W N Lv NF HT HE.
  assert (A : forall k, ct_ok (it k) /\ live (it k)).
  { induction k as [|k [O L]]; [split; [split; assumption|exact Lv]|]. destruct (HE k) as [ll E]. destruct (round_untimed _ fixed p set _ ll O L NF HT E) as (_ & O' & L' & _). split; assumption. }
  split; [|exact A]. intros k. destruct (HE k) as [ll E]. destruct (A k) as [O L]. exists ll. apply (round_untimed _ fixed p set _ ll O L NF HT E).
Qed.

Theorem C149_ctmc_untimed_rate : forall (it : nat -> ctmc R) (p : nat) (fixed : list (list bool)) (set : list (list string * Z)),
  wf_ctmc (it 0%nat) -> nonneg_mat (ct_mat (it 0%nat)) -> live (it 0%nat) -> NoDup (ct_lab (it 0%nat)) -> no_fixed fixed -> pos_times set ->
  (forall tr t, In (tr, t) set -> tr <> [] /\ 0 < ct_trace_prob (it 0%nat) tr) -> endless (round_CTMC_untimed p fixed set) it ->
  forall k s s', (s < ct_n (it 0%nat))%nat -> (s' < ct_n (it 0%nat))%nat ->
    let a := nth s (ct_lab (it 0%nat)) EmptyString in
    let b := nth s' (ct_lab (it 0%nat)) EmptyString in
    0 < times_left a set ->
    jump (it k) s s' - moves_seen a b set / times_left a set =
      (times_last a set / (times_left a set + times_last a set)) ^ k * (jump (it 0%nat) s s' - moves_seen a b set / times_left a set).
Proof.
  intros it p fixed set W N Lv ND NF HT HP HE k s s' Hs Hs' a b L.
  destruct (untimed_run it p fixed set W N Lv NF HT HE) as [HE2 A].
  rewrite <- (jc_mat (it k)) by apply A. rewrite <- (jc_mat (it 0%nat)) by exact W.
  apply (C149_mc_rate (fun k => jump_chain (it k)) p set); auto.
  - apply jc_wf. exact W.
  - apply jc_dist; assumption.
  - intros tr t I. destruct (HP tr t I) as [NE P]. rewrite move_trace; [rewrite jc_trace_prob by exact W; exact P|apply jc_wf; exact W|intros r Ir; apply (jc_dist _ W N Lv r Ir)|exact NE].
  - rewrite jc_n. exact Hs.
  - rewrite jc_n. exact Hs'.
Qed.
Print Assumptions C149_ctmc_untimed_rate.

Theorem C149_ctmc_untimed_converges : forall (it : nat -> ctmc R) (p : nat) (fixed : list (list bool)) (set : list (list string * Z)),
  wf_ctmc (it 0%nat) -> nonneg_mat (ct_mat (it 0%nat)) -> live (it 0%nat) -> NoDup (ct_lab (it 0%nat)) -> no_fixed fixed -> pos_times set ->
  (forall tr t, In (tr, t) set -> tr <> [] /\ 0 < ct_trace_prob (it 0%nat) tr) -> endless (round_CTMC_untimed p fixed set) it ->
  forall s s', (s < ct_n (it 0%nat))%nat -> (s' < ct_n (it 0%nat))%nat ->
    let a := nth s (ct_lab (it 0%nat)) EmptyString in
    let b := nth s' (ct_lab (it 0%nat)) EmptyString in
    0 < times_left a set ->
    Un_cv (fun k => jump (it k) s s') (moves_seen a b set / times_left a set).
Proof.
  intros it p fixed set W N Lv ND NF HT HP HE s s' Hs Hs' a b L.
  destruct (untimed_run it p fixed set W N Lv NF HT HE) as [HE2 A].
  assert (C : Un_cv (fun k => matR (mc_mat (jump_chain (it k))) s s') (moves_seen a b set / times_left a set)).
  { apply (C149_mc_converges (fun k => jump_chain (it k)) p set); auto.
    - apply jc_wf. exact W.
    - apply jc_dist; assumption.
    - intros tr t I. destruct (HP tr t I) as [NE P]. rewrite move_trace; [rewrite jc_trace_prob by exact W; exact P|apply jc_wf; exact W|intros r Ir; apply (jc_dist _ W N Lv r Ir)|exact NE].
    - rewrite jc_n. exact Hs.
    - rewrite jc_n. exact Hs'. }
  intros eps He. destruct (C eps He) as [k0 Hk]. exists k0. intros k Hk'. specialize (Hk k Hk'). rewrite jc_mat in Hk by apply A. exact Hk.
Qed.
Print Assumptions C149_ctmc_untimed_converges.

(** No CTMC with the same states and labels gives the traces a higher likelihood
    than one whose jump probabilities are the observed frequencies. *)
Theorem C149_ctmc_untimed_optimal : forall (m mo : ctmc R) (set : list (list string * Z)),
  wf_ctmc m -> nonneg_mat (ct_mat m) -> live m -> wf_ctmc mo -> nonneg_mat (ct_mat mo) -> live mo ->
  ct_n mo = ct_n m -> ct_lab mo = ct_lab m -> ct_ini mo = ct_ini m -> NoDup (ct_lab m) ->
  pos_times set -> set <> [] -> (forall tr t, In (tr, t) set -> tr <> [] /\ 0 < ct_trace_prob m tr) ->
  (forall s s', (s < ct_n mo)%nat -> (s' < ct_n mo)%nat ->
     let a := nth s (ct_lab mo) EmptyString in
     let b := nth s' (ct_lab mo) EmptyString in
     0 < times_left a set -> jump mo s s' = moves_seen a b set / times_left a set) ->
  (forall tr t, In (tr, t) set -> 0 < ct_trace_prob mo tr) /\
  set_ll (ct_trace_prob m) set <= set_ll (ct_trace_prob mo) set.
Proof.
  intros m mo set W N Lv Wo No Lo F1 F2 F3 ND HT NE HP HF.
  destruct (C149_mc_optimal (jump_chain m) (jump_chain mo) set) as [P M]; auto.
  - apply jc_wf. exact W.
  - apply jc_dist; assumption.
  - apply jc_wf. exact Wo.
  - apply jc_dist; assumption.
  - rewrite !jc_n. exact F1.
  - intros tr t I. apply (HP tr t I).
  - intros tr t I. rewrite jc_trace_prob by exact W. apply (HP tr t I).
  - intros s s' Hs Hs' a b L. rewrite jc_n in Hs, Hs'. change (matR (mc_mat (jump_chain mo)) s s' = moves_seen a b set / times_left a set). rewrite jc_mat by exact Wo. apply HF; assumption.
  - split; [intros tr t I; rewrite <- jc_trace_prob by exact Wo; exact (P tr t I)|].
    assert (X : forall x : ctmc R, wf_ctmc x -> set_ll (mc_trace_prob (jump_chain x)) set = set_ll (ct_trace_prob x) set) by (intros x Wx; apply set_ll_ext; intros; apply jc_trace_prob; exact Wx).
    rewrite <- !X by assumption. exact M.
Qed.
Print Assumptions C149_ctmc_untimed_optimal.

(** The case: rates 2, 2 and 2, 2 with labels x and y; from x the traces show two
    moves to x and one to y, and one trace ends there. *)
Definition ob_u : ctmc R := mkCTMC [[2; 2]; [2; 2]] ["x"; "y"] [1; 0] "".
Definition ob_uset : list (list string * Z) := [(["x"; "x"; "x"], 1%Z); (["x"; "y"], 1%Z)].
Definition ob_ubest : ctmc R := mkCTMC [[2; 1]; [5; 0]] ["x"; "y"] [1; 0] "".
Lemma ob_u_ok : wf_ctmc ob_u /\ nonneg_mat (ct_mat ob_u) /\ live ob_u /\ NoDup (ct_lab ob_u) /\ pos_times ob_uset /\
  forall tr t, In (tr, t) ob_uset -> tr <> [] /\ 0 < ct_trace_prob ob_u tr.
Proof.
  assert (W : wf_ctmc ob_u) by (repeat split; try reflexivity; [intros r [<-|[<-|[]]]; reflexivity|intros v [<-|[<-|[]]]; lra]).
  split; [exact W|]. split; [intros r [<-|[<-|[]]] v [<-|[<-|[]]]; lra|].
  split; [intros s Hs; unfold ct_n in Hs; cbn in Hs; destruct s as [|[|s]]; [| |lia]; unfold exit_rate, rsum; cbn; lra|].
  split; [repeat constructor; cbn; intuition discriminate|]. split; [intros x [<-|[<-|[]]]; cbn; lia|].
  intros tr t I. split; [destruct I as [I|[I|[]]]; inversion I; discriminate|]. rewrite <- jc_trace_prob by exact W.
  destruct I as [I|[I|[]]]; inversion I; subst; unfold mc_trace_prob, trace_prob, sumL, is_label, matR, vecR; cbn; unfold jump, exit_rate, rsum, matR; cbn; lra.
Qed.
Example C149_ctmc_untimed_instance :
  (exists it, it 0%nat = ob_u /\ endless (round_CTMC_untimed 1 [] ob_uset) it /\ Un_cv (fun k => jump (it k) 0 1) (1 / 3)) /\
  set_ll (ct_trace_prob ob_u) ob_uset <= set_ll (ct_trace_prob ob_ubest) ob_uset.
Proof.
  destruct ob_u_ok as (W & N & Lv & ND & HT & HP). assert (NF : no_fixed []) by (intros s s'; destruct s, s'; reflexivity).
  assert (C : times_left "x" ob_uset = 3 /\ moves_seen "x" "x" ob_uset = 2 /\ moves_seen "x" "y" ob_uset = 1 /\ times_left "y" ob_uset = 0) by (unfold times_left, moves_seen, total, sumL; cbn; lra).
  destruct C as (C1 & C2 & C3 & C4). split.
  - destruct (endless_exists (round_CTMC_untimed 1 [] ob_uset) (fun x => (ct_ok x /\ live x) /\ forall tr t, In (tr, t) ob_uset -> 0 < mc_trace_prob_move (jump_chain x) tr) ob_u) as (it & A & B & _).
    + split; [split; [split; assumption|exact Lv]|]. intros tr t I. destruct (HP tr t I) as [NE P]. rewrite move_trace; [rewrite jc_trace_prob by exact W; exact P|apply jc_wf; exact W|intros r Ir; apply (jc_dist _ W N Lv r Ir)|exact NE].
    + intros x [[Ox Lx] Px]. destruct (round_mc_succeeds (jump_chain x) ob_uset 1 (jc_ok x Ox)) as (c & ll & E); [|right; exact Px|].
      { exists ["x"; "y"], 1%Z. split; [right; left; reflexivity|apply (Px _ 1%Z); right; left; reflexivity]. }
      pose proof (jc_fits x [] 1 ob_uset (proj1 Ox) NF) as F. rewrite E in F. destruct (round_CTMC_untimed 1 [] ob_uset x) as [[x' l]|] eqn:Ex; [|destruct F]. subst l.
      exists x', ll. split; [reflexivity|]. destruct (round_untimed x [] 1 ob_uset x' ll Ox Lx NF HT Ex) as (Er & O' & L' & _). split; [split; assumption|].
      destruct (C38_mc_round_likelihood (jump_chain x) (jump_chain x') 1 ob_uset ll) as (_ & _ & Q); auto; [apply jc_wf, Ox| |intros tr t I; apply (Q tr t I), (Px tr t I)].
      split; [apply jc_nonneg, Ox|]. intros r Ir. destruct (jc_dist x (proj1 Ox) (proj2 Ox) Lx r Ir) as [_ Q]. rewrite Q. lra.
    + exists it. split; [exact A|]. split; [exact B|].
      pose proof (C149_ctmc_untimed_converges it 1 [] ob_uset) as K. rewrite A in K. specialize (K W N Lv ND NF HT HP B 0%nat 1%nat ltac:(unfold ct_n; cbn; lia) ltac:(unfold ct_n; cbn; lia)).
      cbv zeta in K. cbn [nth ct_lab ob_u] in K. rewrite C1, C3 in K. apply K. lra.
  - apply C149_ctmc_untimed_optimal; auto; try discriminate.
    + repeat split; try reflexivity; [intros r [<-|[<-|[]]]; reflexivity|intros v [<-|[<-|[]]]; lra].
    + intros r [<-|[<-|[]]] v [<-|[<-|[]]]; lra.
    + intros s Hs; unfold ct_n in Hs; cbn in Hs; destruct s as [|[|s]]; [| |lia]; unfold exit_rate, rsum; cbn; lra.
    + intros s s' Hs Hs' a b L. unfold ct_n in *. cbn in Hs, Hs'. unfold jump, exit_rate, matR, rsum.
      destruct s as [|[|s]]; [| |lia]; destruct s' as [|[|s']]; try lia; unfold a, b in *; cbn in L |- *; rewrite ?C1, ?C2, ?C3, ?C4 in *; lra.
Qed.

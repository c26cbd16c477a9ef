(** Instances for C144: every class with the states exchanged, the names prefixed,
    the counts doubled and (timed chains, Gaussian outputs) other units. *)
From Coq Require Import String ZArith Bool Reals List Lia Lra.
From Verif Require Import Num Py SNum SPath LSum MSet SSet MModels MLik MBW SBW SLik LBWHMM LBWGO PLik PBWMC PBWHMM PBWMDP PBWCT PBWCTU PBWGO SSym PSym PSym2 PSym3.
Import ListNotations.
Local Open Scope R_scope.

Definition flip (n i : nat) : nat := (n - 1 - i)%nat.
Lemma flip_ok n : renumbering n (flip n).
Proof. unfold renumbering, flip. split; intros; lia. Qed.
Definition prefix (x : string) : string := String.append "p_" x.
Lemma prefix_ok : renaming prefix.
Proof. intros x y E. injection E as E. exact E. Qed.

Ltac small i := destruct i as [|[|[|i]]]; try lia.

Definition ex_mc2 : mc R := mkMC [[0; 2/3; 1/3]; [0; 1; 0]; [0; 1/2; 1/2]] ["p_init"; "p_b"; "p_a"]%string [1; 0; 0] "other"%string.
Example C144_mc_instance : renumbering (mc_n ex_mc) (flip 3) /\ renaming prefix /\ wf_mc ex_mc /\ nonneg_mat (mc_mat ex_mc) /\ wf_mc ex_mc2 /\
  same_mc (flip 3) prefix ex_mc ex_mc2 /\ pos_times (weighted ex_set) /\ usable ex_set /\
  map prefix ["init"; "b"]%string = ["p_init"; "p_b"]%string /\
  weighted (reset (map prefix) 2 ex_set) = [(["p_init"; "p_a"; "p_b"]%string, 4%Z); (["p_init"; "p_b"]%string, 2%Z)].
Proof.
  split; [apply flip_ok|]. split; [apply prefix_ok|]. split; [exact ex_mc_wf|]. split; [apply ex_mc_stoch|]. split.
  { repeat split; cbn; auto; [intros r [<-|[<-|[<-|[]]]]; reflexivity|intros x [<-|[<-|[<-|[]]]]; lra]. }
  split.
  { split; [reflexivity|]. unfold mc_n; cbn. split; [|split].
    - intros i Hi. small i; reflexivity.
    - intros i Hi. small i; reflexivity.
    - intros i j Hi Hj. small i; small j; reflexivity. }
  split; [intros x [<-|[<-|[]]]; cbn; lia|]. split; [apply C27_instance|]. split; reflexivity.
Qed.

Definition ex_hmm2 : hmm R := mkHMM [[2/3; 1/3]; [1/2; 1/2]] [[1/4; 3/4]; [1; 0]] ["p_x"; "p_y"]%string [0; 1] "other"%string.
Example C144_hmm_instance : renumbering (hmm_n ex_hmm) (flip 2) /\ renaming prefix /\ wf_hmm ex_hmm /\ nonneg_hmm ex_hmm /\ wf_hmm ex_hmm2 /\
  same_hmm (flip 2) prefix ex_hmm ex_hmm2 /\ pos_times (weighted ex_hset) /\ usable ex_hset.
Proof.
  destruct C35_C37_C39_C42_instance as (W & S1 & S2 & _ & _ & U & _).
  split; [apply flip_ok|]. split; [apply prefix_ok|]. split; [exact W|]. split; [split; [apply S1|apply S2]|]. split.
  { unfold wf_hmm, square, hmm_n; cbn. repeat split; auto.
    - intros r [<-|[<-|[]]]; reflexivity.
    - intros r [<-|[<-|[]]]; reflexivity.
    - constructor; [intros [H|[]]; discriminate|]. constructor; [intros []|constructor].
    - intros v [<-|[<-|[]]]; lra. }
  split.
  { split; [reflexivity|]. split; [reflexivity|]. unfold hmm_n; cbn. split; [|split].
    - intros i Hi. small i; reflexivity.
    - intros i j Hi Hj. small i; small j; reflexivity.
    - intros i j Hi Hj. small i; small j; reflexivity. }
  split; [intros x [<-|[<-|[]]]; cbn; lia|exact U].
Qed.

Definition ex_mdp2 : mdp R := mkMDP [[[0; 1]; [0; 0]]; [[1/2; 1/2]; [1; 0]]] ["p_y"; "p_x"]%string ["p_a"; "p_b"]%string [0; 1] "other"%string.
Example C144_mdp_instance : renumbering (mdp_n ex_mdp) (flip 2) /\ renaming prefix /\ wf_mdp ex_mdp /\ nonneg_mdp ex_mdp /\ wf_mdp ex_mdp2 /\
  same_mdp (flip 2) prefix prefix ex_mdp ex_mdp2 /\ pos_times (weighted ex_dset) /\ usable ex_dset /\ seqs ex_dset <> [] /\
  (forall tr t, In (tr, t) (weighted ex_dset) -> Nat.odd (length tr) = true).
Proof.
  destruct C36_C37_C40_C42_instance as (W & N & _ & _ & _ & U & _).
  split; [apply flip_ok|]. split; [apply prefix_ok|]. split; [exact W|]. split; [exact N|]. split.
  { unfold wf_mdp, mdp_n; cbn. repeat split; auto.
    - destruct H as [<-|[<-|[]]]; reflexivity.
    - destruct H as [<-|[<-|[]]]; intros r [<-|[<-|[]]]; reflexivity.
    - constructor; [intros [H|[]]; discriminate|]. constructor; [intros []|constructor].
    - intros v [<-|[<-|[]]]; lra. }
  split.
  { split; [reflexivity|]. split; [reflexivity|]. unfold mdp_n; cbn. split; [|split].
    - intros i Hi. small i; reflexivity.
    - intros i Hi. small i; reflexivity.
    - intros i a j Hi Ha Hj. small i; small a; small j; reflexivity. }
  split; [intros x [<-|[<-|[]]]; cbn; lia|]. split; [exact U|]. split; [discriminate|].
  intros tr t [E|[E|[]]]; inversion E; subst; reflexivity.
Qed.

(** Rates doubled and times halved. *)
Definition ex_fix2 : ctmc R := mkCTMC [[0; 2]; [0; 2]] ["p_y"; "p_x"]%string [0; 1] "other"%string.
Example C144_ctmc_timed_instance : renumbering (ct_n ex_fix) (flip 2) /\ renaming prefix /\ wf_ctmc ex_fix /\ nonneg_mat (ct_mat ex_fix) /\ wf_ctmc ex_fix2 /\
  same_ctmc (flip 2) prefix 2 ex_fix ex_fix2 /\ same_fixed 2 (flip 2) ex_mask [[false; true]; [false; false]] /\
  timed_set ex_fset /\ pos_times ex_fset /\ rewritten (retimed prefix 2) 3 ex_fset = [((["p_x"; "p_x"]%string, [1 / 2]), 3%Z)].
Proof.
  destruct C41_C42_C45_instance as (W & N & _ & A & _ & HT & _).
  split; [apply flip_ok|]. split; [apply prefix_ok|]. split; [exact W|]. split; [exact N|]. split.
  { unfold wf_ctmc, square, ct_n; cbn. repeat split; auto; [intros r [<-|[<-|[]]]; reflexivity|intros v [<-|[<-|[]]]; lra]. }
  split.
  { split; [reflexivity|]. unfold ct_n; cbn. split; [|split].
    - intros i Hi. small i; reflexivity.
    - intros i Hi. small i; reflexivity.
    - intros i j Hi Hj. small i; small j; cbn; lra. }
  split; [intros i j Hi Hj; small i; small j; reflexivity|]. split; [exact A|]. split; [exact HT|reflexivity].
Qed.

Definition ex_untimed2 : ctmc R := mkCTMC [[0; 3]; [2; 0]] ["p_y"; "p_x"]%string [0; 1] "other"%string.
Example C144_ctmc_untimed_instance : renumbering (ct_n ex_untimed) (flip 2) /\ renaming prefix /\ wf_ctmc ex_untimed /\ nonneg_mat (ct_mat ex_untimed) /\
  live ex_untimed /\ wf_ctmc ex_untimed2 /\ same_ctmc (flip 2) prefix 1 ex_untimed ex_untimed2 /\ no_fixed [] /\ same_fixed 2 (flip 2) [] [] /\ pos_times ex_uset.
Proof.
  split; [apply flip_ok|]. split; [apply prefix_ok|]. split.
  { unfold wf_ctmc, square, ct_n; cbn. repeat split; auto; [intros r [<-|[<-|[]]]; reflexivity|intros v [<-|[<-|[]]]; lra]. }
  split; [intros r [<-|[<-|[]]] v [<-|[<-|[]]]; lra|]. split.
  { intros s Hs. unfold ct_n in Hs; cbn in Hs. small s; unfold exit_rate, Sum, sumL; cbn; lra. }
  split.
  { unfold wf_ctmc, square, ct_n; cbn. repeat split; auto; [intros r [<-|[<-|[]]]; reflexivity|intros v [<-|[<-|[]]]; lra]. }
  split.
  { split; [reflexivity|]. unfold ct_n; cbn. split; [|split].
    - intros i Hi. small i; reflexivity.
    - intros i Hi. small i; reflexivity.
    - intros i j Hi Hj. small i; small j; cbn; lra. }
  assert (F : no_fixed []) by (intros i j; unfold is_fixed; destruct i; cbn; destruct j; reflexivity).
  split; [exact F|]. split; [intros i j _ _; rewrite !F; reflexivity|]. intros x [<-|[]]; cbn; lia.
Qed.

(** Outputs measured as 2 x + 5. *)
Definition ex_go2 : gohmm R := mkGO [[2/3; 1/3]; [1/2; 1/2]] [[(9, 2)]; [(5, 2)]] [1/2; 1/2] "other"%string.
Example C144_gohmm_instance : renumbering (go_n ex_go) (flip 2) /\ wf_gohmm 1 ex_go /\ go_full 1 ex_go /\ wf_gohmm 1 ex_go2 /\
  same_gohmm 1 (flip 2) (fun _ => 2) (fun _ => 5) ex_go ex_go2 /\ obs_dim 1 (weighted ex_gset) /\ pos_times (weighted ex_gset) /\ varied 1 (weighted ex_gset) /\
  rescaled (fun _ => 2) (fun _ => 5) [[0]; [1]] = [[2 * 0 + 5]; [2 * 1 + 5]].
Proof.
  destruct C71_C75_instance as (W & _ & _ & F & _ & Hd & V & _).
  split; [apply flip_ok|]. split; [exact W|]. split; [exact F|]. split.
  { unfold wf_gohmm, square, go_n; cbn. repeat split; auto; try (intros r [<-|[<-|[]]]; reflexivity). intros v [<-|[<-|[]]]; lra. }
  split.
  { split; [reflexivity|]. unfold go_n; cbn. split; [|split].
    - intros i Hi. small i; cbn; lra.
    - intros i j Hi Hj. small i; small j; reflexivity.
    - intros i q Hi Hq. assert (q = 0)%nat as -> by lia. small i; unfold mean, stddev; cbn; split; lra. }
  split; [intros tr t I o Io; apply in_combine_l in I; eauto|]. split; [intros x [<-|[<-|[]]]; cbn; lia|]. split; [exact V|reflexivity].
Qed.

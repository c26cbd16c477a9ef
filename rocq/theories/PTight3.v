(** Theorems added after seeded edits of the model were not noticed (third part). *)
From Coq Require Import String ZArith Bool Reals List Lia Lra.
From Verif Require Import Num Py SNum SPath LSum MSet SSet LSet MTools LTools MModels MLik MBW SBW LBW LBWSet SLik SRun LMM MActive MPctmc MPLearn SPctmc SPLearn LPLearn LPLearn2 PLik PBWMDP PActive PActive3.
Import ListNotations.
Local Open Scope R_scope.

(** C105: with no active iteration, fit is the learning of the MDP on the set given by
    the caller, whether a Set or a list of traces, and nothing is drawn. *)
Theorem C105_no_iteration : forall (so sto vs : bool) (p fuel max_it : nat) (eps : R) (sul : mdp R) (lr : rate R) (iterations nb : Z) (sl : option Z) (eg : R) (t : atraining)
    (h0 h1 : mdp R) draws c ll b,
  (iterations <= 0)%Z -> (so = true -> sto = true \/ vs = true) ->
  (sl = None -> exists s, t = ASet s /\ seqs s <> []) ->
  bw_loop (round_MDP p (weighted (atraining_set t))) eps max_it None 0 h0 = Ok (h1, c, ll, b) ->
  exists st, active_fit sto so vs p fuel max_it eps sul lr iterations nb sl eg t h0 draws = Some (Ok st, draws) /\
    hypothesis st = h1 /\ total st = atraining_set t.
Proof.
  intros so sto vs p fuel mx eps sul lr its nb sl eg t h0 h1 draws c ll b Hi Hs Hl E. exists (mkA [h1] 0 (atraining_set t) c). split; [|split; reflexivity].
  unfold active_fit. assert (so && negb sto && negb vs = false)%bool as ->.
  { destruct so; [|reflexivity]. destruct (Hs eq_refl) as [-> | ->]; [reflexivity|apply andb_false_r]. }
  unfold weighted in E. rewrite E. destruct t as [s|l].
  - cbn [atraining_set]. replace (Z.to_nat its) with O by lia. destruct sl as [z|]; [reflexivity|]. destruct (Hl eq_refl) as (s' & [= <-] & NE).
    destruct (seqs s); [contradiction|reflexivity].
  - destruct sl as [z|]; [|destruct (Hl eq_refl) as (s' & H & _); discriminate]. apply Z.leb_le in Hi. rewrite Hi. reflexivity.
Qed.
Print Assumptions C105_no_iteration.
Example C105_no_iteration_instance : exists h1 c ll b,
  bw_loop (round_MDP 2 (weighted (atraining_set (AList [["x"; "a"; "y"]%string])))) (1/10) 3 None 0 ex_mdp = Ok (h1, c, ll, b).
Proof.
  destruct C105_C106_instance as (_ & (_ & HO & _) & _).
  assert (P1 : mdp_trace_prob ex_mdp ["x"; "a"; "y"]%string = 1/2) by (unfold mdp_trace_prob, trace_prob, sumL, act_mat, is_label, Sum, sumL; cbn; lra).
  assert (Wt : weighted (atraining_set (AList [["x"; "a"; "y"]%string])) = weighted ex_one) by reflexivity. rewrite Wt.
  apply (fit_total 2 3 (1/10) ex_mdp ex_one HO); [|lia|].
  - split; [split; [reflexivity|constructor; [intros []|constructor]]|]. split; [intros t [<-|[]]; lia|]. split; [reflexivity|]. intros tr [<-|[]]; reflexivity.
  - exists ["x"; "a"; "y"]%string, 1%Z. split; [left; reflexivity|rewrite P1; lra].
Qed.

(** C107: the weight given to a rate linear in a parameter: for a - b where only b
    holds the parameter, the coefficient of the parameter is that of -b. *)
Theorem C107_coefficient : forall (vals : dict R) (p : string) (rho : string -> R) (a b : expr R) c,
  ~ occurs p a -> is_monomial b -> degree p b = 1%nat -> (forall x, occurs x b -> dget vals x = Some (rho x)) ->
  c_pi vals p (ESub a b) = Ok c -> c * rho p = - denote rho b.
Proof.
  intros vals p rho a b c Na M D V E. cbn [c_pi] in E.
  destruct (has_sym p a) eqn:Ha; [exfalso; apply Na, has_sym_occurs, Ha|]. destruct (has_sym p b) eqn:Hb; [|discriminate].
  unfold coef in E. apply (coef_spec vals p rho) in E.
  - rewrite prodL_cons in E. rewrite (factors_other rho p b), (nvar_degree p b) by assumption. rewrite E. cbn [other denote]. nR. ring.
  - intros e x [<-|I] O; [destruct O|]. apply V. apply (factors_occurs b e x); [exact I|exact O].
Qed.
Print Assumptions C107_coefficient.
Example C107_coefficient_instance : let e := ESub (EVar "q") (EMul (EConst 3) (EVar "p")) in
  c_pi [("q", 5); ("p", 2)]%string "p"%string e = Ok (0 - 1 * 3).
Proof. cbn. f_equal. nR. ring. Qed.

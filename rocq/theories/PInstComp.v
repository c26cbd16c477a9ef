(** Composing parametric CTMCs and giving values to the parameters, or composing
    the CTMCs of these values (C167). *)
From Coq Require Import String Ascii ZArith QArith Bool Reals Lra Lia Arith List.
From Verif Require Import Num Py MTools MSet MModels MCtor MPctmc MCompose MPCompose SNum SSet SCtor SPctmc SCompose SPCompose SComp2 LSum LSet LCtor LBW LPctmc LText LAlergia LCompose LPCompose PCtor PPctmc PCompose PPCompose PComp2.
Import ListNotations.
Local Open Scope R_scope.

(** [c] is the CTMC of the states and initial rates of the component [m] when the
    parameters have the values rho. *)
Definition valued (rho : string -> R) (n : nat) (start : nat -> R) (m : pctmc R) (c : ctmc R) : Prop :=
  (forall a b, (a < n)%nat -> (b < n)%nat -> matR (ct_mat c) a b = denote rho (transition m a b)) /\
  (forall a, (a < n)%nat -> matR (ct_mat c) n a = start a).

Fixpoint ppos (t : nat * nat) (l : list (nat * nat)) : nat :=
  match l with [] => O | u :: l => if (Nat.eqb (fst u) (fst t) && Nat.eqb (snd u) (snd t))%bool then O else S (ppos t l) end.
Lemma ppos_ok t l : In t l -> (ppos t l < length l)%nat /\ nth (ppos t l) l (O, O) = t.
Proof.
  induction l as [|u l IH]; intros I; [contradiction|]. cbn [ppos length]. destruct (Nat.eqb_spec (fst u) (fst t)) as [E|E]; destruct (Nat.eqb_spec (snd u) (snd t)) as [F|F]; cbn [andb].
  - split; [lia|]. cbn. destruct u, t; cbn in *; congruence.
  - destruct I as [->|I]; [contradiction|]. destruct (IH I) as [A B]. split; [lia|exact B].
  - destruct I as [->|I]; [contradiction|]. destruct (IH I) as [A B]. split; [lia|exact B].
  - destruct I as [->|I]; [contradiction|]. destruct (IH I) as [A B]. split; [lia|exact B].
Qed.

Lemma given_ext ps : forall vs f g x, (forall x, f x = g x) -> given ps vs f x = given ps vs g x.
Proof. induction ps as [|q ps IH]; intros [|v vs] f g x H; cbn [given]; try apply H. apply IH. intros z. destruct (String.eqb z q); [reflexivity|apply H]. Qed.

Section Inst.
  Variables (rho : string -> R) (n1 n2 : nat) (start1 start2 : nat -> R) (m1 m2 : pctmc R) (c1 c2 : ctmc R) (s1 s2 : list sync).
  Hypothesis V1 : valued rho n1 start1 m1 c1.
  Hypothesis V2 : valued rho n2 start2 m2 c2.
  Lemma prod_valued ab cd : (fst ab < n1)%nat -> (snd ab < n2)%nat -> (fst cd < n1)%nat -> (snd cd < n2)%nat -> pprod rho m1 m2 s1 s2 ab cd = prod_rate c1 c2 s1 s2 ab cd.
  Proof. intros A B C D. unfold pprod, prod_rate. rewrite (proj1 V1), (proj1 V2) by assumption. reflexivity. Qed.
  Lemma start_valued ab : (fst ab < n1)%nat -> (snd ab < n2)%nat -> start1 (fst ab) * start2 (snd ab) = prod_start c1 c2 n1 n2 ab.
  Proof. intros A B. unfold prod_start. rewrite (proj2 V1), (proj2 V2) by assumption. reflexivity. Qed.
  Lemma reachable_preach ab : reachable c1 c2 n1 n2 s1 s2 ab -> preach m1 m2 n1 n2 start1 start2 s1 s2 ab.
  Proof.
    induction 1 as [ab A B S|ab cd H IH A B S].
    - apply preach_start; [exact A|exact B|]. rewrite start_valued by assumption. exact S.
    - destruct (reachable_in _ _ _ _ _ _ _ H) as [C D]. apply (preach_step _ _ _ _ _ _ _ _ ab cd rho IH A B). rewrite prod_valued by assumption. exact S.
  Qed.
End Inst.

(** ** C167 *)
Theorem C167_instantiate_composition : forall rho n1 n2 l1 l2 start1 start2 (m1 m2 : pctmc R) (c1 c2 : ctmc R) (o1 o2 : option (list sync)) pstr ps vs name,
  let sync1 := the_list o1 [] in let sync2 := the_list o2 [] in
  pcomponent n1 l1 start1 m1 -> pcomponent n2 l2 start2 m2 -> component n1 l1 c1 -> component n2 l2 c2 ->
  valued rho n1 start1 m1 c1 -> valued rho n2 start2 m2 c2 -> (0 < n2 <= n1 + 1)%nat ->
  (forall a, (a < n1)%nat -> transition m1 a a = EConst 0) -> sync_in n1 sync1 -> sync_in n2 sync2 -> sync_plain m1 m2 sync1 sync2 ->
  NoDup pstr -> (forall p, In p pstr <-> In p (pc_par m1) \/ In p (pc_par m2)) -> (forall x, In x pstr -> given ps vs (current m1) x = Some (rho x)) ->
  (Z.of_nat ((n1 + n2) * (n1 + n2) + length sync1 * length sync2) < 65536)%Z ->
  (1 + nonzeros n1 c1 + nonzeros n2 c2 + sync_pairs sync1 sync2 + start_pairs c1 c2 n1 n2 <= 256)%nat ->
  exists mp mc idp idc, let P := reachable c1 c2 n1 n2 sync1 sync2 in
    let label := fun ab => (nth (fst ab) l1 EmptyString ++ "," ++ nth (snd ab) l2 EmptyString)%string in
    synchronousCompositionPCTMCs [(m1, o1); (m2, o2)] [] [pstr] name = (Ok mp, []) /\
    synchronousCompositionCTMCs c1 c2 sync1 sync2 name = Ok mc /\
    numbers mc P idc label (prod_start c1 c2 n1 n2) (prod_rate c1 c2 sync1 sync2) /\
    (forall m', instantiate mp ps vs = (true, m') ->
       numbers m' P idp label (prod_start c1 c2 n1 n2) (prod_rate c1 c2 sync1 sync2) /\
       (* what the user reads on the two models *)
       (forall ab cd, P ab -> P cd -> evaluateTransition m' (idp ab) (idp cd) None = evaluateTransition mc (idc ab) (idc cd) None)).
Proof.
  intros rho n1 n2 l1 l2 start1 start2 m1 m2 c1 c2 o1 o2 pstr ps vs name sync1 sync2 C1 C2 D1 D2 V1 V2 [P2 LE] NL S1 S2 SP ND PE GV BD BC.
  destruct (C92_pctmc_composition_partial n1 n2 l1 l2 start1 start2 m1 m2 o1 o2 [] pstr name C1 C2 (conj P2 LE)) as (mp & keep & E & _ & PA & VA & LB & W & _ & RT & ST & IN & RE & _ & PI); try assumption.
  { intros a b La _. left. apply NL, La. }
  cbv zeta in *. fold sync1 in RT, RE. fold sync2 in RT, RE. set (kept := filter keep (list_prod (seq 0 n1) (seq 0 n2))) in *.
  destruct (composed_numbers n1 n2 l1 l2 c1 c2 sync1 sync2 name D1 D2 (conj P2 LE)) as (mc & idc & EC & NC); try assumption.
  { intros a b La _. left. rewrite (proj1 V1) by assumption. rewrite NL by exact La. reflexivity. }
  exists mp, mc, (fun ab => ppos ab kept), idc. split; [exact E|]. split; [exact EC|]. split; [exact NC|]. intros m' EI.
  assert (PN : pc_n mp = S (length kept)). { destruct W as (_ & W & _). rewrite <- W, LB, app_length, map_length. cbn. lia. }
  destruct (C51_all_or_nothing mp m' ps vs true EI) as [_ HI]. destruct (HI eq_refl) as (CV & _ & _ & MA & LA & EX & _).
  assert (TR : forall x y, transition m' x y = transition mp x y) by (intros x y; unfold transition; rewrite MA, EX; reflexivity).
  assert (PN' : pc_n m' = S (length kept)) by (unfold pc_n in *; rewrite MA; exact PN).
  assert (HR : forall x y v, (x < pc_n mp)%nat -> (y < pc_n mp)%nat -> denote rho (transition mp x y) = v -> has_rate m' (current m') x y v).
  { intros x y v Lx Ly EV. exists rho. rewrite TR. split; [|symmetry; exact EV]. intros k OC. assert (I : In (Z.of_nat x, Z.of_nat y) (parameterIndexes mp k)) by (apply PI; auto). unfold parameterIndexes in I. destruct (index_of String.eqb k (pc_par mp)) as [j|] eqn:IX; [|contradiction]. apply (LSet.index_of_Some _ string_eqb_decides), nth_error_In in IX. rewrite PA in IX.
    unfold current. rewrite CV. rewrite <- (GV k IX). apply given_ext, VA. }
  assert (IK : forall ab, In ab kept -> (fst ab < n1)%nat /\ (snd ab < n2)%nat). { intros [a b] I. apply filter_In, proj1, in_prod_iff in I as [A B]. apply in_seq in A, B. cbn. lia. }
  assert (NK : NoDup kept). { apply NoDup_filter. clear. generalize (seq 0 n2) (seq_NoDup n2 0) (seq_NoDup n1 0). induction (seq 0 n1) as [|a l IH]; intros k Hk Hl; [constructor|]. inversion Hl as [|? ? Na Hl']; subst. cbn [list_prod]. apply NoDup_app_intro.
    - apply FinFun.Injective_map_NoDup; [intros x y [= ->]; reflexivity|exact Hk].
    - apply IH; assumption.
    - intros [x y] I J. apply in_map_iff in I as (z & [= <- <-] & _). apply in_prod_iff in J as [J _]. contradiction. }
  assert (RK : forall ab, reachable c1 c2 n1 n2 sync1 sync2 ab -> In ab kept) by (intros ab H; apply RE; eapply reachable_preach; eassumption).
  assert (NM : numbers m' (reachable c1 c2 n1 n2 sync1 sync2) (fun ab => ppos ab kept) (fun ab => (nth (fst ab) l1 EmptyString ++ "," ++ nth (snd ab) l2 EmptyString)%string) (prod_start c1 c2 n1 n2) (prod_rate c1 c2 sync1 sync2)).
  { unfold numbers. cbv zeta. rewrite PN'. replace (S (length kept) - 1)%nat with (length kept) by lia. split; [|split; [|split; [|split]]].
    - intros ab H. destruct (ppos_ok ab kept (RK ab H)) as [A B]. split; [exact A|]. rewrite LA, LB, app_nth1 by (rewrite map_length; exact A).
      rewrite (nth_indep _ EmptyString ((fun ab : nat * nat => (nth (fst ab) l1 EmptyString ++ "," ++ nth (snd ab) l2 EmptyString)%string) (O, O))) by (rewrite map_length; exact A). rewrite (map_nth (fun ab : nat * nat => (nth (fst ab) l1 EmptyString ++ "," ++ nth (snd ab) l2 EmptyString)%string)), B. reflexivity.
    - intros ab cd H K EQ. destruct (ppos_ok ab kept (RK ab H)) as [_ B], (ppos_ok cd kept (RK cd K)) as [_ B']. rewrite <- B, <- B', EQ. reflexivity.
    - intros ab H. destruct (ppos_ok ab kept (RK ab H)) as [A B]. apply HR; [lia|lia|]. rewrite ST by exact A. rewrite B. cbn [denote]. apply start_valued with (rho := rho) (m1 := m1) (m2 := m2); try assumption; apply (IK ab (RK ab H)).
    - intros ab cd H K. destruct (ppos_ok ab kept (RK ab H)) as [A B], (ppos_ok cd kept (RK cd K)) as [A' B']. apply HR; [lia|lia|]. rewrite RT by assumption. rewrite B, B'. destruct (IK ab (RK ab H)), (IK cd (RK cd K)). apply (prod_valued rho n1 n2 start1 start2); assumption.
    - intros y Ly NY. destruct (Nat.eq_dec y (length kept)) as [->|NE].
      + split; [apply HR; [lia|lia|]; rewrite IN by lia; reflexivity|]. intros ab H. destruct (ppos_ok ab kept (RK ab H)) as [A B]. apply HR; [lia|lia|]. rewrite IN by lia. reflexivity.
      + assert (Ly' : (y < length kept)%nat) by lia. assert (Iy : In (nth y kept (O, O)) kept) by (apply nth_In, Ly'). destruct (IK _ Iy) as [B1 B2].
        assert (PY : ppos (nth y kept (O, O)) kept = y). { destruct (ppos_ok _ kept Iy) as [Q1 Q2]. apply (proj1 (NoDup_nth kept (O, O)) NK); assumption. }
        assert (NR : ~ reachable c1 c2 n1 n2 sync1 sync2 (nth y kept (O, O))) by (intros H; apply (NY _ H), PY). split.
        * apply HR; [lia|lia|]. rewrite ST by exact Ly'. cbn [denote]. rewrite (start_valued rho n1 n2 start1 start2 m1 m2 c1 c2 V1 V2) by assumption. destruct (Req_dec (prod_start c1 c2 n1 n2 (nth y kept (O, O))) 0) as [Z|Z]; [exact Z|]. exfalso. apply NR, reach_start; assumption.
        * intros ab H. destruct (ppos_ok ab kept (RK ab H)) as [A B]. apply HR; [lia|lia|]. rewrite RT by assumption. rewrite B. destruct (IK ab (RK ab H)). rewrite (prod_valued rho n1 n2 start1 start2 m1 m2 c1 c2 sync1 sync2 V1 V2) by assumption.
          destruct (Req_dec (prod_rate c1 c2 sync1 sync2 ab (nth y kept (O, O))) 0) as [Z|Z]; [exact Z|]. exfalso. apply NR. apply (reach_step _ _ _ _ _ _ ab); assumption. }
  split; [exact NM|]. intros ab cd H K. destruct NM as (_ & _ & _ & RM & _), NC as (_ & _ & _ & RC & _). pose proof (RM ab cd H K) as X. pose proof (RC ab cd H K) as Y. apply evaluate_rate in X, Y. rewrite X, Y. reflexivity.
Qed.
Print Assumptions C167_instantiate_composition.

(** instantiate accepts values for the composition, when the rates of the parts are
    not negative for parameters that are not negative. *)
Definition nonneg_rates (n : nat) (start : nat -> R) (m : pctmc R) : Prop :=
  (forall rho a b, (forall x, 0 <= rho x) -> (a < n)%nat -> (b < n)%nat -> 0 <= denote rho (transition m a b)) /\ (forall a, (a < n)%nat -> 0 <= start a).
Lemma sumL_nonneg' {A} (l : list A) f : (forall x, In x l -> 0 <= f x) -> 0 <= sumL l f.
Proof. induction l as [|x l IH]; intros H; [apply Rle_refl|]. change (sumL (x :: l) f) with (f x + sumL l f). apply Rplus_le_le_0_compat; [apply H; left; reflexivity|apply IH; intros y I; apply H; right; exact I]. Qed.
Theorem C167_instantiate_accepted : forall n1 n2 l1 l2 start1 start2 (m1 m2 mp : pctmc R) (o1 o2 : option (list sync)) pstr ps vs name,
  let sync1 := the_list o1 [] in let sync2 := the_list o2 [] in
  pcomponent n1 l1 start1 m1 -> pcomponent n2 l2 start2 m2 -> (0 < n2 <= n1 + 1)%nat ->
  (forall a b, (a < n1)%nat -> (b < n2)%nat -> transition m1 a a = EConst 0 \/ transition m2 b b <> EConst 0) -> sync_in n1 sync1 -> sync_in n2 sync2 -> sync_plain m1 m2 sync1 sync2 ->
  NoDup pstr -> (forall p, In p pstr <-> In p (pc_par m1) \/ In p (pc_par m2)) ->
  (Z.of_nat ((n1 + n2) * (n1 + n2) + length sync1 * length sync2) < 65536)%Z ->
  nonneg_rates n1 start1 m1 -> nonneg_rates n2 start2 m2 -> (forall t, In t sync1 \/ In t sync2 -> 0 <= s_rate t) -> (forall x v, current m1 x = Some v -> 0 <= v) ->
  synchronousCompositionPCTMCs [(m1, o1); (m2, o2)] [] [pstr] name = (Ok mp, []) ->
  exists m', instantiate mp ps vs = (true, m').
Proof.
  intros n1 n2 l1 l2 start1 start2 m1 m2 mp o1 o2 pstr ps vs name sync1 sync2 C1 C2 P2 NL S1 S2 SP ND PE BD N1 N2 NS NV E0.
  destruct (C92_pctmc_composition_partial n1 n2 l1 l2 start1 start2 m1 m2 o1 o2 [] pstr name C1 C2 P2) as (mp' & keep & E & _ & PA & VA & LB & W & _ & RT & ST & IN & RE & _ & PI); try assumption.
  cbv zeta in *. rewrite E0 in E. injection E as <-. fold sync1 in RT. fold sync2 in RT. set (kept := filter keep (list_prod (seq 0 n1) (seq 0 n2))) in *.
  assert (PN : pc_n mp = S (length kept)). { destruct W as (_ & W' & _). rewrite <- W', LB, app_length, map_length. cbn. lia. }
  assert (IK : forall x, (x < length kept)%nat -> (fst (nth x kept (O, O)) < n1)%nat /\ (snd (nth x kept (O, O)) < n2)%nat). { intros x Lx. assert (I : In (nth x kept (O, O)) kept) by (apply nth_In, Lx). destruct (nth x kept (O, O)) as [a b]. apply filter_In, proj1, in_prod_iff in I as [A B]. apply in_seq in A, B. cbn. lia. }
  assert (V : valid_rates mp (current mp)).
  { intros x y v Lx Ly (rho0 & OC & ->). set (rho := fun x => match current m1 x with Some v => v | None => 0 end).
    assert (PO : forall x, 0 <= rho x) by (intros z; unfold rho; destruct (current m1 z) eqn:EQ; [apply (NV z), EQ|lra]).
    rewrite (denote_ext rho0 rho) by (intros z O; unfold rho; rewrite <- VA, (OC z O); reflexivity).
    destruct (Nat.eq_dec y (length kept)) as [->|Ny]; [rewrite IN by lia; cbn; lra|]. assert (Ly' : (y < length kept)%nat) by lia. destruct (IK y Ly') as [Y1 Y2].
    destruct (Nat.eq_dec x (length kept)) as [->|Nx].
    - rewrite ST by exact Ly'. cbn [denote]. apply Rmult_le_pos; [apply N1, Y1|apply N2, Y2].
    - assert (Lx' : (x < length kept)%nat) by lia. destruct (IK x Lx') as [X1 X2]. rewrite RT by assumption. unfold pprod. repeat apply Rplus_le_le_0_compat.
      + destruct (Nat.eqb _ _); [apply N1; assumption|lra].
      + destruct (Nat.eqb _ _); [apply N2; assumption|lra].
      + apply sumL_nonneg'. intros [t u] I. apply in_prod_iff in I as [It Iu]. unfold sync_rate. destruct (_ && _)%bool; [|lra]. cbn [fst snd]. apply Rmult_le_pos; apply NS; auto. }
  pose proof (proj2 (C50_instantiate_partial mp ps vs W) V) as T. destruct (instantiate mp ps vs) as [b m']. cbn in T. subst b. exists m'. reflexivity.
Qed.
Print Assumptions C167_instantiate_accepted.

(** Two machines with the parameters x and y, which get the values 1 and 4; a
    synchronous transition. *)
Definition qA : pctmc R := mkPC [[0; 1; 0]; [2; 0; 0]; [3; 0; 0]]%nat ["a"; "b"; "init"]%string [EConst 0; EVar "x"; EConst 2; EConst 1] [("x"%string, 5)] [[]] ["x"%string] [0; 0; 1] "A".
Definition qB : pctmc R := mkPC [[0; 1; 0]; [2; 0; 0]; [3; 3; 0]]%nat ["c"; "d"; "init"]%string [EConst 0; EMul (EConst 3) (EVar "x"); EVar "y"; EConst (/ 2)] [] [[]; []] ["x"; "y"]%string [0; 0; 1] "B".
Definition vA : ctmc R := mkCTMC [[0; 1; 0]; [2; 0; 0]; [1; 0; 0]] ["a"; "b"; "init"]%string [0; 0; 1] "A".
Definition vB : ctmc R := mkCTMC [[0; 3; 0]; [4; 0; 0]; [/ 2; / 2; 0]] ["c"; "d"; "init"]%string [0; 0; 1] "B".
Definition rhoQ (x : string) : R := if String.eqb x "x" then 1 else 4.
Definition yA : list sync := [(0%nat, "go"%string, 1%nat, 5)].
Definition yB : list sync := [(1%nat, "go"%string, 0%nat, 7)].
Lemma qA_ok : pcomponent 2 ["a"; "b"]%string stA qA.
Proof.
  split; [reflexivity|]. split; [cbn; intros [E|[E|[]]]; discriminate|]. split; [reflexivity|]. split; [reflexivity|]. split.
  - intros [|[|s]] L; try lia; apply const_rate; reflexivity.
  - intros [|[|x]] [|[|y]] k Lx Ly; try lia; unfold transition; cbn; intuition.
Qed.
Lemma qB_ok : pcomponent 2 ["c"; "d"]%string stB qB.
Proof.
  split; [reflexivity|]. split; [cbn; intros [E|[E|[]]]; discriminate|]. split; [reflexivity|]. split; [reflexivity|]. split.
  - intros [|[|s]] L; try lia; apply const_rate; reflexivity.
  - intros [|[|x]] [|[|y]] k Lx Ly; try lia; unfold transition; cbn; intuition.
Qed.
Lemma vA_ok : component 2 ["a"; "b"]%string vA.
Proof. repeat split; [cbn; intros [E|[E|[]]]; discriminate|cbn; intros r [<-|[<-|[<-|[]]]]; reflexivity|]. intros [|[|s]] L; try lia; unfold matR; cbn; lra. Qed.
Lemma vB_ok : component 2 ["c"; "d"]%string vB.
Proof. repeat split; [cbn; intros [E|[E|[]]]; discriminate|cbn; intros r [<-|[<-|[<-|[]]]]; reflexivity|]. intros [|[|s]] L; try lia; unfold matR; cbn; lra. Qed.
Example C167_instance : exists mp mc m' idp idc,
  synchronousCompositionPCTMCs [(qA, Some yA); (qB, Some yB)] [] [["x"; "y"]%string] "AB" = (Ok mp, []) /\ synchronousCompositionCTMCs vA vB yA yB "AB" = Ok mc /\
  instantiate mp ["x"; "y"]%string [1; 4] = (true, m') /\ reachable vA vB 2 2 yA yB (0, 1)%nat /\ reachable vA vB 2 2 yA yB (1, 0)%nat /\
  evaluateTransition m' (idp (0, 1)%nat) (idp (1, 0)%nat) None = Some 35 /\ evaluateTransition mc (idc (0, 1)%nat) (idc (1, 0)%nat) None = Some 35.
Proof.
  assert (SA : sync_in 2 yA) by (intros t [<-|[]]; cbn; lia). assert (SB : sync_in 2 yB) by (intros t [<-|[]]; cbn; lia).
  assert (NL : forall a, (a < 2)%nat -> transition qA a a = EConst 0) by (intros [|[|a]] L; try lia; reflexivity).
  assert (SPL : sync_plain qA qB yA yB) by (intros t u k [<-|[]] [<-|[]]; cbn; intros _; split; discriminate).
  assert (ND : NoDup ["x"; "y"]%string) by (repeat constructor; cbn; intuition discriminate).
  assert (PE : forall p, In p ["x"; "y"]%string <-> In p (pc_par qA) \/ In p (pc_par qB)) by (intros p; cbn; intuition).
  destruct (C167_instantiate_composition rhoQ 2 2 ["a"; "b"]%string ["c"; "d"]%string stA stB qA qB vA vB (Some yA) (Some yB) ["x"; "y"]%string ["x"; "y"]%string [1; 4] "AB") as (mp & mc & idp & idc & E & EC & NC & H).
  - exact qA_ok.
  - exact qB_ok.
  - exact vA_ok.
  - exact vB_ok.
  - split; [intros [|[|a]] [|[|b]] La Lb; try lia; unfold matR, transition, rhoQ; cbn; lra|intros [|[|a]] L; try lia; unfold matR; cbn; lra].
  - split; [intros [|[|a]] [|[|b]] La Lb; try lia; unfold matR, transition, rhoQ; cbn; lra|intros [|[|a]] L; try lia; unfold matR, stB; cbn; lra].
  - lia.
  - exact NL.
  - exact SA.
  - exact SB.
  - exact SPL.
  - exact ND.
  - exact PE.
  - intros x [<-|[<-|[]]]; reflexivity.
  - cbn. lia.
  - assert (N : forall m, (nonzeros 2 m <= 4)%nat) by (intros m; apply (filter_length_le _ (list_prod (seq 0 2) (seq 0 2)))). assert (S : (sync_pairs yA yB <= 1)%nat) by apply (filter_length_le _ (list_prod yA yB)).
    assert (T : (start_pairs vA vB 2 2 <= 4)%nat) by apply (filter_length_le _ (list_prod (seq 0 2) (seq 0 2))). pose proof (N vA). pose proof (N vB). cbn [the_list]. lia.
  - cbv zeta in *. cbn [the_list] in *. destruct (C167_instantiate_accepted 2 2 ["a"; "b"]%string ["c"; "d"]%string stA stB qA qB mp (Some yA) (Some yB) ["x"; "y"]%string ["x"; "y"]%string [1; 4] "AB") as (m' & EI).
    + exact qA_ok.
    + exact qB_ok.
    + lia.
    + intros a b La _. left. apply NL, La.
    + exact SA.
    + exact SB.
    + exact SPL.
    + exact ND.
    + exact PE.
    + cbn. lia.
    + split; [intros rho [|[|a]] [|[|b]] PO La Lb; try lia; unfold transition; cbn; try lra; apply PO|intros [|[|a]] L; try lia; cbn; lra].
    + split; [intros rho [|[|a]] [|[|b]] PO La Lb; try lia; unfold transition; cbn; try lra; pose proof (PO "x"%string); pose proof (PO "y"%string); lra|intros [|[|a]] L; try lia; unfold stB; lra].
    + intros t [[<-|[]]|[<-|[]]]; cbn; lra.
    + intros x v. unfold current, parameterValue. cbn. destruct (String.eqb _ _); intros [= <-]; lra.
    + exact E.
    + destruct (H m' EI) as [_ EV]. assert (R1 : reachable vA vB 2 2 yA yB (0, 1)%nat) by (apply reach_start; [cbn; lia|cbn; lia|unfold prod_start, matR; cbn; lra]).
      assert (PR : prod_rate vA vB yA yB (0, 1)%nat (1, 0)%nat = 35) by (unfold prod_rate, sumL, sync_rate, matR; cbn; lra).
      assert (R2 : reachable vA vB 2 2 yA yB (1, 0)%nat) by (apply (reach_step _ _ _ _ _ _ (0, 1)%nat); [exact R1|cbn; lia|cbn; lia|rewrite PR; lra]).
      exists mp, mc, m', idp, idc. split; [exact E|]. split; [exact EC|]. split; [exact EI|]. split; [exact R1|]. split; [exact R2|]. rewrite (EV _ _ R1 R2). destruct NC as (_ & _ & _ & RC & _). pose proof (RC _ _ R1 R2) as Y. rewrite PR in Y. apply evaluate_rate in Y. auto.
Qed.

(** When the composition of two PCTMCs fails because of a synchronous transition (C92). *)
From Coq Require Import String Ascii ZArith QArith Bool Reals Lra Lia Arith Classical List.
From Verif Require Import Num Py MTools MSet MModels MCtor MPctmc MCompose MPCompose SNum SSet SCtor SPctmc SCompose SPCompose LSum LSet LCtor LBW LPctmc LText LAlergia LCompose LPCompose PCtor PPctmc PCompose PPCompose.
Import ListNotations.
Local Open Scope R_scope.

Lemma occurs_dec k (e : expr R) : {occurs k e} + {~ occurs k e}.
Proof. destruct (in_dec string_dec k (symbols e)) as [I|I]; rewrite symbols_occurs in I; auto. Qed.
Lemma add_sync16_length (m : pctmc R) t m' : add_sync16 m t = Ok m' -> (length (pc_expr m') <= S (length (pc_expr m)))%nat.
Proof.
  destruct t as [[[i a] d] r]. unfold add_sync16. generalize (if (ref m i d =? 0)%nat then EConst r else EAdd (EConst r) (transitionExpression m i d)). intros e. unfold find_or_add. destruct (index_of _ e (pc_expr m)); destruct (symbols e); intros [= <-]; cbn [pc_expr]; rewrite ?app_length; cbn [length]; lia.
Qed.
Lemma sync16_err N ps pi l : forall m W P, pinv N ps (bof m pi) W P -> (forall t, In t l -> (s_src t < N /\ s_dst t < N)%nat) -> (exists t k, In t l /\ occurs k (W (s_src t) (s_dst t))) -> (Z.of_nat (length (pc_expr m) + length l) <= 65536)%Z ->
  mfold add_sync16 l m = Err ValueError.
Proof.
  induction l as [|t l IH]; intros m W P PV RG (u & k & I & OC) BD; [destruct I|]. cbn [mfold].
  destruct (RG t (or_introl eq_refl)) as [Lx Ly]. destruct (symbols (W (s_src t) (s_dst t))) as [|s q] eqn:SY.
  - assert (NO : forall v j, In v [t] -> ~ occurs j (W (s_src v) (s_dst v))) by (intros v j [<-|[]] X; apply symbols_occurs in X; rewrite SY in X; exact X).
    cbn [length] in BD. destruct (sync16_ok N ps pi [t] m W P PV) as (m' & W' & E & PV' & _ & _ & _ & _ & _ & _ & _ & OW & _).
    { intros v [<-|[]]. auto. } { exact NO. } { cbn [length]. lia. }
    cbn [mfold] in E. destruct (add_sync16 m t) as [m1|x] eqn:A; cbn [bind] in E |- *; [|discriminate]. injection E as ->. pose proof (add_sync16_length _ _ _ A).
    destruct I as [<-|I]; [exfalso; exact (NO t k (or_introl eq_refl) OC)|]. apply (IH m' W' P PV'); [intros v J; apply RG; right; exact J| |lia]. exists u, k. split; [exact I|]. destruct (RG u (or_intror I)). apply OW; assumption.
  - pose proof PV as (_ & _ & EN & _ & _ & _ & Z0 & _). cbn [bof b_mat b_te] in *. destruct (EN _ _ Lx Ly) as [_ RW]. destruct t as [[[i a] d] r]. unfold add_sync16, s_src, s_dst in *. cbn [fst snd] in *. rewrite transition_eq. unfold transition, ref. rewrite RW.
    destruct (Nat.eqb_spec (nth d (nth i (pc_mat m) []) O) 0) as [E|_]; [rewrite E, Z0 in RW; rewrite <- RW in SY; discriminate|]. destruct (find_or_add _ _). cbn [symbols app]. rewrite SY. reflexivity.
Qed.

(** ** C92: a synchronous transition on top of a transition with a parameter.
    Same situation as in [C92_pctmc_composition_partial] without the guard on the
    synchronous transitions: this guard is exactly the condition under which the
    composition succeeds, and otherwise the exception is ValueError. *)
Theorem C92_sync_on_parameter : forall n1 n2 l1 l2 start1 start2 (m1 m2 : pctmc R) (o1 o2 : option (list sync)) dflt pstr name,
  let sync1 := the_list o1 dflt in let sync2 := the_list o2 dflt in
  pcomponent n1 l1 start1 m1 -> pcomponent n2 l2 start2 m2 -> (0 < n2 <= n1 + 1)%nat ->
  (forall a b, (a < n1)%nat -> (b < n2)%nat -> transition m1 a a = EConst 0 \/ transition m2 b b <> EConst 0) ->
  sync_in n1 sync1 -> sync_in n2 sync2 ->
  NoDup pstr -> (forall p, In p pstr <-> In p (pc_par m1) \/ In p (pc_par m2)) ->
  (Z.of_nat ((n1 + n2) * (n1 + n2) + length sync1 * length sync2) < 65536)%Z ->
  ((exists m, synchronousCompositionPCTMCs [(m1, o1); (m2, o2)] dflt [pstr] name = (Ok m, dflt)) <-> sync_plain m1 m2 sync1 sync2) /\
  (~ sync_plain m1 m2 sync1 sync2 -> synchronousCompositionPCTMCs [(m1, o1); (m2, o2)] dflt [pstr] name = (Err ValueError, dflt)).
Proof.
  intros n1 n2 l1 l2 start1 start2 m1 m2 o1 o2 dflt pstr name sync1 sync2 C1 C2 [P2 LE] NL S1 S2 ND PE BD.
  assert (BAD : (exists t u k, In t sync1 /\ In u sync2 /\ s_act t = s_act u /\ ((s_src u = s_dst u /\ occurs k (transition m1 (s_src t) (s_dst t))) \/ (s_src t = s_dst t /\ occurs k (transition m2 (s_src u) (s_dst u))))) ->
    synchronousCompositionPCTMCs [(m1, o1); (m2, o2)] dflt [pstr] name = (Err ValueError, dflt)).
  { intros (t & u & k & It & Iu & EA & CASE).
    destruct (compose2_ok n1 n2 l1 l2 start1 start2 m1 m2 sync1 sync2 pstr C1 C2 P2 LE S1 S2 ND PE BD name) as (m0 & pi0 & E0 & _ & PV & _ & _ & _ & _ & BT & _).
    assert (PI := psy_in n1 n2 sync1 sync2 S1 S2). assert (IP : In (t, u) (list_prod sync1 sync2)) by (apply in_prod; assumption). destruct (PI _ IP) as (Q1 & Q2 & Q3 & Q4). cbn [fst snd] in *.
    set (v := ((s_src t * n2 + s_src u)%nat, s_act t, (s_dst t * n2 + s_dst u)%nat, s_rate t * s_rate u) : sync).
    assert (IV : In v (flat_map (st_of n2) (list_prod sync1 sync2))).
    { apply in_flat_map. exists (t, u). split; [exact IP|]. unfold st_of. cbn [fst snd]. rewrite (proj2 (String.eqb_eq _ _) EA). left. reflexivity. }
    assert (ERR : mfold add_sync16 (flat_map (st_of n2) (list_prod sync1 sync2)) m0 = Err ValueError).
    { apply (sync16_err (S (n1 * n2)) pstr pi0 _ m0 _ _ PV); [|exists v, k; split; [exact IV|]|exact BT].
      - intros w I. destruct (st_in n1 n2 P2 _ w PI I). lia.
      - destruct (st_in n1 n2 P2 _ v PI IV) as [Lx Ly]. rewrite (X4_in n1 n2 start1 start2 m1 m2 sync1 sync2 P2 LE BD) by assumption.
        apply (proj2 (X3_spec n1 n2 l1 l2 start1 start2 m1 m2 sync1 sync2 C1 C2 P2 LE NL BD _ _ Lx Ly)). change (PP n1 n2 m1 m2 k ((s_src t * n2 + s_src u)%nat, (s_dst t * n2 + s_dst u)%nat)). unfold PP, Pq. cbn [own oth fst snd].
        rewrite (proj1 (divmod n2 P2 (s_src t) _ Q3)), (proj2 (divmod n2 P2 (s_src t) _ Q3)), (proj1 (divmod n2 P2 (s_dst t) _ Q4)), (proj2 (divmod n2 P2 (s_dst t) _ Q4)).
        destruct CASE as [[E OC]|[E OC]]; [left; right|right]; (split; [exact E|]); (split; [apply pqin; auto|exact OC]). }
    unfold synchronousCompositionPCTMCs. cbn [compose_loop hd tl].
    assert (EQ : synchronousComposition2PCTMCs m1 m2 match match o1 with Some l => Some (l ++ []) | None => None end with Some l => l | None => match match o1 with Some l => Some (l ++ []) | None => None end with Some _ => dflt | None => dflt ++ [] end end
       match o2 with Some l => l | None => match match o1 with Some l => Some (l ++ []) | None => None end with Some _ => dflt | None => dflt ++ [] end end pstr name = Ok (m0, flat_map (st_of n2) (list_prod sync1 sync2))).
    { rewrite <- E0. unfold sync1, sync2, the_list. destruct o1, o2; rewrite ?app_nil_r; reflexivity. }
    rewrite EQ. cbn [bind]. rewrite ERR. cbn [bind]. destruct o1; rewrite ?app_nil_r; reflexivity. }
  assert (NP : ~ sync_plain m1 m2 sync1 sync2 -> synchronousCompositionPCTMCs [(m1, o1); (m2, o2)] dflt [pstr] name = (Err ValueError, dflt)).
  { intros NS. apply BAD. apply NNPP. intros NE. apply NS. intros t u k It Iu EA. split; intros E OC; apply NE; exists t, u, k; tauto. }
  split; [|exact NP]. split.
  - intros (m & E). apply NNPP. intros NS. rewrite (NP NS) in E. discriminate.
  - intros SP. destruct (C92_pctmc_composition_partial n1 n2 l1 l2 start1 start2 m1 m2 o1 o2 dflt pstr name C1 C2 (conj P2 LE) NL S1 S2 SP ND PE BD) as (m & keep & E & _). exists m. exact E.
Qed.
Print Assumptions C92_sync_on_parameter.
(** [pA] and [pB] of [C92_instance] satisfy the hypotheses.  In pA the transition
    from a to b has the parameter y; with a synchronous transition from a to b in
    pA and one from c to c in pB the composition fails, with another action or
    from c to d it succeeds. *)
Definition sC (a : string) (d : nat) : list sync := [(0%nat, a, d, 3)].
Example C92_sync_on_parameter_instance :
  synchronousCompositionPCTMCs [(pA, Some (sC "go" 1)); (pB, Some (sC "go" 0))] [] [["z"; "y"; "x"]%string] "AB" = (Err ValueError, []) /\
  (exists m, synchronousCompositionPCTMCs [(pA, Some (sC "go" 1)); (pB, Some (sC "stop" 0))] [] [["z"; "y"; "x"]%string] "AB" = (Ok m, [])) /\
  (exists m, synchronousCompositionPCTMCs [(pA, Some (sC "go" 1)); (pB, Some (sC "go" 1))] [] [["z"; "y"; "x"]%string] "AB" = (Ok m, [])).
Proof.
  assert (G : forall a b, (a < 2)%nat -> (b < 2)%nat -> transition pA a a = EConst 0 \/ transition pB b b <> EConst 0) by (intros a [|[|b]] La Lb; try lia; right; unfold transition; cbn; [discriminate|intros [= E]; lra]).
  assert (T : forall a d, (d < 2)%nat -> _) by (intros a d Ld; refine (C92_sync_on_parameter 2 2 ["a"; "b"]%string ["c"; "d"]%string stA stB pA pB (Some (sC "go" 1)) (Some (sC a d)) [] ["z"; "y"; "x"]%string "AB" pA_ok pB_ok ltac:(lia) G ltac:(intros t [<-|[]]; cbn; lia) ltac:(intros t [<-|[]]; cbn; lia) ltac:(repeat constructor; cbn; intros I; repeat (destruct I as [I|I]; [discriminate|]); exact I) ltac:(intros p; cbn; tauto) ltac:(cbn; lia))).
  split; [|split].
  - apply (T "go"%string 0%nat ltac:(lia)). intros SP. destruct (SP (0%nat, "go"%string, 1%nat, 3) (0%nat, "go"%string, 0%nat, 3) "y"%string (or_introl eq_refl) (or_introl eq_refl) eq_refl) as [X _]. apply (X eq_refl). cbn. tauto.
  - apply (T "stop"%string 0%nat ltac:(lia)). intros t u k [<-|[]] [<-|[]]. discriminate.
  - apply (T "go"%string 1%nat ltac:(lia)). intros t u k [<-|[]] [<-|[]] _. split; discriminate.
Qed.

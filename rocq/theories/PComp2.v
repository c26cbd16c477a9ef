(** C158: the order of the parts of a composition, and the parts alone. *)
From Coq Require Import String Ascii ZArith QArith Bool Reals Lra Lia Arith List.
From Verif Require Import Num Py MTools MSet MModels MCtor MPctmc MCompose SNum SSet SCtor SPctmc SCompose SComp2 LSum LSet LCtor LBW LPctmc LText LAlergia LCompose LPLearn4 PCtor PPctmc PCompose.
Import ListNotations.
Local Open Scope R_scope.

Definition pair_eqb (x y : nat * nat) : bool := (Nat.eqb (fst x) (fst y) && Nat.eqb (snd x) (snd y))%bool.
Lemma pair_eqb_ok x y : pair_eqb x y = true <-> x = y.
Proof. unfold pair_eqb. destruct x, y. cbn. rewrite andb_true_iff, !Nat.eqb_eq. split; [intros [-> ->]; reflexivity|intros [= -> ->]; auto]. Qed.
Definition place (l : list (nat * nat)) (x : nat * nat) : nat := match index_of pair_eqb x l with Some i => i | None => O end.
Lemma place_ok l x : In x l -> (place l x < length l)%nat /\ nth (place l x) l (O, O) = x.
Proof.
  intros I. unfold place. destruct (LSet.index_of_In pair_eqb pair_eqb_ok x l I) as (i & E & Li). rewrite E. split; [exact Li|].
  apply LSet.index_of_Some in E; [|exact pair_eqb_ok]. apply nth_error_nth. exact E.
Qed.

Lemma value_zero val : has_value val (EConst 0) 0.
Proof. exists (fun _ => 0). split; [intros x []|reflexivity]. Qed.

Lemma map_nth_seq {A} (l : list A) d : map (fun i => nth i l d) (seq 0 (length l)) = l.
Proof. induction l as [|x l IH]; [reflexivity|]. cbn [length seq map nth]. f_equal. rewrite <- seq_shift, map_map. exact IH. Qed.
Lemma sum_at n k : (k < n)%nat -> Sum n (fun i => if Nat.eqb k i then 1 else 0) = 1.
Proof. intros L. rewrite (Sum_ext _ _ (fun i => if Nat.eqb i k then 1 else 0)) by (intros i _; rewrite Nat.eqb_sym; reflexivity). apply (Sum_indicator_in n k (fun _ => 1)). exact L. Qed.
Lemma swap_swap ab : swap (swap ab) = ab.
Proof. destruct ab; reflexivity. Qed.
Lemma prod_rate_swap m1 m2 s1 s2 ab cd : prod_rate m2 m1 s2 s1 (swap ab) (swap cd) = prod_rate m1 m2 s1 s2 ab cd.
Proof.
  unfold prod_rate, swap. cbn [fst snd]. rewrite !sumL_prod, sumL_swap.
  assert (E : sumL s1 (fun y => sumL s2 (fun x => sync_rate (snd ab, fst ab) (snd cd, fst cd) (x, y))) = sumL s1 (fun x => sumL s2 (fun y => sync_rate ab cd (x, y)))).
  { apply sumL_ext. intros t1 _. apply sumL_ext. intros t2 _. unfold sync_rate. cbn [fst snd]. rewrite (String.eqb_sym (s_act t2)).
    destruct (String.eqb _ _), (Nat.eqb (s_src t1) _), (Nat.eqb (s_src t2) _), (Nat.eqb (s_dst t1) _), (Nat.eqb (s_dst t2) _); cbn; ring. }
  rewrite E. ring.
Qed.
Lemma prod_start_swap m1 m2 n1 n2 ab : prod_start m2 m1 n2 n1 (swap ab) = prod_start m1 m2 n1 n2 ab.
Proof. unfold prod_start, swap. cbn. ring. Qed.
Lemma reachable_swap m1 m2 n1 n2 s1 s2 ab : reachable m1 m2 n1 n2 s1 s2 ab -> reachable m2 m1 n2 n1 s2 s1 (swap ab).
Proof.
  induction 1 as [ab A B C|ab cd _ IH A B C].
  - apply reach_start; [exact B|exact A|]. rewrite prod_start_swap. exact C.
  - apply (reach_step _ _ _ _ _ _ (swap ab)); [exact IH|exact B|exact A|]. rewrite prod_rate_swap. exact C.
Qed.
Lemma reachable_in m1 m2 n1 n2 s1 s2 ab : reachable m1 m2 n1 n2 s1 s2 ab -> (fst ab < n1)%nat /\ (snd ab < n2)%nat.
Proof. intros H; inversion H; auto. Qed.

Lemma composed_numbers n1 n2 l1 l2 (m1 m2 : ctmc R) (sync1 sync2 : list sync) name :
  component n1 l1 m1 -> component n2 l2 m2 -> (0 < n2 <= n1 + 1)%nat ->
  (forall a b, (a < n1)%nat -> (b < n2)%nat -> matR (ct_mat m1) a a = 0 \/ matR (ct_mat m2) b b = 0) ->
  sync_in n1 sync1 -> sync_in n2 sync2 ->
  (1 + nonzeros n1 m1 + nonzeros n2 m2 + sync_pairs sync1 sync2 + start_pairs m1 m2 n1 n2 <= 256)%nat ->
  exists m id, synchronousCompositionCTMCs m1 m2 sync1 sync2 name = Ok m /\
    numbers m (reachable m1 m2 n1 n2 sync1 sync2) id (fun ab => nth (fst ab) l1 EmptyString ++ "," ++ nth (snd ab) l2 EmptyString)%string
      (prod_start m1 m2 n1 n2) (prod_rate m1 m2 sync1 sync2).
Proof.
  intros C1 C2 LE NL S1 S2 BD. destruct (C52_ctmc_composition_partial n1 n2 l1 l2 m1 m2 sync1 sync2 name C1 C2 LE NL S1 S2 BD) as (m & keep & E & _ & Lb & W & _ & Rt & St & Tl & Re & _).
  set (kept := filter keep (list_prod (seq 0 n1) (seq 0 n2))) in *. exists m, (place kept). split; [exact E|].
  assert (N : (pc_n m - 1 = length kept)%nat). { destruct W as (_ & L & _). rewrite <- L, Lb, app_length, map_length. cbn. lia. }
  assert (Np : pc_n m = S (length kept)). { destruct W as (_ & L & _). rewrite <- L, Lb, app_length, map_length. cbn. lia. }
  unfold numbers. rewrite N. split; [|split; [|split; [|split]]].
  - intros ab P. destruct (place_ok kept ab (Re ab P)) as [Lp Np']. split; [exact Lp|]. rewrite Lb, app_nth1 by (rewrite map_length; exact Lp).
    rewrite (nth_indep _ EmptyString ((fun ab => (nth (fst ab) l1 EmptyString ++ "," ++ nth (snd ab) l2 EmptyString)%string) (O, O))) by (rewrite map_length; exact Lp). rewrite (map_nth (fun ab => (nth (fst ab) l1 EmptyString ++ "," ++ nth (snd ab) l2 EmptyString)%string)). rewrite Np'. reflexivity.
  - intros ab cd P Q H. destruct (place_ok kept ab (Re ab P)) as [_ X]. destruct (place_ok kept cd (Re cd Q)) as [_ Y]. rewrite <- X, <- Y, H. reflexivity.
  - intros ab P. destruct (place_ok kept ab (Re ab P)) as [Lp X]. pose proof (St _ Lp) as Q. rewrite X in Q. exact Q.
  - intros ab cd P Q. destruct (place_ok kept ab (Re ab P)) as [Lp X]. destruct (place_ok kept cd (Re cd Q)) as [Lq Y]. pose proof (Rt _ _ Lp Lq) as H. rewrite X, Y in H. exact H.
  - intros y Ly NP. assert (LK : (y <= length kept)%nat) by lia. destruct (Nat.eq_dec y (length kept)) as [->|Ny].
    + assert (Z : forall x, (x <= length kept)%nat -> has_rate m (current m) x (length kept) 0). { intros x Lx. unfold has_rate. rewrite Tl by exact Lx. apply value_zero. }
      split; [apply Z; lia|]. intros ab P. apply Z. apply Nat.lt_le_incl, place_ok, Re, P.
    + assert (Ly' : (y < length kept)%nat) by lia. set (cd := nth y kept (O, O)). assert (Ic : In cd kept) by (apply nth_In; exact Ly').
      assert (Hc : (fst cd < n1)%nat /\ (snd cd < n2)%nat). { apply filter_In in Ic. destruct Ic as [Ic _]. destruct cd as [c d]. apply in_prod_iff in Ic. rewrite !in_seq in Ic. cbn. lia. }
      assert (U : ~ reachable m1 m2 n1 n2 sync1 sync2 cd).
      { intros P. apply (NP cd P). destruct (place_ok kept cd (Re cd P)) as [Lp X].
        assert (ND : NoDup kept) by (apply NoDup_filter, NoDup_list_prod; apply seq_NoDup). apply (proj1 (NoDup_nth kept (O, O)) ND); [exact Lp|exact Ly'|exact X]. }
      split.
      * pose proof (St y Ly') as Q. fold cd in Q. destruct (Req_EM_T (prod_start m1 m2 n1 n2 cd) 0) as [Z|NZ]; [rewrite Z in Q; exact Q|]. exfalso. apply U. apply reach_start; tauto.
      * intros ab P. destruct (place_ok kept ab (Re ab P)) as [Lp X]. pose proof (Rt _ y Lp Ly') as Q. rewrite X in Q. fold cd in Q.
        destruct (Req_EM_T (prod_rate m1 m2 sync1 sync2 ab cd) 0) as [Z|NZ]; [rewrite Z in Q; exact Q|]. exfalso. apply U. apply (reach_step _ _ _ _ _ _ ab); tauto.
Qed.

(** The bounds on the sizes do not depend on the order. *)
Lemma count_sum {A} (f : A -> bool) l : INR (length (filter f l)) = sumL l (fun x => if f x then 1 else 0).
Proof. induction l as [|x l IH]; [reflexivity|]. rewrite sumL_cons. cbn [filter]. destruct (f x); [cbn [length]; rewrite S_INR, IH; ring|rewrite IH; ring]. Qed.
Lemma count_swap {A B} (f : A * B -> bool) (g : B * A -> bool) l r : (forall x y, f (x, y) = g (y, x)) -> length (filter f (list_prod l r)) = length (filter g (list_prod r l)).
Proof.
  intros H. apply INR_eq. rewrite !count_sum, !sumL_prod, sumL_swap. apply sumL_ext. intros y _. apply sumL_ext. intros x _. rewrite H. reflexivity.
Qed.
Lemma sizes_swap n1 n2 (m1 m2 : ctmc R) (s1 s2 : list sync) :
  (nonzeros n1 m1 + nonzeros n2 m2 + sync_pairs s1 s2 + start_pairs m1 m2 n1 n2 = nonzeros n2 m2 + nonzeros n1 m1 + sync_pairs s2 s1 + start_pairs m2 m1 n2 n1)%nat.
Proof.
  assert (A : sync_pairs s1 s2 = sync_pairs s2 s1) by (apply count_swap; intros x y; cbn [fst snd]; apply String.eqb_sym).
  assert (B : start_pairs m1 m2 n1 n2 = start_pairs m2 m1 n2 n1) by (apply count_swap; intros x y; unfold prod_start; cbn [fst snd]; rewrite Rmult_comm; reflexivity). lia.
Qed.

(** Composing in the other order gives the same model: the reachable pairs are
    swapped in their labels and keep their rates. *)
Theorem C158_order : forall n1 n2 l1 l2 (m1 m2 : ctmc R) (sync1 sync2 : list sync) name,
  component n1 l1 m1 -> component n2 l2 m2 -> (0 < n1)%nat -> (0 < n2)%nat -> (n2 <= n1 + 1)%nat -> (n1 <= n2 + 1)%nat ->
  (forall a b, (a < n1)%nat -> (b < n2)%nat -> matR (ct_mat m1) a a = 0 \/ matR (ct_mat m2) b b = 0) ->
  sync_in n1 sync1 -> sync_in n2 sync2 ->
  (1 + nonzeros n1 m1 + nonzeros n2 m2 + sync_pairs sync1 sync2 + start_pairs m1 m2 n1 n2 <= 256)%nat ->
  exists m m' id id' (start : nat * nat -> R) (rate : nat * nat -> nat * nat -> R),
    synchronousCompositionCTMCs m1 m2 sync1 sync2 name = Ok m /\ synchronousCompositionCTMCs m2 m1 sync2 sync1 name = Ok m' /\
    let P := reachable m1 m2 n1 n2 sync1 sync2 in
    numbers m P id (fun ab => nth (fst ab) l1 EmptyString ++ "," ++ nth (snd ab) l2 EmptyString)%string start rate /\
    numbers m' P id' (fun ab => nth (snd ab) l2 EmptyString ++ "," ++ nth (fst ab) l1 EmptyString)%string start rate.
Proof.
  intros n1 n2 l1 l2 m1 m2 s1 s2 name C1 C2 P1 P2 L1 L2 NL S1 S2 BD.
  destruct (composed_numbers n1 n2 l1 l2 m1 m2 s1 s2 name C1 C2 (conj P2 L1) NL S1 S2 BD) as (m & id & E & N).
  destruct (composed_numbers n2 n1 l2 l1 m2 m1 s2 s1 name C2 C1 (conj P1 L2)) as (m' & id' & E' & N'); [intros b a Lb La; destruct (NL a b La Lb); auto|exact S2|exact S1|pose proof (sizes_swap n1 n2 m1 m2 s1 s2); lia|].
  exists m, m', id, (fun ab => id' (swap ab)), (prod_start m1 m2 n1 n2), (prod_rate m1 m2 s1 s2). split; [exact E|]. split; [exact E'|]. cbv zeta. split; [exact N|].
  destruct N' as (A & B & C & D & F). pose proof (reachable_swap m1 m2 n1 n2 s1 s2) as Sw. unfold numbers. split; [|split; [|split; [|split]]].
  - intros ab P. apply (A (swap ab)), Sw, P.
  - intros ab cd P Q H. apply (B _ _ (Sw _ P) (Sw _ Q)) in H. rewrite <- (swap_swap ab), <- (swap_swap cd), H. reflexivity.
  - intros ab P. pose proof (C _ (Sw _ P)) as H. rewrite prod_start_swap in H. exact H.
  - intros ab cd P Q. pose proof (D _ _ (Sw _ P) (Sw _ Q)) as H. rewrite prod_rate_swap in H. exact H.
  - intros y Ly NP. destruct (F y Ly) as [G H].
    + intros cd P. specialize (NP (swap cd) (reachable_swap _ _ _ _ _ _ _ P)). rewrite swap_swap in NP. exact NP.
    + split; [exact G|]. intros ab P. apply (H (swap ab)), Sw, P.
Qed.
Print Assumptions C158_order.

(** Without a synchronous transition each part moves as it would alone: from the
    pair (a, b) the composition goes to a' in the first part with the rate of the
    first model, whatever b, and the second part does not move then. *)
Theorem C158_parts_alone : forall n1 n2 l1 l2 (m1 m2 : ctmc R) (sync1 sync2 : list sync) name,
  component n1 l1 m1 -> component n2 l2 m2 -> (0 < n2 <= n1 + 1)%nat ->
  (forall a b, (a < n1)%nat -> (b < n2)%nat -> matR (ct_mat m1) a a = 0 \/ matR (ct_mat m2) b b = 0) ->
  sync_in n1 sync1 -> sync_in n2 sync2 ->
  (1 + nonzeros n1 m1 + nonzeros n2 m2 + sync_pairs sync1 sync2 + start_pairs m1 m2 n1 n2 <= 256)%nat ->
  (forall t u, In t sync1 -> In u sync2 -> s_act t <> s_act u) ->
  exists m id, let P := reachable m1 m2 n1 n2 sync1 sync2 in
    synchronousCompositionCTMCs m1 m2 sync1 sync2 name = Ok m /\
    (forall ab cd, P ab -> P cd -> id ab = id cd -> ab = cd) /\
    (forall ab, P ab -> (id ab < pc_n m)%nat) /\
    forall a b, P (a, b) -> exists rate, (forall y, (y < pc_n m)%nat -> has_rate m (current m) (id (a, b)) y (rate y)) /\
      (forall a', (a' < n1)%nat -> a' <> a -> (matR (ct_mat m1) a a' <> 0 -> P (a', b)) /\ (P (a', b) -> rate (id (a', b)) = matR (ct_mat m1) a a')) /\
      (forall b', (b' < n2)%nat -> b' <> b -> (matR (ct_mat m2) b b' <> 0 -> P (a, b')) /\ (P (a, b') -> rate (id (a, b')) = matR (ct_mat m2) b b')) /\
      (forall a' b', P (a', b') -> a' <> a -> b' <> b -> rate (id (a', b')) = 0) /\
      rate (id (a, b)) = matR (ct_mat m1) a a + matR (ct_mat m2) b b /\
      Sum (pc_n m) rate = Sum n1 (matR (ct_mat m1) a) + Sum n2 (matR (ct_mat m2) b).
Proof.
  intros n1 n2 l1 l2 m1 m2 sync1 sync2 name C1 C2 LE NL S1 S2 BD NS. destruct (C52_ctmc_composition_partial n1 n2 l1 l2 m1 m2 sync1 sync2 name C1 C2 LE NL S1 S2 BD) as (m & keep & E & _ & Lb & W & _ & Rt & St & Tl & Re & _).
  set (kept := filter keep (list_prod (seq 0 n1) (seq 0 n2))) in *. exists m, (place kept). cbv zeta. split; [exact E|].
  assert (Np : pc_n m = S (length kept)). { destruct W as (_ & L & _). rewrite <- L, Lb, app_length, map_length. cbn. lia. }
  assert (Z : forall ab cd, sumL (list_prod sync1 sync2) (sync_rate ab cd) = 0).
  { intros ab cd. apply sumL_zero_ext. intros [t u] I. apply in_prod_iff in I. unfold sync_rate. cbn [fst snd]. assert (String.eqb (s_act t) (s_act u) = false) as -> by (apply String.eqb_neq, NS; tauto). reflexivity. }
  split.
  { intros ab cd P Q H. destruct (place_ok kept ab (Re ab P)) as [_ X]. destruct (place_ok kept cd (Re cd Q)) as [_ Y]. rewrite <- X, <- Y, H. reflexivity. }
  split; [intros ab P; destruct (place_ok kept ab (Re ab P)); lia|].
  intros a b P. destruct (place_ok kept (a, b) (Re _ P)) as [Lp Xp]. pose proof (reachable_in _ _ _ _ _ _ _ P) as [La Lb']. cbn [fst snd] in La, Lb'.
  exists (fun y => if (y <? length kept)%nat then prod_rate m1 m2 sync1 sync2 (a, b) (nth y kept (O, O)) else 0).
  assert (V : forall cd, reachable m1 m2 n1 n2 sync1 sync2 cd -> (if (place kept cd <? length kept)%nat then prod_rate m1 m2 sync1 sync2 (a, b) (nth (place kept cd) kept (O, O)) else 0) = prod_rate m1 m2 sync1 sync2 (a, b) cd).
  { intros cd Q. destruct (place_ok kept cd (Re cd Q)) as [Lq Y]. apply Nat.ltb_lt in Lq. rewrite Lq, Y. reflexivity. }
  split; [|split; [|split; [|split; [|split]]]].
  - intros y Ly. destruct (Nat.ltb_spec y (length kept)) as [L|L].
    + pose proof (Rt _ y Lp L) as Q. rewrite Xp in Q. exact Q.
    + assert (y = length kept) as -> by lia. unfold has_rate. rewrite Tl by lia. apply value_zero.
  - intros a' La' Na. assert (Q : prod_rate m1 m2 sync1 sync2 (a, b) (a', b) = matR (ct_mat m1) a a').
    { unfold prod_rate. rewrite Z. cbn [fst snd]. rewrite Nat.eqb_refl. destruct (Nat.eqb_spec a a'); [congruence|]. ring. }
    split; [intros NZ; apply (reach_step _ _ _ _ _ _ (a, b)); [exact P|exact La'|exact Lb'|]; rewrite Q; exact NZ|]. intros H. rewrite V by exact H. exact Q.
  - intros b' Lb2 Nb. assert (Q : prod_rate m1 m2 sync1 sync2 (a, b) (a, b') = matR (ct_mat m2) b b').
    { unfold prod_rate. rewrite Z. cbn [fst snd]. rewrite Nat.eqb_refl. destruct (Nat.eqb_spec b b'); [congruence|]. ring. }
    split; [intros NZ; apply (reach_step _ _ _ _ _ _ (a, b)); [exact P|exact La|exact Lb2|]; rewrite Q; exact NZ|]. intros H. rewrite V by exact H. exact Q.
  - intros a' b' H Na Nb. rewrite V by exact H. unfold prod_rate. rewrite Z. cbn [fst snd]. destruct (Nat.eqb_spec b b'); [congruence|]. destruct (Nat.eqb_spec a a'); [congruence|]. ring.
  - rewrite V by exact P. unfold prod_rate. rewrite Z. cbn [fst snd]. rewrite !Nat.eqb_refl. ring.
  - rewrite Np. unfold Sum. rewrite seq_S, sumL_app, sumL_cons, sumL_nil. cbn [plus]. rewrite Nat.ltb_irrefl.
    transitivity (sumL kept (prod_rate m1 m2 sync1 sync2 (a, b))).
    { rewrite <- (map_nth_seq kept (O, O)) at 2. rewrite sumL_map. rewrite Rplus_0_r, Rplus_0_r. apply sumL_ext. intros y I. apply in_seq in I. destruct (Nat.ltb_spec y (length kept)); [reflexivity|lia]. }
    transitivity (sumL (list_prod (seq 0 n1) (seq 0 n2)) (prod_rate m1 m2 sync1 sync2 (a, b))).
    { unfold kept. rewrite sumL_filter. apply sumL_ext. intros [c d] I. destruct (keep (c, d)) eqn:K; [reflexivity|]. symmetry.
      destruct (Req_EM_T (prod_rate m1 m2 sync1 sync2 (a, b) (c, d)) 0) as [H|NZ]; [exact H|]. exfalso. pose proof I as I'. apply in_prod_iff in I. rewrite !in_seq in I.
      assert (R' : In (c, d) kept) by (apply Re, (reach_step _ _ _ _ _ _ (a, b)); [exact P|cbn; lia|cbn; lia|exact NZ]). apply filter_In in R'. destruct R' as [_ R']. congruence. }
    rewrite sumL_prod. unfold prod_rate. cbn [fst snd].
    rewrite (sumL_ext (seq 0 n1) _ (fun c => matR (ct_mat m1) a c + (if Nat.eqb a c then 1 else 0) * Sum n2 (matR (ct_mat m2) b))).
    + rewrite sumL_plus. f_equal. rewrite sumL_scal_r. fold (Sum n1 (fun c => if Nat.eqb a c then 1 else 0)). rewrite (sum_at n1 a) by exact La. unfold Sum. ring.
    + intros c _. rewrite (sumL_ext (seq 0 n2) _ (fun d => matR (ct_mat m1) a c * (if Nat.eqb b d then 1 else 0) + (if Nat.eqb a c then 1 else 0) * matR (ct_mat m2) b d)).
      * rewrite sumL_plus, !sumL_scal_l. fold (Sum n2 (fun d => if Nat.eqb b d then 1 else 0)). rewrite (sum_at n2 b) by exact Lb'. unfold Sum. ring.
      * intros d _. rewrite Z. destruct (Nat.eqb b d), (Nat.eqb a c); ring.
Qed.
Print Assumptions C158_parts_alone.

(** The two clients of C52: with the synchronisation in both orders, and without. *)
Example C158_instance :
  (exists m m', synchronousCompositionCTMCs cA cB sA sB "AB" = Ok m /\ synchronousCompositionCTMCs cB cA sB sA "AB" = Ok m') /\
  reachable cA cB 2 2 sA sB (0, 1)%nat /\ prod_rate cA cB sA sB (0, 1)%nat (1, 0)%nat = 35 /\
  exists m, synchronousCompositionCTMCs cA cB [] [] "AB" = Ok m /\ exists x rate, (forall y, (y < pc_n m)%nat -> has_rate m (current m) x y (rate y)) /\ Sum (pc_n m) rate = 2 + 4.
Proof.
  destruct C52_instance as (G & B & H & _).
  assert (SA : sync_in 2 sA) by (intros t [<-|[]]; cbn; lia). assert (SB : sync_in 2 sB) by (intros t [<-|[<-|[]]]; cbn; lia).
  assert (St : prod_start cA cB 2 2 (0, 1)%nat <> 0) by (unfold prod_start, matR; cbn; lra).
  split.
  { destruct (C158_order 2 2 ["a"; "b"]%string ["c"; "d"]%string cA cB sA sB "AB" cA_ok cB_ok) as (m & m' & _ & _ & _ & _ & E & E' & _); try lia; try assumption. eauto. }
  split; [apply reach_start; [cbn; lia|cbn; lia|exact St]|]. split; [exact H|].
  assert (B' : (1 + nonzeros 2 cA + nonzeros 2 cB + sync_pairs [] [] + start_pairs cA cB 2 2 <= 256)%nat) by (change (sync_pairs [] []) with 0%nat; lia).
  assert (S0 : sync_in 2 []) by (intros t []). assert (N0 : forall t u : sync, In t [] -> In u [] -> s_act t <> s_act u) by (intros t u []).
  destruct (C158_parts_alone 2 2 ["a"; "b"]%string ["c"; "d"]%string cA cB [] [] "AB" cA_ok cB_ok ltac:(lia) G S0 S0 B' N0) as (m & id & E & _ & _ & F).
  exists m. split; [exact E|]. destruct (F 0%nat 1%nat) as (rate & R1 & _ & _ & _ & _ & R2); [apply reach_start; [cbn; lia|cbn; lia|exact St]|].
  exists (id (0, 1)%nat), rate. split; [exact R1|]. rewrite R2. unfold Sum, sumL, matR. cbn. lra.
Qed.

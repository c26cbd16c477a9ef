(** Parametric CTMCs: createPCTMC (C89) and parameterIndexes (C90). *)
From Coq Require Import String ZArith Bool Reals Lra Lia Arith List Sorting Classical.
From Verif Require Import Num Py MTools MSet MModels MCtor MRun MLik MPctmc SNum SSet SPath SBW SCtor SLik SRun SPctmc LSum LSet LCtor LBW LLik LRun LPctmc PCtor PRun PPctmc PPctmc2.
Import ListNotations.
Local Open Scope R_scope.

Lemma last_expr_snoc ts t : last_expr (ts ++ [t]) (fst (fst t)) (snd (fst t)) (snd t).
Proof. left. exists ts, []. destruct t as [[i j] e]. split; [reflexivity|intros u []]. Qed.
Lemma last_expr_snoc_other ts t i j e : fst t <> (i, j) -> last_expr ts i j e -> last_expr (ts ++ [t]) i j e.
Proof.
  intros N [(l1 & l2 & -> & F)|(F & ->)].
  - left. exists l1, (l2 ++ [t]). rewrite <- app_assoc. split; [reflexivity|]. intros u I. apply in_app_or in I as [I|[<-|[]]]; [apply F, I|exact N].
  - right. split; [|reflexivity]. intros u I. apply in_app_or in I as [I|[<-|[]]]; [apply F, I|exact N].
Qed.
Lemma last_expr_app_other ts ts' i j e : (forall u, In u ts' -> fst u <> (i, j)) -> last_expr (ts ++ ts') i j e -> last_expr ts i j e.
Proof.
  intros N H. induction ts' as [|t ts' IH] using rev_ind; [rewrite app_nil_r in H; exact H|]. rewrite app_assoc in H. apply IH; [intros u I; apply N, in_or_app; left; exact I|].
  assert (Nt : fst t <> (i, j)) by (apply N, in_or_app; right; left; reflexivity). clear - H Nt.
  destruct H as [(l1 & l2 & E & F)|(F & ->)].
  - destruct (exists_last (l := (i, j, e) :: l2)) as (l3 & u & E2); [discriminate|]. rewrite E2, app_assoc in E. apply app_inj_tail in E as [E <-].
    destruct l3 as [|v l3]; [cbn in E2; injection E2 as E2 _; subst t; cbn in Nt; congruence|]. cbn in E2. injection E2 as <- E2. left. exists l1, l3. split; [exact E|]. intros u I. apply F. rewrite E2. apply in_or_app. left. exact I.
  - right. split; [|reflexivity]. intros u I. apply F, in_or_app. left. exact I.
Qed.
Lemma last_expr_fun ts : forall i j e e', last_expr ts i j e -> last_expr ts i j e' -> e = e'.
Proof.
  induction ts as [|t ts IH] using rev_ind; intros i j e e' H H'.
  - destruct H as [(l1 & l2 & E & _)|(_ & ->)]; [destruct l1; discriminate|]. destruct H' as [(l1 & l2 & E & _)|(_ & ->)]; [destruct l1; discriminate|reflexivity].
  - assert (D : {fst t = (i, j)} + {fst t <> (i, j)}) by (repeat decide equality); destruct D as [E|N].
    + assert (X : forall e, last_expr (ts ++ [t]) i j e -> e = snd t).
      { clear - E. intros e [(l1 & l2 & E1 & F)|(F & ->)].
        - destruct (exists_last (l := (i, j, e) :: l2)) as (l3 & u & E2); [discriminate|]. rewrite E2, app_assoc in E1. apply app_inj_tail in E1 as [E1 <-].
          destruct l3 as [|v l3]; [cbn in E2; injection E2 as E2 _; subst t; reflexivity|]. cbn in E2. injection E2 as <- E2. exfalso. apply (F t); [rewrite E2; apply in_or_app; right; left; reflexivity|exact E].
        - exfalso. apply (F t); [apply in_or_app; right; left; reflexivity|exact E]. }
      rewrite (X e H), (X e' H'). reflexivity.
    + apply (IH i j); eapply last_expr_app_other; try eassumption; intros u [<-|[]]; exact N.
Qed.

(** Loop invariant: after the transitions P. *)
Definition created (N : nat) (params : list string) (P : list (Z * Z * expr R)) (st : list (expr R) * list (list Z) * list (list (Z * Z))) : Prop :=
  let '(exprs, mat, ind) := st in
  nth O exprs (EConst 0) = EConst 0 /\ (0 < length exprs <= 1 + length P)%nat /\
  length mat = N /\ (forall a, (a < N)%nat -> length (nth a mat []) = N) /\
  (forall a b, (a < N)%nat -> (b < N)%nat -> (0 <= nth b (nth a mat []) 0 < Z.of_nat (length exprs))%Z /\
     last_expr P (Z.of_nat a) (Z.of_nat b) (nth (Z.to_nat (nth b (nth a mat []) 0%Z)) exprs (EConst 0))) /\
  length ind = length params /\ (forall x q, index_of String.eqb x params = Some q -> involving x P (nth q ind [])).

Lemma involving_snoc x P l t : involving x P l -> (occurs x (snd t) -> involving x (P ++ [t]) (l ++ [fst t])) /\ (~ occurs x (snd t) -> involving x (P ++ [t]) l).
Proof.
  induction 1 as [|t0 ts l0 O H IH|t0 ts l0 O H IH]; cbn.
  - split; intros X; [apply inv_yes|apply inv_no]; try exact X; apply inv_nil.
  - destruct IH as [IH1 IH2]. split; intros X; apply inv_yes; auto.
  - destruct IH as [IH1 IH2]. split; intros X; apply inv_no; auto.
Qed.

Lemma ind_step params (t : Z * Z * expr R) syms : NoDup syms -> (forall x, In x syms -> In x params) -> forall ind, length ind = length params ->
  exists ind', mfold (fun ind p => do q <- index_err String.eqb p params; Ok (upd ind q (nth q ind [] ++ [fst t]))) syms ind = Ok ind' /\
    length ind' = length params /\ forall x q, index_of String.eqb x params = Some q ->
      nth q ind' [] = if memb String.eqb x syms then nth q ind [] ++ [fst t] else nth q ind [].
Proof.
  induction syms as [|p syms IH]; intros ND I ind L; cbn [mfold]; [exists ind; cbn; auto|].
  inversion ND as [|? ? N1 N2]; subst. unfold index_err at 1. destruct (LSet.index_of_In _ string_eqb_decides p params) as (q & E & Lq); [apply I; left; reflexivity|]. rewrite E. cbn [bind].
  destruct (IH N2 (fun x Ix => I x (or_intror Ix)) (upd ind q (nth q ind [] ++ [fst t]))) as (ind' & E1 & L1 & S1); [rewrite LSet.upd_length; exact L|].
  exists ind'. split; [exact E1|]. split; [exact L1|]. intros x q' Ex. rewrite (S1 x q' Ex). unfold memb. cbn [existsb].
  destruct (String.eqb_spec x p) as [->|NE].
  - assert (q' = q) by congruence. subst q'. cbn [orb]. rewrite upd_nth_same by lia. destruct (existsb (String.eqb p) syms) eqn:X; [|reflexivity]. exfalso. apply N1. apply memb_str. exact X.
  - cbn [orb]. assert (q <> q'). { intros ->. apply (LSet.index_of_Some _ string_eqb_decides) in E, Ex. congruence. }
    rewrite upd_nth_other by exact H. reflexivity.
Qed.

Lemma create_step_ok N params P st t : created N params P st -> (0 <= src t < Z.of_nat N)%Z -> (0 <= dst t < Z.of_nat N)%Z ->
  (Z.of_nat (length P) < 65535)%Z -> (forall x, occurs x (snd t) -> In x params) ->
  exists st', create_step params st t = Ok st' /\ created N params (P ++ [t]) st'.
Proof.
  destruct st as [[exprs mat] ind]. destruct t as [[i j] e]. unfold src, dst. cbn [fst snd]. intros (Z0 & LE & LM & LR & ENT & LI & IND) Bi Bj LP SY.
  unfold create_step. set (exprs' := if is_number e || negb (memb expr_eqb e exprs) then exprs ++ [e] else exprs).
  assert (PRE : exists suf, exprs' = exprs ++ suf /\ (length suf <= 1)%nat). { unfold exprs'. destruct (is_number e || negb (memb expr_eqb e exprs)); [exists [e]|exists []; rewrite app_nil_r]; auto. }
  assert (IE : In e exprs'). { unfold exprs'. destruct (memb expr_eqb e exprs) eqn:M; [|rewrite orb_true_r; apply in_or_app; right; left; reflexivity]. apply (memb_In _ expr_eqb_eq) in M. destruct (is_number e || _); [apply in_or_app; left|]; exact M. }
  destruct (LSet.index_of_In _ expr_eqb_eq e exprs' IE) as (k & Ek & Lk). unfold index_err at 1. rewrite Ek. cbn [bind].
  destruct PRE as (suf & E' & Ls). assert (LE' : (length exprs' <= 2 + length P)%nat) by (rewrite E', app_length; lia).
  rewrite Z.mod_small by lia.
  assert (NS : np_set mat i j (Z.of_nat k) = Ok (mat_set mat (Z.to_nat i) (Z.to_nat j) (Z.of_nat k))).
  { unfold np_set. rewrite <- (Z2Nat.id i) at 1 by lia. rewrite (pyget_nth _ _ []) by lia. cbn [bind]. rewrite pyset_ok by (rewrite LR by lia; lia). cbn [bind]. rewrite pyset_ok by lia. reflexivity. }
  rewrite NS. cbn [bind].
  assert (SI : forall x, In x (free_symbols e) -> In x params).
  { intros x Ix. apply SY, symbols_occurs. unfold free_symbols in Ix. apply (proj2 (dedup_exact _ string_eqb_decides (symbols e))). exact Ix. }
  destruct (ind_step params (i, j, e) (free_symbols e) (proj1 (dedup_exact _ string_eqb_decides (symbols e))) SI ind LI) as (ind' & E1 & L1 & S1).
  cbn [fst] in E1, S1. rewrite E1. cbn [bind]. eexists. split; [reflexivity|].
  assert (NK : nth k exprs' (EConst 0) = e). { apply (LSet.index_of_Some _ expr_eqb_eq) in Ek. apply nth_error_nth, Ek. }
  assert (GET : forall a b, (a < N)%nat -> (b < N)%nat -> nth b (nth a (mat_set mat (Z.to_nat i) (Z.to_nat j) (Z.of_nat k)) []) 0%Z = if (Nat.eqb (Z.to_nat i) a && Nat.eqb (Z.to_nat j) b)%bool then Z.of_nat k else nth b (nth a mat []) 0%Z).
  { intros a b La Lb. unfold mat_set. rewrite upd_nth by lia. destruct (Nat.eqb_spec (Z.to_nat i) a); cbn [andb]; [|reflexivity]. subst a. rewrite upd_nth by (rewrite LR; lia). reflexivity. }
  split; [rewrite E'; rewrite app_nth1 by lia; exact Z0|]. split; [rewrite app_length; cbn [length]; rewrite E', app_length in *; lia|].
  split; [unfold mat_set; rewrite LSet.upd_length; exact LM|]. split.
  { intros a La. unfold mat_set. rewrite upd_nth by lia. destruct (Nat.eqb_spec (Z.to_nat i) a); [subst a; rewrite LSet.upd_length|]; apply LR; lia. }
  split.
  { intros a b La Lb. rewrite GET by assumption. destruct (ENT a b La Lb) as (B & LX). destruct (Nat.eqb_spec (Z.to_nat i) a) as [Ea|Na]; [destruct (Nat.eqb_spec (Z.to_nat j) b) as [Eb|Nb]|]; cbn [andb].
    - split; [lia|]. rewrite Nat2Z.id, NK. replace (Z.of_nat a) with i by lia. replace (Z.of_nat b) with j by lia. apply (last_expr_snoc P (i, j, e)).
    - split; [rewrite E', app_length; lia|]. apply last_expr_snoc_other; [cbn; intros [= X Y]; lia|]. rewrite E', app_nth1 by lia. exact LX.
    - split; [rewrite E', app_length; lia|]. apply last_expr_snoc_other; [cbn; intros [= X Y]; lia|]. rewrite E', app_nth1 by lia. exact LX. }
  split; [exact L1|]. intros x q Eq. rewrite (S1 x q Eq). specialize (IND x q Eq). destruct (involving_snoc x P _ (i, j, e) IND) as [Y1 Y2]. cbn [fst snd] in Y1, Y2.
  assert (MM : memb String.eqb x (free_symbols e) = true <-> occurs x e). { rewrite (memb_In _ string_eqb_decides). unfold free_symbols. rewrite (proj2 (dedup_exact _ string_eqb_decides _)). apply symbols_occurs. }
  destruct (memb String.eqb x (free_symbols e)); [apply Y1, MM; reflexivity|]. apply Y2. intros O. apply MM in O. discriminate.
Qed.

Lemma create_fold N params ts : forall P st, created N params P st ->
  (forall t, In t ts -> (0 <= src t < Z.of_nat N)%Z /\ (0 <= dst t < Z.of_nat N)%Z /\ forall x, occurs x (snd t) -> In x params) ->
  (Z.of_nat (length P) + Z.of_nat (length ts) <= 65535)%Z -> exists st', mfold (create_step params) ts st = Ok st' /\ created N params (P ++ ts) st'.
Proof.
  induction ts as [|t ts IH]; intros P st C H L; [exists st; rewrite app_nil_r; auto|]. cbn [mfold length] in *.
  destruct (H t (or_introl eq_refl)) as (A & B & D). destruct (create_step_ok N params P st t C A B ltac:(lia) D) as (st' & E & C'). rewrite E. cbn [bind].
  destruct (IH (P ++ [t]) st' C') as (st2 & E2 & C2); [intros u I; apply H; right; exact I|rewrite app_length; cbn; lia|]. exists st2. split; [exact E2|]. rewrite <- app_assoc in C2. exact C2.
Qed.
Lemma created_init N params : created N params [] ([EConst 0], repeat (repeat 0%Z N) N, map (fun _ => []) params).
Proof.
  assert (R1 : forall a, (a < N)%nat -> nth a (repeat (repeat 0%Z N) N) [] = repeat 0%Z N).
  { intros a La. assert (I : In (nth a (repeat (repeat 0%Z N) N) []) (repeat (repeat 0%Z N) N)) by (apply nth_In; rewrite repeat_length; exact La). apply repeat_spec in I. exact I. }
  split; [reflexivity|]. split; [cbn; lia|]. split; [apply repeat_length|]. split; [intros a La; rewrite R1 by exact La; apply repeat_length|]. split.
  - intros a b La Lb. rewrite R1 by exact La. rewrite nth_repeat. cbn. split; [lia|]. right. split; [intros u []|reflexivity].
  - split; [apply map_length|]. intros x q E. assert (L : (q < length params)%nat) by (apply (LSet.index_of_Some _ string_eqb_decides) in E; apply nth_error_Some; congruence).
    replace (nth q (map (fun _ : string => ([] : list (Z * Z))) params) []) with ([] : list (Z * Z)); [apply inv_nil|]. clear. revert q; induction params as [|p params IH]; intros [|q]; cbn; auto.
Qed.

Definition ini_trans (n : nat) (i : pyini R) : list (Z * Z * expr R) :=
  match i with
  | IniInt z => [(Z.of_nat n, z, EConst 1)]
  | IniList l => zipwith (fun k p => (Z.of_nat n, Z.of_nat k, EConst p)) (seq 0 (length l)) l
  end.
Lemma ini_list_In n (l : list R) t : In t (zipwith (fun k p => (Z.of_nat n, Z.of_nat k, EConst p)) (seq 0 (length l)) l) <->
  exists k, (k < length l)%nat /\ t = (Z.of_nat n, Z.of_nat k, EConst (nth k l 0)).
Proof.
  enough (G : forall o, In t (zipwith (fun k p => (Z.of_nat n, Z.of_nat k, EConst p)) (seq o (length l)) l) <-> exists k, (k < length l)%nat /\ t = (Z.of_nat n, Z.of_nat (o + k), EConst (nth k l 0))) by (rewrite (G O); reflexivity).
  induction l as [|p l IH]; intros o; cbn [zipwith length seq]; [cbn; split; [intros []|intros (k & L & _); lia]|]. cbn [In]. rewrite IH. split.
  - intros [<-|(k & L & ->)]; [exists O; rewrite Nat.add_0_r; split; [lia|reflexivity]|]. exists (S k). split; [lia|]. replace (o + S k)%nat with (S o + k)%nat by lia. reflexivity.
  - intros ([|k] & L & ->); [left; rewrite Nat.add_0_r; reflexivity|]. right. exists k. split; [lia|]. replace (o + S k)%nat with (S o + k)%nat by lia. reflexivity.
Qed.
Lemma ini_list_last n (l : list R) k : (k < length l)%nat -> last_expr (zipwith (fun k p => (Z.of_nat n, Z.of_nat k, EConst p)) (seq 0 (length l)) l) (Z.of_nat n) (Z.of_nat k) (EConst (nth k l 0)).
Proof.
  intros L. induction l as [|p l IH] using rev_ind; [cbn in L; lia|]. rewrite app_length in *. cbn [length] in *.
  assert (ZS : forall (A B C : Type) (f : A -> B -> C) a1 a2 b1 b2, length a1 = length b1 -> zipwith f (a1 ++ a2) (b1 ++ b2) = zipwith f a1 b1 ++ zipwith f a2 b2).
  { intros A B C f a1. induction a1 as [|x a1 IHa]; intros a2 [|y b1] b2 E; cbn in *; try discriminate; [reflexivity|]. f_equal. apply IHa. lia. }
  rewrite seq_app, ZS by apply seq_length. cbn [seq zipwith plus]. destruct (Nat.eq_dec k (length l)) as [->|N].
  - rewrite app_nth2, Nat.sub_diag by lia. cbn [nth]. apply (last_expr_snoc _ (Z.of_nat n, Z.of_nat (length l), EConst p)).
  - rewrite app_nth1 by lia. apply last_expr_snoc_other; [cbn; intros [= X]; lia|]. apply IH. lia.
Qed.
Lemma last_expr_prefix_other ts ts' i j e : (forall u, In u ts -> fst u <> (i, j)) -> last_expr ts' i j e -> last_expr (ts ++ ts') i j e.
Proof.
  intros N [(l1 & l2 & -> & F)|(F & ->)].
  - left. exists (ts ++ l1), l2. rewrite app_assoc. auto.
  - right. split; [|reflexivity]. intros u I. apply in_app_or in I as [I|I]; auto.
Qed.
Lemma ids_sorted n l : ids_are n l -> sorted_set Z.eqb Z.leb l = map Z.of_nat (seq 0 n).
Proof.
  intros H. apply sorted_ids. split.
  - assert (G : forall o, StronglySorted Z.lt (map Z.of_nat (seq o n))).
    { clear. induction n as [|n IH]; intros o; cbn; constructor; [apply IH|]. apply Forall_forall. intros z I. apply in_map_iff in I as (k & <- & I). apply in_seq in I. lia. }
    apply G.
  - intros z. rewrite (H z), in_map_iff. split.
    + intros (k & <- & I). apply in_seq in I. lia.
    + intros B. exists (Z.to_nat z). split; [lia|]. apply in_seq. lia.
Qed.

(** createPCTMC: the model has the described transitions (the last tuple given
    for a pair of states counts), the labels in order followed by an 'init'
    state whose row is the initial distribution, the parameters and the values
    given to them. *)
Theorem C89_createPCTMC_partial : forall (ts : list (Z * Z * expr R)) labels params i inst sync name n,
  ids_are n (mentioned ts ++ map fst sync ++ map snd sync) ->
  length labels = n -> ~ In "init"%string labels ->
  match i with IniInt z => (0 <= z < Z.of_nat n)%Z | IniList l => length l = n end ->
  (forall t x, In t ts -> occurs x (snd t) -> In x params) ->
  (Z.of_nat (length ts + n) < 65535)%Z ->
  NoDup (map fst inst) ->
  exists m, fst (createPCTMC ts labels params i inst sync name) = Ok m /\
    wf_pctmc m /\ pc_n m = (n + 1)%nat /\ pc_lab m = labels ++ ["init"%string] /\ pc_par m = params /\ pc_name m = name /\
    (forall a b, (a < n)%nat -> (b < n)%nat -> last_expr ts (Z.of_nat a) (Z.of_nat b) (transition m a b)) /\
    (forall a, (a <= n)%nat -> transition m a n = EConst 0) /\
    (forall s, (s < n)%nat -> transition m n s = EConst (ini_arg_prob i s)) /\
    (forall s, (s <= n)%nat -> vecR (pc_ini m) s = if (s =? n)%nat then 1 else 0) /\
    (forall p v, current m p = Some v <-> In p params /\ In (p, v) inst) /\
    (forall p, In p params -> involving p ts (parameterIndexes m p)).
Proof.
  intros ts labels params i inst sync name n IDS LL NI IA SY BIG NDI. unfold createPCTMC. rewrite (proj2 (memb_str_false _ _) NI).
  assert (ES : sorted_set Z.eqb Z.leb (map (fun t => fst (fst t)) ts ++ map (fun t => snd (fst t)) ts ++ map fst sync ++ map snd sync) = map Z.of_nat (seq 0 n)).
  { apply ids_sorted. unfold mentioned in IDS. rewrite <- !app_assoc in IDS. exact IDS. }
  rewrite ES, map_length, seq_length. cbn [fst]. rewrite app_length, LL. cbn [length]. rewrite Nat.ltb_irrefl.
  change (match i with IniInt z => [(Z.of_nat n, z, EConst n1)] | IniList l => zipwith (fun k p => (Z.of_nat n, Z.of_nat k, EConst p)) (seq 0 (length l)) l end) with (ini_trans n i).
  assert (BT : forall t, In t ts -> (0 <= src t < Z.of_nat n)%Z /\ (0 <= dst t < Z.of_nat n)%Z).
  { intros t It. split; apply IDS, in_or_app; left; apply in_or_app; [left|right]; apply in_map, It. }
  assert (BI : forall t, In t (ini_trans n i) -> src t = Z.of_nat n /\ (0 <= dst t < Z.of_nat n)%Z /\ forall x, ~ occurs x (snd t)).
  { intros t It. destruct i as [z|l]; cbn [ini_trans] in It; [destruct It as [<-|[]]; cbn; auto|]. apply ini_list_In in It as (k & Lk & ->). cbn. split; [reflexivity|]. split; [lia|auto]. }
  assert (LT : (length (ini_trans n i) <= n \/ length (ini_trans n i) = 1)%nat).
  { destruct i as [z|l]; cbn [ini_trans]; [right; reflexivity|left]. replace (le (length (zipwith (fun (k : nat) (p : R) => (Z.of_nat n, Z.of_nat k, EConst p)) (seq 0 (length l)) l)) n) with (le (length (zipwith (fun (k : nat) (p : R) => (Z.of_nat n, Z.of_nat k, EConst p)) (seq 0 (length l)) l)) (length l)) by (rewrite IA; reflexivity). clear. generalize (seq 0 (length l)). induction l as [|p l IH]; intros [|y s]; cbn [zipwith length]; try lia. specialize (IH s). lia. }
  destruct (create_fold (n + 1) params (ts ++ ini_trans n i) [] _ (created_init (n + 1) params)) as (st & Est & C).
  { intros t It. apply in_app_or in It as [It|It]; [destruct (BT t It)|destruct (BI t It) as (X & Y & Z)]; (split; [lia|split; [lia|]]); [intros x Ox; apply (SY t x It Ox)|intros x Ox; destruct (Z x Ox)]. }
  { rewrite app_length. cbn [length]. lia. }
  cbn [app] in C. change (@n0 R RNum) with 0. rewrite Est. cbn [bind]. destruct st as [[exprs mat] ind]. destruct C as (Z0 & LE & LM & LR & ENT & LI & IND).
  set (vals := map (fun p => (fst p, Some (snd p))) (filter (fun p => memb String.eqb (fst p) params) inst)).
  destruct (C86_PCTMC_constructor mat (labels ++ ["init"%string]) exprs vals ind params name) as (A & B & _).
  assert (MATIN : forall r, In r mat -> exists a, (a < n + 1)%nat /\ r = nth a mat []). { intros r Ir. apply (In_nth _ _ []) in Ir as (a & La & <-). exists a. split; [lia|reflexivity]. }
  assert (ENTIN : forall r k, In r mat -> In k r -> (0 <= k < Z.of_nat (length exprs))%Z).
  { intros r k Ir Ik. destruct (MATIN r Ir) as (a & La & ->). apply (In_nth _ _ 0%Z) in Ik as (b & Lb & <-). rewrite LR in Lb by exact La. apply (ENT a b La Lb). }
  destruct (proj2 A) as (m & Em).
  { split; [apply in_or_app; right; left; reflexivity|]. split; [exact LI|]. split.
    - exists (nth O mat []), (nth O (nth O mat []) 0%Z). split; [apply nth_In; lia|apply nth_In; rewrite LR; lia].
    - split; [exact ENTIN|]. rewrite app_length, LL, LM. reflexivity. }
  exists m. split; [exact Em|]. destruct (B m Em) as (E1 & E2 & E3 & E4 & E5 & E6 & (U1 & U2 & U3) & V).
  assert (PN : pc_n m = (n + 1)%nat) by (unfold pc_n; rewrite E1, map_length; exact LM).
  assert (TR : forall a b, (a < n + 1)%nat -> (b < n + 1)%nat -> last_expr (ts ++ ini_trans n i) (Z.of_nat a) (Z.of_nat b) (transition m a b)).
  { intros a b La Lb. destruct (ENT a b La Lb) as (_ & H). unfold transition. rewrite E1, E3.
    rewrite (nth_indep _ [] (map Z.to_nat [])) by (rewrite map_length; lia). rewrite map_nth.
    rewrite (nth_indep _ O (Z.to_nat 0)) by (rewrite map_length, LR; lia). rewrite map_nth. exact H. }
  split.
  { split; [|split; [|split; [|split]]].
    - intros r Ir. rewrite E1 in Ir. apply in_map_iff in Ir as (r0 & <- & Ir). rewrite map_length, E3, PN. destruct (MATIN r0 Ir) as (a & La & ->). split; [apply LR, La|].
      intros k Ik. apply in_map_iff in Ik as (k0 & <- & Ik). specialize (ENTIN _ k0 Ir Ik). lia.
    - rewrite E2, PN, app_length, LL. reflexivity.
    - rewrite PN, U1, app_length, LL. reflexivity.
    - rewrite E3. exact Z0.
    - apply U2. }
  split; [exact PN|]. split; [exact E2|]. split; [exact E5|]. split; [exact E6|]. split; [|split; [|split; [|split; [|split]]]].
  - intros a b La Lb. apply (last_expr_app_other ts (ini_trans n i)); [|apply TR; lia]. intros u Iu X. destruct (BI u Iu) as (Y & _). unfold src in Y. rewrite X in Y. cbn in Y. lia.
  - intros a La. specialize (TR a n ltac:(lia) ltac:(lia)). apply (last_expr_fun (ts ++ ini_trans n i) (Z.of_nat a) (Z.of_nat n)); [exact TR|]. right. split; [|reflexivity].
    intros u Iu X. apply in_app_or in Iu as [Iu|Iu]; [destruct (BT u Iu) as (_ & Y)|destruct (BI u Iu) as (_ & Y & _)]; unfold dst in Y; rewrite X in Y; cbn in Y; lia.
  - intros s Ls. specialize (TR n s ltac:(lia) ltac:(lia)). apply (last_expr_fun (ts ++ ini_trans n i) (Z.of_nat n) (Z.of_nat s)); [exact TR|]. apply last_expr_prefix_other.
    + intros u Iu X. destruct (BT u Iu) as (Y & _). unfold src in Y. rewrite X in Y. cbn in Y. lia.
    + destruct i as [z|l]; cbn [ini_trans ini_arg_prob].
      * destruct (Z.eqb_spec (Z.of_nat s) z) as [<-|N]; [apply (last_expr_snoc [] (Z.of_nat n, Z.of_nat s, EConst 1))|]. right. split; [|reflexivity]. intros u [<-|[]]. cbn. intros [= X]. congruence.
      * apply ini_list_last. lia.
  - intros s Ls. rewrite U3 by (rewrite app_length; cbn; lia). apply one_init; [exact NI|lia|exact Ls].
  - intros p v. unfold current. rewrite V.
    + unfold vals. rewrite in_map_iff. split.
      * intros ((q, w) & X & I). apply filter_In in I as (I & M). cbn in X, M. injection X as -> ->. apply memb_str in M. auto.
      * intros (Ip & I). exists (p, v). split; [reflexivity|]. apply filter_In. split; [exact I|]. apply memb_str. exact Ip.
    + unfold vals. rewrite map_map. cbn [fst]. clear - NDI. induction inst as [|x inst IH]; [constructor|]. cbn [filter map] in *. inversion NDI as [|? ? N1 N2]; subst.
      destruct (memb String.eqb (fst x) params); [|apply IH, N2]. cbn [map]. constructor; [|apply IH, N2]. intros I. apply N1. apply in_map_iff in I as (y & E & I). apply filter_In in I as (I & _). apply in_map_iff. exists y. auto.
  - intros p Ip. unfold parameterIndexes. rewrite E5, E4. destruct (LSet.index_of_In _ string_eqb_decides p params Ip) as (q & Eq & _). rewrite Eq. specialize (IND p q Eq).
    assert (G : forall L r, involving p (L ++ ini_trans n i) r -> involving p L r).
    { clear - BI. intros L. induction L as [|t L IH]; intros r H; cbn in H.
      - assert (X : r = []); [|subst; constructor]. remember (ini_trans n i) as T. clear HeqT. induction H as [|t ts l Oc H IH|t ts l Oc H IH]; [reflexivity| |].
        + destruct (BI t (or_introl eq_refl)) as (_ & _ & Z). destruct (Z p Oc).
        + apply IH. intros u Iu. apply BI. right. exact Iu.
      - inversion H; subst; [apply inv_yes|apply inv_no]; auto. }
    apply G, IND.
Qed.
Print Assumptions C89_createPCTMC_partial.

(** A labelling of another length, or a parameter that was not declared, is
    refused with ValueError (for more labels than states the code announces a
    warning only). *)
Lemma create_bad N params ts : forall P st, created N params P st ->
  (forall t, In t ts -> (0 <= src t < Z.of_nat N)%Z /\ (0 <= dst t < Z.of_nat N)%Z) ->
  (Z.of_nat (length P) + Z.of_nat (length ts) <= 65535)%Z ->
  (exists t x, In t ts /\ occurs x (snd t) /\ ~ In x params) -> mfold (create_step params) ts st = Err ValueError.
Proof.
  induction ts as [|t ts IH]; intros P st C H L (t' & x & It & Ox & Nx); [destruct It|]. cbn [mfold length] in *.
  destruct (H t (or_introl eq_refl)) as (A & B).
  destruct (classic (forall x, occurs x (snd t) -> In x params)) as [D|D].
  - destruct (create_step_ok N params P st t C A B ltac:(lia) D) as (st' & E & C'). rewrite E. cbn [bind].
    apply (IH (P ++ [t]) st' C'); [intros u I; apply H; right; exact I|rewrite app_length; cbn; lia|]. destruct It as [->|It]; [destruct (Nx (D x Ox))|]. eauto.
  - assert (S : exists y, occurs y (snd t) /\ ~ In y params). { apply NNPP. intros NN. apply D. intros y Oy. apply NNPP. intros M. apply NN. eauto. }
    clear D. destruct S as (y & Oy & Ny). assert (E : create_step params st t = Err ValueError); [|rewrite E; reflexivity].
    destruct st as [[exprs mat] ind]. destruct t as [[i j] e]. unfold src, dst in *. cbn [fst snd] in *. destruct C as (Z0 & LE & LM & LR & ENT & LI & IND). unfold create_step.
    set (exprs' := if is_number e || negb (memb expr_eqb e exprs) then exprs ++ [e] else exprs).
    assert (IE : In e exprs'). { unfold exprs'. destruct (memb expr_eqb e exprs) eqn:M; [|rewrite orb_true_r; apply in_or_app; right; left; reflexivity]. apply (memb_In _ expr_eqb_eq) in M. destruct (is_number e || _); [apply in_or_app; left|]; exact M. }
    destruct (LSet.index_of_In _ expr_eqb_eq e exprs' IE) as (k & Ek & Lk). unfold index_err at 1. rewrite Ek. cbn [bind].
    unfold np_set. rewrite <- (Z2Nat.id i) at 1 by lia. rewrite (pyget_nth _ _ []) by lia. cbn [bind]. rewrite pyset_ok by (rewrite LR by lia; lia). cbn [bind]. rewrite pyset_ok by lia. cbn [bind].
    assert (Iy : In y (free_symbols e)) by (apply (proj2 (dedup_exact _ string_eqb_decides (symbols e))), symbols_occurs, Oy).
    clear - Iy Ny. assert (G : forall syms ind, In y syms -> mfold (fun ind p => do q <- index_err String.eqb p params; Ok (upd ind q (nth q ind [] ++ [(i, j)]))) syms ind = Err ValueError).
    { induction syms as [|p syms IH]; intros ind0 I; [destruct I|]. cbn [mfold]. unfold index_err at 1. destruct (index_of String.eqb p params) as [q|] eqn:E; cbn [bind]; [|reflexivity].
      apply IH. destruct I as [->|I]; [|exact I]. exfalso. apply Ny. apply (LSet.index_of_Some _ string_eqb_decides) in E. eapply nth_error_In, E. }
    rewrite G by exact Iy. reflexivity.
Qed.
Theorem C89_createPCTMC_refused : forall (ts : list (Z * Z * expr R)) labels params i inst sync name n,
  ids_are n (mentioned ts ++ map fst sync ++ map snd sync) -> ~ In "init"%string labels ->
  match i with IniInt z => (0 <= z < Z.of_nat n)%Z | IniList l => length l = n end -> (Z.of_nat (length ts + n) < 65535)%Z ->
  length labels <> n \/ (exists t x, In t ts /\ occurs x (snd t) /\ ~ In x params) ->
  fst (createPCTMC ts labels params i inst sync name) = Err ValueError.
Proof.
  intros ts labels params i inst sync name n IDS NI IA BIG H. unfold createPCTMC. rewrite (proj2 (memb_str_false _ _) NI).
  assert (ES : sorted_set Z.eqb Z.leb (map (fun t => fst (fst t)) ts ++ map (fun t => snd (fst t)) ts ++ map fst sync ++ map snd sync) = map Z.of_nat (seq 0 n)).
  { apply ids_sorted. unfold mentioned in IDS. rewrite <- !app_assoc in IDS. exact IDS. }
  rewrite ES, map_length, seq_length. cbn [fst]. rewrite app_length. cbn [length]. destruct (Nat.ltb_spec (length labels + 1) (n + 1)) as [|LL]; [reflexivity|].
  change (match i with IniInt z => [(Z.of_nat n, z, EConst n1)] | IniList l => zipwith (fun k p => (Z.of_nat n, Z.of_nat k, EConst p)) (seq 0 (length l)) l end) with (ini_trans n i).
  assert (BT : forall t, In t ts -> (0 <= src t < Z.of_nat n)%Z /\ (0 <= dst t < Z.of_nat n)%Z).
  { intros t It. split; apply IDS, in_or_app; left; apply in_or_app; [left|right]; apply in_map, It. }
  assert (BI : forall t, In t (ini_trans n i) -> src t = Z.of_nat n /\ (0 <= dst t < Z.of_nat n)%Z /\ forall x, ~ occurs x (snd t)).
  { intros t It. destruct i as [z|l]; cbn [ini_trans] in It; [destruct It as [<-|[]]; cbn; auto|]. apply ini_list_In in It as (k & Lk & ->). cbn. split; [reflexivity|]. split; [lia|auto]. }
  assert (LT : (length (ini_trans n i) <= n \/ length (ini_trans n i) = 1)%nat).
  { destruct i as [z|l]; cbn [ini_trans]; [right; reflexivity|left]. replace (le (length (zipwith (fun (k : nat) (p : R) => (Z.of_nat n, Z.of_nat k, EConst p)) (seq 0 (length l)) l)) n) with (le (length (zipwith (fun (k : nat) (p : R) => (Z.of_nat n, Z.of_nat k, EConst p)) (seq 0 (length l)) l)) (length l)) by (rewrite IA; reflexivity). clear. generalize (seq 0 (length l)). induction l as [|p l IH]; intros [|y s]; cbn [zipwith length]; try lia. specialize (IH s). lia. }
  change (@n0 R RNum) with 0.
  destruct (classic (exists t x, In t ts /\ occurs x (snd t) /\ ~ In x params)) as [BAD|GOOD].
  - rewrite (create_bad (n + 1) params (ts ++ ini_trans n i) [] _ (created_init (n + 1) params)); [reflexivity| | |].
    + intros t It. apply in_app_or in It as [It|It]; [destruct (BT t It)|destruct (BI t It) as (X & Y & Z)]; (split; lia).
    + rewrite app_length. cbn [length]. lia.
    + destruct BAD as (t & x & It & R). exists t, x. split; [apply in_or_app; left; exact It|exact R].
  - destruct H as [H|H]; [|contradiction].
    destruct (create_fold (n + 1) params (ts ++ ini_trans n i) [] _ (created_init (n + 1) params)) as (st & Est & C).
    { intros t It. apply in_app_or in It as [It|It]; [destruct (BT t It)|destruct (BI t It) as (X & Y & Z)]; (split; [lia|split; [lia|]]); [intros x Ox; apply NNPP; intros M; apply GOOD; eauto|intros x Ox; destruct (Z x Ox)]. }
    { rewrite app_length. cbn [length]. lia. }
    rewrite Est. cbn [bind]. destruct st as [[exprs mat] ind]. destruct C as (Z0 & LE & LM & _).
    match goal with |- PCTMC_new ?a ?b ?c ?d ?e ?f ?g = _ => destruct (C86_PCTMC_constructor a b c d e f g) as (A & _ & B); destruct (PCTMC_new a b c d e f g) as [m|x] end.
    + exfalso. destruct (proj1 A) as (_ & _ & _ & _ & X); [eauto|]. rewrite app_length, LM in X. cbn in X. lia.
    + f_equal. apply B. reflexivity.
Qed.
Print Assumptions C89_createPCTMC_refused.

Definition ex_ts : list (Z * Z * expr R) := [((0, 1)%Z, EVar "x"); ((1, 0)%Z, EMul (EConst 2) (EVar "y")); ((1, 0)%Z, EAdd (EVar "x") (EConst 1)); ((1, 1)%Z, EConst 4)].
Lemma ex_ids : ids_are 2 (mentioned ex_ts ++ map fst (@nil (Z * Z)) ++ map snd (@nil (Z * Z))).
Proof. intros z. cbn. split; [intros [<-|[<-|[<-|[<-|[<-|[<-|[<-|[<-|[]]]]]]]]]; lia|]. intros B. assert (C : z = 0%Z \/ z = 1%Z) by lia. destruct C as [-> | ->]; auto. Qed.
Example C89_instance : exists m, fst (createPCTMC ex_ts ["a"; "b"]%string ["x"; "y"]%string (IniList [1/2; 1/2]) [("x"%string, 3); ("z"%string, 1)] [] "m") = Ok m /\
  transition m 1 0 = EAdd (EVar "x") (EConst 1) /\ transition m 0 0 = EConst 0 /\ transition m 2 1 = EConst (1/2) /\
  current m "x" = Some 3 /\ current m "y" = None /\ current m "z" = None /\ parameterIndexes m "x" = [(0, 1); (1, 0)]%Z.
Proof.
  destruct (C89_createPCTMC_partial ex_ts ["a"; "b"]%string ["x"; "y"]%string (IniList [1/2; 1/2]) [("x"%string, 3); ("z"%string, 1)] [] "m" 2 ex_ids) as (m & E & W & PN & LB & PA & NM & TR & TN & TI & INI & CUR & IND).
  - reflexivity.
  - intros [X|[X|[]]]; discriminate.
  - reflexivity.
  - intros t x [<-|[<-|[<-|[<-|[]]]]] O; cbn in O.
    + left. auto.
    + destruct O as [[]| ->]. right. left. reflexivity.
    + destruct O as [-> |[]]. left. reflexivity.
    + destruct O.
  - cbn. lia.
  - cbn. repeat constructor; cbn; intros H; repeat destruct H as [H|H]; try discriminate; exact H.
  - exists m. split; [exact E|]. split; [|split; [|split; [|split; [|split; [|split]]]]].
    + apply (last_expr_fun ex_ts 1 0); [apply (TR 1 0)%nat; lia|]. left. exists (firstn 2 ex_ts), (skipn 3 ex_ts). split; [reflexivity|]. intros u [<-|[]]. cbn. congruence.
    + apply (last_expr_fun ex_ts 0 0); [apply (TR 0 0)%nat; lia|]. right. split; [|reflexivity]. intros u [<-|[<-|[<-|[<-|[]]]]]; cbn; congruence.
    + rewrite (TI 1%nat) by lia. reflexivity.
    + apply CUR. cbn. auto.
    + destruct (current m "y") as [v|] eqn:X; [|reflexivity]. apply CUR in X as (_ & [X|[X|[]]]); discriminate.
    + destruct (current m "z") as [v|] eqn:X; [|reflexivity]. apply CUR in X as ([X|[X|[]]] & _); discriminate.
    + assert (G : forall ts l l', involving "x" ts l -> involving "x" ts l' -> l = l').
      { induction ts as [|t ts IH]; intros l l' H H'; inversion H; inversion H'; subst; try contradiction; [reflexivity|f_equal|]; eauto. }
      apply (G ex_ts); [apply IND; left; reflexivity|]. apply inv_yes; [reflexivity|]. apply inv_no; [cbn; intros [[]|X]; discriminate|]. apply (inv_yes _ ((1, 0)%Z, _)); [cbn; auto|]. apply inv_no; [intros []|]. apply inv_nil.
Qed.

(** The lists given by the caller are extended: the same labelling cannot be
    used for a second call. *)
Theorem C89_second_call_refuted : forall (ts ts2 : list (Z * Z * expr R)) labels params params2 i i2 inst inst2 sync sync2 name name2,
  fst (createPCTMC ts2 (fst (snd (createPCTMC ts labels params i inst sync name))) params2 i2 inst2 sync2 name2) = Err SyntaxError.
Proof.
  intros ts ts2 labels params params2 i i2 inst inst2 sync sync2 name name2. unfold createPCTMC at 2. destruct (memb String.eqb "init"%string labels) eqn:M; cbn [snd fst].
  - unfold createPCTMC. rewrite M. reflexivity.
  - unfold createPCTMC. rewrite (proj2 (memb_str _ _)); [reflexivity|]. apply in_or_app. right. left. reflexivity.
Qed.
Print Assumptions C89_second_call_refuted.
(** Ids that are not 0, ..., n-1 are not renumbered: here the user gives the
    states 0 and 2; the rate from 2 to 0 is overwritten by the initial
    distribution and the transition from 0 to 2 leads to the 'init' state. *)
Theorem C89_ids_refuted : exists m, fst (createPCTMC [((0, 2)%Z, EVar "x"); ((2, 0)%Z, EConst 3)] ["a"; "b"]%string ["x"%string] (IniInt 0) [] [] "m") = Ok m /\
  nth 2 (pc_lab m) EmptyString = "init"%string /\ transition m 0 2 = EVar "x" /\ transition m 2 0 = EConst 1 /\ transition m 0 1 = EConst 0 /\ transition m 1 0 = EConst 0.
Proof.
  set (ts := [((0, 2)%Z, EVar "x"); ((2, 0)%Z, EConst 3); ((2, 0)%Z, EConst 1)] : list (Z * Z * expr R)).
  destruct (create_fold 3 ["x"%string] ts [] _ (created_init 3 ["x"%string])) as (st & Est & C).
  { intros t [<-|[<-|[<-|[]]]]; unfold src, dst; cbn; (split; [lia|split; [lia|]]); intros x O; try contradiction. left. auto. }
  { cbn. lia. }
  destruct st as [[exprs mat] ind]. cbn [app] in C. destruct C as (Z0 & LE & LM & LR & ENT & LI & IND).
  assert (E : fst (createPCTMC [((0, 2)%Z, EVar "x"); ((2, 0)%Z, EConst 3)] ["a"; "b"]%string ["x"%string] (IniInt 0) [] [] "m") = PCTMC_new mat ["a"; "b"; "init"]%string exprs [] ind ["x"%string] "m").
  { change (fst (createPCTMC [((0, 2)%Z, EVar "x"); ((2, 0)%Z, EConst 3)] ["a"; "b"]%string ["x"%string] (IniInt 0) [] [] "m")) with
      (do st <- mfold (create_step ["x"%string]) ts ([EConst 0], repeat (repeat 0%Z 3) 3, map (fun _ => []) ["x"%string]);
         let '(exprs, mat, ind) := st in PCTMC_new mat ["a"; "b"; "init"]%string exprs (map (fun p : string * R => (fst p, Some (snd p))) (filter (fun p => memb String.eqb (fst p) ["x"%string]) [])) ind ["x"%string] "m").
    rewrite Est. reflexivity. }
  destruct (C86_PCTMC_constructor mat ["a"; "b"; "init"]%string exprs [] ind ["x"%string] "m") as (A & B & _).
  assert (ENTIN : forall r k, In r mat -> In k r -> (0 <= k < Z.of_nat (length exprs))%Z).
  { intros r k Ir Ik. apply (In_nth _ _ []) in Ir as (a & La & <-). apply (In_nth _ _ 0%Z) in Ik as (b & Lb & <-). rewrite LR in Lb by lia. apply (ENT a b); lia. }
  destruct (proj2 A) as (m & Em).
  { split; [cbn; auto|]. split; [exact LI|]. split; [exists (nth O mat []), (nth O (nth O mat []) 0%Z); split; [apply nth_In; lia|apply nth_In; rewrite LR; lia]|]. split; [exact ENTIN|]. rewrite LM. reflexivity. }
  exists m. rewrite E. split; [exact Em|]. destruct (B m Em) as (E1 & E2 & E3 & _).
  assert (TR : forall a b, (a < 3)%nat -> (b < 3)%nat -> last_expr ts (Z.of_nat a) (Z.of_nat b) (transition m a b)).
  { intros a b La Lb. destruct (ENT a b La Lb) as (_ & H). unfold transition. rewrite E1, E3.
    rewrite (nth_indep _ [] (map Z.to_nat [])) by (rewrite map_length; lia). rewrite map_nth.
    rewrite (nth_indep _ O (Z.to_nat 0)) by (rewrite map_length, LR; lia). rewrite map_nth. exact H. }
  split; [rewrite E2; reflexivity|]. split; [|split; [|split]].
  - apply (last_expr_fun ts 0 2); [apply (TR 0 2)%nat; lia|]. left. exists [], (tl ts). split; [reflexivity|]. intros u [<-|[<-|[]]]; cbn; congruence.
  - apply (last_expr_fun ts 2 0); [apply (TR 2 0)%nat; lia|]. left. exists (firstn 2 ts), []. split; [reflexivity|]. intros u [].
  - apply (last_expr_fun ts 0 1); [apply (TR 0 1)%nat; lia|]. right. split; [|reflexivity]. intros u [<-|[<-|[<-|[]]]]; cbn; congruence.
  - apply (last_expr_fun ts 1 0); [apply (TR 1 0)%nat; lia|]. right. split; [|reflexivity]. intros u [<-|[<-|[<-|[]]]]; cbn; congruence.
Qed.
Print Assumptions C89_ids_refuted.

(** ** C90 *)
Lemma involving_In x ts l : involving x ts l -> forall y, In y l <-> exists t, In t ts /\ fst t = y /\ occurs x (snd t).
Proof.
  induction 1 as [|t ts l Oc H IH|t ts l Oc H IH]; intros y.
  - split; [intros []|intros (t & [] & _)].
  - cbn [In]. rewrite IH. split.
    + intros [<-|(u & I & R)]; [exists t|exists u]; auto.
    + intros (u & [<-|I] & E & O); [left; exact E|right; eauto].
  - rewrite IH. split.
    + intros (u & I & R). exists u. split; [right; exact I|exact R].
    + intros (u & [<-|I] & E & O); [contradiction|eauto].
Qed.
Lemma last_expr_distinct ts i j e : NoDup (map fst ts) -> (last_expr ts i j e <-> In (i, j, e) ts \/ (forall u, In u ts -> fst u <> (i, j)) /\ e = EConst 0).
Proof.
  intros ND. split.
  - intros [(l1 & l2 & -> & F)|H]; [left; apply in_or_app; right; left; reflexivity|right; exact H].
  - intros [I|H]; [left|right; exact H]. apply in_split in I as (l1 & l2 & ->). exists l1, l2. split; [reflexivity|]. intros u Iu X. rewrite map_app in ND. apply NoDup_remove_2 in ND. apply ND, in_or_app. right. apply in_map_iff. exists u. auto.
Qed.
(** In a model made by createPCTMC with one tuple per transition, a parameter's
    indexes are exactly the transitions whose rate involves it. *)
Theorem C90_parameterIndexes_partial : forall (ts : list (Z * Z * expr R)) labels params i inst sync name n,
  ids_are n (mentioned ts ++ map fst sync ++ map snd sync) ->
  length labels = n -> ~ In "init"%string labels ->
  match i with IniInt z => (0 <= z < Z.of_nat n)%Z | IniList l => length l = n end ->
  (forall t x, In t ts -> occurs x (snd t) -> In x params) ->
  (Z.of_nat (length ts + n) < 65535)%Z -> NoDup (map fst inst) -> NoDup (map fst ts) ->
  exists m, fst (createPCTMC ts labels params i inst sync name) = Ok m /\
    forall x y, In y (parameterIndexes m x) <-> exists a b, (a < pc_n m)%nat /\ (b < pc_n m)%nat /\ y = (Z.of_nat a, Z.of_nat b) /\ occurs x (transition m a b).
Proof.
  intros ts labels params i inst sync name n IDS LL NI IA SY BIG NDI ND.
  destruct (C89_createPCTMC_partial ts labels params i inst sync name n IDS LL NI IA SY BIG NDI) as (m & E & W & PN & LB & PA & NM & TR & TN & TI & INI & CUR & IND).
  exists m. split; [exact E|]. intros x y. rewrite PN.
  assert (BT : forall t, In t ts -> (0 <= src t < Z.of_nat n)%Z /\ (0 <= dst t < Z.of_nat n)%Z).
  { intros t It. split; apply IDS, in_or_app; left; apply in_or_app; [left|right]; apply in_map, It. }
  assert (RHS : (exists a b, (a < n + 1)%nat /\ (b < n + 1)%nat /\ y = (Z.of_nat a, Z.of_nat b) /\ occurs x (transition m a b)) <-> exists t, In t ts /\ fst t = y /\ occurs x (snd t)).
  { split.
    - intros (a & b & La & Lb & -> & O). destruct (Nat.eq_dec b n) as [->|Nb]; [rewrite TN in O by lia; destruct O|]. destruct (Nat.eq_dec a n) as [->|Na]; [rewrite TI in O by lia; destruct O|].
      pose proof (TR a b ltac:(lia) ltac:(lia)) as T. apply (last_expr_distinct _ _ _ _ ND) in T as [I|(_ & X)]; [|rewrite X in O; destruct O]. eexists. split; [exact I|]. auto.
    - intros (t & I & <- & O). destruct (BT t I) as (A & B). unfold src, dst in *. exists (Z.to_nat (fst (fst t))), (Z.to_nat (snd (fst t))). split; [lia|]. split; [lia|].
      rewrite !Z2Nat.id by lia. split; [apply surjective_pairing|].
      pose proof (TR (Z.to_nat (fst (fst t))) (Z.to_nat (snd (fst t))) ltac:(lia) ltac:(lia)) as T. rewrite !Z2Nat.id in T by lia.
      rewrite (last_expr_fun ts _ _ _ (snd t) T); [exact O|]. apply (last_expr_distinct _ _ _ _ ND). left. destruct t as [[p q] e]. exact I. }
  rewrite RHS. destruct (in_dec string_dec x params) as [Ix|Nx]; [apply involving_In, IND, Ix|].
  split; [|intros (t & I & _ & O); destruct (Nx (SY t x I O))]. unfold parameterIndexes. rewrite PA. rewrite (proj2 (LSet.index_of_None _ string_eqb_decides _ _) Nx). intros [].
Qed.
Print Assumptions C90_parameterIndexes_partial.
(** A tuple given again for the same transition leaves a stale index. *)
Theorem C90_refuted : exists m, fst (createPCTMC ([((0, 1)%Z, EVar "x"); ((1, 0)%Z, EConst 3); ((0, 1)%Z, EConst 2)] : list (Z * Z * expr R)) ["a"; "b"]%string ["x"%string] (IniInt 0) [] [] "m") = Ok m /\
  In (0, 1)%Z (parameterIndexes m "x") /\ transition m 0 1 = EConst 2.
Proof.
  set (ts := [((0, 1)%Z, EVar "x"); ((1, 0)%Z, EConst 3); ((0, 1)%Z, EConst 2)] : list (Z * Z * expr R)).
  destruct (C89_createPCTMC_partial ts ["a"; "b"]%string ["x"%string] (IniInt 0) [] [] "m" 2) as (m & E & W & PN & LB & PA & NM & TR & TN & TI & INI & CUR & IND).
  - intros z. cbn. split; [intros [<-|[<-|[<-|[<-|[<-|[<-|[]]]]]]]; lia|]. intros B. assert (C : z = 0%Z \/ z = 1%Z) by lia. destruct C as [-> | ->]; auto.
  - reflexivity.
  - intros [X|[X|[]]]; discriminate.
  - lia.
  - intros t x [<-|[<-|[<-|[]]]] O; cbn in O; try contradiction. left. auto.
  - cbn. lia.
  - constructor.
  - exists m. split; [exact E|]. split.
    + apply (involving_In _ _ _ (IND "x"%string (or_introl eq_refl))). exists ((0, 1)%Z, EVar "x"). cbn. auto.
    + apply (last_expr_fun ts 0 1); [apply (TR 0 1)%nat; lia|]. left. exists (firstn 2 ts), []. split; [reflexivity|]. intros u [].
Qed.
Print Assumptions C90_refuted.
Example C90_instance : exists m, fst (createPCTMC (firstn 2 ex_ts) ["a"; "b"]%string ["x"; "y"]%string (IniInt 1) [] [] "m") = Ok m /\
  forall y, In y (parameterIndexes m "y") <-> exists a b, (a < pc_n m)%nat /\ (b < pc_n m)%nat /\ y = (Z.of_nat a, Z.of_nat b) /\ occurs "y" (transition m a b).
Proof.
  destruct (C90_parameterIndexes_partial (firstn 2 ex_ts) ["a"; "b"]%string ["x"; "y"]%string (IniInt 1) [] [] "m" 2) as (m & E & H).
  - intros z. cbn. split; [intros [<-|[<-|[<-|[<-|[]]]]]; lia|]. intros B. assert (C : z = 0%Z \/ z = 1%Z) by lia. destruct C as [-> | ->]; auto.
  - reflexivity.
  - intros [X|[X|[]]]; discriminate.
  - lia.
  - intros t x [<-|[<-|[]]] O; cbn in O; [left; auto|destruct O as [[]| ->]; right; left; reflexivity].
  - cbn. lia.
  - constructor.
  - repeat constructor; cbn; intros X; repeat destruct X as [X|X]; try discriminate; exact X.
  - exists m. split; [exact E|]. intros y. apply H.
Qed.

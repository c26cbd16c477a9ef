(** Composition of parametric CTMCs in any order and step by step (C166). *)
From Coq Require Import String Ascii ZArith QArith Bool Reals Lra Lia Arith Permutation List.
From Verif Require Import Num Py MTools MSet MModels MCtor MPctmc MCompose MPCompose SNum SSet SCtor SPctmc SCompose SPCompose SMany LSum LSet LCtor LBW LPctmc LText LAlergia LCompose LPCompose PCtor PPctmc PCompose PPCompose PMany.
Import ListNotations.
Local Open Scope R_scope.

(** ** The order *)
(** The elements of l in the order sigma. *)
Definition select {A} (d : A) (l : list A) (sigma : list nat) : list A := map (fun i => nth i l d) sigma.

Definition still (c : part * (nat * nat)) : bool := Nat.eqb (fst (snd c)) (snd (snd c)).
Fixpoint zrate (rho : string -> R) (z : list (part * (nat * nat))) : R :=
  match z with
  | [] => 0
  | (p, (a, b)) :: z => (if forallb still z then denote rho (transition (p_m p) a b) else 0) + (if Nat.eqb a b then zrate rho z else 0)
  end.
Lemma still_eq ps : forall t u, length t = length ps -> length u = length ps -> (if list_eq_dec Nat.eq_dec t u then true else false) = forallb still (combine ps (combine t u)).
Proof.
  induction ps as [|p ps IH]; intros [|a t] [|b u] L L'; try discriminate; [reflexivity|]. cbn [combine forallb]. unfold still at 1. cbn [fst snd]. rewrite <- IH by (cbn in *; lia).
  destruct (list_eq_dec Nat.eq_dec (a :: t) (b :: u)) as [E|E]; destruct (Nat.eqb_spec a b) as [->|NE]; destruct (list_eq_dec Nat.eq_dec t u) as [->|F]; try reflexivity; exfalso; congruence.
Qed.
Lemma rate_zrate rho ps : forall t u, length t = length ps -> length u = length ps -> tuple_rate rho ps t u = zrate rho (combine ps (combine t u)).
Proof.
  induction ps as [|p ps IH]; intros [|a t] [|b u] L L'; try discriminate; [reflexivity|]. cbn [combine tuple_rate zrate]. rewrite if_dec, (still_eq ps), IH by (cbn in *; lia). reflexivity.
Qed.
Lemma forallb_perm {A} (f : A -> bool) l l' : Permutation l l' -> forallb f l = forallb f l'.
Proof. induction 1 as [|x l l' _ IH|x y l|l l' l'' _ IH _ IH']; cbn; [reflexivity|rewrite IH; reflexivity|destruct (f x), (f y); reflexivity|congruence]. Qed.
Lemma zrate_perm rho z z' : Permutation z z' -> zrate rho z = zrate rho z'.
Proof.
  induction 1 as [|[p [a b]] z z' Pz IH|[p [a b]] [q [c d]] z|z z' z'' _ IH _ IH']; cbn [zrate forallb].
  - reflexivity.
  - rewrite IH, (forallb_perm _ _ _ Pz). reflexivity.
  - unfold still. cbn [fst snd]. destruct (Nat.eqb a b), (Nat.eqb c d), (forallb _ z); cbn [andb]; lra.
  - congruence.
Qed.
Definition zstart (z : list (part * nat)) : R := fold_right (fun c acc => p_start (fst c) (snd c) * acc) 1 z.
Lemma start_zstart ps : forall t, length t = length ps -> tuple_start ps t = zstart (combine ps t).
Proof. induction ps as [|p ps IH]; intros [|a t] L; try discriminate; [reflexivity|]. cbn. rewrite IH by (cbn in L; lia). reflexivity. Qed.
Lemma zstart_perm z z' : Permutation z z' -> zstart z = zstart z'.
Proof. unfold zstart. induction 1; cbn [fold_right]; [reflexivity|rewrite IHPermutation; reflexivity|ring|congruence]. Qed.

Lemma combine_select {A B} (d : A) (e : B) l k sigma : combine (select d l sigma) (select e k sigma) = map (fun i => (nth i l d, nth i k e)) sigma.
Proof. unfold select. induction sigma as [|i s IH]; [reflexivity|]. cbn. rewrite IH. reflexivity. Qed.
Lemma combine_seq {A B} (d : A) (e : B) l : forall k, length l = length k -> combine l k = map (fun i => (nth i l d, nth i k e)) (seq 0 (length l)).
Proof. induction l as [|x l IH]; intros [|y k] L; try discriminate; [reflexivity|]. cbn [length seq map combine nth]. f_equal. rewrite <- seq_shift, map_map. apply IH. cbn in L. lia. Qed.
Lemma combine_perm {A B} (d : A) (e : B) l k sigma : length l = length k -> Permutation sigma (seq 0 (length l)) -> Permutation (combine (select d l sigma) (select e k sigma)) (combine l k).
Proof. intros L P. rewrite combine_select, (combine_seq d e) by exact L. apply Permutation_map, P. Qed.
Lemma select_length {A} (d : A) l sigma : length (select d l sigma) = length sigma.
Proof. apply map_length. Qed.
Lemma select_combine {A B} (d : A) (e : B) l k sigma : length l = length k -> select (d, e) (combine l k) sigma = combine (select d l sigma) (select e k sigma).
Proof.
  intros L. rewrite combine_select. unfold select. apply map_ext. intros i. apply combine_nth, L.
Qed.

Theorem C166_product_order : forall rho d (ps : list part) (sigma t u : list nat), Permutation sigma (seq 0 (length ps)) -> length t = length ps -> length u = length ps ->
  tuple_rate rho (select d ps sigma) (select O t sigma) (select O u sigma) = tuple_rate rho ps t u /\
  tuple_start (select d ps sigma) (select O t sigma) = tuple_start ps t.
Proof.
  intros rho d ps sigma t u P L L'. assert (LS : length sigma = length ps) by (rewrite (Permutation_length P); apply seq_length). split.
  - rewrite !rate_zrate by (rewrite ?select_length; congruence). apply zrate_perm. rewrite <- (select_combine O O) by congruence. apply combine_perm; [rewrite combine_length, L, L', Nat.min_id; reflexivity|exact P].
  - rewrite !start_zstart by (rewrite ?select_length; congruence). apply zstart_perm, combine_perm; [congruence|exact P].
Qed.
Print Assumptions C166_product_order.

Lemma tuples_iff ns : forall t, In t (tuples ns) <-> length t = length ns /\ forall i, (i < length ns)%nat -> (nth i t O < nth i ns O)%nat.
Proof.
  induction ns as [|n ns IH]; intros t; cbn [tuples].
  - split; [intros [<-|[]]; split; [reflexivity|cbn; lia]|]. intros [L _]. destruct t; [left; reflexivity|discriminate].
  - rewrite in_flat_map. split.
    + intros (a & Ia & I). apply in_seq in Ia. apply in_map_iff in I as (u & <- & I). apply IH in I as [L H]. split; [cbn; congruence|]. intros [|i] Li; cbn; [lia|]. apply H. cbn in Li. lia.
    + destruct t as [|a t]; [intros [L _]; discriminate|]. intros [L H]. exists a. split; [apply in_seq; specialize (H O); cbn in H; lia|]. apply in_map, IH. split; [cbn in L; lia|]. intros i Li. apply (H (S i)). cbn. lia.
Qed.
Lemma nth_select {A} (d : A) l sigma i : (i < length sigma)%nat -> nth i (select d l sigma) d = nth (nth i sigma O) l d.
Proof. intros L. unfold select. rewrite (nth_indep _ d (nth O l d)) by (rewrite map_length; exact L). apply (map_nth (fun i => nth i l d)). Qed.
Lemma map_select {A B} (f : A -> B) d l sigma : map f (select d l sigma) = select (f d) (map f l) sigma.
Proof. unfold select. rewrite map_map. apply map_ext. intros i. symmetry. apply map_nth. Qed.
Lemma select_tuple d ps sigma t : Permutation sigma (seq 0 (length ps)) -> In t (tuples (map p_n ps)) -> In (select O t sigma) (tuples (map p_n (select d ps sigma))).
Proof.
  intros P I. apply tuples_iff in I as [L H]. rewrite map_length in L, H. assert (LS : length sigma = length ps) by (rewrite (Permutation_length P); apply seq_length).
  assert (LM : length (map p_n (select d ps sigma)) = length sigma) by (unfold select; rewrite !map_length; reflexivity). apply tuples_iff. rewrite LM. split; [apply select_length|]. intros i Li. rewrite map_select. rewrite nth_select by exact Li. rewrite (nth_indep (select (p_n d) _ _) O (p_n d)) by (rewrite select_length; exact Li). rewrite nth_select by exact Li.
  assert (B : (nth i sigma O < length ps)%nat). { assert (I : In (nth i sigma O) sigma) by (apply nth_In, Li). apply (Permutation_in _ P), in_seq in I. lia. }
  rewrite (nth_indep _ (p_n d) O) by (rewrite map_length; exact B). apply H, B.
Qed.
Lemma treach_tuple ps t : treach ps t -> In t (tuples (map p_n ps)).
Proof. destruct 1; assumption. Qed.
Theorem C166_reachable_order : forall d (ps : list part) (sigma t : list nat), Permutation sigma (seq 0 (length ps)) -> treach ps t -> treach (select d ps sigma) (select O t sigma).
Proof.
  intros d ps sigma t P H. assert (LT : forall t, In t (tuples (map p_n ps)) -> length t = length ps) by (intros v I; apply tuples_in in I; rewrite map_length in I; exact I).
  induction H as [t I S|t u rho H IH I S].
  - apply treach_start; [apply select_tuple; assumption|]. rewrite (proj2 (C166_product_order (fun _ => 0) d ps sigma t t P (LT t I) (LT t I))). exact S.
  - apply (treach_step _ _ _ rho IH); [apply select_tuple; assumption|]. rewrite (proj1 (C166_product_order rho d ps sigma t u P (LT t (treach_tuple _ _ H)) (LT u I))). exact S.
Qed.
Print Assumptions C166_reachable_order.

Lemma inverse_order sigma k : Permutation sigma (seq 0 k) -> exists tau, Permutation tau (seq 0 k) /\ (forall i, (i < k)%nat -> nth (nth i tau O) sigma O = i) /\ (forall j, (j < k)%nat -> nth (nth j sigma O) tau O = j).
Proof.
  intros P. assert (LS : length sigma = k) by (rewrite (Permutation_length P); apply seq_length). assert (ND : NoDup sigma) by (apply (Permutation_NoDup (Permutation_sym P)), seq_NoDup).
  assert (EX : forall i, exists j, (i < k)%nat -> (j < k)%nat /\ nth j sigma O = i).
  { intros i. destruct (lt_dec i k) as [Li|]; [|exists O; lia]. assert (I : In i sigma) by (apply (Permutation_in _ (Permutation_sym P)), in_seq; lia). destruct (In_nth _ _ O I) as (j & Lj & E). exists j. intros _. split; [lia|exact E]. }
  assert (TB : exists tau, length tau = k /\ forall i, (i < k)%nat -> (nth i tau O < k)%nat /\ nth (nth i tau O) sigma O = i).
  { assert (forall n, (n <= k)%nat -> exists tau, length tau = n /\ forall i, (i < n)%nat -> (nth i tau O < k)%nat /\ nth (nth i tau O) sigma O = i) as HN; [|apply HN; lia].
    induction n as [|n IH]; intros Ln; [exists []; split; [reflexivity|lia]|]. destruct IH as (tau & LT & HT); [lia|]. destruct (EX n) as (j & Hj). exists (tau ++ [j]). split; [rewrite app_length, LT; cbn; lia|]. intros i Li. destruct (Nat.eq_dec i n) as [->|NE]; [rewrite <- LT, nth_middle, LT; apply Hj; lia|]. rewrite app_nth1 by lia. apply HT. lia. }
  destruct TB as (tau & LT & HT). exists tau. assert (BS : forall j, (j < k)%nat -> (nth j sigma O < k)%nat). { intros j Lj. assert (I : In (nth j sigma O) sigma) by (apply nth_In; lia). apply (Permutation_in _ P), in_seq in I. lia. }
  split; [|split].
  - apply NoDup_Permutation_bis.
    + apply (NoDup_nth tau O). intros i j Li Lj E. rewrite LT in Li, Lj. rewrite <- (proj2 (HT i Li)), <- (proj2 (HT j Lj)), E. reflexivity.
    + rewrite seq_length. lia.
    + intros x I. destruct (In_nth _ _ O I) as (i & Li & <-). apply in_seq. specialize (HT i). lia.
  - intros i Li. apply HT, Li.
  - intros j Lj. apply (proj1 (NoDup_nth sigma O) ND); [rewrite LS; apply HT, BS, Lj|lia|]. apply HT, BS, Lj.
Qed.
Lemma select_back {A} (d : A) l sigma tau : length l = length sigma -> Permutation sigma (seq 0 (length sigma)) -> length tau = length sigma -> (forall i, (i < length sigma)%nat -> nth (nth i tau O) sigma O = i) -> (forall i, In i tau -> (i < length sigma)%nat) -> select d (select d l sigma) tau = l.
Proof.
  intros L P LT H B. apply (nth_ext _ _ d d); [rewrite select_length; congruence|]. intros i Li. rewrite select_length in Li. rewrite nth_select by exact Li. rewrite nth_select by (apply B, nth_In, Li). rewrite H by lia. reflexivity.
Qed.
Lemma reachable_back d ps sigma u : Permutation sigma (seq 0 (length ps)) -> treach (select d ps sigma) u -> exists t, treach ps t /\ select O t sigma = u.
Proof.
  intros P K. assert (LS : length sigma = length ps) by (rewrite (Permutation_length P); apply seq_length). destruct (inverse_order sigma _ P) as (tau & PT & H1 & H2).
  assert (LT : length tau = length ps) by (rewrite (Permutation_length PT); apply seq_length). assert (LU : length u = length ps) by (apply treach_tuple, tuples_in in K; rewrite map_length, select_length in K; congruence).
  exists (select O u tau). split.
  - rewrite <- (select_back d ps sigma tau); [|congruence|rewrite LS; exact P|congruence|intros i Li; apply H1; congruence|intros i I; apply (Permutation_in _ PT), in_seq in I; lia]. apply C166_reachable_order; [rewrite select_length, LS; exact PT|exact K].
  - apply select_back; [congruence|rewrite LT; exact PT|congruence|intros i Li; apply H2; congruence|intros i I; apply (Permutation_in _ P), in_seq in I; lia].
Qed.

(** The position of a tuple in a list. *)
Fixpoint pos (t : list nat) (l : list (list nat)) : nat :=
  match l with [] => O | u :: l => if list_eq_dec Nat.eq_dec u t then O else S (pos t l) end.
Lemma pos_ok t l : In t l -> (pos t l < length l)%nat /\ nth (pos t l) l [] = t.
Proof.
  induction l as [|u l IH]; intros I; [contradiction|]. cbn [pos length]. destruct (list_eq_dec Nat.eq_dec u t) as [->|NE]; [split; [lia|reflexivity]|]. destruct I as [->|I]; [contradiction|]. destruct (IH I) as [A B]. split; [lia|exact B].
Qed.

(** The sets of names, as listed at each step. *)
Definition listed (ps : list part) (pstrs : list (list string)) : Prop :=
  forall i, (i < length ps - 1)%nat -> NoDup (nth i pstrs []) /\ forall q, In q (nth i pstrs []) <-> exists p, In p (firstn (i + 2) ps) /\ In q (pc_par (p_m p)).
Definition no_own (ps : list part) (owns : list (option (list sync))) : Prop := length owns = length ps /\ forall o, In o owns -> o = None \/ o = Some [].

(** m has the reachable tuples of ps among its states, numbered by id, with these
    labels, initial rates and rates. *)
Definition has_tuples (ps : list part) (label : list nat -> string) (m : pctmc R) (id : list nat -> nat) : Prop :=
  (forall t, treach ps t -> (id t < pc_n m - 1)%nat /\ nth (id t) (pc_lab m) EmptyString = label t /\ transition m (pc_n m - 1) (id t) = EConst (tuple_start ps t)) /\
  (forall t u, treach ps t -> treach ps u -> id t = id u -> t = u) /\
  (forall rho t u, treach ps t -> treach ps u -> denote rho (transition m (id t) (id u)) = tuple_rate rho ps t u) /\
  (* nothing else can be reached from them *)
  (forall t y, treach ps t -> (y < pc_n m)%nat -> (forall u, treach ps u -> id u <> y) -> forall rho, denote rho (transition m (id t) y) = 0).
Lemma composed_n ps kept m : composed ps kept m -> pc_n m = S (length kept).
Proof. intros (LB & (_ & W & _) & _). rewrite <- W, LB, app_length, map_length. cbn. lia. Qed.
Lemma composed_has ps keep m : composed ps (filter keep (tuples (map p_n ps))) m -> has_tuples ps (tuple_label ps) m (fun t => pos t (filter keep (tuples (map p_n ps)))).
Proof.
  intros CO. pose proof (composed_n _ _ _ CO) as PN. destruct CO as (LB & W & _ & RT & ST & IN & _ & RE & _). set (kept := filter keep (tuples (map p_n ps))) in *. unfold has_tuples. rewrite PN. replace (S (length kept) - 1)%nat with (length kept) by lia. split; [|split; [|split]].
  - intros t H. destruct (pos_ok t kept (RE t H)) as [A B]. split; [exact A|]. split; [|rewrite ST by exact A; rewrite B; reflexivity].
    rewrite LB, app_nth1 by (rewrite map_length; exact A). rewrite (nth_indep _ EmptyString (tuple_label ps [])) by (rewrite map_length; exact A). rewrite map_nth, B. reflexivity.
  - intros t u H K E. destruct (pos_ok t kept (RE t H)) as [_ B]. destruct (pos_ok u kept (RE u K)) as [_ B']. rewrite <- B, <- B', E. reflexivity.
  - intros rho t u H K. destruct (pos_ok t kept (RE t H)) as [A B]. destruct (pos_ok u kept (RE u K)) as [A' B']. rewrite RT by assumption. rewrite B, B'. reflexivity.
  - intros t y H Ly NY rho. destruct (pos_ok t kept (RE t H)) as [A B]. destruct (Nat.eq_dec y (length kept)) as [->|NE]; [rewrite IN by lia; reflexivity|]. assert (Ly' : (y < length kept)%nat) by lia. rewrite RT by assumption. rewrite B.
    destruct (Req_dec (tuple_rate rho ps t (nth y kept [])) 0) as [Z|Z]; [exact Z|]. exfalso. assert (I : In (nth y kept []) kept) by (apply nth_In; exact Ly'). assert (K : treach ps (nth y kept [])) by (apply (treach_step ps t _ rho H); [apply filter_In in I; tauto|exact Z]).
    apply (NY _ K). destruct (pos_ok _ kept I) as [A' B']. apply (proj1 (NoDup_nth kept []) (NoDup_filter _ (tuples_NoDup _))); assumption.
Qed.

(** ** C166: the order in which the models are listed does not matter. *)
Theorem C166_order : forall (p0 : part) (rest : list part) (sigma : list nat) owns owns' pstrs pstrs' name, let ps := p0 :: rest in let ps' := select p0 ps sigma in
  rest <> [] -> Permutation sigma (seq 0 (length ps)) -> (forall p, In p ps -> good_part p) -> (forall p q, In p ps -> In q ps -> (p_n p <= p_n q + 1)%nat) ->
  no_own ps owns -> no_own ps' owns' -> listed ps pstrs -> listed ps' pstrs' -> (length (tuples (map p_n ps)) <= 254)%nat ->
  exists m m' id id', synchronousCompositionPCTMCs (combine (map p_m ps) owns) [] pstrs name = (Ok m, []) /\
    synchronousCompositionPCTMCs (combine (map p_m ps') owns') [] pstrs' name = (Ok m', []) /\
    has_tuples ps (tuple_label ps) m id /\ has_tuples ps (fun t => tuple_label ps' (select O t sigma)) m' id'.
Proof.
  intros p0 rest sigma owns owns' pstrs pstrs' name ps ps' NR P G SZ [O1 O2] [O1' O2'] LS LS' B.
  destruct (C165_many_models p0 rest owns pstrs name) as (m & keep & E & _ & _ & _ & CO); try assumption.
  { intros p I. apply SZ; [right; exact I|left; reflexivity]. }
  { intros i Li. apply LS. cbn. lia. }
  assert (LSg : length sigma = length ps) by (rewrite (Permutation_length P); apply seq_length).
  assert (PP : Permutation ps' ps). { unfold ps', select. pose proof (Permutation_map (fun i => nth i ps p0) P) as Q. rewrite seq_nth_id in Q. exact Q. }
  assert (LP : length ps' = length ps) by (apply Permutation_length, PP).
  assert (TL : length (tuples (map p_n ps')) = length (tuples (map p_n ps))).
  { assert (T0 : forall l l', Permutation l l' -> length (tuples l) = length (tuples l')); [|apply T0, Permutation_map, PP].
    assert (TC : forall n l, length (tuples (n :: l)) = (n * length (tuples l))%nat). { intros n l. change (n :: l) with ([n] ++ l). rewrite tuples_app_length, singletons, map_length, seq_length. reflexivity. }
    induction 1 as [|x l l' _ IH|x y l|l l' l'' _ IH _ IH']; [reflexivity|rewrite !TC, IH; reflexivity|rewrite !TC; lia|congruence]. }
  destruct ps' as [|q0 rest'] eqn:EP; [cbn in LP; discriminate|].
  destruct (C165_many_models q0 rest' owns' pstrs' name) as (m' & keep' & E' & _ & _ & _ & CO').
  { destruct rest'; [|discriminate]. destruct rest; [contradiction|]. cbn in LP. discriminate. }
  { intros p I. apply G, (Permutation_in _ PP), I. }
  { intros p I. apply SZ; apply (Permutation_in _ PP); [right; exact I|left; reflexivity]. }
  { exact O1'. }
  { exact O2'. }
  { intros i Li. apply LS'. cbn. lia. }
  { rewrite TL. exact B. }
  rewrite <- EP in E', CO', TL. pose proof (composed_has _ _ _ CO) as H. pose proof (composed_has _ _ _ CO') as H'. fold ps in H, CO.
  exists m, m', (fun t => pos t (filter keep (tuples (map p_n ps)))), (fun t => pos (select O t sigma) (filter keep' (tuples (map p_n ps')))). split; [exact E|]. split; [rewrite <- EP; exact E'|]. split; [exact H|].
  assert (LT : forall t, treach ps t -> length t = length ps) by (intros t K; apply treach_tuple, tuples_in in K; rewrite map_length in K; exact K).
  assert (INJ : forall t u, length t = length ps -> length u = length ps -> select O t sigma = select O u sigma -> t = u).
  { intros t u L L' ES. apply (nth_ext _ _ O O); [congruence|]. intros i Li. rewrite L in Li. assert (I : In i sigma) by (apply (Permutation_in _ (Permutation_sym P)), in_seq; lia). destruct (In_nth _ _ O I) as (j & Lj & <-). rewrite <- !nth_select by exact Lj. rewrite ES. reflexivity. }
  destruct H' as (A & IJ & RT & OUT). pose proof (fun t K => C166_reachable_order p0 ps sigma t P K) as RO. fold ps' in RO. unfold has_tuples. split; [|split; [|split]].
  - intros t K. destruct (A _ (RO t K)) as (A1 & A2 & A3). split; [exact A1|]. split; [rewrite <- EP; exact A2|]. rewrite A3. f_equal. exact (proj2 (C166_product_order (fun _ => 0) p0 ps sigma t t P (LT t K) (LT t K))).
  - intros t u K K' EI. apply (INJ t u (LT t K) (LT u K')). apply IJ; auto.
  - intros rho t u K K'. rewrite RT by auto. exact (proj1 (C166_product_order rho p0 ps sigma t u P (LT t K) (LT u K'))).
  - intros t y K Ly NY rho. apply OUT; [auto|exact Ly|]. intros u' K'. destruct (reachable_back p0 ps sigma u' P K') as (u & KU & <-). apply NY, KU.
Qed.
Print Assumptions C166_order.

(** ** C166: in steps. *)
Lemma comma_not_init a r : (a ++ String "," r)%string <> "init"%string.
Proof. intros E. do 4 (destruct a as [|? a]; [discriminate E|]; cbn in E; injection E as _ E). destruct a; discriminate E. Qed.
Lemma label_not_init ps t : (2 <= length ps)%nat -> length t = length ps -> tuple_label ps t <> "init"%string.
Proof.
  destruct ps as [|p [|q ps]]; cbn [length]; try lia. destruct t as [|a [|b t]]; try discriminate. intros _ _. unfold tuple_label. cbn [tuple_labels]. cbn [String.concat]. apply comma_not_init.
Qed.
(** The composition as a part. *)
Definition part_of (ps : list part) (kept : list (list nat)) (m : pctmc R) : part :=
  mkPart (length kept) (map (tuple_label ps) kept) (fun x => tuple_start ps (nth x kept [])) m.
Lemma part_of_good ps kept m : (2 <= length ps)%nat -> (forall t, In t kept -> length t = length ps) -> kept <> [] -> composed ps kept m -> good_part (part_of ps kept m).
Proof.
  intros L LK NE CO. pose proof (composed_n _ _ _ CO) as PN. destruct CO as (LB & W & _ & RT & ST & IN & SL & RE & _ & PI). split; [|split; [destruct kept; [contradiction|cbn; lia]|exact SL]]. cbn [part_of p_n p_lab p_start p_m].
  split; [apply map_length|]. split; [|split; [exact LB|split; [apply W|split]]].
  - intros I. apply in_map_iff in I as (t & E & I). apply (label_not_init ps t L (LK t I) E).
  - intros s Ls. apply const_rate, ST, Ls.
  - intros x y k Lx Ly OC. assert (I : In (Z.of_nat x, Z.of_nat y) (parameterIndexes m k)) by (apply PI; split; [lia|split; [lia|exact OC]]).
    unfold parameterIndexes in I. destruct (index_of String.eqb k (pc_par m)) as [j|] eqn:IX; [|contradiction]. apply (LSet.index_of_Some _ string_eqb_decides) in IX. apply nth_error_In in IX. exact IX.
Qed.

Section Steps.
  Variables (ps : list part) (p : part) (keep : list nat -> bool) (m : pctmc R).
  Let kept := filter keep (tuples (map p_n ps)).
  Hypothesis CO : composed ps kept m.
  Hypothesis L2 : (2 <= length ps)%nat.
  Let M := part_of ps kept m.
  Lemma kept_length x : (x < length kept)%nat -> length (nth x kept []) = length ps.
  Proof. intros L. assert (I : In (nth x kept []) kept) by (apply nth_In, L). apply filter_In, proj1, tuples_in in I. rewrite map_length in I. exact I. Qed.
  Lemma kept_eq x y : (x < length kept)%nat -> (y < length kept)%nat -> (if list_eq_dec Nat.eq_dec (nth x kept []) (nth y kept []) then true else false) = Nat.eqb x y.
  Proof.
    intros Lx Ly. destruct (list_eq_dec Nat.eq_dec _ _) as [E|E]; destruct (Nat.eqb_spec x y) as [->|NE]; try reflexivity; [|exfalso; apply E; reflexivity].
    exfalso. apply NE. apply (proj1 (NoDup_nth kept []) (NoDup_filter _ (tuples_NoDup _))); assumption.
  Qed.
  Lemma pair_rate rho x y c d : (x < length kept)%nat -> (y < length kept)%nat -> tuple_rate rho [M; p] [x; c] [y; d] = tuple_rate rho (ps ++ [p]) (nth x kept [] ++ [c]) (nth y kept [] ++ [d]).
  Proof.
    intros Lx Ly. rewrite tuple_rate_snoc by (apply kept_length; assumption). rewrite (if_dec _ (list_eq_dec Nat.eq_dec (nth x kept []) (nth y kept []))), kept_eq by assumption. cbn [tuple_rate M part_of p_m].
    destruct CO as (_ & _ & _ & RT & _). rewrite RT by assumption. destruct (list_eq_dec Nat.eq_dec [] []); [|contradiction].
    destruct (list_eq_dec Nat.eq_dec [c] [d]) as [E|E]; destruct (Nat.eqb_spec c d) as [->|NE]; try (exfalso; congruence); destruct (Nat.eqb x y); lra.
  Qed.
  Lemma pair_start x c : (x < length kept)%nat -> tuple_start [M; p] [x; c] = tuple_start (ps ++ [p]) (nth x kept [] ++ [c]).
  Proof. intros Lx. rewrite tuple_start_snoc by (apply kept_length; exact Lx). cbn. lra. Qed.
  Lemma pair_label x c : (x < length kept)%nat -> tuple_label [M; p] [x; c] = tuple_label (ps ++ [p]) (nth x kept [] ++ [c]).
  Proof.
    intros Lx. rewrite tuple_label_snoc; [|destruct ps; [cbn in L2; lia|discriminate]|apply kept_length; exact Lx]. unfold tuple_label at 1. cbn [tuple_labels String.concat M part_of p_lab].
    rewrite (nth_indep _ EmptyString (tuple_label ps [])) by (rewrite map_length; exact Lx). rewrite map_nth. reflexivity.
  Qed.
  Lemma snoc_in t : In t (tuples (map p_n (ps ++ [p]))) <-> exists s c, t = s ++ [c] /\ In s (tuples (map p_n ps)) /\ (c < p_n p)%nat.
  Proof.
    rewrite map_app. cbn [map]. rewrite tuples_snoc, in_map_iff. split.
    - intros ([a c] & <- & I). apply in_prod_iff in I as [A C]. apply in_seq in A, C. exists (nth a (tuples (map p_n ps)) []), c. split; [reflexivity|]. split; [apply nth_In; lia|lia].
    - intros (s & c & -> & I & Lc). destruct (In_nth _ _ [] I) as (a & La & <-). exists (a, c). split; [reflexivity|]. apply in_prod_iff. split; apply in_seq; lia.
  Qed.
  Lemma pair_in x c : In [x; c] (tuples (map p_n [M; p])) <-> (x < length kept)%nat /\ (c < p_n p)%nat.
  Proof.
    rewrite tuples_iff. cbn [map length M part_of p_n]. split.
    - intros [_ H]. split; [apply (H O); lia|apply (H 1%nat); lia].
    - intros [A B]. split; [reflexivity|]. intros [|[|i]] Li; cbn; lia.
  Qed.
  Lemma pair_shape v : In v (tuples (map p_n [M; p])) -> exists x c, v = [x; c] /\ (x < length kept)%nat /\ (c < p_n p)%nat.
  Proof. intros I. pose proof (tuples_in _ _ I) as L. destruct v as [|x [|c [|]]]; try discriminate. exists x, c. split; [reflexivity|]. apply pair_in, I. Qed.

  (** Whatever is reachable in the product of all is reachable in the product of the
      first ones. *)
  Lemma prefix_reach t : treach (ps ++ [p]) t -> exists s c, t = s ++ [c] /\ (c < p_n p)%nat /\ In s kept /\ treach [M; p] [pos s kept; c] /\ treach ps s.
  Proof.
    destruct CO as (_ & _ & _ & _ & _ & _ & _ & RE & _). assert (LK : forall s, In s (tuples (map p_n ps)) -> length s = length ps) by (intros s I; apply tuples_in in I; rewrite map_length in I; exact I).
    induction 1 as [t I S|t u rho H IH I S].
    - apply snoc_in in I as (s & c & -> & I & Lc). exists s, c. split; [reflexivity|]. split; [exact Lc|].
      assert (TS : treach ps s). { apply treach_start; [exact I|]. intros Z. apply S. rewrite tuple_start_snoc by auto. rewrite Z. lra. }
      pose proof (RE _ TS) as K. split; [exact K|]. split; [|exact TS]. destruct (pos_ok s kept K) as [A B]. apply treach_start; [apply pair_in; auto|]. rewrite pair_start by exact A. rewrite B. exact S.
    - destruct IH as (s & c & -> & Lc & K & TP & TS). apply snoc_in in I as (s' & c' & -> & I & Lc'). exists s', c'. split; [reflexivity|]. split; [exact Lc'|].
      assert (LS : length s = length ps) by (apply LK, (treach_tuple _ _ TS)).
      assert (TS' : treach ps s').
      { rewrite tuple_rate_snoc in S by auto. destruct (list_eq_dec Nat.eq_dec s s') as [<-|NE]; [exact TS|]. apply (treach_step ps s s' rho TS I). intros Z. apply S. rewrite Z. destruct (Nat.eqb c c'); lra. }
      pose proof (RE _ TS') as K'. split; [exact K'|]. split; [|exact TS']. destruct (pos_ok s kept K) as [A B], (pos_ok s' kept K') as [A' B']. apply (treach_step _ _ _ rho TP); [apply pair_in; auto|]. rewrite pair_rate by assumption. rewrite B, B'. exact S.
  Qed.
  Lemma pair_reach v : treach [M; p] v -> exists x c, v = [x; c] /\ (x < length kept)%nat /\ treach (ps ++ [p]) (nth x kept [] ++ [c]).
  Proof.
    assert (TI : forall x c, (x < length kept)%nat -> (c < p_n p)%nat -> In (nth x kept [] ++ [c]) (tuples (map p_n (ps ++ [p])))).
    { intros x c Lx Lc. apply snoc_in. exists (nth x kept []), c. split; [reflexivity|]. split; [|exact Lc]. assert (I : In (nth x kept []) kept) by (apply nth_In, Lx). apply filter_In in I. apply I. }
    induction 1 as [t I S|t u rho H IH I S].
    - destruct (pair_shape t I) as (x & c & -> & Lx & Lc). exists x, c. split; [reflexivity|]. split; [exact Lx|]. apply treach_start; [apply TI; assumption|]. rewrite <- pair_start by exact Lx. exact S.
    - destruct IH as (x & c & -> & Lx & T). destruct (pair_shape u I) as (y & d & -> & Ly & Ld). exists y, d. split; [reflexivity|]. split; [exact Ly|]. apply (treach_step _ _ _ rho T); [apply TI; assumption|]. rewrite <- pair_rate by assumption. exact S.
  Qed.
  Lemma steps_has m2 id : has_tuples [M; p] (tuple_label [M; p]) m2 id -> has_tuples (ps ++ [p]) (tuple_label (ps ++ [p])) m2 (fun t => id [pos (removelast t) kept; last t O]).
  Proof.
    intros (A & IJ & RT & OUT).
    assert (Q : forall t, treach (ps ++ [p]) t -> exists s c, t = s ++ [c] /\ [pos (removelast t) kept; last t O] = [pos s kept; c] /\ treach [M; p] [pos s kept; c] /\ (pos s kept < length kept)%nat /\ nth (pos s kept) kept [] = s).
    { intros t H. destruct (prefix_reach t H) as (s & c & -> & _ & K & TP & _). exists s, c. rewrite removelast_last, last_last. split; [reflexivity|]. split; [reflexivity|]. split; [exact TP|apply pos_ok, K]. }
    split; [|split; [|split]].
    - intros t H. destruct (Q t H) as (s & c & -> & -> & TP & L & E). destruct (A _ TP) as (A1 & A2 & A3). split; [exact A1|]. split; [rewrite A2, pair_label, E by exact L; reflexivity|]. rewrite A3, pair_start, E by exact L. reflexivity.
    - intros t u H K EI. destruct (Q t H) as (s & c & -> & E1 & TP & L & E). destruct (Q u K) as (s' & c' & -> & E1' & TP' & L' & E'). rewrite E1, E1' in EI. apply (IJ _ _ TP TP') in EI. injection EI as EP ->. rewrite <- E, <- E', EP. reflexivity.
    - intros rho t u H K. destruct (Q t H) as (s & c & -> & -> & TP & L & E). destruct (Q u K) as (s' & c' & -> & -> & TP' & L' & E'). rewrite RT by assumption. rewrite pair_rate by assumption. rewrite E, E'. reflexivity.
    - intros t y H Ly NY rho. destruct (Q t H) as (s & c & -> & -> & TP & L & E). apply OUT; [exact TP|exact Ly|]. intros v K EV. destruct (pair_reach v K) as (x & d & -> & Lx & T). apply (NY _ T). rewrite removelast_last, last_last. rewrite <- EV. do 2 f_equal.
      assert (I : In (nth x kept []) kept) by (apply nth_In, Lx). destruct (pos_ok _ kept I) as [B1 B2]. apply (proj1 (NoDup_nth kept []) (NoDup_filter _ (tuples_NoDup _))); assumption.
  Qed.
End Steps.

(** Composing the first models and then one more gives the same states, labels and
    rates as composing all of them at once. *)
Theorem C166_steps : forall (p0 : part) (rest : list part) (p : part) owns owns2 owns3 pstrs pstr2 pstrs3 name name3, let ps := p0 :: rest in
  rest <> [] -> (forall q, In q (ps ++ [p]) -> good_part q) -> (forall q, In q (rest ++ [p]) -> (p_n q <= p_n p0 + 1)%nat) ->
  no_own ps owns -> length owns2 = 2%nat -> (forall o, In o owns2 -> o = None \/ o = Some []) -> no_own (ps ++ [p]) owns3 ->
  listed ps pstrs -> NoDup pstr2 -> (forall q, In q pstr2 <-> exists r, In r (ps ++ [p]) /\ In q (pc_par (p_m r))) -> listed (ps ++ [p]) pstrs3 ->
  (length (tuples (map p_n (ps ++ [p]))) <= 254)%nat -> (exists t, In t (tuples (map p_n ps)) /\ tuple_start ps t <> 0) ->
  exists m m3 id3, synchronousCompositionPCTMCs (combine (map p_m ps) owns) [] pstrs name = (Ok m, []) /\
    synchronousCompositionPCTMCs (combine (map p_m (ps ++ [p])) owns3) [] pstrs3 name3 = (Ok m3, []) /\
    has_tuples (ps ++ [p]) (tuple_label (ps ++ [p])) m3 id3 /\
    ((p_n p <= pc_n m)%nat -> exists m2 id2, synchronousCompositionPCTMCs (combine [m; p_m p] owns2) [] [pstr2] name3 = (Ok m2, []) /\
      has_tuples (ps ++ [p]) (tuple_label (ps ++ [p])) m2 id2 /\ (forall x, current m2 x = current m3 x) /\ (forall q, In q (pc_par m2) <-> In q (pc_par m3))).
Proof.
  intros p0 rest p owns owns2 owns3 pstrs pstr2 pstrs3 name name3 ps NR G SZ [O1 O2] O3 O4 [O5 O6] LS ND PE LS3 B (t0 & I0 & S0).
  assert (LR : (2 <= length ps)%nat) by (destruct rest; [contradiction|cbn; lia]).
  assert (PP : (0 < p_n p)%nat) by (apply G; apply in_or_app; right; left; reflexivity).
  assert (BM : (length (tuples (map p_n ps)) * p_n p <= 254)%nat). { rewrite map_app in B. cbn [map] in B. rewrite tuples_app_length, singletons, map_length, seq_length in B. exact B. }
  destruct (C165_many_models p0 rest owns pstrs name) as (m & keep & E & _ & PM & VM & CO); try assumption.
  { intros q I. apply G, in_or_app. left. exact I. }
  { intros q I. apply SZ, in_or_app. left. exact I. }
  { intros i Li. apply LS. cbn. lia. }
  { fold ps. nia. }
  fold ps in E, CO, PM. destruct (C165_many_models p0 (rest ++ [p]) owns3 pstrs3 name3) as (m3 & keep3 & E3 & _ & PM3 & VM3 & CO3); try assumption.
  { destruct rest; discriminate. }
  { intros i Li. apply LS3. rewrite app_length in Li |- *. cbn in Li |- *. lia. }
  change (p0 :: rest ++ [p]) with (ps ++ [p]) in *.
  exists m, m3, (fun t => pos t (filter keep3 (tuples (map p_n (ps ++ [p]))))). split; [exact E|]. split; [exact E3|]. split; [apply composed_has, CO3|]. intros LP.
  set (kept := filter keep (tuples (map p_n ps))) in *. assert (NK : kept <> []). { destruct CO as (_ & _ & _ & _ & _ & _ & _ & RE & _). assert (I : In t0 kept) by (apply RE, treach_start; assumption). intros Z. rewrite Z in I. exact I. }
  assert (LK : (length kept <= length (tuples (map p_n ps)))%nat). { unfold kept. clear. induction (tuples (map p_n ps)) as [|x l IH]; [reflexivity|]. cbn. destruct (keep x); cbn; lia. }
  set (M := part_of ps kept m). assert (GM : good_part M). { apply part_of_good; try assumption. intros t I. apply filter_In, proj1, tuples_in in I. rewrite map_length in I. exact I. }
  destruct (C165_many_models M [p] owns2 [pstr2] name3) as (m2 & keep2 & E2 & _ & PM2 & VM2 & CO2); try assumption.
  { discriminate. }
  { intros q [<-|[<-|[]]]; [exact GM|]. apply G, in_or_app. right. left. reflexivity. }
  { intros q [<-|[]]. cbn [M part_of p_n]. rewrite (composed_n _ _ _ CO) in LP. lia. }
  { intros [|i] Li; cbn in Li; [|lia]. cbn [nth]. split; [exact ND|]. intros q. rewrite PE. cbn [firstn plus]. split.
    - intros (r & I & J). apply in_app_or in I as [I|[<-|[]]]; [|exists p; split; [right; left; reflexivity|exact J]]. exists M. split; [left; reflexivity|]. cbn [M part_of p_m]. apply PM. exists r. auto.
    - intros (r & [<-|[<-|[]]] & J); [|exists p; split; [apply in_or_app; right; left; reflexivity|exact J]]. cbn [M part_of p_m] in J. apply PM in J as (r & I & J). exists r. split; [apply in_or_app; left; exact I|exact J]. }
  { cbn [map M part_of p_n]. change [length kept; p_n p] with ([length kept] ++ [p_n p]). rewrite tuples_app_length, !singletons, !map_length, !seq_length. nia. }
  exists m2. eexists. split; [exact E2|]. split; [apply (steps_has ps p keep m CO LR), composed_has, CO2|]. split.
  - intros x. rewrite VM2, VM3. cbn [M part_of p_m]. apply VM.
  - intros q. rewrite PM2, PM3. rewrite <- PE. rewrite PE. split.
    + intros (r & [<-|[<-|[]]] & J); [|exists p; split; [apply in_or_app; right; left; reflexivity|exact J]]. cbn [M part_of p_m] in J. apply PM in J as (r & I & J). exists r. split; [apply in_or_app; left; exact I|exact J].
    + intros (r & I & J). apply in_app_or in I as [I|[<-|[]]]; [|exists p; split; [right; left; reflexivity|exact J]]. exists M. split; [left; reflexivity|]. cbn [M part_of p_m]. apply PM. exists r. auto.
Qed.
Print Assumptions C166_steps.

(** The three machines of C165: listed in another order; two first, then the third. *)
Definition mA := partM "A" (EVar "x") (EConst 2) [("x"%string, 5)] ["x"%string] ["a"; "b"]%string.
Definition mB := partM "B" (EMul (EConst 3) (EVar "x")) (EVar "y") [] ["x"; "y"]%string ["c"; "d"]%string.
Definition mC := partM "C" (EConst 4) (EVar "y") [] ["y"%string] ["e"; "f"]%string.
Lemma m3_good p : In p m3 -> good_part p.
Proof. intros I. cbn in I. destruct I as [<-|[<-|[<-|[]]]]; apply partM_ok; try discriminate; intros k; cbn; intuition (subst; auto). Qed.
Lemma m3_n p : In p m3 -> p_n p = 2%nat.
Proof. intros I. cbn in I. destruct I as [<-|[<-|[<-|[]]]]; reflexivity. Qed.
Ltac nd := repeat constructor; cbn; intros I; repeat (destruct I as [I|I]; [discriminate|]); exact I.
Lemma xy_listed (ps : list part) (l : list string) : NoDup l -> (forall q, In q l <-> q = "x"%string \/ q = "y"%string) -> (exists p, In p ps /\ In "x"%string (pc_par (p_m p))) -> (exists p, In p ps /\ In "y"%string (pc_par (p_m p))) -> (forall p, In p ps -> In p m3) ->
  NoDup l /\ forall q, In q l <-> exists p, In p ps /\ In q (pc_par (p_m p)).
Proof.
  intros ND H EX EY IM. split; [exact ND|]. intros q. rewrite H. split; [intros [-> | ->]; assumption|]. intros (p & I & J). apply IM in I. cbn in I. destruct I as [<-|[<-|[<-|[]]]]; cbn in J; intuition (subst; auto).
Qed.
Lemma xy q : In q ["x"; "y"]%string <-> q = "x"%string \/ q = "y"%string.
Proof. cbn. intuition. Qed.
Lemma yx q : In q ["y"; "x"]%string <-> q = "x"%string \/ q = "y"%string.
Proof. cbn. intuition. Qed.
Ltac lst := intros [|[|i]] Li; cbn in Li; try lia; cbn [nth firstn plus]; (apply xy_listed; [nd|first [apply xy|apply yx]|first [exists mA; cbn; tauto|exists mB; cbn; tauto]|first [exists mB; cbn; tauto|exists mC; cbn; tauto]|intros p I; cbn in I; cbn; tauto]).
Example C166_order_instance :
  exists m m' id id', synchronousCompositionPCTMCs (combine (map p_m m3) [None; Some []; None]) [] [["x"; "y"]; ["y"; "x"]]%string "ABC" = (Ok m, []) /\
    synchronousCompositionPCTMCs (combine (map p_m [mC; mA; mB]) [None; None; Some []]) [] [["x"; "y"]; ["y"; "x"]]%string "ABC" = (Ok m', []) /\
    has_tuples m3 (tuple_label m3) m id /\ has_tuples m3 (fun t => tuple_label [mC; mA; mB] [nth 2 t O; nth 0 t O; nth 1 t O]%nat) m' id'.
Proof.
  apply (C166_order mA [mB; mC] [2; 0; 1]%nat [None; Some []; None] [None; None; Some []] [["x"; "y"]; ["y"; "x"]]%string [["x"; "y"]; ["y"; "x"]]%string "ABC").
  - discriminate.
  - cbn. apply Permutation_sym. exact (Permutation_app_comm [0; 1]%nat [2]%nat).
  - exact m3_good.
  - intros p q Ip Iq. rewrite (m3_n p Ip), (m3_n q Iq). lia.
  - split; [reflexivity|]. intros o [<-|[<-|[<-|[]]]]; auto.
  - split; [reflexivity|]. intros o [<-|[<-|[<-|[]]]]; auto.
  - lst.
  - lst.
  - cbn. lia.
Qed.
Example C166_steps_instance :
  exists m m3' m2 id3 id2, synchronousCompositionPCTMCs (combine (map p_m [mA; mB]) [None; None]) [] [["x"; "y"]]%string "AB" = (Ok m, []) /\
    synchronousCompositionPCTMCs (combine (map p_m m3) [None; None; None]) [] [["x"; "y"]; ["y"; "x"]]%string "ABC" = (Ok m3', []) /\
    synchronousCompositionPCTMCs (combine [m; p_m mC] [None; None]) [] [["y"; "x"]]%string "ABC" = (Ok m2, []) /\
    has_tuples m3 (tuple_label m3) m3' id3 /\ has_tuples m3 (tuple_label m3) m2 id2.
Proof.
  destruct (C166_steps mA [mB] mC [None; None] [None; None] [None; None; None] [["x"; "y"]]%string ["y"; "x"]%string [["x"; "y"]; ["y"; "x"]]%string "AB" "ABC") as (m & m3' & id3 & E & E3 & H3 & ST).
  - discriminate.
  - exact m3_good.
  - intros q I. rewrite (m3_n q); [cbn; lia|]. cbn in I |- *. tauto.
  - split; [reflexivity|]. intros o [<-|[<-|[]]]; auto.
  - reflexivity.
  - intros o [<-|[<-|[]]]; auto.
  - split; [reflexivity|]. intros o [<-|[<-|[<-|[]]]]; auto.
  - lst.
  - nd.
  - refine (proj2 (xy_listed m3 ["y"; "x"]%string _ yx _ _ _)); [nd|exists mA; cbn; tauto|exists mB; cbn; tauto|auto].
  - lst.
  - cbn. lia.
  - exists [0; 0]%nat. split; [cbn; tauto|cbn; lra].
  - destruct (C165_many_models mA [mB] [None; None] [["x"; "y"]]%string "AB") as (m0 & keep & E0 & _ & _ & _ & CO).
    + discriminate.
    + intros p I. apply m3_good. cbn in I |- *. tauto.
    + intros q I. rewrite (m3_n q); [cbn; lia|]. cbn in I |- *. tauto.
    + reflexivity.
    + intros o [<-|[<-|[]]]; auto.
    + lst.
    + cbn. lia.
    + rewrite E0 in E. injection E as <-. destruct ST as (m2 & id2 & E2 & H2 & _).
      * rewrite (composed_n _ _ _ CO). destruct CO as (_ & _ & _ & _ & _ & _ & _ & RE & _). assert (I : In [0; 0]%nat (filter keep (tuples (map p_n [mA; mB])))) by (apply RE, treach_start; [cbn; tauto|cbn; lra]). destruct (filter keep _); [contradiction|]. cbn. lia.
      * exists m0, m3', m2, id3, id2. auto.
Qed.

(** Composition of parametric CTMCs (C53, C92). *)
From Coq Require Import String Ascii ZArith QArith Bool Reals Lra Lia Arith List.
From Verif Require Import Num Py MTools MSet MModels MCtor MPctmc MCompose MPCompose SNum SSet SCtor SPctmc SCompose SPCompose LSum LSet LCtor LBW LPctmc LText LAlergia LCompose LPCompose PCtor PPctmc PCompose.
Import ListNotations.
Local Open Scope R_scope.

Lemma pqin n i j : In (i, j) (list_prod (seq 0 n) (seq 0 n)) <-> (i < n)%nat /\ (j < n)%nat.
Proof. rewrite in_prod_iff, !in_seq. lia. Qed.
Lemma pmemb_q n x y : (x < n)%nat -> (y < n)%nat -> memb cell_eqb (x, y) (list_prod (seq 0 n) (seq 0 n)) = true.
Proof. intros. apply (LCtor.memb_In _ cell_eqb_eq). apply pqin. auto. Qed.
Lemma ref0 (m : pctmc R) i j : nth O (pc_expr m) (EConst 0) = EConst 0 -> ref m i j = O -> transition m i j = EConst 0.
Proof. unfold ref, transition. intros Z0 ->. exact Z0. Qed.
Lemma no_init {A} (f : A -> string) l : (forall x, f x <> "init"%string) -> filter (String.eqb "init") (map f l) = [].
Proof. intros H. induction l as [|x l IH]; [reflexivity|]. cbn [map filter]. destruct (String.eqb_spec "init" (f x)) as [E|]; [exfalso; apply (H x); auto|exact IH]. Qed.

Section Comp.
  Variables (n1 n2 : nat) (l1 l2 : list string) (start1 start2 : nat -> R) (m1 m2 : pctmc R) (sync1 sync2 : list sync) (pstr : list string).
  Hypothesis C1 : pcomponent n1 l1 start1 m1.
  Hypothesis C2 : pcomponent n2 l2 start2 m2.
  Hypothesis P2 : (0 < n2)%nat.
  Hypothesis LE : (n2 <= n1 + 1)%nat.
  Hypothesis NL : forall a b, (a < n1)%nat -> (b < n2)%nat -> transition m1 a a = EConst 0 \/ transition m2 b b <> EConst 0.
  Hypothesis S1 : sync_in n1 sync1.
  Hypothesis S2 : sync_in n2 sync2.
  Hypothesis SP : sync_plain m1 m2 sync1 sync2.
  Hypothesis ND : NoDup pstr.
  Hypothesis PE : forall p, In p pstr <-> In p (pc_par m1) \/ In p (pc_par m2).
  Hypothesis BD : (Z.of_nat ((n1 + n2) * (n1 + n2) + length sync1 * length sync2) < 65536)%Z.
  Notation nb := (n1 * n2)%nat.
  Notation q1 := (list_prod (seq 0 n1) (seq 0 n1)).
  Notation q2 := (list_prod (seq 0 n2) (seq 0 n2)).
  Notation q12 := (list_prod (seq 0 n1) (seq 0 n2)).
  Notation sy := (list_prod sync1 sync2).
  Notation st := (flat_map (st_of n2) sy).
  Definition u1 := map start1 (seq 0 n1).
  Definition u2 := map start2 (seq 0 n2).
  Definition X3 := Wl n2 m1 m2 q12 (Wq n2 false m2 q2 (Wq n2 true m1 q1 (fun _ _ => EConst 0))).
  Definition X4 := Wi n1 n2 u1 u2 q12 (Wext nb X3).
  Definition PP := Pq n2 false m2 q2 (Pq n2 true m1 q1 (fun _ _ => False)).

  Lemma pq12 i j : In (i, j) q12 <-> (i < n1)%nat /\ (j < n2)%nat.
  Proof. rewrite in_prod_iff, !in_seq. lia. Qed.
  Lemma psy_in t : In t sy -> (s_src (fst t) < n1 /\ s_dst (fst t) < n1 /\ s_src (snd t) < n2 /\ s_dst (snd t) < n2)%nat.
  Proof. destruct t as [a b]. rewrite in_prod_iff. intros [A B]. apply S1 in A. apply S2 in B. cbn [fst snd]. tauto. Qed.
  (** What the phases leave in a cell. *)
  Lemma X3_spec x y : (x < nb)%nat -> (y < nb)%nat ->
    (forall rho, denote rho (X3 x y) = (if Nat.eqb (x mod n2) (y mod n2) then denote rho (transition m1 (x / n2)%nat (y / n2)%nat) else 0) + (if Nat.eqb (x / n2) (y / n2) then denote rho (transition m2 (x mod n2)%nat (y mod n2)%nat) else 0)) /\
    (forall k, occurs k (X3 x y) <-> PP k (x, y)).
  Proof.
    intros Lx Ly. pose proof (own_lt n1 n2 P2 true x Lx) as A1. pose proof (own_lt n1 n2 P2 true y Ly) as A2. pose proof (own_lt n1 n2 P2 false x Lx) as A3. pose proof (own_lt n1 n2 P2 false y Ly) as A4.
    unfold X3, Wl, Wq, PP, Pq. cbn [own oth size fst snd] in *. rewrite !pmemb_q by assumption. assert (I1 : In (x / n2, y / n2)%nat q1) by (apply pqin; auto). assert (I2 : In (x mod n2, y mod n2)%nat q2) by (apply pqin; auto). assert (M12 : memb cell_eqb (dm n2 x) q12 = true) by (apply (LCtor.memb_In _ cell_eqb_eq), pq12; auto). rewrite M12, !andb_true_r.
    destruct C1 as (_ & _ & _ & Z1 & _). destruct C2 as (_ & _ & _ & Z2 & _).
    destruct (Nat.eqb_spec x y) as [<-|NE]; cbn [andb].
    - rewrite !Nat.eqb_refl. unfold both, dm. cbn [fst snd]. destruct (Nat.eqb_spec (ref m1 (x / n2) (x / n2)) 0) as [R1|R1]; [|destruct (Nat.eqb_spec (ref m2 (x mod n2) (x mod n2)) 0) as [R2|R2]]; cbn [orb negb].
      + rewrite (ref0 m1 _ _ Z1 R1). cbn [denote occurs]. split; [intros; lra|tauto].
      + destruct (NL _ _ A1 A3) as [E|E]; [rewrite E; cbn [denote occurs]; split; [intros; lra|tauto]|]. exfalso. apply E, ref0; assumption.
      + cbn [denote occurs]. split; [reflexivity|tauto].
    - assert (D : ~ (x / n2 = y / n2 /\ x mod n2 = y mod n2)%nat) by (intros [E1 E2]; apply NE; rewrite <- (idx_dm n2 P2 x), <- (idx_dm n2 P2 y), E1, E2; reflexivity).
      destruct (Nat.eqb_spec (x / n2) (y / n2)) as [E1|E1]; cbn [andb].
      + rewrite (proj2 (Nat.eqb_neq (x mod n2) (y mod n2))) by tauto. split; [intros; lra|]. intros k. tauto.
      + destruct (Nat.eqb_spec (x mod n2) (y mod n2)) as [E2|E2]; cbn [andb denote occurs]; (split; [intros; lra|intros k; tauto]).
  Qed.
  Lemma PP_lt k c : (fst c < nb)%nat -> (snd c < nb)%nat -> PP k c -> In k pstr.
  Proof.
    intros L1 L2. pose proof (own_lt n1 n2 P2 true _ L1) as A1. pose proof (own_lt n1 n2 P2 true _ L2) as A2. pose proof (own_lt n1 n2 P2 false _ L1) as A3. pose proof (own_lt n1 n2 P2 false _ L2) as A4. cbn [size] in *.
    destruct C1 as (_ & _ & _ & _ & _ & D1). destruct C2 as (_ & _ & _ & _ & _ & D2). intros [[[]|(_ & _ & O)]|(_ & _ & O)]; apply PE; [left|right]; eauto.
  Qed.
  Lemma qlen : (length q1 = n1 * n1 /\ length q2 = n2 * n2 /\ length q12 = n1 * n2 /\ length sy = length sync1 * length sync2)%nat.
  Proof. rewrite !prod_length, !seq_length. auto. Qed.

  Lemma compose2_ok name : exists m pi, synchronousComposition2PCTMCs m1 m2 sync1 sync2 pstr name = Ok (m, st) /\
    pc_ind m = map (map (fun c => (Z.of_nat (fst c), Z.of_nat (snd c)))) pi /\ pinv (S nb) pstr (bof m pi) X4 (fun k c => (fst c < nb)%nat /\ (snd c < nb)%nat /\ PP k c) /\
    pc_lab m = map (lab12 l1 l2) q12 ++ ["init"%string] /\ pc_name m = name /\ pc_par m = pstr /\ pc_val m = pc_val m1 /\
    (Z.of_nat (length (pc_expr m) + length st) <= 65536)%Z /\
    pc_ini m = map (fun x => if String.eqb x "init" then 1 else 0) (pc_lab m).
  Proof.
    pose proof C1 as (LL1 & NI1 & LB1 & Z1 & ST1 & D1). pose proof C2 as (LL2 & NI2 & LB2 & Z2 & ST2 & D2). destruct qlen as (Q1 & Q2 & Q3 & Q4).
    unfold synchronousComposition2PCTMCs. rewrite LB1, LB2. rewrite (sids_ok n1 l1 n1 l1), (sids_ok n1 l1 n2 l2) by (assumption || lia). rewrite !seq_length. unfold init_ids. rewrite (proj2 (filter_seq_init l1 NI1)), (proj2 (filter_seq_init l2 NI2)), LL1, LL2.
    rewrite !pairs_prod. cbv zeta.
    set (b0 := mkB (repeat (repeat O nb) nb) [EConst n0] pstr [] (map (fun _ => []) pstr)).
    assert (I0 : pinv nb pstr b0 (fun _ _ => EConst 0) (fun _ _ => False)).
    { assert (NR : forall x, (x < nb)%nat -> nth x (repeat (repeat O nb) nb) [] = repeat O nb). { intros x Lx. rewrite (nth_indep _ [] (repeat O nb)) by (rewrite repeat_length; exact Lx). apply nth_repeat. }
      cbn [b0 b_mat b_te b_ps b_pi]. split; [apply repeat_length|]. split; [intros x Lx; cbn [b0 b_mat]; rewrite NR, repeat_length by exact Lx; reflexivity|]. split; [|split; [apply map_length|split; [reflexivity|split; [|split; [reflexivity|split; [cbn; lia|]]]]]].
      - intros x y Lx Ly. cbn [b0 b_mat b_te]. rewrite NR, nth_repeat by exact Lx. cbn. split; [lia|reflexivity].
      - intros q Lq c. cbn [b0 b_pi]. split; [|tauto]. intros I. exfalso. assert (E : nth q (map (fun _ : string => @nil (nat * nat)) pstr) [] = []) by exact (map_nth (fun _ : string => @nil (nat * nat)) pstr EmptyString q). rewrite E in I. exact I.
      - intros k Lk. unfold b0 in Lk. cbn in Lk. lia. }
    assert (DE1 : forall x y k, (x < n1)%nat -> (y < n1)%nat -> occurs k (transition m1 x y) -> In k pstr) by (intros x y k A B O; apply PE; left; exact (D1 x y k A B O)).
    assert (DE2 : forall x y k, (x < n2)%nat -> (y < n2)%nat -> occurs k (transition m2 x y) -> In k pstr) by (intros x y k A B O; apply PE; right; exact (D2 x y k A B O)).
    assert (BDs : (Z.of_nat (1 + (n1 * n1 + n2 * n2 + n1 * n2 + n1 * n2 + length sync1 * length sync2)) <= 65536)%Z) by nia.
    destruct (transitions_ok n1 n2 P2 pstr ND true m1 DE1 q1 b0 _ _ (fun i j I => proj1 (pqin n1 i j) I) I0) as (b1 & E1 & I1 & T1); [cbn [b0 b_te length]; rewrite Q1; lia|]. rewrite E1. cbn [bind]. cbn [b0 b_te length] in T1. rewrite Q1 in T1.
    destruct (transitions_ok n1 n2 P2 pstr ND false m2 DE2 q2 b1 _ _ (fun i j I => proj1 (pqin n2 i j) I) I1) as (b2 & E2 & I2 & T2); [rewrite Q2; lia|]. rewrite E2. cbn [bind]. rewrite Q2 in T2.
    destruct (loops_ok n1 n2 P2 pstr m1 m2 q12 b2 _ _ (fun i j I => proj1 (pq12 i j) I) I2) as (b3 & E3 & I3 & T3); [rewrite Q3; lia|]. rewrite E3. cbn [bind]. rewrite Q3 in T3. fold X3 PP in I3.
    rewrite (sync_trans_ok n1 n2 sync1 sync2 psy_in). cbn [bind]. rewrite (init_trans16_one m1 n1 start1 ST1), (init_trans16_one m2 n2 start2 ST2). cbn [bind]. rewrite !map_length, !seq_length. fold u1 u2.
    assert (I3' : pinv nb pstr b3 X3 (fun k c => (fst c < nb)%nat /\ (snd c < nb)%nat /\ PP k c)) by (apply (pinv_ext nb pstr b3 X3 PP); [reflexivity|intros k c A B; tauto|exact I3]).
    apply extend16_ok in I3'; [|exact P2|intros k c (A & B & _); auto].
    destruct (init16_ok n1 n2 P2 pstr u1 u2 q12 _ _ _ (NoDup_list_prod _ _ _ _ (seq_NoDup n1 0) (seq_NoDup n2 0)) (fun i j I => proj1 (pq12 i j) I) I3') as (b4 & E4 & I4 & T4).
    { intros i j I. unfold Wext. rewrite Nat.ltb_irrefl. reflexivity. }
    { cbn [b_te]. rewrite Q3. lia. }
    rewrite pairs_prod, E4. cbn [bind]. cbn [b_te] in T4. rewrite Q3 in T4. fold X4 in I4.
    pose proof I4 as (ML & MR & EN & LP & PS & PI & Z0 & LT & NZ).
    match goal with |- exists m pi, (do _ <- PCTMC_new ?a ?b' ?c ?d ?e ?f ?h; _) = _ /\ _ => destruct (C86_PCTMC_constructor a b' c d e f h) as (OK & AT & _); destruct (PCTMC_new a b' c d e f h) as [m|x] eqn:EM end.
    2:{ exfalso. assert (X : exists m, @Err (pctmc R) x = Ok m); [|destruct X as (m & X); discriminate]. apply OK. split; [apply in_or_app; right; left; reflexivity|]. split; [rewrite map_length, PS; exact LP|]. split.
        - assert (I : In (nth O (b_mat b4) []) (b_mat b4)) by (apply nth_In; lia). assert (LO : (0 < length (nth O (b_mat b4) []))%nat) by (rewrite MR; lia). exists (map Z.of_nat (nth O (b_mat b4) [])), (Z.of_nat (nth O (nth O (b_mat b4) []) O)). split; apply in_map; [exact I|apply nth_In; exact LO].
        - split; [|rewrite map_length, app_length, map_length, Q3; cbn; lia]. intros r k Ir Ik. apply in_map_iff in Ir as (r' & <- & Ir). apply in_map_iff in Ik as (k' & <- & Ik). destruct (In_nth _ _ [] Ir) as (x' & Lx & Ex). assert (Lr := MR x' ltac:(lia)). rewrite Ex in Lr. destruct (In_nth _ _ O Ik) as (y' & Ly & Ey). destruct (EN x' y') as [A _]; [lia|lia|]. rewrite Ex, Ey in A. lia. }
    destruct (AT m eq_refl) as (A1 & A2 & A3 & A4 & A5 & A6 & A7 & _).
    assert (MM : pc_mat m = b_mat b4). { rewrite A1, map_map. apply map_id_in. intros r _. rewrite map_map. apply map_id_in. intros k _. apply Nat2Z.id. }
    assert (VAL : pc_val m = pc_val m1).
    { assert (DN : forall d : dict R, drop_nan (map (fun p => (fst p, Some (snd p))) d) = d) by (induction d as [|[p v] d IHd]; [reflexivity|]; unfold drop_nan in *; cbn; rewrite IHd; reflexivity).
      rewrite <- (DN (pc_val m1)). clear -EM. unfold PCTMC_new in EM. repeat (destruct (negb _); [discriminate|]). destruct (zmax _) as [z|]; cbn [bind] in EM; [|discriminate]. destruct (_ <=? z)%Z; [discriminate|]. destruct (zmin _) as [z'|]; cbn [bind] in EM; [|discriminate]. destruct (_ <? _)%Z; [discriminate|]. destruct (negb _); [discriminate|]. destruct (model_init _ _); cbn [bind] in EM; [|discriminate]. injection EM as <-. reflexivity. }
    assert (EL : map (fun ab : nat * nat => (nth (fst ab) (l1 ++ ["init"]) EmptyString ++ "," ++ nth (snd ab) (l2 ++ ["init"]) EmptyString)%string) q12 = map (lab12 l1 l2) q12).
    { apply map_ext_in. intros [a b] I. apply pq12 in I as [La Lb]. unfold lab12. cbn [fst snd]. rewrite !app_nth1 by lia. reflexivity. }
    rewrite EL in A2, A7.
    exists m, (b_pi b4). cbn [bind]. split; [reflexivity|]. split; [exact A4|]. split; [|split; [exact A2|split; [exact A6|split; [rewrite A5; exact PS|split; [exact VAL|split]]]]].
    - unfold bof, pinv. cbn [b_mat b_te b_ps b_pi]. rewrite MM, A3, A5. exact I4.
    - rewrite A3. assert (SL := st_len n2 P2 sy). rewrite Q4 in SL. lia.
    - rewrite A2. destruct A7 as (U1 & _ & U3). assert (LC : label_count "init" (map (lab12 l1 l2) q12 ++ ["init"%string]) = 1%nat).
      { unfold label_count. rewrite filter_app. rewrite no_init by (intros ab; apply comma_not_init). reflexivity. }
      rewrite LC in U3. apply (nth_ext _ _ 0 0); [rewrite map_length; exact U1|]. intros s Ls. rewrite U1 in Ls. specialize (U3 s Ls). unfold vecR in U3. rewrite U3.
      rewrite (nth_indep _ 0 ((fun x => if String.eqb x "init" then 1 else 0) EmptyString)) by (rewrite map_length; exact Ls). rewrite (map_nth (fun x => if String.eqb x "init" then 1 else 0)). destruct (String.eqb _ _); [cbn; lra|reflexivity].
  Qed.

  Lemma X4_in x y : (x < nb)%nat -> (y < nb)%nat -> X4 x y = X3 x y.
  Proof. intros Lx Ly. unfold X4, Wi. rewrite (proj2 (Nat.eqb_neq x nb)) by lia. cbn [andb]. unfold Wext. rewrite (proj2 (Nat.ltb_lt _ _) Lx), (proj2 (Nat.ltb_lt _ _) Ly). reflexivity. Qed.
  Lemma X4_start y : (y < nb)%nat -> X4 nb y = EConst (start1 (y / n2)%nat * start2 (y mod n2)%nat).
  Proof.
    intros Ly. pose proof (own_lt n1 n2 P2 true y Ly) as A2. pose proof (own_lt n1 n2 P2 false y Ly) as A4. cbn [own size] in A2, A4.
    assert (M12 : memb cell_eqb (dm n2 y) q12 = true) by (apply (LCtor.memb_In _ cell_eqb_eq), pq12; auto). unfold X4, Wi. rewrite Nat.eqb_refl, (proj2 (Nat.ltb_lt _ _) Ly), M12. cbn [andb].
    assert (N1 : nth (y / n2) u1 0 = start1 (y / n2)%nat) by (unfold u1; apply (nth_error_nth _ _ 0), nth_row; exact A2). assert (N2 : nth (y mod n2) u2 0 = start2 (y mod n2)%nat) by (unfold u2; apply (nth_error_nth _ _ 0), nth_row; exact A4).
    unfold posq, dm. cbn [fst snd]. rewrite N1, N2. unfold Reqb. destruct (Req_EM_T _ _) as [E|E]; cbn [negb]; [|reflexivity]. rewrite E. unfold Wext. rewrite Nat.ltb_irrefl. reflexivity.
  Qed.
  Lemma X4_init x : X4 x nb = EConst 0.
  Proof. unfold X4, Wi. rewrite Nat.ltb_irrefl, andb_false_r. cbn [andb]. unfold Wext. rewrite Nat.ltb_irrefl, andb_false_r. reflexivity. Qed.
  Lemma pdm_idx a b : (b < n2)%nat -> dm n2 (a * n2 + b) = (a, b).
  Proof. intros L. unfold dm. destruct (divmod n2 P2 a b L) as [-> ->]. reflexivity. Qed.

  Lemma pcompose_ok name : exists m0 m keep, let kept := filter keep q12 in
    synchronousComposition2PCTMCs m1 m2 sync1 sync2 pstr name = Ok (m0, st) /\ (do ms <- mfold add_sync16 st m0; Ok (clean ms)) = Ok m /\
    (st = [] -> (forall a, (a < n1)%nat -> ref m1 a a = O) -> (forall b, (b < n2)%nat -> ref m2 b b = O) -> forall x, (x < length kept)%nat -> ref m x x = O) /\ pc_name m = name /\ pc_par m = pstr /\ (forall p, current m p = current m1 p) /\
    pc_lab m = map (lab12 l1 l2) kept ++ ["init"%string] /\ wf_pctmc m /\ uniform_on_init (pc_lab m) (pc_ini m) /\
    (forall rho x y, (x < length kept)%nat -> (y < length kept)%nat -> denote rho (transition m x y) = pprod rho m1 m2 sync1 sync2 (nth x kept (O, O)) (nth y kept (O, O))) /\
    (forall y, (y < length kept)%nat -> transition m (length kept) y = EConst (start1 (fst (nth y kept (O, O))) * start2 (snd (nth y kept (O, O))))) /\
    (forall x, (x <= length kept)%nat -> transition m x (length kept) = EConst 0) /\
    (forall ab, preach m1 m2 n1 n2 start1 start2 sync1 sync2 ab -> In ab kept) /\
    (forall y, (y < length kept)%nat -> exists x, (x <= length kept)%nat /\ transition m x y <> EConst 0) /\
    (forall p x y, In (Z.of_nat x, Z.of_nat y) (parameterIndexes m p) <-> (x < pc_n m)%nat /\ (y < pc_n m)%nat /\ occurs p (transition m x y)).
  Proof.
    destruct (compose2_ok name) as (m0 & pi0 & E0 & IND & PV & LB & NM & PA & VA & BT & INI).
    destruct (sync16_ok (S nb) pstr pi0 st m0 X4 _ PV) as (ms & W & EMS & PV' & LB' & VA' & IND' & PA' & INI' & NM' & DW & OW & SW).
    { intros t I. destruct (st_in n1 n2 P2 sy t psy_in I). lia. }
    { intros t k I. destruct (st_in n1 n2 P2 sy t psy_in I) as [Lx Ly]. rewrite X4_in by assumption. rewrite (proj2 (X3_spec _ _ Lx Ly)). apply in_flat_map in I as ([t1 t2] & I & Iu). pose proof (psy_in _ I) as (Q1 & Q2 & Q3 & Q4). apply in_prod_iff in I as [I1 I2]. cbn [fst snd] in *.
      unfold st_of in Iu. cbn [fst snd] in Iu. destruct (String.eqb_spec (s_act t1) (s_act t2)) as [EA|]; [|destruct Iu]. destruct Iu as [<-|[]]. destruct (SP t1 t2 k I1 I2 EA) as [SP1 SP2].
      match goal with |- ~ PP k (s_src (?a, ?b, ?c, ?d), _) => change (~ PP k (a, c)) end. unfold PP, Pq. cbn [own oth fst snd]. destruct (divmod n2 P2 (s_src t1) _ Q3) as [-> ->]. destruct (divmod n2 P2 (s_dst t1) _ Q4) as [-> ->]. intros [[[]|(A & _ & B)]|(A & _ & B)]; [apply (SP1 A B)|apply (SP2 A B)]. }
    { exact BT. }
    assert (OUT : forall x y, (x < nb /\ y < nb)%nat \/ W x y = X4 x y). { intros x y. destruct (Nat.lt_ge_cases x nb); [destruct (Nat.lt_ge_cases y nb); [left; auto|]|]; right; apply SW; intros t I [= E1 E2]; destruct (st_in n1 n2 P2 sy t psy_in I); lia. }
    assert (WI : forall x, W x nb = EConst 0). { intros x. destruct (OUT x nb) as [[_ L]|E]; [lia|]. rewrite E. apply X4_init. }
    assert (WS : forall y, (y < nb)%nat -> W nb y = EConst (start1 (y / n2)%nat * start2 (y mod n2)%nat)). { intros y Ly. destruct (OUT nb y) as [[L _]|E]; [lia|]. rewrite E. apply X4_start, Ly. }
    assert (WV : forall rho x y, (x < nb)%nat -> (y < nb)%nat -> denote rho (W x y) = pprod rho m1 m2 sync1 sync2 (dm n2 x) (dm n2 y)).
    { intros rho x y Lx Ly. rewrite DW by lia. rewrite X4_in by assumption. rewrite (proj1 (X3_spec x y Lx Ly)). rewrite (st_sum n2 P2) by (intros t I; apply psy_in in I; tauto). reflexivity. }
    assert (WO : forall k x y, (x < S nb)%nat -> (y < S nb)%nat -> occurs k (W x y) <-> (x < nb)%nat /\ (y < nb)%nat /\ PP k (x, y)).
    { intros k x y Lx Ly. rewrite OW by assumption. destruct (Nat.eq_dec y nb) as [->|]; [rewrite X4_init; cbn [occurs]; split; [tauto|lia]|]. destruct (Nat.eq_dec x nb) as [->|]; [rewrite X4_start by lia; cbn [occurs]; split; [tauto|lia]|]. rewrite X4_in by lia. rewrite (proj2 (X3_spec x y ltac:(lia) ltac:(lia))). split; [intros; split; [lia|split; [lia|assumption]]|tauto]. }
    destruct PV' as (ML & MR & EN & LP & _ & PI & Z0 & LT & NZ). cbn [bof b_mat b_te b_pi] in *.
    set (lab := fun x => lab12 l1 l2 (dm n2 x)).
    destruct (removal_ok nb (pc_expr ms) pstr W lab Z0 NZ (fun x _ => comma_not_init _ _) (@shift2) shift2_good) with (fuel := S nb) (f := fun _ : nat => true) (mat := pc_mat ms) (pi := pi0) as (g & mat & pi & ER & CL & (ML' & MR' & EN' & LP' & PI') & INC).
    { rewrite <- minv_filter_all, app_length, seq_length. cbn. lia. }
    { intros x y _ Ly _. rewrite <- minv_filter_all. apply in_or_app. left. apply in_seq. lia. }
    { rewrite <- minv_filter_all, app_length, seq_length. cbn [length]. rewrite Nat.add_1_r. split; [exact ML|]. split; [exact MR|].
      assert (EX : forall x, (x < S nb)%nat -> nth x (filter (fun _ => true) (seq 0 nb) ++ [nb]) O = x). { intros x Lx. rewrite <- minv_filter_all. replace (seq 0 nb ++ [nb]) with (seq 0 (S nb)) by (rewrite seq_S; reflexivity). apply seq_nth, Lx. }
      split; [intros x y Lx Ly; unfold Wk; rewrite !EX by assumption; apply EN; assumption|]. split; [exact LP|]. intros q Lq c. rewrite (PI q Lq). unfold Wk. split; intros (A & B & D); (split; [exact A|split; [exact B|]]); [rewrite !EX by assumption; apply WO; assumption|rewrite !EX in D by assumption; apply WO in D; assumption]. }
    set (k0 := filter g (seq 0 nb)) in *. set (keep := fun ab : nat * nat => g (fst ab * n2 + snd ab)%nat).
    assert (KE : filter keep q12 = map (dm n2) k0).
    { rewrite <- (prod_seq n1 n2 P2), filter_map. unfold k0. f_equal. apply filter_ext. intros x. unfold keep, dm. cbn [fst snd]. rewrite idx_dm by exact P2. reflexivity. }
    assert (LK : length (filter keep q12) = length k0) by (rewrite KE, map_length; reflexivity).
    assert (K0 : forall x, (x < length k0)%nat -> (nth x k0 O < nb)%nat /\ nth x (filter keep q12) (O, O) = dm n2 (nth x k0 O)).
    { intros x Lx. split; [|rewrite KE; assert (D : dm n2 O = (O, O)) by (unfold dm; rewrite Nat.div_0_l, Nat.mod_0_l by lia; reflexivity); rewrite <- D; apply map_nth]. assert (I : In (nth x k0 O) k0) by (apply nth_In; exact Lx). apply filter_In in I as [I _]. apply in_seq in I. lia. }
    assert (LKN : length (k0 ++ [nb]) = S (length k0)) by (rewrite app_length; cbn; lia). rewrite LKN in ML', MR', EN', PI'.
    assert (N1 : forall x, (x < length k0)%nat -> nth x (k0 ++ [nb]) O = nth x k0 O) by (intros x Lx; apply app_nth1; exact Lx).
    assert (N2 : nth (length k0) (k0 ++ [nb]) O = nb) by (rewrite app_nth2, Nat.sub_diag by lia; reflexivity).
    assert (CE : forall k, In k (concat mat) -> (k < length (pc_expr ms))%nat).
    { intros k I. apply in_concat in I as (r & Ir & Ik). destruct (In_nth _ _ [] Ir) as (x' & Lx & Ex). assert (Lr := MR' x' ltac:(lia)). rewrite Ex in Lr. destruct (In_nth _ _ O Ik) as (y' & Ly & Ey). destruct (EN' x' y') as [A _]; [lia|lia|]. rewrite Ex, Ey in A. exact A. }
    assert (CI : forall x y, (x < S (length k0))%nat -> (y < S (length k0))%nat -> In (nth y (nth x mat []) O) (concat mat)). { intros x y Lx Ly. apply in_concat. exists (nth x mat []). split; apply nth_In; [lia|rewrite MR'; lia]. }
    destruct (unused_ok (pc_expr ms) mat CE) as (fx & UE). cbv zeta in UE. destruct (remove_unused (length (unused (pc_expr ms) mat)) (unused (pc_expr ms) mat) (pc_expr ms) mat) as [te' mat'] eqn:UU. destruct UE as (UM & F0 & UV).
    set (m := mkPC mat' (map lab k0 ++ ["init"%string]) te' (pc_val m1) (map (map (fun c => (Z.of_nat (fst c), Z.of_nat (snd c)))) pi) pstr (map (fun x => if String.eqb x "init" then 1 else 0) (map lab k0 ++ ["init"%string])) name).
    assert (CLN : clean ms = m).
    { unfold clean. rewrite IND', IND, INI', INI, LB', LB. unfold pc_n. rewrite ML.
      assert (NI : map (map (fun c : Z * Z => (Z.to_nat (fst c), Z.to_nat (snd c)))) (map (map (fun c : nat * nat => (Z.of_nat (fst c), Z.of_nat (snd c)))) pi0) = pi0).
      { rewrite map_map. apply map_id_in. intros r _. rewrite map_map. apply map_id_in. intros [a c] _. cbn [fst snd]. rewrite !Nat2Z.id. reflexivity. }
      rewrite NI. assert (EL : map (lab12 l1 l2) q12 = map lab (filter (fun _ => true) (seq 0 nb))) by (rewrite <- minv_filter_all, <- (prod_seq n1 n2 P2), map_map; reflexivity).
      rewrite EL. rewrite (remove16_eq _ _ _ _ _ _ _ _ ER). rewrite UU. rewrite VA', VA, PA', PA, NM', NM. reflexivity. }
    assert (PN : pc_n m = S (length k0)) by (unfold pc_n, m; cbn [pc_mat]; rewrite UM, map_length; lia).
    assert (REF : forall x y, (x < S (length k0))%nat -> (y < S (length k0))%nat -> nth y (nth x mat' []) O = fx (nth y (nth x mat []) O)).
    { intros x y Lx Ly. rewrite UM. assert (E : nth x (map (map fx) mat) [] = map fx (nth x mat [])) by exact (map_nth (map fx) mat [] x). rewrite E. rewrite <- F0 at 1. apply map_nth. }
    assert (TR : forall x y, (x < S (length k0))%nat -> (y < S (length k0))%nat -> transition m x y = W (nth x (k0 ++ [nb]) O) (nth y (k0 ++ [nb]) O)).
    { intros x y Lx Ly. unfold transition, m. cbn [pc_mat pc_expr]. rewrite REF by assumption. destruct (UV _ (CI x y Lx Ly)) as [_ ->]. destruct (EN' x y Lx Ly) as [_ E]. exact E. }
    assert (ZN : nth (length k0) (nth (length k0) mat []) O = O).
    { destruct (EN' (length k0) (length k0)) as [A B]; [lia|lia|]. unfold Wk in B. fold k0 in B. rewrite N2, WI in B. destruct (Nat.eq_dec (nth (length k0) (nth (length k0) mat []) O) 0) as [E|E]; [exact E|]. exfalso. apply (NZ (nth (length k0) (nth (length k0) mat []) O)); [lia|exact B]. }
    exists m0, m, keep. cbv zeta. rewrite LK. split; [exact E0|]. split; [rewrite EMS; cbn [bind]; rewrite CLN; reflexivity|]. split.
    { intros NS L1 L2 x Lx. unfold ref, m. cbn [pc_mat]. rewrite REF by lia. destruct (EN' x x) as [A B]; [lia|lia|]. unfold Wk in B. fold k0 in B. rewrite N1 in B by exact Lx. destruct (K0 x Lx) as [Bx _].
      destruct (C1) as (_ & _ & _ & Y1 & _). destruct (C2) as (_ & _ & _ & Y2 & _). pose proof (own_lt n1 n2 P2 true _ Bx) as D1. pose proof (own_lt n1 n2 P2 false _ Bx) as D2. cbn [own size] in D1, D2.
      assert (WZ : W (nth x k0 O) (nth x k0 O) = EConst 0).
      { rewrite SW by (rewrite NS; intros t []). rewrite X4_in by exact Bx. unfold X3, Wl, both, dm. cbn [fst snd]. rewrite (L1 _ D1). cbn [Nat.eqb orb negb]. rewrite andb_false_r. unfold Wq. cbn [own oth].
        destruct (_ && _)%bool; [apply ref0; [exact Y2|apply L2, D2]|]. destruct (_ && _)%bool; [apply ref0; [exact Y1|apply L1, D1]|reflexivity]. }
      rewrite WZ in B. destruct (Nat.eq_dec (nth x (nth x mat []) O) 0) as [G|G]; [rewrite G; exact F0|]. exfalso. apply (NZ (nth x (nth x mat []) O)); [lia|exact B]. }
    split; [reflexivity|]. split; [reflexivity|]. split; [reflexivity|]. split; [unfold m; cbn [pc_lab]; rewrite KE, map_map; reflexivity|]. split; [|split; [|split; [|split; [|split; [|split; [|split]]]]]].
    - split; [|split; [unfold m at 1; cbn [pc_lab]; rewrite PN, app_length, map_length; cbn; lia|]].
      + intros r Ir. cbn [m pc_mat] in Ir. destruct (In_nth _ _ [] Ir) as (x & Lx & <-). assert (LM : length mat' = S (length k0)) by (rewrite UM, map_length; exact ML'). rewrite LM in Lx.
        assert (LR : length (nth x mat' []) = S (length k0)). { rewrite UM. assert (E : nth x (map (map fx) mat) [] = map fx (nth x mat [])) by exact (map_nth (map fx) mat [] x). rewrite E, map_length. apply MR'. lia. }
        rewrite PN. split; [exact LR|]. intros k Ik. destruct (In_nth _ _ O Ik) as (y & Ly & <-). rewrite LR in Ly. rewrite REF by assumption. cbn [m pc_expr]. apply UV, CI; assumption.
      + split; [cbn [m pc_ini]; rewrite map_length, PN, app_length, map_length; cbn; lia|]. split.
        * cbn [m pc_expr]. destruct (UV _ (CI (length k0) (length k0) ltac:(lia) ltac:(lia))) as [_ U]. rewrite ZN, F0 in U. rewrite U. exact Z0.
        * cbn [m pc_ini]. intros x I. apply in_map_iff in I as (l & <- & _). destruct (String.eqb l "init"); lra.
    - cbn [m pc_lab pc_ini]. assert (LC : label_count "init" (map lab k0 ++ ["init"%string]) = 1%nat).
      { unfold label_count. rewrite filter_app. rewrite no_init by (intros ab; apply comma_not_init). reflexivity. }
      assert (U := uniform_init_spec (map lab k0 ++ ["init"%string]) ltac:(apply in_or_app; right; left; reflexivity)). rewrite LC in U. cbn [INR] in U. replace (1 / 1) with 1 in U by lra. exact U.
    - intros rho x y Lx Ly. rewrite TR by lia. rewrite !N1 by assumption. destruct (K0 x Lx) as [Bx ->]. destruct (K0 y Ly) as [By ->]. apply WV; assumption.
    - intros y Ly. rewrite TR by lia. rewrite N2, N1 by assumption. destruct (K0 y Ly) as [By ->]. apply WS; assumption.
    - intros x Lx. rewrite TR by lia. rewrite N2. apply WI.
    - assert (IK : forall a c, (c < n2)%nat -> In (a * n2 + c)%nat k0 -> In (a, c) (filter keep q12)) by (intros a c Lc I; rewrite KE, <- (pdm_idx a c Lc); apply in_map, I).
      assert (IN : forall y, (y < nb)%nat -> In y (k0 ++ [nb]) -> In y k0) by (intros y Ly I; apply in_app_or in I as [I|[I|[]]]; [exact I|lia]).
      intros ab RE. induction RE as [[a c] La Lc PS|[a c] [a' c'] rho _ IH La Lc PR]; cbn [fst snd] in *; apply (IK _ _ Lc); assert (Ly := idx_lt n1 n2 P2 _ _ La Lc); apply (IN _ Ly).
      + apply (CL nb); [apply in_or_app; right; left; reflexivity|exact Ly|]. rewrite WS by exact Ly. destruct (divmod n2 P2 a c Lc) as [-> ->]. intros [= E]. contradiction.
      + rewrite KE in IH. apply in_map_iff in IH as (x & Ex & Ix). assert (Lx : (x < nb)%nat) by (apply filter_In in Ix as [Ix _]; apply in_seq in Ix; lia).
        apply (CL x); [apply in_or_app; left; exact Ix|exact Ly|]. intros Z. apply PR. rewrite <- Ex, <- (pdm_idx a' c' Lc), <- WV by assumption. rewrite Z. reflexivity.
    - intros y Ly. destruct (INC (nth y k0 O)) as (x & Ix & NE); [apply nth_In; exact Ly|]. destruct (In_nth _ _ O Ix) as (x' & Lx & Ex). exists x'. split; [lia|]. rewrite TR by lia. rewrite Ex, N1 by exact Ly. exact NE.
    - intros p x y. unfold parameterIndexes. cbn [m pc_ind pc_par]. fold m. rewrite PN. destruct (index_of String.eqb p pstr) as [k|] eqn:IX.
      + apply (LCtor.index_of_Some String.eqb String.eqb_eq) in IX. assert (Lk : (k < length pstr)%nat) by (apply nth_error_Some; congruence). apply (nth_error_nth _ _ EmptyString) in IX.
        assert (D : nth k (map (map (fun c => (Z.of_nat (fst c), Z.of_nat (snd c)))) pi) [] = map (fun c => (Z.of_nat (fst c), Z.of_nat (snd c))) (nth k pi [])) by exact (map_nth (map (fun c => (Z.of_nat (fst c), Z.of_nat (snd c)))) pi [] k). rewrite D. rewrite in_map_iff. split.
        * intros ([a c] & E & I). cbn [fst snd] in E. injection E as E1 E2. apply Nat2Z.inj in E1, E2. subst a c. apply (PI' k Lk) in I as (B1 & B2 & O). cbn [fst snd] in *. rewrite IX in O. split; [exact B1|split; [exact B2|]]. rewrite TR by assumption. exact O.
        * intros (B1 & B2 & O). exists (x, y). split; [reflexivity|]. apply (PI' k Lk). cbn [fst snd]. split; [exact B1|split; [exact B2|]]. rewrite IX. rewrite TR in O by assumption. exact O.
      + split; [intros []|]. intros (B1 & B2 & OO). exfalso. rewrite TR in OO by assumption.
        assert (NB : forall x, (x < S (length k0))%nat -> (nth x (k0 ++ [nb]) O < S nb)%nat). { intros z Lz. destruct (Nat.eq_dec z (length k0)) as [->|]; [rewrite N2; lia|]. rewrite N1 by lia. destruct (K0 z); lia. }
        apply WO in OO as (O1 & O2 & OO); [|apply NB, B1|apply NB, B2]. apply PP_lt in OO; [|exact O1|exact O2]. destruct (LCtor.index_of_In String.eqb String.eqb_eq _ _ OO). congruence.
  Qed.
End Comp.

(** ** C92: composition of two PCTMCs.
    The models end with their state labelled 'init', whose rates have values.
    [o1], [o2]: their own lists of synchronous transitions, or the shared
    default list.  The guards: the second model has at most one state more than
    the first; if the first one has a self loop then every state of the second
    one has one; no synchronous transition on top of a transition with a parameter;
    fewer than 65536 expressions. *)
Definition the_list (o : option (list sync)) (dflt : list sync) : list sync := match o with Some l => l | None => dflt end.
Theorem C92_pctmc_composition_partial : forall n1 n2 l1 l2 start1 start2 (m1 m2 : pctmc R) (o1 o2 : option (list sync)) dflt pstr name,
  let sync1 := the_list o1 dflt in let sync2 := the_list o2 dflt in
  pcomponent n1 l1 start1 m1 -> pcomponent n2 l2 start2 m2 -> (0 < n2 <= n1 + 1)%nat ->
  (forall a b, (a < n1)%nat -> (b < n2)%nat -> transition m1 a a = EConst 0 \/ transition m2 b b <> EConst 0) ->
  sync_in n1 sync1 -> sync_in n2 sync2 -> sync_plain m1 m2 sync1 sync2 ->
  NoDup pstr -> (forall p, In p pstr <-> In p (pc_par m1) \/ In p (pc_par m2)) ->
  (Z.of_nat ((n1 + n2) * (n1 + n2) + length sync1 * length sync2) < 65536)%Z ->
  exists m keep, let kept := filter keep (list_prod (seq 0 n1) (seq 0 n2)) in
    synchronousCompositionPCTMCs [(m1, o1); (m2, o2)] dflt [pstr] name = (Ok m, dflt) /\ pc_name m = name /\ pc_par m = pstr /\
    (* the values are those of the first model *)
    (forall p, current m p = current m1 p) /\
    (* states: pairs in order, then the initial state *)
    pc_lab m = map (fun ab => nth (fst ab) l1 EmptyString ++ "," ++ nth (snd ab) l2 EmptyString)%string kept ++ ["init"%string] /\
    wf_pctmc m /\ uniform_on_init (pc_lab m) (pc_ini m) /\
    (* rates, for all values of the parameters *)
    (forall rho x y, (x < length kept)%nat -> (y < length kept)%nat -> denote rho (transition m x y) = pprod rho m1 m2 sync1 sync2 (nth x kept (O, O)) (nth y kept (O, O))) /\
    (forall y, (y < length kept)%nat -> transition m (length kept) y = EConst (start1 (fst (nth y kept (O, O))) * start2 (snd (nth y kept (O, O))))) /\
    (forall x, (x <= length kept)%nat -> transition m x (length kept) = EConst 0) /\
    (* no reachable pair is missing, no pair without incoming transition is left *)
    (forall ab, preach m1 m2 n1 n2 start1 start2 sync1 sync2 ab -> In ab kept) /\
    (forall y, (y < length kept)%nat -> exists x, (x <= length kept)%nat /\ transition m x y <> EConst 0) /\
    (* the declared positions of each parameter *)
    (forall p x y, In (Z.of_nat x, Z.of_nat y) (parameterIndexes m p) <-> (x < pc_n m)%nat /\ (y < pc_n m)%nat /\ occurs p (transition m x y)).
Proof.
  intros n1 n2 l1 l2 start1 start2 m1 m2 o1 o2 dflt pstr name sync1 sync2 C1 C2 [P2 LE] NL S1 S2 SP ND PE BD.
  destruct (pcompose_ok n1 n2 l1 l2 start1 start2 m1 m2 sync1 sync2 pstr C1 C2 P2 LE NL S1 S2 SP ND PE BD name) as (m0 & m & keep & E0 & E1 & _ & REST).
  exists m, keep. cbv zeta. split; [|exact REST]. unfold synchronousCompositionPCTMCs. cbn [compose_loop hd tl].
  assert (EQ : synchronousComposition2PCTMCs m1 m2 match match o1 with Some l => Some (l ++ []) | None => None end with Some l => l | None => match match o1 with Some l => Some (l ++ []) | None => None end with Some _ => dflt | None => dflt ++ [] end end
     match o2 with Some l => l | None => match match o1 with Some l => Some (l ++ []) | None => None end with Some _ => dflt | None => dflt ++ [] end end pstr name = Ok (m0, flat_map (st_of n2) (list_prod sync1 sync2))).
  { rewrite <- E0. unfold sync1, sync2, the_list. destruct o1, o2; rewrite ?app_nil_r; reflexivity. }
  rewrite EQ. cbn [bind]. rewrite E1. destruct o1; rewrite ?app_nil_r; reflexivity.
Qed.
Print Assumptions C92_pctmc_composition_partial.

(** Parameters in both models, self loops in both, one synchronous transition. *)
Definition pA : pctmc R := mkPC [[1; 2; 0]; [3; 1; 0]; [3; 0; 0]]%nat ["a"; "b"; "init"]%string [EConst 0; EVar "x"; EMul (EConst 2) (EVar "y"); EConst 1] [("x"%string, 5)] [[]; []] ["x"; "y"]%string [0; 0; 1] "A".
Definition pB : pctmc R := mkPC [[1; 0; 0]; [2; 3; 0]; [4; 4; 0]]%nat ["c"; "d"; "init"]%string [EConst 0; EVar "y"; EVar "z"; EConst 7; EConst (/ 2)] [] [[]; []] ["y"; "z"]%string [0; 0; 1] "B".
Definition stA (s : nat) : R := match s with O => 1 | _ => 0 end.
Definition stB (s : nat) : R := / 2.
Lemma const_rate (m : pctmc R) i j v : transition m i j = EConst v -> has_rate m (current m) i j v.
Proof. intros E. unfold has_rate. rewrite E. exists (fun _ => 0). split; [intros x []|reflexivity]. Qed.
Lemma pA_ok : pcomponent 2 ["a"; "b"]%string stA pA.
Proof.
  split; [reflexivity|]. split; [cbn; intros [E|[E|[]]]; discriminate|]. split; [reflexivity|]. split; [reflexivity|]. split.
  - intros [|[|s]] L; try lia; apply const_rate; reflexivity.
  - intros [|[|x]] [|[|y]] k Lx Ly; try lia; unfold transition; cbn; tauto || (intros ->; auto) || (intros [[]| ->]; auto).
Qed.
Lemma pB_ok : pcomponent 2 ["c"; "d"]%string stB pB.
Proof.
  split; [reflexivity|]. split; [cbn; intros [E|[E|[]]]; discriminate|]. split; [reflexivity|]. split; [reflexivity|]. split.
  - intros [|[|s]] L; try lia; apply const_rate; reflexivity.
  - intros [|[|x]] [|[|y]] k Lx Ly; try lia; unfold transition; cbn; tauto || (intros ->; auto).
Qed.
Example C92_instance :
  (forall a b, (a < 2)%nat -> (b < 2)%nat -> transition pA a a = EConst 0 \/ transition pB b b <> EConst 0) /\
  (forall rho, pprod rho pA pB sA sB (0, 1)%nat (1, 0)%nat = 35) /\ (forall rho, pprod rho pA pB sA sB (1, 0)%nat (1, 0)%nat = rho "x"%string + rho "y"%string) /\
  exists m, synchronousCompositionPCTMCs [(pA, Some sA); (pB, Some sB)] [] [["z"; "y"; "x"]%string] "AB" = (Ok m, []).
Proof.
  assert (G : forall a b, (a < 2)%nat -> (b < 2)%nat -> transition pA a a = EConst 0 \/ transition pB b b <> EConst 0) by (intros a [|[|b]] La Lb; try lia; right; unfold transition; cbn; [discriminate|intros [= E]; lra]).
  split; [exact G|]. split; [intros rho; unfold pprod, sumL, sync_rate; cbn; lra|]. split; [intros rho; unfold pprod, sumL, sync_rate, transition; cbn; lra|].
  destruct (C92_pctmc_composition_partial 2 2 ["a"; "b"]%string ["c"; "d"]%string stA stB pA pB (Some sA) (Some sB) [] ["z"; "y"; "x"]%string "AB" pA_ok pB_ok) as (m & _ & E & _); [lia|exact G| | | | | |cbn; lia|exists m; exact E].
  - intros t [<-|[]]; cbn; lia.
  - intros t [<-|[<-|[]]]; cbn; lia.
  - intros t u k [<-|[]] [<-|[<-|[]]]; cbn; intros EA; try discriminate; split; discriminate.
  - repeat constructor; cbn; intros I; repeat (destruct I as [I|I]; [discriminate|]); exact I.
  - intros p. cbn. tauto.
Qed.

(** ** The guards and the values of the second model (over the rationals, by
    computation) *)
Local Open Scope Q_scope.
Definition kA : pctmc Q := mkPC [[0; 0]; [1; 0]]%nat ["a"; "init"]%string [EConst 0; EConst 1] [] [] [] [0; 1] "A".
Definition kB : pctmc Q := mkPC [[0; 1; 0]; [2; 0; 0]; [2; 0; 0]]%nat ["b"; "c"; "init"]%string [EConst 0; EVar "x"; EConst 1] [("x"%string, 3)] [[(0, 1)%Z]] ["x"%string] [0; 0; 1] "B".
(** Both models are instantiated, their composition is not. *)
Theorem C92_second_values_refuted : exists m, synchronousCompositionPCTMCs [(kA, Some []); (kB, Some [])] [] [["x"%string]] "AB" = (Ok m, []) /\
  inst_model kA = true /\ inst_model kB = true /\ inst_model m = false /\ pc_lab m = ["a,b"; "a,c"; "init"]%string /\ evaluateTransition kB 0 1 None = Some 3 /\ evaluateTransition m 0 1 None = None.
Proof. eexists. split; [vm_compute; reflexivity|]. vm_compute. repeat split. Qed.
Print Assumptions C92_second_values_refuted.
(** A self loop of the first model disappears when the second one has none. *)
Definition kL : pctmc Q := mkPC [[1; 0]; [2; 0]]%nat ["a"; "init"]%string [EConst 0; EConst 4; EConst 1] [] [] [] [0; 1] "L".
Theorem C92_self_loop_refuted : exists m, synchronousCompositionPCTMCs [(kL, Some []); (kA, Some [])] [] [[]] "LA" = (Ok m, []) /\
  pc_lab m = ["a,a"; "init"]%string /\ evaluateTransition kL 0 0 None = Some 4 /\ evaluateTransition m 0 0 None = Some 0.
Proof. eexists. split; [vm_compute; reflexivity|]. vm_compute. repeat split. Qed.
Print Assumptions C92_self_loop_refuted.
(** A synchronous transition where one of the models stays in its state, and the
    other one also has a transition with a parameter: ValueError.  Without the
    parameter (or without the synchronous transition) the models are composed. *)
Definition kX (e : expr Q) (ps : list string) : pctmc Q := mkPC [[0; 1; 0]; [2; 0; 0]; [2; 0; 0]]%nat ["a"; "b"; "init"]%string [EConst 0; e; EConst 1] [] (map (fun _ => [(0, 1)%Z]) ps) ps [0; 0; 1] "X".
Theorem C92_sync_on_parameter_refuted :
  synchronousCompositionPCTMCs [(kX (EVar "x") ["x"%string], Some [(0%nat, "go"%string, 1%nat, 2)]); (kA, Some [(0%nat, "go"%string, 0%nat, 3)])] [] [["x"%string]] "XA" = (Err ValueError, []) /\
  (exists m, synchronousCompositionPCTMCs [(kX (EConst 4) [], Some [(0%nat, "go"%string, 1%nat, 2)]); (kA, Some [(0%nat, "go"%string, 0%nat, 3)])] [] [[]] "XA" = (Ok m, []) /\ evaluateTransition m 0 1 None = Some 10) /\
  (exists m, synchronousCompositionPCTMCs [(kX (EVar "x") ["x"%string], Some []); (kA, Some [(0%nat, "go"%string, 0%nat, 3)])] [] [["x"%string]] "XA" = (Ok m, []) /\ transitionExpression m 0 1 = EVar "x").
Proof. split; [vm_compute; reflexivity|]. split; (eexists; split; [vm_compute; reflexivity|]; vm_compute; reflexivity). Qed.
Print Assumptions C92_sync_on_parameter_refuted.
(** Sizes: a second model with two states more. *)
Definition kD : pctmc Q := mkPC [[0; 1; 0; 0]; [0; 0; 1; 0]; [1; 0; 0; 0]; [1; 0; 0; 0]]%nat ["d"; "e"; "f"; "init"]%string [EConst 0; EConst 1] [] [] [] [0; 0; 0; 1] "D".
Theorem C92_larger_second_refuted : synchronousCompositionPCTMCs [(kA, Some []); (kD, Some [])] [] [[]] "AD" = (Err ValueError, []) /\
  exists m, synchronousCompositionPCTMCs [(kD, Some []); (kA, Some [])] [] [[]] "DA" = (Ok m, []) /\ pc_n m = 4%nat.
Proof. split; [vm_compute; reflexivity|]. eexists. split; [vm_compute; reflexivity|]. reflexivity. Qed.
Print Assumptions C92_larger_second_refuted.

(** ** C53: the result does not depend on what was composed before.
    A call: the models with their lists, the orders of the names, the name. *)
Definition call (K : Type) : Type := (list (pctmc K * option (list (nat * string * nat * K))) * list (list string) * string)%type.
(** A program that makes these calls, starting with the shared list [dflt]. *)
Fixpoint run_calls {K} `{Num K} (cs : list (call K)) (dflt : list (nat * string * nat * K)) : list (res (pctmc K)) * list (nat * string * nat * K) :=
  match cs with
  | [] => ([], dflt)
  | (ms, pstrs, name) :: cs' => let (r, dflt) := synchronousCompositionPCTMCs ms dflt pstrs name in let (rs, dflt) := run_calls cs' dflt in (r :: rs, dflt)
  end.
Section History.
  Context {K : Type} `{Num K}.
  Notation psync := (nat * string * nat * K)%type.
  (** At most two models, or no synchronous transition at all. *)
  Definition harmless (c : call K) : Prop := let '(ms, _, _) := c in (length ms <= 2)%nat \/ forall m o, In (m, o) ms -> o = None \/ o = Some [].
  Lemma compose2_no_sync (m1 m2 : pctmc K) s1 s2 ps nm m st : list_prod s1 s2 = [] -> synchronousComposition2PCTMCs m1 m2 s1 s2 ps nm = Ok (m, st) -> st = [].
  Proof.
    intros E. unfold synchronousComposition2PCTMCs. cbv zeta. unfold sync_trans at 1. rewrite E. cbn [mfold].
    repeat match goal with |- (do x <- ?r; _) = _ -> _ => destruct r; cbn [bind]; [|discriminate] end. congruence.
  Qed.
  Lemma loop_no_sync ms : forall m1 own found ps nm, (own = None \/ own = Some []) -> found = [] -> (forall m o, In (m, o) ms -> o = None \/ o = Some []) ->
    snd (compose_loop m1 own found ms [] ps nm) = [].
  Proof.
    induction ms as [|(m2, o2) ms IH]; intros m1 own found ps nm HO -> HM; [reflexivity|]. cbn [compose_loop].
    destruct (HM m2 o2 (or_introl eq_refl)) as [-> | ->]; destruct HO as [-> | ->]; cbn [app];
    (destruct (synchronousComposition2PCTMCs m1 m2 [] [] (hd [] ps) nm) as [[m st]|e] eqn:E; [|reflexivity]); apply compose2_no_sync in E; try reflexivity; subst st; (apply IH; [left; reflexivity|reflexivity|]; intros m' o' I; apply (HM m' o'); right; exact I).
  Qed.
  Lemma harmless_ok c : harmless c -> let '(ms, ps, nm) := c in snd (synchronousCompositionPCTMCs ms [] ps nm) = [].
  Proof.
    destruct c as [[ms ps] nm]. intros HA. unfold synchronousCompositionPCTMCs. destruct ms as [|(m1, o1) [|(m2, o2) ms]]; [reflexivity|reflexivity|].
    destruct (compose_loop m1 o1 [] ((m2, o2) :: ms) [] ps nm) as [r d] eqn:E. cbn [snd]. change d with (snd (r, d)). rewrite <- E. destruct HA as [L|HA].
    - destruct ms; [|cbn in L; lia]. cbn [compose_loop]. destruct o1; cbn [app]; destruct (synchronousComposition2PCTMCs _ _ _ _ _ _) as [[m st]|e]; reflexivity.
    - apply loop_no_sync; [apply (HA m1 o1); left; reflexivity|reflexivity|]. intros m o I. apply (HA m o). right. exact I.
  Qed.
End History.
(** Whatever harmless compositions were made before, the calls that follow give
    the results of a fresh program. *)
Theorem C53_history_partial : forall (K : Type) (N : Num K) (before after : list (call K)),
  (forall c, In c before -> harmless c) -> fst (run_calls (before ++ after) []) = fst (run_calls before []) ++ fst (run_calls after []).
Proof.
  intros K N before after. induction before as [|c before IH]; intros HB; [reflexivity|]. assert (HC := harmless_ok c (HB c (or_introl eq_refl))). destruct c as [[ms ps] nm]. cbn [app run_calls].
  destruct (synchronousCompositionPCTMCs ms [] ps nm) as [r d]. cbn [snd] in HC. subst d. specialize (IH (fun c I => HB c (or_intror I))). destruct (run_calls (before ++ after) []) as [rs d1]. destruct (run_calls before []) as [rs2 d2]. cbn [fst app] in *. rewrite IH. reflexivity.
Qed.
Print Assumptions C53_history_partial.
(** Composing three models with synchronous transitions changes the later
    composition of two models that have none. *)
Definition hA : pctmc Q := mkPC [[0; 1; 0]; [1; 0; 0]; [1; 0; 0]]%nat ["a"; "b"; "init"]%string [EConst 0; EConst 1] [] [] [] [0; 0; 1] "A".
Definition three : call Q := ([(hA, Some [(0%nat, "go"%string, 1%nat, 2)]); (kA, Some [(0%nat, "go"%string, 0%nat, 3)]); (kA, Some [])], [[]; []], "T"%string).
Definition two : call Q := ([(hA, None); (hA, None)], [[]], "P"%string).
Definition rate_of (r : res (pctmc Q)) (i j : nat) : option Q := match r with Ok m => evaluateTransition m i j None | Err _ => None end.
Theorem C53_history_refuted :
  match fst (run_calls [two] []), fst (run_calls [three; two] []) with
  | [r], [_; r'] => rate_of r 0 3 = Some 0 /\ rate_of r' 0 3 = Some 36
  | _, _ => False
  end.
Proof. vm_compute. split; reflexivity. Qed.
Print Assumptions C53_history_refuted.
Example C53_history_instance : harmless two /\ harmless (([(hA, None); (kA, Some []); (hA, None)], [[]; []], "U"%string) : call Q).
Proof. split; [left; cbn; lia|right]. intros m o [[= <- <-]|[[= <- <-]|[[= <- <-]|[]]]]; auto. Qed.
(** With three models only the synchronous transitions in which the last model
    takes part are added: the transition of the first two is lost. *)
Theorem C92_third_model_refuted :
  match fst (run_calls [([(hA, Some [(0%nat, "go"%string, 1%nat, 2)]); (kA, Some [(0%nat, "go"%string, 0%nat, 3)])], [[]], "T"%string)] []), fst (run_calls [three] []) with
  | [r], [r'] => rate_of r 0 1 = Some 7 /\ rate_of r' 0 1 = Some 1
  | _, _ => False
  end.
Proof. vm_compute. split; reflexivity. Qed.
Print Assumptions C92_third_model_refuted.

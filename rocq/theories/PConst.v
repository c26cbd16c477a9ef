(** C112: fit of a parametric CTMC with update_constant (the default). A numeric
    rate which no transition uses makes it raise, and createPCTMC stores such a rate
    whenever two transitions have equal numeric rates; timed traces of two
    observations give the expected moves divided by the expected time. *)
From Coq Require Import String ZArith Bool Reals List Lia Lra Psatz FunctionalExtensionality.
From Verif Require Import Num Py SNum SPath LSum LTools MSet SSet MModels MCtor MLik MBW MPctmc SPctmc LPctmc LCtor LFB LEM SBW SExp LBW LBWSet LBWMC SLik LLik LBWMDP LBWCT LLik2 LBWLoop PBWCT PPctmc MPLearn SPLearn LPLearn LPLearn2 LPLearn3 LPLearn4 PPLearn PPLearn2 PPLearn3 PTight PTight2 PPctmc3 PRace PInit3 LGrad2.
Import ListNotations.
Local Open Scope R_scope.

(** ** A numeric rate which is not used *)
Definition unused (m : pctmc R) (k : nat) : Prop :=
  (1 <= k < length (pc_expr m))%nat /\ (forall x, ~ occurs x (nth k (pc_expr m) (EConst 0))) /\
  forall i j, (i < pc_n m)%nat -> (j < pc_n m)%nat -> nth j (nth i (pc_mat m) []) 0%nat <> k.
Theorem C112_fit_unused_refuted : forall (maxroot : list R -> res R) p (ts : traces R) (m m0 : pctmc R) fixed (eps : R) max_it rnd k,
  (1 <= max_it)%nat -> rnd m = Some m0 -> unused m0 k ->
  forall m', fit_PCTMC maxroot p ts m fixed true eps max_it rnd <> Some (Ok m').
Proof.
  intros maxroot p ts m m0 fixed eps mx rnd k Hm Er (Hk & No & NU) m' E. unfold fit_PCTMC in E. rewrite Er in E. injection E as E.
  apply bind_ok in E. destruct E as (pl & _ & E). apply bind_ok in E. destruct E as (r & E & _). unfold bw_PCTMC in E. cbn [ob_verbose negb ob_processes ob_kind] in E. revert E. apply loop_err; [exact Hm|].
  intros r'. apply round_err. intros h tr t st I E. unfold processWork_PCTMC in E. destruct (_ <? 2)%nat; [discriminate|].
  apply bind_ok in E. destruct E as ([al be] & Ef & E). destruct (neqb _ _) in E; [discriminate|]. apply bind_ok in E. destruct E as (cs & Ec & _).
  apply mmap_forall2 in Ec. destruct (Forall2_In_l _ _ _ k Ec) as (b & _ & Eb); [apply in_seq; lia|]. unfold work_cste in Eb.
  replace (symbols (nth k (pc_expr m0) (EConst n0))) with (@nil string) in Eb.
  2:{ destruct (symbols (nth k (pc_expr m0) (EConst n0))) as [|x r0] eqn:Es; [reflexivity|]. exfalso. apply (No x). apply symbols_occurs. change 0 with (@n0 R RNum). rewrite Es. left. reflexivity. }
  apply bind_ok in Eb. destruct Eb as ([i j] & Eu & _). apply C112_first_use in Eu. destruct Eu as (Hi & Hj & Eu & _). exact (NU i j Hi Hj Eu).
Qed.
Print Assumptions C112_fit_unused_refuted.

(** ** createPCTMC stores every number, and uses the first of equal ones *)
Definition number (e : expr R) : Prop := forall x, ~ occurs x e.
Lemma is_number_spec (e : expr R) : is_number e = true <-> number e.
Proof.
  unfold is_number, number. split.
  - intros H x O. apply symbols_occurs in O. destruct (symbols e); [destruct O|discriminate].
  - intros H. destruct (symbols e) as [|x l] eqn:E; [reflexivity|]. exfalso. apply (H x), symbols_occurs. rewrite E. left. reflexivity.
Qed.
Definition firsts (exprs : list (expr R)) (mat : list (list Z)) : Prop :=
  forall r z, In r mat -> In z r -> (0 <= z < Z.of_nat (length exprs))%Z /\ forall k, (k < Z.to_nat z)%nat -> nth k exprs (EConst 0) <> nth (Z.to_nat z) exprs (EConst 0).
Lemma upd_In {A} (l : list A) i x y : In y (upd l i x) -> In y l \/ y = x.
Proof. revert i. induction l as [|a l IH]; intros [|i]; cbn; auto; intros [<-|I]; auto. apply IH in I. tauto. Qed.
Lemma pyset_In {A} (l l' : list A) i x y : pyset l i x = Ok l' -> In y l' -> In y l \/ y = x.
Proof. unfold pyset. destruct (_ || _)%bool; [discriminate|]. intros [= <-]. apply upd_In. Qed.
Lemma pyget_In {A} (l : list A) i x : pyget l i = Ok x -> In x l.
Proof. unfold pyget. destruct (_ || _)%bool; [discriminate|]. destruct (nth_error _ _) eqn:E; [|discriminate]. intros [= <-]. eapply nth_error_In. exact E. Qed.
Lemma np_set_In {A} (m m' : list (list A)) i j x : np_set m i j x = Ok m' -> forall r z, In r m' -> In z r -> (exists r0, In r0 m /\ In z r0) \/ z = x.
Proof.
  unfold np_set. intros E r z Ir Iz. apply bind_ok in E. destruct E as (r0 & E0 & E). apply bind_ok in E. destruct E as (r1 & E1 & E).
  destruct (pyset_In _ _ _ _ _ E Ir) as [J| ->]; [left; exists r; auto|]. destruct (pyset_In _ _ _ _ _ E1 Iz) as [J| ->]; auto. left. exists r0. split; [eapply pyget_In; exact E0|exact J].
Qed.
Lemma firsts_app exprs mat es : firsts exprs mat -> firsts (exprs ++ es) mat.
Proof.
  intros H r z Ir Iz. destruct (H r z Ir Iz) as (A & B). rewrite app_length. split; [lia|]. intros k Hk. rewrite !app_nth1 by lia. apply B. exact Hk.
Qed.
Lemma create_firsts params : forall ts st st', mfold (create_step params) ts st = Ok st' -> firsts (fst (fst st)) (snd (fst st)) -> (Z.of_nat (length (fst (fst st)) + length ts) <= 65536)%Z ->
  firsts (fst (fst st')) (snd (fst st')) /\ filter is_number (fst (fst st')) = filter is_number (fst (fst st)) ++ filter is_number (map snd ts) /\ exists es, fst (fst st') = fst (fst st) ++ es.
Proof.
  induction ts as [|[[i j] e] ts IH]; intros [[exprs mat] ind] st' E F B; cbn [mfold] in E.
  - injection E as <-. cbn [fst snd map filter]. rewrite app_nil_r. split; [exact F|]. split; [reflexivity|]. exists []. rewrite app_nil_r. reflexivity.
  - apply bind_ok in E. destruct E as (st1 & E1 & E). unfold create_step in E1. cbn [fst snd] in *.
    set (ex := if (is_number e || negb (memb expr_eqb e exprs))%bool then exprs ++ [e] else exprs) in *.
    assert (X : exists es, ex = exprs ++ es /\ (length es <= 1)%nat /\ filter is_number ex = filter is_number exprs ++ (if is_number e then [e] else [])).
    { unfold ex. destruct (is_number e) eqn:Ne; cbn [orb].
      - exists [e]. rewrite filter_app. cbn [filter length]. rewrite Ne. auto.
      - destruct (negb _); [exists [e]; rewrite filter_app; cbn [filter length]; rewrite Ne; auto|exists []; rewrite !app_nil_r; cbn; auto]. }
    destruct X as (es & Ee & Le & Fe).
    apply bind_ok in E1. destruct E1 as (k & Ek & E1). apply bind_ok in E1. destruct E1 as (mat1 & Em & E1). apply bind_ok in E1. destruct E1 as (ind1 & _ & E1). injection E1 as <-.
    unfold index_err in Ek. destruct (index_of expr_eqb e ex) as [k'|] eqn:Ei; [|discriminate]. injection Ek as ->.
    assert (Lk : (k < length ex)%nat) by (eapply LLik.index_of_range; exact Ei).
    assert (Lex : (length ex <= length exprs + 1)%nat) by (rewrite Ee, app_length; lia).
    rewrite Z.mod_small in Em by (cbn [length] in B; lia).
    destruct (IH _ _ E) as (A1 & A2 & (es' & A3)).
    + cbn [fst snd]. intros r z Ir Iz. destruct (np_set_In _ _ _ _ _ Em r z Ir Iz) as [(r0 & I0 & J0)| ->].
      * rewrite Ee. apply (firsts_app exprs mat es F r0 z I0 J0).
      * rewrite Nat2Z.id. split; [lia|]. intros k0 Hk0. pose proof (LSet.index_of_Some _ expr_eqb_eq _ _ _ Ei) as S1. rewrite (nth_error_nth _ _ (EConst 0) S1).
        apply (LSet.index_of_first _ expr_eqb_eq _ _ _ Ei k0 _ Hk0). apply nth_error_nth'. lia.
    + cbn [fst snd]. cbn [length] in B. lia.
    + cbn [fst snd] in A2, A3. split; [exact A1|]. split.
      * rewrite A2, Fe. cbn [map filter snd]. destruct (is_number e); rewrite <- app_assoc; reflexivity.
      * exists (es ++ es'). rewrite A3, Ee, app_assoc. reflexivity.
Qed.
Lemma filter_split {A} (f : A -> bool) l : forall l1 e l2, filter f l = l1 ++ e :: l2 -> exists m1 m2, l = m1 ++ e :: m2 /\ filter f m1 = l1 /\ filter f m2 = l2.
Proof.
  induction l as [|a l IH]; intros l1 e l2 E; cbn [filter] in E; [destruct l1; discriminate|]. destruct (f a) eqn:Fa.
  - destruct l1 as [|b l1]; cbn [app] in E.
    + injection E as <- E. exists [], l. repeat split; auto.
    + injection E as <- E. destruct (IH _ _ _ E) as (m1 & m2 & -> & F1 & F2). exists (a :: m1), m2. cbn [filter app]. rewrite Fa, F1. auto.
  - destruct (IH _ _ _ E) as (m1 & m2 & -> & F1 & F2). exists (a :: m1), m2. cbn [filter app]. rewrite Fa. auto.
Qed.
(** Two transitions with equal numeric rates, or one with the rate 1 which
    createPCTMC itself gives to the transition leaving the added initial state. *)
Definition equal_rates (ts : list (Z * Z * expr R)) (i : @pyini R) : Prop :=
  exists e l1 t l2, ts = l1 ++ t :: l2 /\ snd t = e /\ number e /\
    ((exists t', In t' l2 /\ snd t' = e) \/ (exists z, i = IniInt z) /\ e = EConst 1).
Theorem C112_equal_rates : forall (ts : list (Z * Z * expr R)) labels params i inst sync name m l,
  createPCTMC ts labels params i inst sync name = (Ok m, l) -> (Z.of_nat (length (snd l)) < 65536)%Z -> equal_rates ts i -> exists k, unused m k.
Proof.
  intros ts labels params i inst sync name m l E B (e & l1 & t & l2 & Ets & Et & Ne & H). unfold createPCTMC in E.
  destruct (memb _ _ _); [discriminate|]. set (st := sorted_set _ _ _) in E. set (ini := match i with IniInt z => _ | IniList l => _ end) in E.
  injection E as E <-. cbn [snd] in B. destruct (_ <? _)%nat; [discriminate|]. apply bind_ok in E. destruct E as ([[exprs mat] ind] & Ef & E).
  destruct (create_firsts _ _ _ _ Ef) as (F & Fl & (es & Ex)); cbn [fst snd] in *.
  - intros r z Ir Iz. apply repeat_spec in Ir. subst r. apply repeat_spec in Iz. subst z. cbn [length Z.to_nat]. split; [lia|]. intros k Hk. lia.
  - cbn [length]. lia.
  - assert (D : exists a b c, filter is_number exprs = a ++ e :: b ++ e :: c).
    { rewrite Fl. pose proof (proj2 (is_number_spec e) Ne) as Ne'. rewrite Ets, <- app_assoc, map_app, filter_app. cbn [app map filter]. rewrite Et, Ne'. rewrite map_app, filter_app.
      assert (I : In e (filter is_number (map snd l2) ++ filter is_number (map snd ini))).
      { apply in_or_app. destruct H as [(t' & I & <-)|[(z & ->) ->]]; [left|right; left; reflexivity]. apply filter_In. split; [apply in_map; exact I|exact Ne']. }
      destruct (in_split _ _ I) as (b & c & ->). exists (filter is_number [EConst n0] ++ filter is_number (map snd l1)), b, c. rewrite <- app_assoc. reflexivity. }
    destruct D as (a & b & c & D). destruct (filter_split _ _ _ _ _ D) as (m1 & m2 & E1 & _ & D2). destruct (filter_split _ _ _ _ _ D2) as (m3 & m4 & E2 & _ & _). subst m2.
    unfold PCTMC_new in E. destruct (negb _); [discriminate|]. destruct (negb _); [discriminate|]. apply bind_ok in E. destruct E as (mx & _ & E). destruct (_ <=? _)%Z; [discriminate|].
    apply bind_ok in E. destruct E as (mn & _ & E). destruct (_ <? _)%Z; [discriminate|]. destruct (negb _); [discriminate|]. apply bind_ok in E. destruct E as (iv & _ & E). injection E as <-.
    assert (Nk : nth (length m1 + S (length m3)) exprs (EConst 0) = e).
    { rewrite E1, app_nth2 by lia. replace (length m1 + S (length m3) - length m1)%nat with (S (length m3)) by lia. cbn [nth]. rewrite app_nth2 by lia. rewrite Nat.sub_diag. reflexivity. }
    assert (N1 : nth (length m1) exprs (EConst 0) = e) by (rewrite E1, app_nth2 by lia; rewrite Nat.sub_diag; reflexivity).
    exists (length m1 + S (length m3))%nat. unfold unused. cbn [pc_expr pc_mat pc_n]. split; [rewrite E1, app_length; cbn [length]; rewrite app_length; cbn [length]; lia|]. split; [rewrite Nk; exact Ne|].
    intros x y Hx Hy Q. unfold pc_n in Hx, Hy. cbn [pc_mat] in Hx, Hy. rewrite map_length in Hx. rewrite (nth_indep _ [] (map Z.to_nat [])) in Q by (rewrite map_length; exact Hx). rewrite map_nth in Q.
    change 0%nat with (Z.to_nat 0) in Q. rewrite map_nth in Q. set (z := nth y (nth x mat []) 0%Z) in *.
    destruct (in_dec Z.eq_dec z (nth x mat [])) as [Iz|Nz].
    + destruct (F (nth x mat []) z (nth_In _ _ Hx) Iz) as (_ & F2). apply (F2 (length m1)); rewrite Q; [lia|congruence].
    + destruct (Nat.lt_ge_cases y (length (nth x mat []))) as [Ly|Ly]; [apply Nz, nth_In; exact Ly|]. assert (z = 0%Z) as Z0 by (unfold z; apply nth_overflow; exact Ly). rewrite Z0 in Q. cbn in Q. lia.
Qed.
Print Assumptions C112_equal_rates.
(** Such a model is never learned by fit, whatever the traces and arguments: values
    given to its parameters do not change its expressions. *)
Theorem C112_fit_equal_rates_refuted : forall (ts : list (Z * Z * expr R)) labels params i inst sync name m l,
  createPCTMC ts labels params i inst sync name = (Ok m, l) -> (Z.of_nat (length (snd l)) < 65536)%Z -> equal_rates ts i ->
  forall (maxroot : list R -> res R) p (set : traces R) m0 fixed (eps : R) max_it rnd,
  (1 <= max_it)%nat -> rnd m = Some m0 -> pc_expr m0 = pc_expr m -> pc_mat m0 = pc_mat m ->
  forall m', fit_PCTMC maxroot p set m fixed true eps max_it rnd <> Some (Ok m').
Proof.
  intros ts labels params i inst sync name m l E B H maxroot p set m0 fixed eps mx rnd Hm Er Ee Em. destruct (C112_equal_rates ts labels params i inst sync name m l E B H) as (k & U).
  apply (C112_fit_unused_refuted maxroot p set m m0 fixed eps mx rnd k Hm Er). unfold unused, pc_n in *. rewrite Ee, Em. exact U.
Qed.
Print Assumptions C112_fit_equal_rates_refuted.
(** A two-state model whose second transition has the rate 1. *)
Definition exEq : list (Z * Z * expr R) := [(0%Z, 1%Z, EVar "x"); (1%Z, 0%Z, EConst 1)].
Definition exEqM := createPCTMC exEq ["a"; "b"]%string ["x"%string] (IniInt 0) [("x"%string, 2)] [] "m".
Example C112_equal_rates_instance : exists m l, exEqM = (Ok m, l) /\
  (Z.of_nat (length (snd l)) < 65536)%Z /\ equal_rates exEq (IniInt 0) /\ exists k, unused m k.
Proof.
  destruct (C89_createPCTMC_partial exEq ["a"; "b"]%string ["x"%string] (IniInt 0) [("x"%string, 2)] [] "m" 2) as (m & E & _).
  - intros z. cbn. lia.
  - reflexivity.
  - cbn. intuition discriminate.
  - cbn. lia.
  - intros t x [<-|[<-|[]]] O; cbn in O; [left; auto|destruct O].
  - cbn. lia.
  - repeat constructor. cbn. tauto.
  - assert (X : equal_rates exEq (IniInt 0)).
    { exists (EConst 1), [(0%Z, 1%Z, EVar "x")], (1%Z, 0%Z, EConst 1), []. split; [reflexivity|]. split; [reflexivity|]. split; [intros x []|]. right. split; [exists 0%Z; reflexivity|reflexivity]. }
    exists m, (snd (exEqM)).
    assert (B : (Z.of_nat (length (snd (snd (exEqM)))) < 65536)%Z) by (cbn; lia).
    assert (E' : exEqM = (Ok m, snd (exEqM))) by (rewrite <- E; apply surjective_pairing).
    split; [exact E'|]. split; [exact B|]. split; [exact X|]. exact (C112_equal_rates _ _ _ _ _ _ _ _ _ E' B X).
Qed.

(** ** Values on timed traces of two observations *)
Section Two.
  Variable h : ctmc R.
  Hypothesis W : wf_ctmc h.
  Hypothesis Nn : nonneg_mat (ct_mat h).
  Notation n := (ct_n h).
  Lemma two_moves a b t i j : (i < n)%nat -> (j < n)%nat ->
    ct_expected_moves h i j ([a; b], [t]) = vecR (ct_ini h) i * is_label (ct_lab h) a i * jump_density h t i j * is_label (ct_lab h) b j.
  Proof.
    intros Hi Hj. unfold ct_expected_moves, ct_expected, expected. cbn [fst snd map length]. rewrite sumL_paths_S.
    rewrite (Sum_ext n _ (fun s => if (s =? i)%nat then vecR (ct_ini h) i * is_label (ct_lab h) a i * jump_density h t i j * is_label (ct_lab h) b j else 0)).
    - rewrite Sum_delta. destruct (Nat.ltb_spec i n); [reflexivity|lia].
    - intros s Hs. rewrite sumL_paths_S. rewrite (Sum_ext n _ (fun s' => if (s' =? j)%nat then (if (s =? i)%nat then vecR (ct_ini h) i * is_label (ct_lab h) a i * jump_density h t i j * is_label (ct_lab h) b j else 0) else 0)).
      + rewrite Sum_delta. destruct (Nat.ltb_spec j n); [reflexivity|lia].
      + intros s' Hs'. unfold sumL. cbn [paths map fold_right rsum hd path_weight path_reward]. unfold on_move. destruct (Nat.eqb_spec s i) as [->|]; destruct (Nat.eqb_spec s' j) as [->|]; ring.
  Qed.
  Lemma two_dwell a b t i : (i < n)%nat ->
    ct_expected_dwell h i ([a; b], [t]) = vecR (ct_ini h) i * is_label (ct_lab h) a i * t * Sum n (fun j => jump_density h t i j * is_label (ct_lab h) b j).
  Proof.
    intros Hi. unfold ct_expected_dwell, ct_expected, expected. cbn [fst snd map length]. rewrite sumL_paths_S.
    rewrite (Sum_ext n _ (fun s => if (s =? i)%nat then vecR (ct_ini h) i * is_label (ct_lab h) a i * t * Sum n (fun j => jump_density h t i j * is_label (ct_lab h) b j) else 0)).
    - rewrite Sum_delta. destruct (Nat.ltb_spec i n); [reflexivity|lia].
    - intros s Hs. rewrite sumL_paths_S. destruct (Nat.eqb_spec s i) as [->|Ne].
      + rewrite <- Sum_scal_l. apply Sum_ext. intros s' Hs'. unfold sumL. cbn [paths map fold_right rsum hd path_weight path_reward]. unfold on_leave. rewrite Nat.eqb_refl. ring.
      + rewrite <- (Sum_zero n). apply Sum_ext. intros s' Hs'. unfold sumL. cbn [paths map fold_right rsum hd path_weight path_reward]. unfold on_leave. destruct (Nat.eqb_spec s i); [contradiction|]. ring.
  Qed.
  (** What the matrix version computes. *)
  Lemma two_fb a b t : exists A1 A2 B0 B1, forward_backward KTimedMatrix h ([a; b], Some [t]) = Ok ([ct_ini h; A1; A2], [B0; B1]) /\
    (forall s, (s < n)%nat -> vget A1 s = Sum n (fun s0 => vget (ct_ini h) s0 * ct_w h (a, t) s0 s)) /\
    (forall s, (s < n)%nat -> vget B1 s = is_label (ct_lab h) b s) /\
    (forall s, (s < n)%nat -> vget B0 s = Sum n (fun j => ct_w h (a, t) s j * is_label (ct_lab h) b j)).
  Proof.
    cbn [forward_backward m_ws removelast last combine map app bw_alphas bw_betas removelast hd]. eexists _, _, _, _. split; [reflexivity|].
    assert (L : length (ct_ini h) = n) by apply W.
    assert (B1 : forall s, (s < n)%nat -> vget (vbuild n (fun s => ndot (vones n) (vbuild n (fun ss => (if String.eqb (lab (ct_lab h) s) b then n1 else n0) * m_tau h s ss)))) s = is_label (ct_lab h) b s).
    { intros s Hs. rewrite vget_vbuild by exact Hs. rewrite ndot_vbuild by apply repeat_length.
      rewrite (Sum_ext n _ (fun s' => is_label (ct_lab h) b s * m_tau h s s')); [rewrite Sum_scal_l, m_tau_rows by assumption; ring|].
      intros j Hj. rewrite vget_vones by exact Hj. unfold is_label, lab. nR. destruct (String.eqb _ _); ring. }
    split; [|split; [exact B1|]].
    - intros s Hs. rewrite fstep_get by assumption. unfold step. apply Sum_ext. intros s0 Hs0. rewrite m_step by assumption. reflexivity.
    - intros s Hs. rewrite vget_vbuild by exact Hs. rewrite ndot_vbuild by apply vbuild_length. apply Sum_ext. intros j Hj. cbn beta. rewrite B1 by exact Hj. rewrite m_step by assumption. ring.
  Qed.
End Two.
Lemma two_stay (a0 A1 A2 B0 B1 : list R) t f i : stay [a0; A1; A2] [B0; B1] (Some [t]) f i = Ok ((vget a0 i + vget A1 i) * vget B0 i * t * f).
Proof. unfold stay, bmul. cbn [col_init removelast map length Nat.eqb bind]. f_equal. rewrite nsum_rsum. cbn [rsum fold_right]. nR. ring. Qed.
Lemma two_move (a0 A1 A2 B0 B1 : list R) h a b t f i j : moves [a0; A1; A2] [B0; B1] (move_weights h ([a; b], Some [t]) (i, j)) f (i, j) = Ok ((vget a0 i + vget A1 i) * ct_w h (a, t) i j * vget B1 j * f).
Proof. unfold moves, bmul, move_weights, ct_w. cbn [col_init col_tail tl fst snd removelast map combine length Nat.eqb bind]. f_equal. rewrite nsum_rsum. cbn [rsum fold_right]. nR. ring. Qed.

(** The states where a trace starts do not lead at once to [i], except with another
    label. *)
Definition no_return (c : ctmc R) (i : nat) : Prop :=
  forall s, (s < ct_n c)%nat -> vecR (ct_ini c) s <> 0 -> nth s (ct_lab c) EmptyString = nth i (ct_lab c) EmptyString -> rate c s i = 0.
Definition two_labels (set : list ((list string * list R) * Z)) : Prop := forall tr z, In (tr, z) set -> exists a b t, tr = ([a; b], [t]).
(** The only transition with the k-th rate, a number. *)
Definition only_use (m : pctmc R) (k i j : nat) : Prop :=
  (1 <= k < length (pc_expr m))%nat /\ number (nth k (pc_expr m) (EConst 0)) /\ (i < pc_n m)%nat /\ (j < pc_n m)%nat /\
  forall i' j', (i' < pc_n m)%nat -> (j' < pc_n m)%nat -> (nth j' (nth i' (pc_mat m) []) 0%nat = k <-> i' = i /\ j' = j).

Lemma F2len {A B} (Q : A -> B -> Prop) l r : Forall2 Q l r -> length l = length r.
Proof. induction 1; cbn; congruence. Qed.
Lemma sumLc {A} (a : A) l (f : A -> R) : sumL (a :: l) f = f a + sumL l f.
Proof. reflexivity. Qed.
Section TwoWork.
  Variables (m : pctmc R) (h : ctmc R) (pl : plan R) (k i j : nat).
  Hypothesis W : wf_ctmc h.
  Hypothesis Nn : nonneg_mat (ct_mat h).
  Hypothesis En : ct_n h = pc_n m.
  Hypothesis U : (1 <= k < length (pc_expr m))%nat /\ number (nth k (pc_expr m) (EConst 0)) /\ (i < pc_n m)%nat /\ (j < pc_n m)%nat /\ first_use m k = Ok (i, j).
  Hypothesis NR : no_return h i.
  Definition cval (st : stat_pc) : R * R := match nth (k - 1) (sp_cste st) None with Some x => x | None => (0, 0) end.
  Definition cgood (st : stat_pc (K := R)) : Prop := length (sp_cste st) = (length (pc_expr m) - 1)%nat /\ nth (k - 1) (sp_cste st) None = Some (cval st).
  Lemma two_work a b t z r : processWork_PCTMC KTimedMatrix true m h pl ([a; b], Some [t]) z = Ok r ->
    match r with
    | None => ct_density h ([a; b], [t]) = 0
    | Some st => 0 < ct_density h ([a; b], [t]) /\ cgood st /\
        cval st = (IZR z * (ct_expected_dwell h i ([a; b], [t]) / ct_density h ([a; b], [t])), IZR z * (ct_expected_moves h i j ([a; b], [t]) / ct_density h ([a; b], [t])))
    end.
  Proof.
    destruct U as (Hk & Nk & Hi & Hj & Us).
    intros E. unfold processWork_PCTMC in E. cbn [fst length Nat.ltb Nat.leb] in E. destruct (two_fb h W Nn a b t) as (A1 & A2 & B0 & B1 & Ef & V1 & V2 & V3).
    rewrite Ef in E. cbn [bind] in E. rewrite (C112_matrix_density h [a; b] [t] _ _ W Nn eq_refl Ef) in E. set (P := ct_density h ([a; b], [t])) in *.
    revert E. nR. unfold Reqb. destruct (Req_EM_T P 0) as [Z|NZ]; intros E; [injection E as <-; exact Z|].
    apply bind_ok in E. destruct E as (cs & Ec & E). apply bind_ok in E. destruct E as (s1 & _ & E). apply bind_ok in E. destruct E as (s2 & _ & E). apply bind_ok in E. destruct E as (s3 & _ & E). injection E as <-.
    assert (P0 : 0 < P) by (pose proof (ct_density_nonneg h ([a; b], [t]) W Nn) as D0; fold P in D0; lra). split; [exact P0|].
    apply mmap_forall2 in Ec. pose proof (F2len _ _ _ Ec) as Lc. rewrite seq_length in Lc.
    pose proof (Forall2_nth _ _ _ 0%nat None Ec (k - 1)%nat ltac:(rewrite seq_length; lia)) as Q. cbv beta in Q. rewrite seq_nth in Q by lia. replace (1 + (k - 1))%nat with k in Q by lia.
    unfold work_cste in Q.
    replace (symbols (nth k (pc_expr m) (EConst n0))) with (@nil string) in Q.
    2:{ destruct (symbols (nth k (pc_expr m) (EConst n0))) as [|x r0] eqn:Es; [reflexivity|]. exfalso. apply (Nk x). apply symbols_occurs. change 0 with (@n0 R RNum). rewrite Es. left. reflexivity. }
    rewrite Us in Q. cbn [bind] in Q.
    cbn [fst snd] in Q. rewrite two_stay, two_move in Q. cbn [bind] in Q. injection Q as Q.
    assert (Hi2 : (i < ct_n h)%nat) by (rewrite En; exact Hi). assert (Hj2 : (j < ct_n h)%nat) by (rewrite En; exact Hj).
    assert (A0 : is_label (ct_lab h) a i = 0 \/ vget A1 i = 0).
    { unfold is_label at 1. destruct (String.eqb_spec (nth i (ct_lab h) EmptyString) a) as [La|]; [right|left; reflexivity].
      rewrite V1 by exact Hi2. apply Sum_zero_ext. intros s Hs. rewrite ct_w_eq. unfold jump_density. destruct (Req_EM_T (vecR (ct_ini h) s) 0) as [Z|Z]; [change (vget (ct_ini h) s) with (vecR (ct_ini h) s); rewrite Z; ring|].
      unfold is_label. destruct (String.eqb_spec (nth s (ct_lab h) EmptyString) a) as [Ls|]; [|ring]. pose proof (NR s Hs Z ltac:(congruence)) as R0. unfold rate in R0. rewrite R0. ring. }
    assert (G : nth (k - 1) cs None = Some (cval (mkStatPC cs s1 s2 s3 P z))) by (unfold cval; cbn [sp_cste]; rewrite <- Q; reflexivity).
    split; [split; [cbn [sp_cste]; lia|cbn [sp_cste]; exact G]|]. unfold cval. cbn [sp_cste]. rewrite <- Q. rewrite V2, V3 by assumption. rewrite two_moves, two_dwell by assumption.
    rewrite ct_w_eq. change (vget (ct_ini h) i) with (vecR (ct_ini h) i). f_equal.
    - rewrite (Sum_ext (ct_n h) _ (fun j => is_label (ct_lab h) a i * (jump_density h t i j * is_label (ct_lab h) b j))) by (intros x _; cbv beta; ring).
      rewrite Sum_scal_l. unfold Rdiv. nR. destruct A0 as [A0|A0]; rewrite A0; ring.
    - pose proof (equal_f (equal_f (ct_w_eq h a t) i) j) as Q2. unfold ct_w in Q2. cbn [fst snd] in Q2. unfold Rdiv. nR. revert Q2. nR. intros Q2. cbn [fst snd]. rewrite Q2. destruct A0 as [A0|A0]; rewrite A0; ring.
  Qed.
  Lemma two_collect : forall set rs temp, two_labels set -> mmap (fun st => processWork_PCTMC KTimedMatrix true m h pl (fst st) (snd st)) (timed_traces set) = Ok rs ->
    unwrap (filter (fun r => match r with Some _ => true | None => false end) rs) = Ok temp ->
    Forall cgood temp /\ sumL temp (fun st => fst (cval st)) = set_expected (ct_density h) (ct_expected_dwell h i) set /\
    sumL temp (fun st => snd (cval st)) = set_expected (ct_density h) (ct_expected_moves h i j) set.
  Proof.
    induction set as [|[tr z] set IH]; intros rs temp T E Eu; cbn [timed_traces map mmap] in E.
    - injection E as <-. cbn in Eu. injection Eu as <-. repeat split; constructor.
    - apply bind_ok in E. destruct E as (r & Er & E). apply bind_ok in E. destruct E as (rs' & E' & E). injection E as <-.
      assert (T' : two_labels set) by (intros tr' z' I; apply (T tr' z'); right; exact I).
      destruct (T tr z (or_introl eq_refl)) as (a & b & t & ->). cbn [fst snd] in Er. apply two_work in Er. unfold set_expected, sumL in *. cbn [map fst snd]. destruct r as [st|].
      + destruct Er as (P0 & G & Ev). cbn [filter] in Eu. unfold unwrap in Eu. cbn [mmap] in Eu. cbn [bind] in Eu. apply bind_ok in Eu. destruct Eu as (temp' & Eu & Et). injection Et as <-.
        destruct (IH rs' temp' T' E' Eu) as (A & B & C). split; [constructor; assumption|]. cbn [map rsum fold_right]. rewrite Ev. cbn [fst snd]. destruct (Rlt_dec 0 _) as [_|N]; [|contradiction].
        cbn [rsum fold_right] in B, C. unfold rsum in B, C. rewrite B, C. split; reflexivity.
      + cbn [filter] in Eu. destruct (IH rs' temp T' E' Eu) as (A & B & C). split; [exact A|]. cbn [map rsum fold_right]. destruct (Rlt_dec 0 _) as [N|_]; [rewrite Er in N; lra|].
        rewrite B, C. unfold rsum. split; lra.
  Qed.
  Lemma zip_cadd (x y : list (option (R * R))) q a b : length x = length y -> nth q x None = Some a -> nth q y None = Some b ->
    length (zipwith cadd x y) = length x /\ nth q (zipwith cadd x y) None = Some (padd a b).
  Proof.
    clear W Nn En U NR h pl i j. revert y q. induction x as [|u x IH]; intros [|v y] [|q] L Ea Eb; cbn in *; try discriminate; try lia.
    - subst. split; [|reflexivity]. f_equal. clear IH. revert y L. induction x as [|u x IH]; intros [|v y] L; cbn in *; try lia. f_equal. apply IH. lia.
    - destruct (IH y q ltac:(lia) Ea Eb) as [L1 L2]. split; [f_equal; exact L1|exact L2].
  Qed.
  Lemma csum_value temp : temp <> [] -> Forall cgood temp -> length (csum_all (map sp_cste temp)) = (length (pc_expr m) - 1)%nat /\
    nth (k - 1) (csum_all (map sp_cste temp)) None = Some (sumL temp (fun st => fst (cval st)), sumL temp (fun st => snd (cval st))).
  Proof.
    clear W Nn En U NR h pl i j. intros NE F. destruct temp as [|st temp]; [contradiction|]. cbn [map csum_all]. inversion F as [|? ? [L0 G0] F']; subst. clear F NE.
    assert (K : forall l acc x, Forall cgood l -> length acc = (length (pc_expr m) - 1)%nat -> nth (k - 1) acc None = Some x ->
      length (fold_left (fun a b => zipwith cadd a b) (map sp_cste l) acc) = (length (pc_expr m) - 1)%nat /\
      nth (k - 1) (fold_left (fun a b => zipwith cadd a b) (map sp_cste l) acc) None = Some (fst x + sumL l (fun st => fst (cval st)), snd x + sumL l (fun st => snd (cval st)))).
    { induction l as [|s l IH]; intros acc x Fl La Ga; cbn [map fold_left].
      - split; [exact La|]. rewrite Ga. unfold sumL. cbn. rewrite !Rplus_0_r. destruct x; reflexivity.
      - inversion Fl as [|? ? [Ls Gs] Fl']; subst. destruct (zip_cadd acc (sp_cste s) (k - 1) x (cval s) ltac:(lia) Ga Gs) as [L1 G1].
        destruct (IH _ _ Fl' ltac:(rewrite L1; exact La) G1) as [L2 G2]. split; [exact L2|]. rewrite G2. unfold padd. cbn [fst snd]. nR. rewrite !sumLc. apply f_equal. apply f_equal2; ring. }
    destruct (K temp (sp_cste st) (cval st) F' L0 G0) as [L1 G1]. split; [exact L1|]. rewrite G1. reflexivity.
  Qed.
End TwoWork.
Lemma unwrap_filter {T} (rs : list (option T)) temp p : unwrap (if (1 <? p)%nat then filter (fun r => match r with Some _ => true | None => false end) rs else rs) = Ok temp ->
  unwrap (filter (fun r => match r with Some _ => true | None => false end) rs) = Ok temp.
Proof.
  destruct (1 <? p)%nat; [auto|]. revert temp. induction rs as [|[x|] rs IH]; intros temp E; unfold unwrap in *; cbn [mmap filter bind] in *; [exact E| |discriminate].
  apply bind_ok in E. destruct E as (r & E1 & E2). rewrite (IH r E1). exact E2.
Qed.
Lemma nth_new_cste : forall (es : list (expr R)) (cs : list (option (R * R))) q d0, length cs = length es -> (q < length es)%nat ->
  nth q (zipwith new_cste es cs) d0 = new_cste (nth q es d0) (nth q cs None).
Proof. induction es as [|e es IH]; intros [|c cs] [|q] d0 L Hq; cbn in *; try lia; auto. apply IH; lia. Qed.

Lemma constants_first : forall (maxroot : list R -> res R) (p : nat) (pl : plan R) set (m m' : pctmc R) (ll : R) (c : ctmc R) (k i j : nat),
  wf_pctmc m -> valued m -> realises m c -> two_labels set -> (1 <= k < length (pc_expr m))%nat /\ number (nth k (pc_expr m) (EConst 0)) /\ (i < pc_n m)%nat /\ (j < pc_n m)%nat /\ first_use m k = Ok (i, j) -> no_return c i ->
  round_PCTMC maxroot KTimedMatrix true p pl (timed_traces set) m = Ok (m', ll) ->
  let X := set_expected (ct_density c) (ct_expected_moves c i j) set in
  let D := set_expected (ct_density c) (ct_expected_dwell c i) set in
  nth k (pc_expr m') (EConst 0) = if Req_EM_T D 0 then nth k (pc_expr m) (EConst 0) else EConst (X / D).
Proof.
  intros maxroot p pl set m m' ll c k i j Wm V Rc T U NR E X D. unfold round_PCTMC in E. apply bind_ok in E. destruct E as (h & Eh & E). apply bind_ok in E. destruct E as (temp & Et & E).
  destruct (realises_same m c h Rc (hval_realises m h Eh)) as [nm Ec].
  assert (NR' : no_return h i) by (rewrite Ec in NR; exact NR).
  assert (Q : X = set_expected (ct_density h) (ct_expected_moves h i j) set /\ D = set_expected (ct_density h) (ct_expected_dwell h i) set) by (unfold X, D; rewrite Ec; split; reflexivity).
  destruct Q as [QX QD]. clearbody X D. subst X D.
  unfold run_workers in Et. apply bind_ok in Et. destruct Et as (rs & Er & Et). injection Et as <-. unfold update_PCTMC in E. apply bind_ok in E. destruct E as (temp & Eu & E). apply unwrap_filter in Eu.
  destruct (two_collect m h pl k i j (hval_wf m h Wm Eh) (hval_nonneg m h V Eh) (hval_n m h Eh) U NR' set rs temp T Er Eu) as (F & S1 & S2).
  destruct temp as [|st0 temp0] eqn:Ete; [discriminate|]. rewrite <- Ete in *. assert (NE : temp <> []) by (rewrite Ete; discriminate). clear Ete.
  destruct (csum_value m k temp NE F) as (Lc & Gc).
  apply bind_ok in E. destruct E as (v1 & _ & E). apply bind_ok in E. destruct E as (v2 & _ & E). apply bind_ok in E. destruct E as (v3 & _ & E). injection E as Em _. rewrite <- Em.
  destruct U as (Hk & _). destruct (pc_expr m) as [|e0 es] eqn:Ee; [cbn in Hk; lia|]. cbn [length] in *.
  unfold instantiate. destruct (checkRates _ _); cbn [snd pc_expr].
  all: destruct k as [|k]; [lia|]; cbn [nth]; rewrite nth_new_cste by (rewrite ?Lc; lia); replace (S k - 1)%nat with k in Gc by lia; rewrite Gc, S1, S2; unfold new_cste; nR; unfold Reqb; destruct (Req_EM_T _ 0); reflexivity.
Qed.
Lemma only_first m k i j : only_use m k i j -> (1 <= k < length (pc_expr m))%nat /\ number (nth k (pc_expr m) (EConst 0)) /\ (i < pc_n m)%nat /\ (j < pc_n m)%nat /\ first_use m k = Ok (i, j).
Proof.
  intros (Hk & Nk & Hi & Hj & Us). repeat split; auto; try apply Hk. destruct (first_use m k) as [[i' j']|e] eqn:Eu.
  - apply C112_first_use in Eu. destruct Eu as (Hi' & Hj' & Eu & _). apply (Us i' j' Hi' Hj') in Eu. destruct Eu as [-> ->]. reflexivity.
  - exfalso. unfold first_use in Eu. destruct (find _ _) as [x|] eqn:F; [discriminate|]. pose proof (find_none _ _ F (i, j)) as Nk'.
    specialize (Nk' ltac:(apply in_prod; apply in_seq; lia)). cbn [fst snd] in Nk'. apply Nat.eqb_neq in Nk'. apply Nk'. apply Us; auto.
Qed.
(** A round with update_constant on timed traces of two observations: a numeric rate
    used by one transition becomes the expected number of moves along it divided by
    the expected time spent in its source, and stays the same if this time is 0. *)
Theorem C112_constants_two_labels_partial : forall (maxroot : list R -> res R) (p : nat) (pl : plan R) set (m m' : pctmc R) (ll : R) (c : ctmc R) (k i j : nat),
  wf_pctmc m -> valued m -> realises m c -> two_labels set -> only_use m k i j -> no_return c i ->
  round_PCTMC maxroot KTimedMatrix true p pl (timed_traces set) m = Ok (m', ll) ->
  let X := set_expected (ct_density c) (ct_expected_moves c i j) set in
  let D := set_expected (ct_density c) (ct_expected_dwell c i) set in
  nth k (pc_expr m') (EConst 0) = if Req_EM_T D 0 then nth k (pc_expr m) (EConst 0) else EConst (X / D).
Proof. intros. eapply constants_first; eauto using only_first. Qed.
Print Assumptions C112_constants_two_labels_partial.

(** ** Two models: the rates of the two transitions of the first state are two
    numbers, or one number used twice *)
Definition exS (q : nat) (extra : list (expr R)) (v : R) : pctmc R :=
  mkPC [[0; 1; q]; [2; 0; 0]; [2; 0; 0]]%nat ["init"; "a"; "b"]%string ([EConst 0; EConst v; EVar "x"] ++ extra) [("x"%string, 3)] [[(1, 0); (2, 0)]]%Z ["x"%string] [1; 0; 0] "m".
Definition exSC (v u : R) : ctmc R := mkCTMC [[0; v; u]; [3; 0; 0]; [3; 0; 0]] ["init"; "a"; "b"]%string [1; 0; 0] "m".
Definition exSP : plan R := mkPlan [[((1, 0), 1); ((2, 0), 1)]]%nat ["x"%string] [] [] [((1, 0)%nat, 1); ((2, 0)%nat, 1)].
Definition exST : list ((list string * list R) * Z) := [((["init"; "a"]%string, [1]), 3%Z); ((["init"; "b"]%string, [1]), 1%Z)].
Lemma exST_two : two_labels exST.
Proof. intros tr z [E|[E|[]]]; injection E as <- <-; eauto. Qed.
Lemma exSC_wf v u : wf_ctmc (exSC v u).
Proof. unfold wf_ctmc, square, ct_n. cbn. repeat split; auto; [intros r [<-|[<-|[<-|[]]]]; reflexivity|]. intros x [<-|[<-|[<-|[]]]]; lra. Qed.
Lemma exSC_nn v u : 0 < v -> 0 < u -> nonneg_mat (ct_mat (exSC v u)).
Proof. intros A B r [<-|[<-|[<-|[]]]]; intros x [<-|[<-|[<-|[]]]]; lra. Qed.
Lemma exSC_density v u t : ct_density (exSC v u) (["init"; "a"]%string, [t]) = v * exp (- ((v + u) * t)) /\ ct_density (exSC v u) (["init"; "b"]%string, [t]) = u * exp (- ((v + u) * t)).
Proof.
  unfold ct_density, trace_prob, paths, jump_density. cbn [fst snd map length]. unfold sumL. cbn. unfold exit_rate, is_label. cbn. unfold matR, vecR. cbn.
  replace (0 + (v + (u + 0))) with (v + u) by ring. split; ring.
Qed.
Lemma exS_work q extra v u b z : (q = 1%nat /\ extra = [] \/ q = 3%nat /\ exists w, extra = [EConst w]) -> 0 < v -> 0 < u -> b = "a"%string \/ b = "b"%string ->
  exists cs, processWork_PCTMC KTimedMatrix true (exS q extra v) (exSC v u) exSP (["init"; b]%string, Some [1]) z =
    Ok (Some (mkStatPC cs [(0, 0)] [] [] (ct_density (exSC v u) (["init"; b]%string, [1])) z)) /\ (q = 1%nat -> exists x, cs = [Some x; None]).
Proof.
  intros Q V U B. unfold processWork_PCTMC. cbn [fst length Nat.ltb Nat.leb].
  destruct (two_fb (exSC v u) (exSC_wf v u) (exSC_nn v u V U) "init"%string b 1) as (A1 & A2 & B0 & B1 & Ef & _). rewrite Ef. cbn [bind].
  rewrite (C112_matrix_density (exSC v u) ["init"; b]%string [1] _ _ (exSC_wf v u) (exSC_nn v u V U) eq_refl Ef). clear Ef.
  set (P := ct_density _ _). assert (P0 : 0 < P).
  { unfold P. destruct (exSC_density v u 1) as [Da Db]. destruct B as [-> | ->]; [rewrite Da|rewrite Db]; apply Rmult_lt_0_compat; auto using exp_pos. }
  nR. unfold Reqb. destruct (Req_EM_T P 0) as [Z|_]; [lra|].
  assert (C : exists cs, mmap (work_cste (exS q extra v) (exSC v u) [ct_ini (exSC v u); A1; A2] [B0; B1] (["init"; b]%string, Some [1]) z P) (seq 1 (length (pc_expr (exS q extra v)) - 1)) = Ok cs /\ (q = 1%nat -> exists x, cs = [Some x; None])).
  { destruct Q as [[-> ->]|[-> (w & ->)]].
    - cbn [exS pc_expr app length seq Nat.sub mmap]. unfold work_cste. cbn [exS pc_expr app nth symbols].
      change (first_use (exS 1 [] v) 1) with (Ok (0, 1)%nat). cbn [bind fst snd]. rewrite two_stay. cbn [bind]. rewrite two_move. cbn [bind]. eexists. split; [reflexivity|]. intros _. eexists. reflexivity.
    - cbn [exS pc_expr app length seq Nat.sub mmap]. unfold work_cste. cbn [exS pc_expr app nth symbols].
      change (first_use (exS 3 [EConst w] v) 1) with (Ok (0, 1)%nat). change (first_use (exS 3 [EConst w] v) 3) with (Ok (0, 2)%nat). cbn [bind fst snd]. rewrite !two_stay. cbn [bind]. rewrite !two_move. cbn [bind]. eexists. split; [reflexivity|]. discriminate. }
  destruct C as (cs & -> & Hcs). exists cs. split; [|exact Hcs]. cbn [bind exSP pl_cat1 pl_cat2 pl_cat3 mmap].
  assert (W1 : forall s, (s = 1 \/ s = 2)%nat -> work1 (exSC v u) exSP [ct_ini (exSC v u); A1; A2] [B0; B1] (["init"; b]%string, Some [1]) z P (s, 0%nat) = Ok (0, 0)).
  { intros s Hs. unfold work1. assert (nsum (move_weights (exSC v u) (["init"; b]%string, Some [1]) (s, 0%nat)) = 0) as ->.
    { rewrite nsum_rsum. cbn. unfold ct_l, lab. destruct Hs as [-> | ->]; cbn; nR; ring. }
    assert (nltb (n0 : R) 0 = false) as -> by (apply Rltb_false; nR; lra). reflexivity. }
  change (places (exS q extra v) "x") with [(1, 0); (2, 0)]%nat. unfold acc2. cbn [mfold]. rewrite W1 by auto. cbn [bind]. rewrite W1 by auto. cbn [bind fst snd]. nR. rewrite !Rplus_0_r. reflexivity.
Qed.
Lemma exS_hval q extra v u : (q = 1%nat /\ extra = [] /\ u = v \/ q = 3%nat /\ extra = [EConst u]) -> hval (exS q extra v) = Ok (exSC v u).
Proof. intros [(-> & -> & ->)|(-> & ->)]; reflexivity. Qed.
Lemma exS_round maxroot q extra v u : (q = 1%nat /\ extra = [] /\ u = v \/ q = 3%nat /\ extra = [EConst u]) -> 0 < v -> 0 < u ->
  exists m' ll, round_PCTMC maxroot KTimedMatrix true 1 exSP (timed_traces exST) (exS q extra v) = Ok (m', ll) /\
    (q = 1%nat -> forall w, nth 1 (pc_expr m') (EConst 0) = EConst w -> realises m' (exSC w w)).
Proof.
  intros Q V U. unfold round_PCTMC. rewrite (exS_hval q extra v u Q). cbn [bind].
  assert (Q' : q = 1%nat /\ extra = [] \/ q = 3%nat /\ exists w, extra = [EConst w]) by (destruct Q as [(-> & -> & _)|(-> & ->)]; eauto).
  destruct (exS_work q extra v u "a" 3 Q' V U (or_introl eq_refl)) as (c1 & E1 & H1). destruct (exS_work q extra v u "b" 1 Q' V U (or_intror eq_refl)) as (c2 & E2 & H2).
  unfold run_workers. cbn [timed_traces exST map mmap fst snd]. rewrite E1. cbn [bind]. rewrite E2. cbn [bind Nat.ltb Nat.leb]. unfold update_PCTMC, unwrap. cbn [mmap bind map sp_1 sp_2 sp_3 exSP pl_cat1 pl_cat2 pl_cat3 psum_all fold_left zipwith combine].
  unfold new_value1, padd. cbn [fst snd exS pc_val]. nR. unfold Reqb. destruct (Req_EM_T (0 + 0) 0) as [_|N]; [|lra]. cbn [dget String.eqb Ascii.eqb Bool.eqb bind mmap msum_all]. 
  eexists _, _. split; [reflexivity|]. intros -> w Ew. destruct (H1 eq_refl) as (x1 & ->). destruct (H2 eq_refl) as (x2 & ->). assert (extra = []) as -> by (destruct Q as [(_ & X & _)|(X & _)]; [exact X|discriminate]).
  apply hval_realises. revert Ew. unfold instantiate. replace (3 / 1) with 3 by field. destruct (checkRates _ _); cbn [snd pc_expr exS app sp_cste csum_all fold_left zipwith cadd nth]; intros Ew; rewrite Ew; reflexivity.
Qed.

Lemma exS_facts q extra v u : (q = 1%nat /\ extra = [] /\ u = v \/ q = 3%nat /\ extra = [EConst u]) -> 0 < v -> 0 < u ->
  wf_pctmc (exS q extra v) /\ valued (exS q extra v) /\ realises (exS q extra v) (exSC v u) /\ no_return (exSC v u) 0.
Proof.
  intros Q V U. pose proof (hval_realises _ _ (exS_hval q extra v u Q)) as Rr. split; [|split; [|split; [exact Rr|]]].
  - assert (Hx : forall x, In x [1; 0; 0] -> 0 <= x) by (intros x [<-|[<-|[<-|[]]]]; lra).
    destruct Q as [(-> & -> & ->)|(-> & ->)]; (split; [intros r [<-|[<-|[<-|[]]]]; (split; [reflexivity|intros x [<-|[<-|[<-|[]]]]; cbn; lia])|]); repeat split; exact Hx.
  - split; [intros p [<-|[]]; exists 3; split; [reflexivity|lra]|]. intros i j r Hi Hj H. destruct Rr as (_ & _ & En & Sq & Rr). rewrite (has_value_fun _ _ _ _ H (Rr i j Hi Hj)). apply mget_nonneg. exact (exSC_nn v u V U).
  - intros s Hs N _. destruct s as [|[|[|s]]]; [reflexivity|exfalso; apply N; reflexivity|exfalso; apply N; reflexivity|cbn in Hs; lia].
Qed.
Lemma exS_values v u : 0 < v -> 0 < u ->
  set_expected (ct_density (exSC v u)) (ct_expected_moves (exSC v u) 0 1) exST = 3 /\ set_expected (ct_density (exSC v u)) (ct_expected_dwell (exSC v u) 0) exST = 4.
Proof.
  intros V U. destruct (exSC_density v u 1) as [Da Db]. pose proof (exp_pos (- ((v + u) * 1))) as Xp. set (X := exp (- ((v + u) * 1))) in *.
  assert (J : forall j, jump_density (exSC v u) 1 0 j = nth j [0; v; u] 0 * X) by (intros j; unfold jump_density, matR, exit_rate, X; cbn; replace (0 + (v + (u + 0))) with (v + u) by ring; reflexivity).
  unfold set_expected, exST. rewrite !sumLc. unfold sumL at 1 2. cbn [map rsum fold_right fst snd]. rewrite Da, Db. assert (0 < v * X /\ 0 < u * X) as [P1 P2] by (split; apply Rmult_lt_0_compat; assumption).
  destruct (Rlt_dec 0 (v * X)) as [_|N]; [|contradiction]. destruct (Rlt_dec 0 (u * X)) as [_|N]; [|contradiction].
  rewrite !two_moves, !two_dwell by (cbn; lia). change (ct_n (exSC v u)) with 3%nat. unfold Sum, sumL. cbn [seq map rsum fold_right]. rewrite !J. unfold is_label, vecR. cbn. split; field; lra.
Qed.
(** The hypotheses hold for the model with two numbers: the first becomes 3/4. *)
Example C112_constants_two_labels_instance : forall maxroot, exists m' ll, round_PCTMC maxroot KTimedMatrix true 1 exSP (timed_traces exST) (exS 3 [EConst 1] 5) = Ok (m', ll) /\
  only_use (exS 3 [EConst 1] 5) 1 0 1 /\ nth 1 (pc_expr m') (EConst 0) = EConst (3 / 4).
Proof.
  intros maxroot. assert (Q : 3%nat = 1%nat /\ [EConst 1] = [] /\ 1 = 5 \/ 3%nat = 3%nat /\ [EConst 1] = [EConst 1]) by auto.
  destruct (exS_round maxroot 3 [EConst 1] 5 1 Q ltac:(lra) ltac:(lra)) as (m' & ll & E & _). destruct (exS_facts 3 [EConst 1] 5 1 Q ltac:(lra) ltac:(lra)) as (W & V & Rr & NR).
  assert (U : only_use (exS 3 [EConst 1] 5) 1 0 1).
  { split; [cbn; lia|]. split; [intros x []|]. split; [cbn; lia|]. split; [cbn; lia|]. intros i' j' Hi Hj. cbn in Hi, Hj. destruct i' as [|[|[|]]]; try lia; destruct j' as [|[|[|]]]; try lia; cbn; split; try lia; auto. }
  exists m', ll. split; [exact E|]. split; [exact U|]. pose proof (C112_constants_two_labels_partial maxroot 1 exSP exST _ m' ll _ 1 0 1 W V Rr exST_two U NR E) as K. cbv zeta in K.
  rewrite K. destruct (exS_values 5 1 ltac:(lra) ltac:(lra)) as [-> ->]. destruct (Req_EM_T 4 0); [lra|reflexivity].
Qed.
(** A number used by two transitions is re-estimated from the first one only, and
    given to both: here the likelihood falls. *)
Theorem C112_constants_shared_refuted : forall maxroot, exists m' ll, round_PCTMC maxroot KTimedMatrix true 1 exSP (timed_traces exST) (exS 1 [] (1 / 2)) = Ok (m', ll) /\
  realises (exS 1 [] (1 / 2)) (exSC (1 / 2) (1 / 2)) /\ realises m' (exSC (3 / 4) (3 / 4)) /\
  set_ll (ct_density (exSC (3 / 4) (3 / 4))) exST < set_ll (ct_density (exSC (1 / 2) (1 / 2))) exST.
Proof.
  intros maxroot. assert (Q : 1%nat = 1%nat /\ @nil (expr R) = [] /\ 1 / 2 = 1 / 2 \/ 1%nat = 3%nat /\ [] = [EConst (1 / 2)]) by auto.
  destruct (exS_round maxroot 1 [] (1 / 2) (1 / 2) Q ltac:(lra) ltac:(lra)) as (m' & ll & E & Rm). destruct (exS_facts 1 [] (1 / 2) (1 / 2) Q ltac:(lra) ltac:(lra)) as (W & V & Rr & NR).
  exists m', ll. split; [exact E|]. split; [exact Rr|].
  assert (U : (1 <= 1 < length (pc_expr (exS 1 [] (1 / 2))))%nat /\ number (nth 1 (pc_expr (exS 1 [] (1 / 2))) (EConst 0)) /\ (0 < pc_n (exS 1 [] (1 / 2)))%nat /\ (1 < pc_n (exS 1 [] (1 / 2)))%nat /\ first_use (exS 1 [] (1 / 2)) 1 = Ok (0, 1)%nat).
  { split; [cbn; lia|]. split; [intros x []|]. split; [cbn; lia|]. split; [cbn; lia|reflexivity]. }
  pose proof (constants_first maxroot 1 exSP exST _ m' ll _ 1 0 1 W V Rr exST_two U NR E) as K. cbv zeta in K. destruct (exS_values (1 / 2) (1 / 2) ltac:(lra) ltac:(lra)) as [V1 V2]. rewrite V1, V2 in K.
  destruct (Req_EM_T 4 0) as [F|_] in K; [lra|]. split; [apply (Rm eq_refl); exact K|].
  unfold set_ll, sumL, exST. cbn [map rsum fold_right fst snd]. destruct (exSC_density (3 / 4) (3 / 4) 1) as [-> ->]. destruct (exSC_density (1 / 2) (1 / 2) 1) as [-> ->].
  assert (Ln : forall v, 0 < v -> 0 < v * exp (- ((v + v) * 1)) /\ ln (v * exp (- ((v + v) * 1))) = ln v - 2 * v).
  { intros v Pv. split; [apply Rmult_lt_0_compat; [exact Pv|apply exp_pos]|]. rewrite ln_mult, ln_exp by (assumption || apply exp_pos). lra. }
  destruct (Ln (3 / 4) ltac:(lra)) as [P1 ->]. destruct (Ln (1 / 2) ltac:(lra)) as [P2 ->].
  destruct (Rlt_dec 0 (3 / 4 * _)) as [_|N]; [|contradiction]. destruct (Rlt_dec 0 (1 / 2 * _)) as [_|N]; [|contradiction].
  assert (L : ln (3 / 2) < 1 / 2). { rewrite <- (ln_exp (1 / 2)). apply ln_increasing; [lra|]. pose proof (exp_ineq1 (1 / 2) ltac:(lra)). lra. }
  replace (3 / 4) with (1 / 2 * (3 / 2)) by field. rewrite ln_mult by lra. lra.
Qed.
Print Assumptions C112_constants_shared_refuted.
(** [exSP] is the plan made for these models. *)
Example exSP_plan : sortParameters (exS 1 [] (1 / 2)) [] = Ok exSP /\ sortParameters (exS 3 [EConst 1] 5) [] = Ok exSP.
Proof. split; cbn; reflexivity. Qed.

(** The numerical equations of parametric CTMC learning (C115). *)
From Coq Require Import String ZArith Bool Reals List Lia Lra Psatz ClassicalEpsilon.
From Verif Require Import Num Py LSum SNum MSet MModels MPctmc SPctmc SBW SLik PBWCT MPLearn SPLearn MPRoot SPRoot PPLearn2.
Import ListNotations.
Local Open Scope R_scope.

Lemma poly_cont t : continuity (poly t).
Proof.
  induction t as [|c t IH].
  - apply continuity_const. intros x y. reflexivity.
  - apply (continuity_plus (fun _ => c) (fun x => x * poly t x)); [apply continuity_const; intros x y; reflexivity|].
    apply (continuity_mult id (poly t)); [apply derivable_continuous, derivable_id|exact IH].
Qed.
Lemma poly_nonneg t x : 0 <= x -> (forall i, 0 <= nth i t 0) -> 0 <= poly t x.
Proof.
  intros Hx H. induction t as [|c t IH]; unfold poly; cbn [fold_right]; [lra|]. fold (poly t x).
  pose proof (H 0%nat). cbn in H0. assert (0 <= poly t x) by (apply IH; intros i; apply (H (S i))). nra.
Qed.
Lemma poly_ge t i x : 1 <= x -> (forall i, 0 <= nth i t 0) -> nth i t 0 <= poly t x.
Proof.
  intros Hx. revert i. induction t as [|c t IH]; intros i H; unfold poly; cbn [fold_right]; [destruct i; cbn; lra|]. fold (poly t x).
  assert (N : 0 <= poly t x) by (apply poly_nonneg; [lra|intros k; apply (H (S k))]). pose proof (H 0%nat) as H0. cbn in H0.
  destruct i as [|i]; cbn [nth]; [nra|]. assert (nth i t 0 <= poly t x) by (apply IH; intros k; apply (H (S k))). nra.
Qed.
Lemma poly_mono t x y : 0 <= x <= y -> (forall i, 0 <= nth i t 0) -> poly t x <= poly t y.
Proof.
  intros Hx H. induction t as [|c t IH]; unfold poly; cbn [fold_right]; [lra|]. fold (poly t x) (poly t y).
  assert (poly t x <= poly t y) by (apply IH; intros i; apply (H (S i))).
  assert (0 <= poly t x) by (apply poly_nonneg; [lra|intros i; apply (H (S i))]). nra.
Qed.
(** The equation has exactly one solution which is not negative, and it is
    positive, as soon as it is not constant. *)
Theorem C115_one_positive_solution : forall t, equation t -> has_degree t ->
  exists x, 0 < x /\ poly t x = 0 /\ forall y, 0 <= y -> poly t y = 0 -> y = x.
Proof.
  intros t [HA HB] [i Hi]. destruct t as [|c t]; [cbn in HA; lra|]. cbn in HA. assert (B : forall k, 0 <= nth k t 0) by (intros k; apply (HB k)). cbn in Hi.
  assert (Bi : 0 < nth i t 0) by (destruct (B i); [assumption|congruence]).
  set (y := 1 + (- c) / nth i t 0). assert (Hy : 1 <= y).
  { unfold y. assert (0 <= - c / nth i t 0); [apply Rmult_le_pos; [lra|apply Rlt_le, Rinv_0_lt_compat; exact Bi]|lra]. }
  destruct (IVT (poly (c :: t)) 0 y (poly_cont _)) as (x & Hx & E).
  - lra.
  - unfold poly. cbn. lra.
  - unfold poly. cbn [fold_right]. fold (poly t y). pose proof (poly_ge t i y Hy B) as G. assert (Y : y * nth i t 0 = nth i t 0 - c) by (unfold y; field; lra). nra.
  - exists x. assert (P : 0 < x). { destruct (Rle_lt_or_eq_dec 0 x) as [L|L]; [lra|exact L|]. subst x. unfold poly in E. cbn in E. lra. }
    split; [exact P|]. split; [exact E|]. intros z Hz Ez. unfold poly in E, Ez. cbn [fold_right] in E, Ez. fold (poly t x) in E. fold (poly t z) in Ez.
    assert (Q : forall u, 0 <= u -> c + u * poly t u = 0 -> 0 < u /\ 0 < poly t u).
    { intros u Hu Eu. assert (0 <= poly t u) by (apply poly_nonneg; assumption). split; destruct (Rle_lt_or_eq_dec 0 u Hu); try nra. }
    destruct (Q x (Rlt_le _ _ P) E) as [_ Px]. destruct (Q z Hz Ez) as [Pz Pz'].
    destruct (Rtotal_order x z) as [L|[L|L]]; [|auto|]; exfalso.
    + pose proof (poly_mono t x z (conj (Rlt_le _ _ P) (Rlt_le _ _ L)) B). nra.
    + pose proof (poly_mono t z x (conj Hz (Rlt_le _ _ L)) B). nra.
Qed.
Print Assumptions C115_one_positive_solution.

Lemma cgt_spec x y : cgt (K := R) x y = true <-> fst y < fst x \/ fst x = fst y /\ snd y < snd x.
Proof.
  unfold cgt. rewrite orb_true_iff, andb_true_iff, !Rltb_true. cbn [neqb RNum]. unfold Reqb. destruct (Req_EM_T (fst x) (fst y)); intuition congruence.
Qed.
Definition cle (x y : R * R) : Prop := fst x < fst y \/ fst x = fst y /\ snd x <= snd y.
Lemma cle_trans x y z : cle x y -> cle y z -> cle x z.
Proof. unfold cle. intuition lra. Qed.
Lemma py_max_spec l z : py_max (K := R) l = Ok z -> In z l /\ forall w, In w l -> cle w z.
Proof.
  destruct l as [|x r]; [discriminate|]. cbn [py_max]. intros E. injection E as <-.
  revert x. induction r as [|y r IH]; intros x; cbn [fold_left].
  - split; [left; reflexivity|]. intros w [<-|[]]. right. lra.
  - destruct (IH (if cgt y x then y else x)) as [I M].
    assert (X : cle x (if cgt y x then y else x) /\ cle y (if cgt y x then y else x)).
    { destruct (cgt y x) eqn:E; unfold cle.
      - apply cgt_spec in E. intuition lra.
      - assert (N : ~ (fst x < fst y \/ fst y = fst x /\ snd x < snd y)) by (rewrite <- cgt_spec; congruence). split; [right; lra|].
        destruct (Rtotal_order (fst y) (fst x)) as [L|[L|L]]; [left; exact L|right; split; [exact L|]|exfalso; apply N; left; exact L].
        destruct (Rle_lt_dec (snd y) (snd x)); [assumption|]. exfalso. apply N. right. split; assumption. }
    split.
    + destruct I as [<-|I]; [destruct (cgt y x); [right; left|left]; reflexivity|right; right; exact I].
    + intros w [<-|[<-|Iw]].
      * apply cle_trans with (1 := proj1 X). apply M. left. reflexivity.
      * apply cle_trans with (1 := proj2 X). apply M. left. reflexivity.
      * apply M. right. exact Iw.
Qed.
Lemma py_max_some l : l <> [] -> exists z, py_max (K := R) l = Ok z.
Proof. destruct l; [congruence|]. intros _. eexists. reflexivity. Qed.
Lemma cpoly_real t x : cpoly t (x, 0) = (poly t x, 0).
Proof.
  induction t as [|c t IH]; [reflexivity|]. unfold cpoly, poly. cbn [fold_right]. fold (cpoly t (x, 0)) (poly t x). rewrite IH. unfold cadd, cmul. cbn [fst snd]. f_equal; ring.
Qed.
Lemma short4 (t : list R) : (length t <= 4)%nat -> forall z, cpoly t z = cpoly [nth 0 t 0; nth 1 t 0; nth 2 t 0; nth 3 t 0] z.
Proof.
  intros L z. destruct t as [|a [|b [|c [|d [|? ?]]]]]; try (cbn in L; lia); unfold cpoly; cbn [fold_right nth]; unfold cadd, cmul; cbn [fst snd]; try reflexivity; f_equal; ring.
Qed.
(** Rates of total degree at most three: the code takes this solution. *)
Theorem C115_largest_root : forall polyroots t, finds_roots polyroots -> equation t -> has_degree t -> (length t <= 4)%nat ->
  exists x, largest_root polyroots t = Ok x /\ 0 < x /\ poly t x = 0.
Proof.
  intros polyroots t F Q D L. destruct (C115_one_positive_solution t Q D) as (x & Px & Ex & U). destruct (F t) as [F1 _]. specialize (F1 D).
  assert (I : In (x, 0) (polyroots t)) by (apply F1; rewrite cpoly_real, Ex; reflexivity).
  destruct (py_max_some (polyroots t)) as [z Ez]; [intros N; rewrite N in I; destruct I|]. destruct (py_max_spec _ _ Ez) as [Iz M]. apply F1 in Iz.
  pose proof (M _ I) as Le. destruct z as [a b]. unfold cle in Le. cbn [fst snd] in Le. assert (Ha : 0 < a) by lra.
  assert (b = 0).
  { destruct (Req_EM_T b 0) as [|Nb]; [assumption|]. exfalso. rewrite (short4 t L) in Iz. destruct Q as [QA QB].
    pose proof (QB 0%nat) as B1. pose proof (QB 1%nat) as B2. pose proof (QB 2%nat) as B3. revert Iz QA B1 B2 B3.
    generalize (nth 0 t 0) (nth 1 t 0) (nth 2 t 0) (nth 3 t 0). intros c0 c1 c2 c3 Iz QA B1 B2 B3. unfold cpoly in Iz. cbn [fold_right] in Iz. unfold cadd, cmul in Iz. cbn [fst snd] in Iz.
    injection Iz as Re Im.
    assert (Im' : c1 + 2 * a * c2 + c3 * (3 * a * a - b * b) = 0) by (apply (Rmult_eq_reg_l b); [|exact Nb]; nra).
    assert (Re' : c0 + c1 * a + c2 * (a * a - b * b) + c3 * (a * a * a - 3 * a * (b * b)) = 0) by nra.
    assert (K : c3 * (b * b) = c1 + 2 * a * c2 + 3 * c3 * (a * a)) by lra.
    assert (E : c0 + c1 * a + c2 * (a * a) + c3 * (a * a * a) = c2 * (b * b) + 3 * a * (c1 + 2 * a * c2 + 3 * c3 * (a * a))) by (rewrite <- K; lra).
    assert (0 <= c2 * (b * b)) by (apply Rmult_le_pos; nra). assert (0 <= a * c1) by nra. assert (0 <= a * a * c2) by (apply Rmult_le_pos; nra). assert (0 <= a * a * a * c3) by (apply Rmult_le_pos; [apply Rmult_le_pos; nra|lra]). lra. }
  subst b. exists a. unfold largest_root. rewrite Ez. cbn [bind snd fst]. cbn [neqb RNum n0]. unfold Reqb. destruct (Req_EM_T 0 0); [|congruence]. split; [reflexivity|]. split; [exact Ha|].
  rewrite cpoly_real in Iz. injection Iz as Iz. exact Iz.
Qed.
Print Assumptions C115_largest_root.
(** Whatever the degree, a real result is the solution: what C107-C110 assume of
    the root finder follows from the specification of polyroots. *)
Theorem C115_solver : forall polyroots, finds_roots polyroots -> solver (largest_root polyroots).
Proof.
  intros polyroots F t x E HA HB. unfold largest_root in E. destruct (py_max (polyroots t)) as [[a b]|] eqn:Ez; [|discriminate]. cbn [bind fst snd] in E.
  cbn [neqb RNum n0] in E. unfold Reqb in E. destruct (Req_EM_T b 0) as [->|]; [|discriminate]. injection E as ->.
  destruct (py_max_spec _ _ Ez) as [Iz M]. destruct (F t) as [F1 F2].
  assert (D : has_degree t) by (destruct (Classical_Prop.classic (has_degree t)) as [D|D]; [exact D|rewrite (F2 D) in Iz; destruct Iz]).
  specialize (F1 D). apply F1 in Iz. rewrite cpoly_real in Iz. injection Iz as Iz. split; [|exact Iz].
  assert (X : exists r, 0 <= r /\ poly t r = 0).
  { destruct (Rle_lt_or_eq_dec _ _ HA) as [L|L]; [destruct (C115_one_positive_solution t (conj L HB) D) as (r & A & B & _); exists r; split; [lra|exact B]|].
    exists 0. split; [lra|]. destruct t as [|c t]; [reflexivity|]. cbn in L. unfold poly. cbn [fold_right]. lra. }
  destruct X as (r & Hr & Er). assert (I : In (r, 0) (polyroots t)) by (apply F1; rewrite cpoly_real, Er; reflexivity).
  pose proof (M _ I) as Le. unfold cle in Le. cbn [fst snd] in Le. lra.
Qed.
Print Assumptions C115_solver.

(** Total degree four: x^4 + 12 x - 5 = (x^2 - 2x + 5) (x^2 + 2x - 1), with the
    solution sqrt 2 - 1 and the largest root 1 + 2i. *)
Definition ex4 : list R := [-5; 12; 0; 0; 1].
Lemma ex4_degree : has_degree ex4. Proof. exists 0%nat. cbn. lra. Qed.
Lemma ex4_equation : equation ex4.
Proof. split; [cbn; lra|]. intros [|[|[|[|[|i]]]]]; cbn; lra. Qed.
Lemma ex4_roots a b : cpoly ex4 (a, b) = (0, 0) -> cle (a, b) (1, 2).
Proof.
  intros E.
  assert (N : (a * a - b * b - 2 * a + 5 = 0 /\ 2 * a * b - 2 * b = 0) \/ (a * a - b * b + 2 * a - 1 = 0 /\ 2 * a * b + 2 * b = 0)).
  { unfold cpoly, ex4 in E. cbn [fold_right] in E. unfold cadd, cmul in E. cbn [fst snd] in E. injection E as Re Im.
    set (u := a * a - b * b - 2 * a + 5). set (v := 2 * a * b - 2 * b). set (p := a * a - b * b + 2 * a - 1). set (q := 2 * a * b + 2 * b).
    assert (R1 : u * p - v * q = 0) by (unfold u, v, p, q; rewrite <- Re; ring). assert (R2 : u * q + v * p = 0) by (unfold u, v, p, q; rewrite <- Im; ring).
    assert (Z : (u * u + v * v) * (p * p + q * q) = 0).
    { replace ((u * u + v * v) * (p * p + q * q)) with ((u * p - v * q) * (u * p - v * q) + (u * q + v * p) * (u * q + v * p)) by ring. rewrite R1, R2. ring. }
    apply Rmult_integral in Z. destruct Z as [Z|Z]; [left|right]; split; nra. }
  unfold cle. cbn [fst snd]. destruct N as [[Re Im]|[Re Im]].
  - assert (Z : b * (a - 1) = 0) by lra. apply Rmult_integral in Z. destruct Z as [->|Z]; [exfalso; nra|]. assert (a = 1) by lra. subst a. right. split; [reflexivity|]. nra.
  - assert (Z : b * (a + 1) = 0) by lra. apply Rmult_integral in Z. destruct Z as [->|Z]; left; [nra|lra].
Qed.
Lemma ex4_not_real polyroots : finds_roots polyroots -> largest_root polyroots ex4 = Err TypeError.
Proof.
  intros F. destruct (F ex4) as [F1 _]. specialize (F1 ex4_degree).
  assert (I : In (1, 2) (polyroots ex4)) by (apply F1; unfold cpoly, ex4; cbn [fold_right]; unfold cadd, cmul; cbn [fst snd]; f_equal; ring).
  destruct (py_max_some (polyroots ex4)) as [[a b] Ez]; [intros N; rewrite N in I; destruct I|]. destruct (py_max_spec _ _ Ez) as [Iz M].
  pose proof (M _ I) as G. apply F1 in Iz. apply ex4_roots in Iz. unfold cle in G, Iz. cbn [fst snd] in G, Iz. assert (b = 2) by lra. subst b.
  unfold largest_root. rewrite Ez. cbn [bind fst snd neqb RNum n0]. unfold Reqb. destruct (Req_EM_T 2 0); [lra|reflexivity].
Qed.
(** Two states, rates x and x^4. *)
Definition ex4M : pctmc R := mkPC [[0; 1]; [2; 0]]%nat ["init"; "a"]%string [EConst 0; EVar "x"; EPow (EVar "x") 4] [("x"%string, 1)] [[(0, 1); (1, 0)]]%Z ["x"]%string [1; 0] "ex".
Definition ex4T : list ((list string * list R) * Z) := [((["init"; "a"; "init"]%string, [12; 1 / 4]), 1%Z)].
Definition ex4P : plan R := mkPlan [[((0, 1)%nat, 1%nat); ((1, 0)%nat, 4%nat)]] [] [] ["x"]%string [].
Lemma ex4_sort : sortParameters ex4M [] = Ok ex4P. Proof. reflexivity. Qed.
Lemma ex4_round maxroot e : maxroot ex4 = Err e -> round_PCTMC maxroot KTimed false 1 ex4P (training_of (Timed ex4T)) ex4M = Err e.
Proof.
  intros E. unfold round_PCTMC.
  assert (H : hval ex4M = Ok (mkCTMC [[0; 1]; [1; 0]] ["init"; "a"]%string [1; 0] "ex")).
  { transitivity (@Ok (ctmc R) (mkCTMC [[0; 1]; [1 * (1 * (1 * (1 * 1))); 0]] ["init"; "a"]%string [1; 0] "ex")); [reflexivity|]. rewrite !Rmult_1_l. reflexivity. }
  rewrite H. clear H. cbn [bind]. unfold processWork_PCTMC, run_workers. cbn -[update_PCTMC work3].
  change (pair_of (0, 1)%Z) with (0%nat, 1%nat). change (pair_of (1, 0)%Z) with (1%nat, 0%nat).
  set (e1 := exp (0 - (0 + (1 + 0)) * 12)). set (e2 := exp (0 - (1 + (0 + 0)) * 12)). set (e3 := exp (0 - (0 + (1 + 0)) * (1 / 4))). set (e4 := exp (0 - (1 + (0 + 0)) * (1 / 4))).
  assert (P1 : 0 < e1) by apply exp_pos. assert (P4 : 0 < e4) by apply exp_pos.
  match goal with |- context [Reqb ?d 0] => set (P := d) end. assert (EP : P = e1 * e4) by (unfold P; ring). assert (PP : 0 < P) by (rewrite EP; nra).
  clearbody P. destruct (Reqb P 0) eqn:EB; [exfalso; unfold Reqb in EB; destruct (Req_EM_T P 0); [lra|discriminate]|]. clear EB.
  unfold work3. cbn -[update_PCTMC]. fold e1 e2 e3 e4.
  rewrite !(Rmult_1_l 1). unfold Reqb. destruct (Req_EM_T 1 0); [lra|]. cbn -[update_PCTMC]. unfold update_PCTMC. cbn.
  match goal with |- context [maxroot ?t] => replace t with ex4; [rewrite E; reflexivity|] end.
  unfold ex4. rewrite EP. repeat (match goal with |- _ :: _ = _ :: _ => f_equal end); field; split; lra.
Qed.
(** A largest root which is not real is taken although the model is as in
    C107-C110 and the equation has a positive solution. *)
Theorem C115_degree_four_refuted : exists set (m : pctmc R) t x, timed_set set /\ pos_times set /\ pos_dwell set /\ wf_pctmc m /\ indexed m /\ learnable [] m /\ valued m /\
  equation t /\ 0 < x /\ poly t x = 0 /\
  forall polyroots, finds_roots polyroots -> py_max (polyroots t) = Ok (1, 2) /\
    forall eps max_it, (1 <= max_it)%nat -> fit_parameters exO (largest_root polyroots) (Timed set) m (pc_par m) eps max_it Some = Some (Err TypeError, m).
Proof.
  exists ex4T, ex4M, ex4, (sqrt 2 - 1).
  split; [intros tr t [E|[]]; injection E as <- <-; split; [reflexivity|intros d [<-|[<-|[]]]; lra]|].
  split; [intros x [<-|[]]; cbn; lia|]. split; [intros tr t [E|[]]; injection E as <- <-; intros d [<-|[<-|[]]]; lra|].
  split.
  { split; [|split; [reflexivity|split; [reflexivity|split; [reflexivity|]]]].
    - intros w [<-|[<-|[]]]; (split; [reflexivity|]); intros k [<-|[<-|[]]]; cbn; lia.
    - intros x [<-|[<-|[]]]; lra. }
  split.
  { split; [repeat constructor; intros []|]. split.
    - intros i j x Hi Hj. two Hi; two Hj; cbn; intuition (subst; auto).
    - intros p [<-|[]]. split; [repeat constructor; cbn; intuition discriminate|]. intros i j. cbn [In ex4M parameterIndexes]. split.
      + intros [E|[E|[]]]; injection E as <- <-; (split; [cbn; lia|]); (split; [cbn; lia|]); change (Z.to_nat 1) with 1%nat; cbn; auto.
      + cbn [ex4M pc_n pc_mat length]. intros (Hi & Hj & O). assert (Ei : (i = 0 \/ i = 1)%Z) by lia. assert (Ej : (j = 0 \/ j = 1)%Z) by lia.
        destruct Ei as [-> | ->], Ej as [-> | ->]; change (Z.to_nat 1) with 1%nat in O; cbn in O; cbn; intuition. }
  split; [intros i j Hi Hj; left; two Hi; two Hj; cbn; auto|].
  split.
  { split; [intros p [<-|[]]; exists 1; split; [reflexivity|lra]|]. intros i j w Hi Hj Hw.
    assert (R : realises ex4M (mkCTMC [[0; 1]; [1 * (1 * (1 * (1 * 1))); 0]] ["init"; "a"]%string [1; 0] "ex")) by (apply LPLearn4.hval_realises; reflexivity).
    destruct R as (_ & _ & _ & _ & R). specialize (R i j Hi Hj). rewrite (LPctmc.has_value_fun _ _ _ _ Hw R). two Hi; two Hj; unfold matR; cbn; lra. }
  split; [exact ex4_equation|]. assert (S2 : sqrt 2 * sqrt 2 = 2) by (apply sqrt_sqrt; lra). assert (0 < sqrt 2) by (apply sqrt_lt_R0; lra).
  split; [nra|]. split; [unfold poly, ex4; cbn [fold_right]; nra|].
  intros polyroots F. split.
  - destruct (F ex4) as [F1 _]. specialize (F1 ex4_degree).
    assert (I : In (1, 2) (polyroots ex4)) by (apply F1; unfold cpoly, ex4; cbn [fold_right]; unfold cadd, cmul; cbn [fst snd]; f_equal; ring).
    destruct (py_max_some (polyroots ex4)) as [[a b] Ez]; [intros N; rewrite N in I; destruct I|]. destruct (py_max_spec _ _ Ez) as [Iz M].
    pose proof (M _ I) as G. apply F1 in Iz. apply ex4_roots in Iz. unfold cle in G, Iz. cbn [fst snd] in G, Iz. rewrite Ez. f_equal. f_equal; lra.
  - intros eps mx Hm. unfold fit_parameters. cbn -[sortParameters round_PCTMC prune training_of bw_PCTMC]. change (prune ["init"; "a"]%string ex4M) with ex4M. rewrite ex4_sort.
    unfold bw_PCTMC. cbn [negb ob_verbose exO ob_processes ob_kind]. destruct mx; [lia|]. cbn [MBW.bw_loop].
    rewrite (ex4_round _ TypeError (ex4_not_real polyroots F)). reflexivity.
Qed.
Print Assumptions C115_degree_four_refuted.

(** Root finders exist: the hypothesis [finds_roots] can be met. *)
Definition cc (p : list (R * R)) (z : R * R) : R * R := fold_right (fun c acc => cadd c (cmul z acc)) (0, 0) p.
Lemma cc_cons c p z : cc (c :: p) z = cadd c (cmul z (cc p z)). Proof. reflexivity. Qed.
Lemma cpoly_cc t z : cpoly t z = cc (map (fun c => (c, 0)) t) z.
Proof. induction t as [|c t IH]; [reflexivity|]. unfold cpoly. cbn [fold_right map]. fold (cpoly t z). rewrite IH. reflexivity. Qed.
Lemma cmul_zero x y : cmul x y = (0, 0) -> x = (0, 0) \/ y = (0, 0).
Proof.
  destruct x as [a b], y as [c d]. unfold cmul. cbn [fst snd]. intros E. injection E as E1 E2.
  assert (Z : (a * a + b * b) * (c * c + d * d) = 0).
  { replace ((a * a + b * b) * (c * c + d * d)) with ((a * c - b * d) * (a * c - b * d) + (a * d + b * c) * (a * d + b * c)) by ring. rewrite E1, E2. ring. }
  apply Rmult_integral in Z. destruct Z as [Z|Z]; [left|right]; f_equal; nra.
Qed.
Definition csub (x y : R * R) : R * R := (fst x - fst y, snd x - snd y).
Lemma deflate p r : exists q, length q = pred (length p) /\ forall z, cc p z = cadd (cc p r) (cmul (csub z r) (cc q z)).
Proof.
  induction p as [|c p (q & L & IH)].
  - exists []. split; [reflexivity|]. intros z. unfold cc, cadd, cmul, csub. cbn. f_equal; ring.
  - destruct p as [|c' p].
    + exists []. split; [reflexivity|]. intros z. unfold cc, cadd, cmul, csub. cbn. f_equal; ring.
    + exists (cc (c' :: p) r :: q). split; [cbn in L |- *; lia|]. intros z. rewrite (cc_cons c), IH, (cc_cons c _ r), (cc_cons _ q). generalize (cc (c' :: p) r) (cc q z). intros [u v] [s t].
      unfold cadd, cmul, csub. cbn [fst snd]. destruct c, z, r. cbn [fst snd]. f_equal; ring.
Qed.
Lemma roots_finite n : forall p, length p = n -> (forall z, cc p z = (0, 0)) \/ exists l, forall z, In z l <-> cc p z = (0, 0).
Proof.
  induction n as [|n IH]; intros p L.
  - left. destruct p; [reflexivity|discriminate].
  - destruct (Classical_Prop.classic (exists r, cc p r = (0, 0))) as [[r Er]|N].
    2:{ right. exists []. intros z. split; [intros []|]. intros E. apply N. exists z. exact E. }
    destruct (deflate p r) as (q & Lq & D). rewrite L in Lq. rewrite Er in D.
    assert (D' : forall z, cc p z = cmul (csub z r) (cc q z)).
    { intros z. rewrite D. destruct (cmul (csub z r) (cc q z)). unfold cadd. cbn. f_equal; ring. }
    destruct (IH q Lq) as [A|[l Hl]].
    + left. intros z. rewrite D', A. unfold cmul. cbn. f_equal; ring.
    + right. exists (r :: l). intros z. split.
      * intros [<-|I]; [exact Er|]. rewrite D', (proj1 (Hl z) I). unfold cmul. cbn. f_equal; ring.
      * intros E. rewrite D' in E. apply cmul_zero in E. destruct E as [E|E]; [left|right; apply Hl; exact E].
        destruct r, z. unfold csub in E. cbn in E. injection E as E1 E2. f_equal; lra.
Qed.
Lemma poly_bounded t : exists M, 0 <= M /\ forall x, Rabs x <= 1 -> Rabs (poly t x) <= M.
Proof.
  induction t as [|c t (M & HM & IH)].
  - exists 0. split; [lra|]. intros x _. unfold poly. cbn. rewrite Rabs_R0. lra.
  - exists (Rabs c + M). pose proof (Rabs_pos c). split; [lra|]. intros x Hx. unfold poly. cbn [fold_right]. fold (poly t x).
    apply Rle_trans with (1 := Rabs_triang _ _). rewrite Rabs_mult. specialize (IH x Hx). pose proof (Rabs_pos x). pose proof (Rabs_pos (poly t x)). nra.
Qed.
Lemma poly_zero t : (forall x, x <> 0 -> poly t x = 0) -> forall i, nth i t 0 = 0.
Proof.
  induction t as [|c t IH]; intros H i; [destruct i; reflexivity|].
  assert (C0 : c = 0).
  { destruct (Req_EM_T c 0) as [|N]; [assumption|]. exfalso. destruct (poly_bounded t) as (M & HM & B). pose proof (Rabs_pos_lt c N) as Pc.
    set (x := Rmin 1 (Rabs c / (2 * (M + 1)))). assert (Dp : 0 < Rabs c / (2 * (M + 1))) by (apply Rdiv_lt_0_compat; lra).
    assert (Hx : 0 < x <= 1) by (unfold x; split; [apply Rmin_glb_lt; lra|apply Rmin_l]). assert (Hx2 : x <= Rabs c / (2 * (M + 1))) by apply Rmin_r.
    assert (E : c + x * poly t x = 0) by (apply (H x); lra). assert (Bx : Rabs (poly t x) <= M) by (apply B; rewrite Rabs_pos_eq; lra).
    assert (Ec : Rabs c = x * Rabs (poly t x)) by (replace c with (- (x * poly t x)) by lra; rewrite Rabs_Ropp, Rabs_mult, (Rabs_pos_eq x) by lra; reflexivity).
    assert (x * (2 * (M + 1)) <= Rabs c) by (apply (Rmult_le_compat_r (2 * (M + 1))) in Hx2; [|lra]; replace (Rabs c / (2 * (M + 1)) * (2 * (M + 1))) with (Rabs c) in Hx2 by (field; lra); exact Hx2).
    pose proof (Rabs_pos (poly t x)). nra. }
  destruct i as [|i]; [exact C0|]. cbn [nth]. apply IH. intros x Nx. specialize (H x Nx). unfold poly in H. cbn [fold_right] in H. fold (poly t x) in H.
  rewrite C0 in H. assert (Z : x * poly t x = 0) by lra. apply Rmult_integral in Z. destruct Z; [contradiction|assumption].
Qed.
Example C115_instance : exists polyroots, finds_roots polyroots.
Proof.
  assert (A : forall t, exists l, (has_degree t -> forall z, In z l <-> cpoly t z = (0, 0)) /\ (~ has_degree t -> l = [])).
  { intros t. destruct (Classical_Prop.classic (has_degree t)) as [D|D].
    - destruct (roots_finite _ (map (fun c => (c, 0)) t) eq_refl) as [Z|[l Hl]].
      + exfalso. destruct D as [i Hi]. apply Hi. apply poly_zero. intros x _. specialize (Z (x, 0)). rewrite <- cpoly_cc, cpoly_real in Z. injection Z as Z. exact Z.
      + exists l. split; [intros _ z; rewrite cpoly_cc; apply Hl|contradiction].
    - exists []. split; [contradiction|reflexivity]. }
  exists (fun t => proj1_sig (ClassicalEpsilon.constructive_indefinite_description _ (A t))). intros t. exact (proj2_sig (ClassicalEpsilon.constructive_indefinite_description _ (A t))).
Qed.
Print Assumptions C115_instance.
(** An equation of degree three. *)
Example C115_equation_instance : equation [-4; 1; 0; 3] /\ has_degree [-4; 1; 0; 3] /\ (length [(-4)%R; 1%R; 0%R; 3%R] <= 4)%nat /\ poly [-4; 1; 0; 3] 1 = 0.
Proof.
  split; [split; [cbn; lra|intros [|[|[|[|i]]]]; cbn; lra]|]. split; [exists 0%nat; cbn; lra|]. split; [cbn; lia|unfold poly; cbn; lra].
Qed.

(** Learning of parametric CTMCs: one round, in terms of the expected numbers of
    moves and the expected times of the traces. *)
From Coq Require Import String ZArith Bool Reals List Lia Lra Permutation.
From Verif Require Import Num Py SNum SPath LSum MSet MModels MCtor MLik MBW MPctmc SPctmc LPctmc LCtor LFB LEM SBW LBW LBWSet LBWMC LEMGen LBWLoop MPLearn SPLearn LMM LPLearn2 PPctmc.
Import ListNotations.
Local Open Scope R_scope.

Lemma Rdiv_le_0_compat x y : 0 <= x -> 0 < y -> 0 <= x / y.
Proof. intros A B. unfold Rdiv. apply Rmult_le_pos; [exact A|]. apply Rlt_le, Rinv_0_lt_compat, B. Qed.
Lemma mfold_inv {A S} (f : S -> A -> res S) g (l : list A) : forall s s', (forall s a s', In a l -> f s a = Ok s' -> s' = g s a) -> mfold f l s = Ok s' -> s' = fold_left g l s.
Proof.
  induction l as [|a l IH]; intros s s' H E; cbn [mfold fold_left] in *; [injection E as <-; reflexivity|]. destruct (f s a) as [s1|] eqn:E1; [|discriminate]. cbn [bind] in E.
  apply H in E1; [|left; reflexivity]. subst s1. apply IH; [|exact E]. intros s0 b s2 I. apply H. right. exact I.
Qed.
Lemma mmap_inv {A B} (f : A -> res B) g (l : list A) r : (forall a b, In a l -> f a = Ok b -> b = g a) -> mmap f l = Ok r -> r = map g l.
Proof.
  intros H E. apply mmap_forall2 in E. rewrite <- (map_id r). apply (map_ext_F2 f g (fun b => b) l r E). intros a b I Q. apply (H a b I Q).
Qed.
Lemma mmap_map {A B C} (g : A -> B) (f : B -> res C) (l : list A) : mmap f (map g l) = mmap (fun a => f (g a)) l.
Proof. induction l as [|a l IH]; [reflexivity|]. cbn [map mmap]. rewrite IH. reflexivity. Qed.
Lemma bind_ok {A B} (x : res A) (f : A -> res B) b : bind x f = Ok b -> exists a, x = Ok a /\ f a = Ok b.
Proof. destruct x as [a|]; [|discriminate]. cbn. eauto. Qed.

(** ** Polynomials *)
Lemma poly_Sum (t : list R) z : poly t z = Sum (length t) (fun i => vget t i * z ^ i).
Proof.
  induction t as [|c t IH]; [reflexivity|]. cbn [poly fold_right length]. fold (poly t z). rewrite Sum_S_l, IH.
  change (vget (c :: t) 0) with c. cbn [pow]. rewrite <- Sum_scal_l. rewrite Rmult_1_r. f_equal. apply Sum_ext. intros i Hi. change (vget (c :: t) (S i)) with (vget t i). cbn [pow]. ring.
Qed.
Lemma poly_upd (t : list R) i v z : (i < length t)%nat -> poly (upd t i v) z = poly t z + (v - nth i t 0) * z ^ i.
Proof.
  revert i. induction t as [|c t IH]; intros [|i] Hi; cbn [length] in Hi; try lia; cbn [upd poly fold_right nth pow].
  - ring.
  - fold (poly (upd t i v) z). fold (poly t z). rewrite IH by lia. ring.
Qed.
Lemma poly_zeros t k z : poly (t ++ repeat 0 k) z = poly t z.
Proof.
  induction t as [|c t IH]; cbn [app poly fold_right].
  - induction k as [|k IH]; cbn [repeat poly fold_right]; [reflexivity|]. fold (poly (repeat 0 k) z). unfold poly in IH. cbn in IH. fold (poly (repeat 0 k) z) in IH. rewrite IH. ring.
  - fold (poly (t ++ repeat 0 k) z). rewrite IH. reflexivity.
Qed.
Lemma upd_len {A} (l : list A) i v : length (upd l i v) = length l.
Proof. revert i. induction l as [|a l IH]; intros [|i]; cbn; auto. Qed.
Lemma nth_upd {A} (l : list A) i j v d : (i < length l)%nat -> nth j (upd l i v) d = if (j =? i)%nat then v else nth j l d.
Proof. revert i j. induction l as [|a l IH]; intros [|i] [|j] H; cbn in *; try lia; auto. apply IH. lia. Qed.
Lemma add_at_len (t : list R) c v : length (add_at t c v) = Nat.max (length t) (S c).
Proof. unfold add_at. rewrite upd_len, app_length, repeat_length. lia. Qed.
Lemma nth_app_zeros (t : list R) k j : nth j (t ++ repeat 0 k) 0 = nth j t 0.
Proof.
  destruct (Nat.lt_ge_cases j (length t)) as [L|L]; [apply app_nth1; exact L|]. rewrite app_nth2 by exact L. rewrite (nth_overflow t) by exact L. apply nth_repeat.
Qed.
Lemma add_at_nth (t : list R) c v j : nth j (add_at t c v) 0 = if (j =? c)%nat then nth c t 0 + v else nth j t 0.
Proof.
  unfold add_at. nR. rewrite nth_upd by (rewrite app_length, repeat_length; lia). rewrite !nth_app_zeros. reflexivity.
Qed.
Lemma add_at_poly (t : list R) c v z : poly (add_at t c v) z = poly t z + v * z ^ c.
Proof. unfold add_at. nR. rewrite poly_upd by (rewrite app_length, repeat_length; lia). rewrite poly_zeros. ring. Qed.

Definition step3 {Y} (A B : Y -> R) (d : Y -> nat) (t : list R) (y : Y) : list R := add_at (upd t 0 (nth 0 t 0 - A y)) (d y) (B y).
Lemma step3_len {Y} A B (d : Y -> nat) l : forall t, length (fold_left (step3 A B d) l t) = fold_left (fun k y => Nat.max k (S (d y))) l (length t).
Proof. induction l as [|y l IH]; intros t; [reflexivity|]. cbn [fold_left]. rewrite IH. unfold step3. rewrite add_at_len, upd_len. reflexivity. Qed.
Lemma step3_poly {Y} A B (d : Y -> nat) z l : forall t, t <> [] -> poly (fold_left (step3 A B d) l t) z = poly t z + sumL l (fun y => B y * z ^ d y - A y).
Proof.
  induction l as [|y l IH]; intros t N; [cbn [fold_left]; rewrite sumL_nil; ring|]. cbn [fold_left]. rewrite IH.
  - unfold step3. rewrite add_at_poly, poly_upd by (destruct t; [congruence|cbn; lia]). rewrite sumL_cons. cbn [pow]. ring.
  - intros E. apply (f_equal (@length R)) in E. unfold step3 in E. rewrite add_at_len in E. cbn in E. lia.
Qed.
Lemma step3_sign {Y} A B (d : Y -> nat) l : (forall y, In y l -> 0 <= A y /\ 0 <= B y /\ (1 <= d y)%nat) ->
  forall t, t <> [] -> nth 0 t 0 <= 0 -> (forall i, 0 <= nth (S i) t 0) ->
  nth 0 (fold_left (step3 A B d) l t) 0 <= 0 /\ forall i, 0 <= nth (S i) (fold_left (step3 A B d) l t) 0.
Proof.
  induction l as [|y l IH]; intros H t N S0 S1; [auto|]. cbn [fold_left]. destruct (H y (or_introl eq_refl)) as (Ha & Hb & Hd).
  assert (L : (0 < length t)%nat) by (destruct t; [congruence|cbn; lia]).
  apply IH; [intros; apply H; right; assumption| | |].
  - intros E. apply (f_equal (@length R)) in E. unfold step3 in E. rewrite add_at_len in E. cbn in E. lia.
  - unfold step3. rewrite add_at_nth. destruct (Nat.eqb_spec 0 (d y)); [lia|]. rewrite nth_upd by exact L. cbn. lra.
  - intros i. unfold step3. rewrite add_at_nth. rewrite !nth_upd by exact L. destruct (Nat.eqb_spec (S i) (d y)) as [E|E].
    + rewrite <- E. cbn [Nat.eqb]. specialize (S1 i). lra.
    + cbn [Nat.eqb]. apply S1.
Qed.

(** ** Sums of the results *)
Lemma psum_fold (r : list (list (R * R))) : forall x k, length x = k -> (forall v, In v r -> length v = k) ->
  length (fold_left (fun a b => zipwith padd a b) r x) = k /\
  forall i, (i < k)%nat -> nth i (fold_left (fun a b => zipwith padd a b) r x) (0, 0) = (fst (nth i x (0, 0)) + sumL r (fun v => fst (nth i v (0, 0))), snd (nth i x (0, 0)) + sumL r (fun v => snd (nth i v (0, 0)))).
Proof.
  induction r as [|v r IH]; intros x k L H; cbn [fold_left].
  - split; [exact L|]. intros i Hi. rewrite !sumL_nil, !Rplus_0_r. destruct (nth i x (0, 0)); reflexivity.
  - destruct (IH (zipwith padd x v) k) as [A B].
    + rewrite zipwith_length, L, (H v (or_introl eq_refl)). lia.
    + intros; apply H; right; assumption.
    + split; [exact A|]. intros i Hi. rewrite B by exact Hi. rewrite (nth_zipwith _ _ _ _ (0, 0) (0, 0)) by (rewrite ?L, ?(H v (or_introl eq_refl)); exact Hi).
      unfold padd. cbn [fst snd]. rewrite !sumL_cons. nR. f_equal; ring.
Qed.
Lemma psum_all_spec (l : list (list (R * R))) k : l <> [] -> (forall v, In v l -> length v = k) ->
  length (psum_all l) = k /\ forall i, (i < k)%nat -> nth i (psum_all l) (0, 0) = (sumL l (fun v => fst (nth i v (0, 0))), sumL l (fun v => snd (nth i v (0, 0)))).
Proof.
  intros N H. destruct l as [|x r]; [congruence|]. cbn [psum_all]. destruct (psum_fold r x k) as [A B]; [apply H; left; reflexivity|intros; apply H; right; assumption|].
  split; [exact A|]. intros i Hi. rewrite B by exact Hi. rewrite !sumL_cons. reflexivity.
Qed.
Lemma msum_rows (r : list (list (list R))) : forall x k, length x = k -> (forall v, In v r -> length v = k) ->
  length (fold_left madd r x) = k /\ forall i, (i < k)%nat -> nth i (fold_left madd r x) [] = fold_left vadd (map (fun v => nth i v []) r) (nth i x []).
Proof.
  induction r as [|v r IH]; intros x k L H; cbn [fold_left map]; [auto|]. pose proof (H v (or_introl eq_refl)) as Lv.
  destruct (IH (madd x v) k) as [A B].
  - unfold madd. rewrite zipwith_length, L, Lv. lia.
  - intros; apply H; right; assumption.
  - split; [exact A|]. intros i Hi. rewrite B by exact Hi. f_equal. unfold madd. apply (nth_zipwith _ _ _ _ [] []); lia.
Qed.
Lemma msum_all_rows (l : list (list (list R))) k : l <> [] -> (forall v, In v l -> length v = k) ->
  msum_all l = map (fun i => vsum_all (map (fun v => nth i v []) l)) (seq 0 k).
Proof.
  intros N H. destruct l as [|x r]; [congruence|]. cbn [msum_all map vsum_all]. destruct (msum_rows r x k) as [A B]; [apply H; left; reflexivity|intros; apply H; right; assumption|].
  apply (nth_ext _ _ [] []); [rewrite map_length, seq_length; exact A|]. intros i Hi. rewrite A in Hi. rewrite B by exact Hi.
  rewrite (nth_map_in (fun i => fold_left vadd (map (fun v => nth i v []) r) (nth i x [])) (seq 0 k) i 0%nat) by (rewrite seq_length; exact Hi). rewrite seq_nth by exact Hi. reflexivity.
Qed.
Lemma combine_map_r {A B} (l : list A) (g : A -> B) : combine l (map g l) = map (fun a => (a, g a)) l.
Proof. induction l as [|a l IH]; [reflexivity|]. cbn. rewrite IH. reflexivity. Qed.
Lemma acc2_spec (f : nat * nat -> res (R * R)) (g1 g2 : nat * nat -> R) l : (forall x, In x l -> f x = Ok (g1 x, g2 x)) -> acc2 f l = Ok (sumL l g1, sumL l g2).
Proof.
  intros H. unfold acc2. nR.
  assert (G : forall l u v, (forall x, In x l -> f x = Ok (g1 x, g2 x)) -> mfold (fun r x => do dn <- f x; Ok (fst r + fst dn, snd r + snd dn)) l (u, v) = Ok (u + sumL l g1, v + sumL l g2)).
  { clear. induction l as [|x l IH]; intros u v H; cbn [mfold]; [rewrite !sumL_nil, !Rplus_0_r; reflexivity|]. rewrite (H x (or_introl eq_refl)). cbn [bind fst snd].
    rewrite IH by (intros; apply H; right; assumption). rewrite !sumL_cons. do 2 f_equal; ring. }
  rewrite G by exact H. rewrite !Rplus_0_l. reflexivity.
Qed.

(** ** The current rates *)
Lemma hval_ok (m : pctmc R) h : hval m = Ok h ->
  ct_lab h = pc_lab m /\ ct_ini h = pc_ini m /\ ct_name h = pc_name m /\ square (pc_n m) (ct_mat h) /\
  forall i j, (i < pc_n m)%nat -> (j < pc_n m)%nat -> evaluateTransition m i j None = Some (mget (ct_mat h) i j).
Proof.
  intros E. unfold hval in E. apply bind_ok in E. destruct E as (mat & Em & E). injection E as <-. cbn [ct_lab ct_ini ct_name ct_mat].
  assert (Eq : mat = vbuild (pc_n m) (fun s => vbuild (pc_n m) (fun s' => match evaluateTransition m s s' None with Some v => v | None => 0 end))).
  { apply (mmap_inv _ (fun s => vbuild (pc_n m) (fun s' => match evaluateTransition m s s' None with Some v => v | None => 0 end))) in Em; [exact Em|].
    intros s r Is Er. apply (mmap_inv _ (fun s' => match evaluateTransition m s s' None with Some v => v | None => 0 end)) in Er; [exact Er|].
    intros s' v _ Ev. destruct (evaluateTransition m s s' None); [|discriminate]. injection Ev as ->. reflexivity. }
  repeat split; auto.
  - rewrite Eq. apply vbuild_length.
  - rewrite Eq. intros r Ir. apply in_map_iff in Ir. destruct Ir as (s & <- & _). apply vbuild_length.
  - intros i j Hi Hj. rewrite Eq. rewrite mget_vbuild by assumption.
    apply mmap_forall2 in Em. destruct (Forall2_In_l _ _ _ i Em) as (r & _ & Er); [apply in_seq; lia|].
    apply mmap_forall2 in Er. destruct (Forall2_In_l _ _ _ j Er) as (v & _ & Ev); [apply in_seq; lia|].
    destruct (evaluateTransition m i j None); [reflexivity|discriminate].
Qed.
Lemma hval_n (m : pctmc R) h : hval m = Ok h -> ct_n h = pc_n m.
Proof. intros E. destruct (hval_ok m h E) as (_ & _ & _ & [L _] & _). exact L. Qed.

Lemma pairs_In n (x : nat * nat) : In x (list_prod (seq 0 n) (seq 0 n)) <-> (fst x < n)%nat /\ (snd x < n)%nat.
Proof. destruct x as [i j]. rewrite in_prod_iff, !in_seq. cbn [fst snd]. lia. Qed.
Lemma pairs_NoDup n : NoDup (list_prod (seq 0 n) (seq 0 n)).
Proof.
  assert (G : forall l r, NoDup l -> NoDup r -> NoDup (list_prod (A := nat) (B := nat) l r)).
  { induction l as [|x l IH]; intros r N1 N2; [constructor|]. inversion N1 as [|? ? NI N1']; subst. cbn [list_prod].
    assert (A : NoDup (map (fun y => (x, y)) r)). { clear - N2. induction N2 as [|y r NI N IH]; [constructor|]. cbn. constructor; [|exact IH]. intros I. apply in_map_iff in I. destruct I as (z & [= ->] & I). contradiction. }
    assert (B : forall z, In z (map (fun y => (x, y)) r) -> ~ In z (list_prod l r)).
    { intros z I J. apply in_map_iff in I. destruct I as (y & <- & I). apply in_prod_iff in J. tauto. }
    specialize (IH r N1' N2). revert A B. generalize (map (fun y => (x, y)) r). intros u A B. induction A as [|z u NI' A IHu]; [exact IH|].
    cbn. constructor; [|apply IHu; intros; apply B; right; assumption]. intros I. apply in_app_or in I. destruct I as [I|I]; [contradiction|]. apply (B z); [left; reflexivity|exact I]. }
  apply G; apply seq_NoDup.
Qed.
Lemma sumL_sub {Y} (dec : forall a b : Y, {a = b} + {a <> b}) (l L : list Y) F : NoDup l -> NoDup L -> (forall y, In y l -> In y L) -> (forall y, In y L -> ~ In y l -> F y = 0) ->
  sumL l F = sumL L F.
Proof.
  intros N N' S Z. rewrite (sumL_perm l (filter (fun y => if in_dec dec y l then true else false) L)).
  - rewrite sumL_filter. apply sumL_ext. intros y I. destruct (in_dec dec y l); [reflexivity|symmetry; auto].
  - apply NoDup_Permutation; [exact N|apply NoDup_filter, N'|]. intros y. rewrite filter_In. destruct (in_dec dec y l) as [I|I]; split; [intros _; split; auto|intros _; exact I|intros J; contradiction|intros [_ J]; discriminate].
Qed.
Definition pair_dec (x y : nat * nat) : {x = y} + {x <> y}.
Proof. decide equality; apply Nat.eq_dec. Defined.

(** ** One round, whatever the kind of traces *)
Section Round.
  Context {S : Type} (set : list (S * Z)) (view : S -> ptrace R).
  Variables (m : pctmc R) (fixed : list string) (pl : plan R) (kind : akind) (h : ctmc R).
  Notation n := (pc_n m).
  Notation Ps := (free_params fixed m).
  Notation a := (adeg m fixed).
  Notation deg := (tdeg m fixed).
  Notation V := (total (pc_val m)).
  Notation rt y := (mget (ct_mat h) (fst y) (snd y)).
  Notation pairs := (list_prod (seq 0 n) (seq 0 n)).
  Notation pset := (map (fun st => (view (fst st), snd st)) set).
  Hypothesis Hh : hval m = Ok h.
  Hypothesis Hwf : wf_pctmc m.
  Hypothesis Hidx : indexed m.
  Hypothesis Hlearn : learnable fixed m.
  Hypothesis Hval : valued m.
  Hypothesis Hplan : plan_ok fixed m pl.
  Variables (a0 : nat -> R) (W : S -> list (nat -> nat -> R)) (f : S -> nat -> R).
  Notation P := (Pof n a0 W f).
  Variables (al be : S -> list (list R)) (nx : S -> nat * nat -> R) (gx : S -> nat -> R).
  Definition ksc (x : S) (s : nat) : R := match snd (view x) with Some _ => 1 | None => ct_e h s end.
  Definition dx (x : S) (s : nat) : R := gx x s / ksc x s.
  Notation weights x y := (nsum (move_weights h (view x) y)).
  Hypothesis Hlen : forall x t, In (x, t) set -> (2 <= length (fst (view x)))%nat.
  Hypothesis Hfb : forall x t, In (x, t) set -> forward_backward kind h (view x) = Ok (al x, be x).
  Hypothesis HPa : forall x t, In (x, t) set -> proba_of (al x) = P x.
  Hypothesis HP0 : forall x t, In (x, t) set -> 0 <= P x.
  Hypothesis Htp : forall x t, In (x, t) set -> 0 <= IZR t.
  Hypothesis Hmv : forall x t y k, In (x, t) set -> inrange m y -> moves (al x) (be x) (move_weights h (view x) y) k y = Ok (nx x y * k).
  Hypothesis Hst : forall x t s k, In (x, t) set -> (s < n)%nat -> stay (al x) (be x) (snd (view x)) k s = Ok (gx x s * k).
  Hypothesis Hgp : forall x t y, In (x, t) set -> inrange m y -> 0 < weights x y -> 0 < rt y.
  Hypothesis Hgn : forall x t y, In (x, t) set -> inrange m y -> ~ 0 < weights x y -> nx x y = 0 /\ dx x (fst y) * rt y = 0.
  Hypothesis Hnx : forall x t y, In (x, t) set -> inrange m y -> 0 <= nx x y.
  Hypothesis Hdx : forall x t s, In (x, t) set -> (s < n)%nat -> 0 <= dx x s.
  Notation fk := (fac n a0 W f).

  Lemma rt_denote y : inrange m y -> rt y = denote V (expr_at m y).
  Proof.
    intros [R1 R2]. destruct (hval_ok m h Hh) as (_ & _ & _ & _ & E). specialize (E _ _ R1 R2). apply evaluate_rate in E.
    apply (rate_denote m y (rt y) Hidx Hval); [split; assumption|exact E].
  Qed.
  Lemma rt_has y : inrange m y -> has_rate m (current m) (fst y) (snd y) (rt y).
  Proof. intros Rg. apply rate_denote; auto. apply rt_denote. exact Rg. Qed.
  Lemma rt_nonneg y : inrange m y -> 0 <= rt y.
  Proof. intros Rg. destruct Hval as [_ Vr]. apply (Vr (fst y) (snd y)); [apply Rg|apply Rg|apply rt_has; exact Rg]. Qed.
  Lemma V_ok q : In q Ps -> dget (pc_val m) q = Some (V q) /\ current m q = Some (V q) /\ 0 <= V q.
  Proof.
    intros I. apply free_In in I. destruct Hval as [Vv _]. destruct (Vv q (proj1 I)) as (v & E & P0). unfold current, parameterValue in *. unfold total. rewrite E. auto.
  Qed.
  Lemma place_range q y : In q Ps -> In y (places m q) -> inrange m y.
  Proof. intros I J. destruct (places_spec m Hidx q) as [_ Q]; [apply free_In in I; apply I|]. apply Q in J. apply J. Qed.
  Lemma cat_free q : In q (pl_cat1 pl ++ pl_cat2 pl ++ pl_cat3 pl) <-> In q Ps.
  Proof. split; apply Permutation_in; [|apply Permutation_sym]; apply (po_cats _ _ _ Hplan). Qed.
  Lemma cat1_free q : In q (pl_cat1 pl) -> In q Ps. Proof. intros I. apply cat_free. apply in_or_app. left. exact I. Qed.
  Lemma cat2_free q : In q (pl_cat2 pl) -> In q Ps. Proof. intros I. apply cat_free. apply in_or_app. right. apply in_or_app. left. exact I. Qed.
  Lemma cat3_free q : In q (pl_cat3 pl) -> In q Ps. Proof. intros I. apply cat_free. apply in_or_app. right. apply in_or_app. right. exact I. Qed.
  (** the rate is 0 where a parameter of value 0 occurs *)
  Lemma rt_zero q y : In q Ps -> In y (places m q) -> V q = 0 -> rt y = 0.
  Proof.
    intros I J Z. pose proof (place_range q y I J) as Rg. rewrite rt_denote by exact Rg. destruct (places_spec m Hidx q) as [_ Q]; [apply free_In in I; apply I|].
    apply Q in J. destruct J as [_ O]. assert (M : is_monomial (expr_at m y)) by (apply (mono_at m fixed Hlearn q); assumption). revert M O. generalize (expr_at m y). clear - Z.
    induction e; cbn [is_monomial occurs denote]; try tauto.
    - intros _ <-. exact Z.
    - intros (A & B & _) [O|O]; [rewrite (IHe1 A O)|rewrite (IHe2 B O)]; ring.
    - destruct e; try tauto. cbn [occurs denote]. intros L <-. rewrite Z. destruct n; [lia|]. apply pow_i. lia.
  Qed.

  (** *** One trace *)
  Notation cf := (table_get 0 (pl_c pl)).
  Definition w1d (x : S) (t : Z) (y : nat * nat) : R := if Rlt_dec 0 (weights x y) then dx x (fst y) * cf y * fk x t else 0.
  Definition w1n (x : S) (t : Z) (y : nat * nat) : R := if Rlt_dec 0 (weights x y) then nx x y * fk x t else 0.
  Definition w2d (q : string) (x : S) (t : Z) (y : nat * nat) : R := INR (a q y) * (dx x (fst y) * rt y * fk x t).
  Definition w2n (q : string) (x : S) (t : Z) (y : nat * nat) : R := INR (a q y) * (nx x y * fk x t).
  Definition w3 (x : S) (t : Z) (q : string) : list R :=
    fold_left (step3 (w2n q x t) (fun y => w2d q x t y / V q ^ deg y) deg) (places m q) [0].
  Definition mk (x : S) (t : Z) : stat_pc :=
    mkStatPC [] (map (fun q => (sumL (places m q) (w1d x t), sumL (places m q) (w1n x t))) (pl_cat1 pl))
             (map (fun q => (sumL (places m q) (w2d q x t), sumL (places m q) (w2n q x t))) (pl_cat2 pl))
             (map (w3 x t) (pl_cat3 pl)) (P x) t.

  Lemma nofnat_INR k : @nofnat R RNum k = INR k.
  Proof. unfold nofnat. nR. symmetry. apply INR_IZR_INZ. Qed.
  Lemma work1_ok x t y : In (x, t) set -> inrange m y -> work1 h pl (al x) (be x) (view x) t (P x) y = Ok (w1d x t y, w1n x t y).
  Proof.
    intros I Rg. unfold work1, w1d, w1n. replace (nltb n0 (weights x y)) with (if Rlt_dec 0 (weights x y) then true else false) by (destruct (Rlt_dec 0 (weights x y)) as [L|L]; symmetry; [apply Rltb_true|apply Rltb_false]; nR; lra).
    destruct (Rlt_dec 0 (weights x y)); [|reflexivity]. rewrite (Hst x t _ _ I (proj1 Rg)). cbn [bind]. rewrite (Hmv x t y _ I Rg). cbn [bind].
    unfold dx, ksc, fac. destruct (snd (view x)); nR; do 2 f_equal; unfold Rdiv; rewrite ?Rinv_mult, ?Rinv_1; ring.
  Qed.
  Lemma work2_ok x t q y : In (x, t) set -> inrange m y -> work2 m h pl (al x) (be x) (view x) t (P x) q y = Ok (w2d q x t y, w2n q x t y).
  Proof.
    intros I Rg. unfold work2, w2d, w2n. rewrite (Hst x t _ _ I (proj1 Rg)). cbn [bind]. rewrite (Hmv x t y _ I Rg). cbn [bind].
    rewrite (po_a _ _ _ Hplan q y Rg), nofnat_INR.
    unfold dx, ksc, fac. destruct (snd (view x)); nR; do 2 f_equal; unfold Rdiv; rewrite ?Rinv_mult, ?Rinv_1; ring.
  Qed.
  Lemma work3_inv x t q u y u' : In (x, t) set -> In q Ps -> inrange m y ->
    work3 m h pl (al x) (be x) (view x) t (P x) q u y = Ok u' -> u' = step3 (w2n q x t) (fun y => w2d q x t y / V q ^ deg y) deg u y /\ V q ^ deg y <> 0.
  Proof.
    intros I Iq Rg. unfold work3. rewrite (Hmv x t y _ I Rg). cbn [bind]. rewrite (po_C _ _ _ Hplan y Rg). cbn [bind]. rewrite (Hst x t _ _ I (proj1 Rg)). cbn [bind].
    destruct (V_ok q Iq) as (-> & _ & _). rewrite npow_pow, (po_a _ _ _ Hplan q y Rg), nofnat_INR. nR. unfold Reqb. destruct (Req_EM_T (V q ^ deg y) 0) as [|NZ]; [discriminate|]. intros [= <-]. split; [|exact NZ].
    unfold step3. unfold w2n, w2d, fac, dx, ksc. nR. f_equal; [f_equal; unfold Rdiv; ring|].
    destruct (snd (view x)); unfold Rdiv; rewrite ?Rinv_mult, ?Rinv_1; ring.
  Qed.
  Lemma work3_nz x t q : In (x, t) set -> In q Ps -> forall l u u', (forall y, In y l -> inrange m y /\ (1 <= a q y)%nat) -> l <> [] ->
    mfold (work3 m h pl (al x) (be x) (view x) t (P x) q) l u = Ok u' -> V q <> 0.
  Proof.
    intros I Iq [|y l] u u' Hl N E; [congruence|]. cbn [mfold] in E. apply bind_ok in E. destruct E as (u1 & E & _).
    destruct (Hl y (or_introl eq_refl)) as [Rg A]. apply work3_inv in E; auto. destruct E as [_ NZ]. intros Z. apply NZ. rewrite Z. apply pow_i. pose proof (tdeg_ge m fixed q y Iq). lia.
  Qed.
  Lemma work_inv x t r : In (x, t) set -> processWork_PCTMC kind false m h pl (view x) t = Ok r ->
    r = (if Req_EM_T (P x) 0 then None else Some (mk x t)) /\ (P x <> 0 -> forall q, In q (pl_cat3 pl) -> V q <> 0).
  Proof.
    intros I E. unfold processWork_PCTMC in E. destruct (Nat.ltb_spec (length (fst (view x))) 2) as [L|_]; [pose proof (Hlen x t I); lia|].
    rewrite (Hfb x t I) in E. cbn [bind] in E. rewrite (HPa x t I) in E. revert E. nR. unfold Reqb. destruct (Req_EM_T (P x) 0) as [Z|NZ]; intros E.
    - injection E as <-. split; [reflexivity|contradiction].
    - cbn [bind] in E. apply bind_ok in E. destruct E as (s1 & E1 & E). apply bind_ok in E. destruct E as (s2 & E2 & E). apply bind_ok in E. destruct E as (s3 & E3 & E). injection E as <-.
      apply (mmap_inv _ (fun q => (sumL (places m q) (w1d x t), sumL (places m q) (w1n x t)))) in E1.
      2:{ intros q b Iq Eb. rewrite (acc2_spec _ (w1d x t) (w1n x t)) in Eb; [congruence|]. intros y Iy. apply work1_ok; [exact I|]. apply (place_range q); [apply cat1_free|]; assumption. }
      apply (mmap_inv _ (fun q => (sumL (places m q) (w2d q x t), sumL (places m q) (w2n q x t)))) in E2.
      2:{ intros q b Iq Eb. rewrite (acc2_spec _ (w2d q x t) (w2n q x t)) in Eb; [congruence|]. intros y Iy. apply work2_ok; [exact I|]. apply (place_range q); [apply cat2_free|]; assumption. }
      pose proof E3 as E3'. apply (mmap_inv _ (w3 x t)) in E3.
      2:{ intros q b Iq Eb. apply (mfold_inv _ (step3 (w2n q x t) (fun y => w2d q x t y / V q ^ deg y) deg)) in Eb; [exact Eb|].
          intros s y s' Iy Es. apply work3_inv in Es; auto using cat3_free; [apply Es|]. apply (place_range q); [apply cat3_free|]; assumption. }
      subst. split; [reflexivity|]. intros _ q Iq. apply mmap_forall2 in E3'. destruct (Forall2_In_l _ _ _ q E3' Iq) as (b & _ & Eb).
      apply (work3_nz x t q I (cat3_free q Iq)) in Eb; [exact Eb| |apply (po_ne _ _ _ Hplan), cat3_free; exact Iq].
      intros y Iy. split; [apply (place_range q); [apply cat3_free|]; assumption|]. apply (adeg_place m fixed Hidx Hlearn); [apply cat3_free|]; assumption.
  Qed.
  Definition work' (x : S) (t : Z) : option stat_pc := if Req_EM_T (P x) 0 then None else Some (mk x t).
  Lemma workers_inv p temp : run_workers p (processWork_PCTMC kind false m h pl) pset = Ok temp ->
    temp = runProcesses p work' set /\ ((exists x t, In (x, t) set /\ 0 < P x) -> forall q, In q (pl_cat3 pl) -> V q <> 0).
  Proof.
    intros E. unfold run_workers in E. apply bind_ok in E. destruct E as (rs & Er & E). injection E as <-.
    assert (G : rs = map (fun st => work' (fst st) (snd st)) set /\ ((exists x t, In (x, t) set /\ 0 < P x) -> forall q, In q (pl_cat3 pl) -> V q <> 0)).
    { clear - Er Hlen Hfb HPa Hmv Hst Hplan Hidx Hlearn Hval Hh. 
      assert (K : forall l rs, (forall x t, In (x, t) l -> In (x, t) set) -> mmap (fun st => processWork_PCTMC kind false m h pl (fst st) (snd st)) (map (fun st => (view (fst st), snd st)) l) = Ok rs ->
        rs = map (fun st => work' (fst st) (snd st)) l /\ ((exists x t, In (x, t) l /\ 0 < P x) -> forall q, In q (pl_cat3 pl) -> V q <> 0)).
      { induction l as [|[x t] l IH]; intros rs' Hl E; cbn [map mmap fst snd] in E; [injection E as <-; split; [reflexivity|intros (x & t & [] & _)]|].
        apply bind_ok in E. destruct E as (r & E1 & E). apply bind_ok in E. destruct E as (rs2 & E2 & E). injection E as <-.
        apply work_inv in E1; [|apply Hl; left; reflexivity]. destruct E1 as [-> N]. destruct (IH rs2) as [-> N2]; [intros; apply Hl; right; assumption|exact E2|].
        split; [reflexivity|]. intros (x' & t' & [[= -> ->]|J] & Q); [apply N; lra|apply N2; eauto]. }
      apply K; auto. }
    destruct G as [-> G2]. split; [|exact G2]. unfold runProcesses. reflexivity.
  Qed.

  (** *** The totals *)
  Definition N (y : nat * nat) : R := psum n set a0 W f (fun x t => nx x y * fk x t).
  Definition D (s : nat) : R := psum n set a0 W f (fun x t => dx x s * fk x t).
  Lemma fk_nonneg x t : In (x, t) set -> 0 < P x -> 0 <= fk x t.
  Proof. intros I Q. unfold fac, Rdiv. apply Rmult_le_pos; [apply (Htp x t I)|]. apply Rlt_le, Rinv_0_lt_compat, Q. Qed.
  Lemma N_nonneg y : inrange m y -> 0 <= N y.
  Proof. intros Rg. apply psum_nonneg. intros x t I Q. apply Rmult_le_pos; [apply (Hnx x t y I Rg)|apply fk_nonneg; assumption]. Qed.
  Lemma D_nonneg s : (s < n)%nat -> 0 <= D s.
  Proof. intros Hs. apply psum_nonneg. intros x t I Q. apply Rmult_le_pos; [apply (Hdx x t s I Hs)|apply fk_nonneg; assumption]. Qed.
  Lemma psum_sumL {Y} (l : list Y) F : psum n set a0 W f (fun x t => sumL l (F x t)) = sumL l (fun y => psum n set a0 W f (fun x t => F x t y)).
  Proof.
    unfold psum. rewrite sumL_swap. apply sumL_ext. intros [x t] I. cbn. destruct (Rlt_dec 0 (P x)); [auto|]. symmetry. apply sumL_zero.
  Qed.
  Lemma N_zero y : inrange m y -> rt y = 0 -> N y = 0.
  Proof.
    intros Rg Z. apply psum_zero. intros x t I Q. destruct (Rlt_dec 0 (weights x y)) as [L|L]; [apply (Hgp x t y I Rg) in L; lra|].
    destruct (Hgn x t y I Rg L) as [-> _]. ring.
  Qed.

  Definition eqn (q : string) (z : R) : Prop :=
    sumL pairs (fun y => INR (a q y) * (D (fst y) * rt y * z ^ deg y)) = sumL pairs (fun y => INR (a q y) * N y).
  Lemma sum_places q F : In q Ps -> (forall y, a q y = 0%nat -> F y = 0) -> sumL (places m q) F = sumL pairs F.
  Proof.
    intros I Z. destruct (places_spec m Hidx q) as [ND Q]; [apply free_In in I; apply I|]. apply (sumL_sub pair_dec); auto using pairs_NoDup.
    - intros y Iy. apply pairs_In. apply Q in Iy. apply Iy.
    - intros y Iy NI. apply Z. apply pairs_In in Iy. apply (adeg_out m fixed Hidx); assumption.
  Qed.
  Lemma eqn_places q z : In q Ps -> eqn q z <-> sumL (places m q) (fun y => INR (a q y) * (D (fst y) * rt y * z ^ deg y)) = sumL (places m q) (fun y => INR (a q y) * N y).
  Proof. intros I. unfold eqn. rewrite <- !(sum_places q) by (auto; intros y ->; cbn; ring). tauto. Qed.
  (** a new value *)
  Definition idle (q : string) : Prop := sumL pairs (fun y => INR (a q y) * (D (fst y) * rt y)) = 0.
  Definition good (q : string) (w : R) : Prop := 0 <= w /\ (V q = 0 -> w = 0) /\ (V q <> 0 -> w = V q /\ idle q \/ eqn q (w / V q)).
  Lemma idle_places q : In q Ps -> idle q <-> sumL (places m q) (fun y => INR (a q y) * (D (fst y) * rt y)) = 0.
  Proof. intros I. unfold idle. rewrite <- (sum_places q) by (auto; intros y ->; cbn; ring). tauto. Qed.
  Lemma idle_zero q : In q Ps -> V q = 0 -> idle q.
  Proof. intros I Z. apply idle_places; [exact I|]. apply sumL_zero_ext. intros y Iy. rewrite (rt_zero q y I Iy Z). ring. Qed.

  Notation gs := (goods work' set).
  Lemma work'_ok x t : In (x, t) set -> work' x t = if Req_EM_T (P x) 0 then None else Some (mk x t).
  Proof. reflexivity. Qed.
  Lemma totals2 (sp : stat_pc (K := R) -> list (R * R)) (cat : list string) (dd nn : S -> Z -> string -> R) : gs <> [] ->
    (forall x t, sp (mk x t) = map (fun q => (dd x t q, nn x t q)) cat) ->
    psum_all (map sp gs) = map (fun q => (psum n set a0 W f (fun x t => dd x t q), psum n set a0 W f (fun x t => nn x t q))) cat.
  Proof.
    intros NE Hsp. destruct (psum_all_spec (map sp gs) (length cat)) as [L E].
    - destruct gs; [congruence|discriminate].
    - intros v I. apply in_map_iff in I. destruct I as [st [<- I]]. apply (goods_form n set a0 W f work' mk work'_ok HP0) in I. destruct I as (x & t & _ & _ & ->). rewrite Hsp. apply map_length.
    - apply (nth_ext _ _ (0, 0) (0, 0)); [rewrite map_length; exact L|]. intros i Hi. rewrite L in Hi. rewrite E by exact Hi. rewrite !sumL_map.
      rewrite (sumL_goods_gen n set a0 W f work' mk work'_ok HP0 (fun v => fst (nth i (sp v) (0, 0)))).
      rewrite (sumL_goods_gen n set a0 W f work' mk work'_ok HP0 (fun v => snd (nth i (sp v) (0, 0)))).
      rewrite (nth_map_in _ cat i EmptyString) by exact Hi.
      f_equal; apply psum_ext; intros x t _ _; rewrite Hsp, (nth_map_in _ cat i EmptyString) by exact Hi; reflexivity.
  Qed.
  Definition len3 (q : string) : nat := fold_left (fun k y => Nat.max k (Datatypes.S (deg y))) (places m q) 1%nat.
  Lemma w3_len x t q : length (w3 x t q) = len3 q.
  Proof. unfold w3. rewrite step3_len. reflexivity. Qed.
  Definition tot3 (q : string) : list R := vbuild (len3 q) (fun i => psum n set a0 W f (fun x t => vget (w3 x t q) i)).
  Lemma totals3 : gs <> [] -> msum_all (map sp_3 gs) = map tot3 (pl_cat3 pl).
  Proof.
    intros NE. rewrite (msum_all_rows (map sp_3 gs) (length (pl_cat3 pl))).
    - apply (nth_ext _ _ [] []); [rewrite !map_length, seq_length; reflexivity|]. intros i Hi. rewrite map_length, seq_length in Hi.
      rewrite (nth_map_in _ (seq 0 (length (pl_cat3 pl))) i 0%nat) by (rewrite seq_length; exact Hi). rewrite seq_nth by exact Hi. cbn [Nat.add].
      rewrite (nth_map_in _ (pl_cat3 pl) i EmptyString) by exact Hi. set (q := nth i (pl_cat3 pl) EmptyString).
      assert (Q : forall x t, nth i (sp_3 (mk x t)) [] = w3 x t q) by (intros x t; cbn [mk sp_3]; rewrite (nth_map_in _ (pl_cat3 pl) i EmptyString) by exact Hi; reflexivity).
      rewrite map_map. destruct (goods_vsum n set a0 W f work' mk work'_ok HP0 (fun st => nth i (sp_3 st) []) (len3 q) NE) as [L E]; [intros x t; rewrite Q; apply w3_len|].
      apply (nth_ext _ _ 0 0); [rewrite L; symmetry; apply vbuild_length|]. intros j Hj. rewrite L in Hj. unfold tot3. rewrite vbuild_nth by exact Hj.
      change (nth j (vsum_all (map (fun st => nth i (sp_3 st) []) gs)) 0) with (vget (vsum_all (map (fun st => nth i (sp_3 st) []) gs)) j). rewrite (E j Hj).
      apply psum_ext. intros x t _ _. rewrite Q. reflexivity.
    - destruct gs; [congruence|discriminate].
    - intros v I. apply in_map_iff in I. destruct I as [st [<- I]]. apply (goods_form n set a0 W f work' mk work'_ok HP0) in I. destruct I as (x & t & _ & _ & ->). apply map_length.
  Qed.

  (** *** The new values *)
  Lemma good_keep q : In q Ps -> idle q -> good q (V q).
  Proof. intros I Z. destruct (V_ok q I) as (_ & _ & P0). split; [exact P0|]. split; [auto|]. intros _. left. auto. Qed.
  Lemma good1 q w : In q (pl_cat1 pl) ->
    new_value1 m q (psum n set a0 W f (fun x t => sumL (places m q) (w1d x t)), psum n set a0 W f (fun x t => sumL (places m q) (w1n x t))) = Ok w -> good q w.
  Proof.
    intros Ic E. pose proof (cat1_free q Ic) as I. destruct (V_ok q I) as (Vq & Vc & V0).
    unfold new_value1 in E. cbn [fst snd] in E. rewrite Vq in E. revert E. nR. unfold Reqb.
    destruct (Req_EM_T (V q) 0) as [ZV|NV].
    { destruct (Req_EM_T (psum n set a0 W f (fun x t => sumL (places m q) (w1d x t))) 0) as [Z|NZ].
      - intros [= <-]. replace (V q / 1) with (V q) by field. apply good_keep; [exact I|]. apply idle_zero; assumption.
      - exfalso. apply NZ. apply psum_zero. intros x t Ix _. apply sumL_zero_ext. intros y Iy. unfold w1d. destruct (Rlt_dec 0 (weights x y)) as [L|]; [|reflexivity].
        apply (Hgp x t y Ix (place_range q y I Iy)) in L. rewrite (rt_zero q y I Iy ZV) in L. lra. }
    assert (Cf : forall y, In y (places m q) -> cf y * V q = rt y).
    { intros y Iy. destruct (po_1 _ _ _ Hplan q y Ic Iy) as (_ & _ & C). apply C; [exact Vc|apply rt_has, (place_range q y I Iy)]. }
    assert (Ed : psum n set a0 W f (fun x t => sumL (places m q) (w1d x t)) = sumL (places m q) (fun y => D (fst y) * cf y)).
    { rewrite psum_sumL. apply sumL_ext. intros y Iy. unfold D. rewrite <- psum_scal_r. apply psum_ext. intros x t Ix _. unfold w1d.
      destruct (Rlt_dec 0 (weights x y)) as [L|L]; [ring|]. destruct (Hgn x t y Ix (place_range q y I Iy) L) as [_ Z].
      rewrite <- (Cf y Iy), <- Rmult_assoc in Z. apply Rmult_integral in Z. destruct Z as [Z|Z]; [|contradiction]. replace (dx x (fst y) * fk x t * cf y) with (dx x (fst y) * cf y * fk x t) by ring. rewrite Z. ring. }
    assert (En : psum n set a0 W f (fun x t => sumL (places m q) (w1n x t)) = sumL (places m q) N).
    { rewrite psum_sumL. apply sumL_ext. intros y Iy. unfold N. apply psum_ext. intros x t Ix _. unfold w1n.
      destruct (Rlt_dec 0 (weights x y)) as [L|L]; [reflexivity|]. destruct (Hgn x t y Ix (place_range q y I Iy) L) as [-> _]. ring. }
    destruct (Req_EM_T (psum n set a0 W f (fun x t => sumL (places m q) (w1d x t))) 0) as [Z|NZ].
    { intros [= <-]. replace (V q / 1) with (V q) by field. apply good_keep; [exact I|]. rewrite Ed in Z. apply idle_places; [exact I|].
      rewrite (sumL_ext (places m q) _ (fun y => D (fst y) * cf y * V q)); [rewrite sumL_scal_r, Z; ring|].
      intros y Iy. destruct (po_1 _ _ _ Hplan q y Ic Iy) as (-> & _). rewrite <- (Cf y Iy). cbn [INR]. ring. }
    intros [= <-].
    rewrite Ed in *. rewrite En.
    assert (Nn : 0 <= sumL (places m q) N) by (apply sumL_nonneg; intros y Iy; apply N_nonneg, (place_range q y I Iy)).
    assert (Dn : 0 < sumL (places m q) (fun y => D (fst y) * cf y)).
    { destruct (Rle_lt_or_eq_dec 0 (sumL (places m q) (fun y => D (fst y) * cf y))) as [L|L]; [|exact L|symmetry in L; contradiction].
      apply sumL_nonneg. intros y Iy. pose proof (place_range q y I Iy) as Rg. apply Rmult_le_pos; [apply D_nonneg, Rg|].
      replace (cf y) with (rt y / V q) by (rewrite <- (Cf y Iy); field; exact NV). pose proof (rt_nonneg y Rg). apply Rdiv_le_0_compat; [assumption|]. lra. }
    split; [apply Rdiv_le_0_compat; assumption|]. split; [contradiction|]. intros _. right. apply eqn_places; [exact I|].
    set (w := sumL (places m q) N / sumL (places m q) (fun y => D (fst y) * cf y)).
    rewrite (sumL_ext (places m q) _ (fun y => D (fst y) * cf y * w)).
    2:{ intros y Iy. destruct (po_1 _ _ _ Hplan q y Ic Iy) as (-> & -> & _). rewrite <- (Cf y Iy). cbn [INR pow]. field. exact NV. }
    rewrite sumL_scal_r. unfold w. rewrite (sumL_ext (places m q) (fun y => INR (a q y) * N y) N).
    - field. lra.
    - intros y Iy. destruct (po_1 _ _ _ Hplan q y Ic Iy) as (-> & _). cbn [INR]. ring.
  Qed.

  Lemma root_spec x c : 0 <= x -> (0 < c)%nat -> 0 <= root x c /\ root x c ^ c = x /\ (x <> 0 -> root x c <> 0).
  Proof.
    intros X0 C0. unfold root. nR. unfold Reqb. destruct (Req_EM_T x 0) as [->|NZ]; [split; [lra|]; split; [apply pow_i; lia|tauto]|].
    rewrite nofnat_INR. toR. change (@nexp R RTrans) with exp. change (@nln R RTrans) with ln. pose proof (exp_pos (ln x / INR c)) as Ep. split; [lra|]. split; [|intros _; lra].
    rewrite <- Rpower_pow by exact Ep. unfold Rpower. rewrite ln_exp. replace (INR c * (ln x / INR c)) with (ln x) by (field; apply not_0_INR; lia). apply exp_ln. lra.
  Qed.
  Lemma w2_tot q : In q Ps ->
    psum n set a0 W f (fun x t => sumL (places m q) (w2d q x t)) = sumL (places m q) (fun y => INR (a q y) * (D (fst y) * rt y)) /\
    psum n set a0 W f (fun x t => sumL (places m q) (w2n q x t)) = sumL (places m q) (fun y => INR (a q y) * N y).
  Proof.
    intros I. rewrite !psum_sumL. split; apply sumL_ext; intros y Iy.
    - unfold w2d, D. rewrite <- (psum_scal_r _ _ _ _ _ _ (rt y)), (Rmult_comm (INR _)), <- psum_scal_r. apply psum_ext. intros; ring.
    - unfold w2n, N. rewrite (Rmult_comm (INR _)), <- psum_scal_r. apply psum_ext. intros; ring.
  Qed.
  Lemma good2 q w : In q (pl_cat2 pl) ->
    new_value2 m pl q (psum n set a0 W f (fun x t => sumL (places m q) (w2d q x t)), psum n set a0 W f (fun x t => sumL (places m q) (w2n q x t))) = Ok w -> good q w.
  Proof.
    intros Ic. pose proof (cat2_free q Ic) as I. destruct (V_ok q I) as (Vq & Vc & V0). destruct (w2_tot q I) as [-> ->].
    set (dn := sumL (places m q) (fun y => INR (a q y) * (D (fst y) * rt y))). set (nn := sumL (places m q) (fun y => INR (a q y) * N y)).
    unfold new_value2. cbn [fst snd]. rewrite Vq. nR. unfold Reqb. destruct (Req_EM_T dn 0) as [Z|NZ].
    { intros [= <-]. replace (V q / 1) with (V q) by field. apply good_keep; [exact I|]. apply idle_places; assumption. }
    destruct (po_2 _ _ _ Hplan q Ic) as (c & C0 & C). case_eq (places m q); [discriminate|]. intros y0 l Ep.
    assert (Iy0 : In y0 (places m q)) by (rewrite Ep; left; reflexivity). rewrite (po_C _ _ _ Hplan y0 (place_range q y0 I Iy0)). cbn [bind].
    rewrite (C y0 Iy0). destruct (Nat.eqb_spec c 0) as [|_]; [lia|]. clear y0 l Ep Iy0. intros [= <-].
    assert (Nn : 0 <= nn).
    { apply sumL_nonneg. intros y Iy. apply Rmult_le_pos; [apply pos_INR|]. apply N_nonneg, (place_range q y I Iy). }
    assert (Dn : 0 <= dn).
    { apply sumL_nonneg. intros y Iy. pose proof (place_range q y I Iy) as Rg. apply Rmult_le_pos; [apply pos_INR|]. apply Rmult_le_pos; [apply D_nonneg, Rg|apply rt_nonneg, Rg]. }
    destruct (root_spec nn c Nn C0) as (R1 & R2 & _). destruct (root_spec dn c Dn C0) as (R3 & R4 & R5). specialize (R5 NZ).
    split; [apply Rdiv_le_0_compat; [apply Rmult_le_pos; assumption|lra]|]. split; [intros ->; unfold Rdiv; ring|]. intros NV. right. apply eqn_places; [exact I|]. fold nn.
    rewrite (sumL_ext (places m q) _ (fun y => INR (a q y) * (D (fst y) * rt y) * (nn / dn))).
    - rewrite sumL_scal_r. fold dn. field. exact NZ.
    - intros y Iy. rewrite (C y Iy). replace (V q * root nn c / root dn c / V q) with (root nn c * / root dn c) by (field; auto).
      rewrite Rpow_mult_distr, pow_inv, R2, R4. unfold Rdiv. ring.
  Qed.
  Lemma poly_tot3 q z : poly (tot3 q) z = psum n set a0 W f (fun x t => poly (w3 x t q) z).
  Proof.
    rewrite poly_Sum. unfold tot3. rewrite vbuild_length. rewrite (psum_ext _ _ _ _ _ (fun x t => poly (w3 x t q) z) (fun x t => Sum (len3 q) (fun i => vget (w3 x t q) i * z ^ i))).
    2:{ intros x t _ _. rewrite poly_Sum, w3_len. reflexivity. }
    rewrite psum_Sum. apply Sum_ext. intros i Hi. rewrite psum_scal_r. f_equal. unfold vget. nR. rewrite vbuild_nth by exact Hi. reflexivity.
  Qed.
  Lemma good3 maxroot q w : solver maxroot -> In q (pl_cat3 pl) -> V q <> 0 -> maxroot (tot3 q) = Ok w -> good q w.
  Proof.
    intros Hs Ic NV E. pose proof (cat3_free q Ic) as I. destruct (V_ok q I) as (Vq & Vc & V0).
    assert (Sg : forall x t, In (x, t) set -> 0 < P x -> nth 0 (w3 x t q) 0 <= 0 /\ forall i, 0 <= nth (Datatypes.S i) (w3 x t q) 0).
    { intros x t Ix Px. pose proof (fk_nonneg x t Ix Px) as F0. unfold w3. apply step3_sign; [|discriminate|cbn; lra|intros [|i]; cbn; lra].
      intros y Iy. pose proof (place_range q y I Iy) as Rg. split; [|split].
      - unfold w2n. apply Rmult_le_pos; [apply pos_INR|]. apply Rmult_le_pos; [apply (Hnx x t y Ix Rg)|exact F0].
      - unfold w2d. apply Rdiv_le_0_compat; [|apply pow_lt; lra]. apply Rmult_le_pos; [apply pos_INR|]. apply Rmult_le_pos; [|exact F0]. apply Rmult_le_pos; [apply (Hdx x t _ Ix (proj1 Rg))|apply rt_nonneg, Rg].
      - pose proof (adeg_place m fixed Hidx Hlearn q y I Iy). pose proof (tdeg_ge m fixed q y I). lia. }
    assert (Nt : forall i, nth i (tot3 q) 0 = if lt_dec i (len3 q) then psum n set a0 W f (fun x t => vget (w3 x t q) i) else 0).
    { intros i. destruct (lt_dec i (len3 q)) as [L|L]; [unfold tot3; rewrite vbuild_nth by exact L; reflexivity|]. apply nth_overflow. unfold tot3. rewrite vbuild_length. lia. }
    destruct (Hs (tot3 q) w E) as [W0 Wz].
    - rewrite Nt. destruct (lt_dec 0 (len3 q)); [|lra]. assert (0 <= psum n set a0 W f (fun x t => - vget (w3 x t q) 0)).
      { apply psum_nonneg. intros x t Ix Px. destruct (Sg x t Ix Px) as [A _]. change (nth 0 (w3 x t q) 0) with (vget (w3 x t q) 0) in A. lra. }
      rewrite (psum_ext _ _ _ _ _ _ (fun x t => vget (w3 x t q) 0 * (-1))) in H by (intros; ring). rewrite psum_scal_r in H. lra.
    - intros i. rewrite Nt. destruct (lt_dec (Datatypes.S i) (len3 q)); [|lra]. apply psum_nonneg. intros x t Ix Px. destruct (Sg x t Ix Px) as [_ A]. apply A.
    - split; [exact W0|]. split; [contradiction|]. intros _. right. apply eqn_places; [exact I|]. rewrite poly_tot3 in Wz.
      rewrite (psum_ext _ _ _ _ _ _ (fun x t => sumL (places m q) (fun y => w2d q x t y * (w / V q) ^ deg y - w2n q x t y))) in Wz.
      2:{ intros x t _ _. unfold w3. rewrite step3_poly by discriminate. unfold poly. cbn [fold_right]. rewrite Rmult_0_r, !Rplus_0_l. apply sumL_ext. intros y Iy.
          unfold Rdiv at 2. rewrite Rpow_mult_distr, pow_inv. unfold Rdiv. ring. }
      rewrite psum_sumL in Wz. rewrite (sumL_ext (places m q) _ (fun y => INR (a q y) * (D (fst y) * rt y * (w / V q) ^ deg y) - INR (a q y) * N y)) in Wz.
      + rewrite sumL_minus in Wz. lra.
      + intros y Iy. rewrite psum_minus. f_equal.
        * rewrite psum_scal_r. unfold w2d. rewrite (psum_ext _ _ _ _ _ _ (fun x t => dx x (fst y) * fk x t * (INR (a q y) * rt y))) by (intros; ring). rewrite psum_scal_r. fold (D (fst y)). ring.
        * unfold w2n. rewrite (psum_ext _ _ _ _ _ _ (fun x t => nx x y * fk x t * INR (a q y))) by (intros; ring). rewrite psum_scal_r. fold (N y). ring.
  Qed.

  Lemma Forall2_mmap_map {A B} (g : A -> res B) (l : list A) (r : list B) (Q : A -> B -> Prop) : mmap g l = Ok r -> (forall x y, In x l -> g x = Ok y -> Q x y) -> Forall2 Q l r.
  Proof.
    intros E H. apply mmap_forall2 in E. revert H. induction E as [|x y l r Hxy F IH]; intros H; constructor; [apply H; [left; reflexivity|exact Hxy]|apply IH; intros; apply H; [right|]; assumption].
  Qed.
  Lemma round_spec maxroot p m' ll : solver maxroot -> round_PCTMC maxroot kind false p pl pset m = Ok (m', ll) ->
    same_shape m m' /\ ll = set_ll P set /\ (exists x t, In (x, t) set /\ 0 < P x) /\
    (forall q, ~ In q Ps -> current m' q = current m q) /\
    exists z : string -> R, forall q, In q Ps -> 0 <= z q /\ current m' q = Some (V q * z q) /\ (z q = 1 /\ idle q \/ eqn q (z q)).
  Proof.
    intros Hs E. unfold round_PCTMC in E. rewrite Hh in E. cbn [bind] in E. apply bind_ok in E. destruct E as (temp & Et & E).
    apply workers_inv in Et. destruct Et as [-> N3]. unfold update_PCTMC in E. apply bind_ok in E. destruct E as (temp & Eu & E).
    apply unwrap_run in Eu. subst temp. destruct gs as [|g0 gl] eqn:Eg; [discriminate|]. rewrite <- Eg in E.
    assert (NE : gs <> []) by (rewrite Eg; discriminate). clear Eg g0 gl.
    pose proof (goods_pos n set a0 W f work' mk work'_ok HP0 NE) as Pos. specialize (N3 Pos).
    assert (Em : mkPC (pc_mat m) (pc_lab m) (match pc_expr m with e0 :: es => e0 :: es | [] => [] end) (pc_val m) (pc_ind m) (pc_par m) (pc_ini m) (pc_name m) = m).
    { destruct m as [M L X Va I Pa In Nm]. cbn. destruct X; reflexivity. }
    cbn beta iota in E. rewrite Em in E.
    rewrite (totals2 sp_1 (pl_cat1 pl) (fun x t q => sumL (places m q) (w1d x t)) (fun x t q => sumL (places m q) (w1n x t)) NE) in E by reflexivity.
    rewrite (totals2 sp_2 (pl_cat2 pl) (fun x t q => sumL (places m q) (w2d q x t)) (fun x t q => sumL (places m q) (w2n q x t)) NE) in E by reflexivity.
    rewrite (totals3 NE), !combine_map_r in E.
    rewrite (goods_ll n set a0 W f work' mk work'_ok HP0) in E by reflexivity.
    apply bind_ok in E. destruct E as (v1 & E1 & E). apply bind_ok in E. destruct E as (v2 & E2 & E). apply bind_ok in E. destruct E as (v3 & E3 & E). injection E as Em' <-.
    assert (F1 : Forall2 good (pl_cat1 pl) v1).
    { rewrite mmap_map in E1. apply (Forall2_mmap_map _ _ _ _ E1). intros q w Iq Eq. apply good1; assumption. }
    assert (F2 : Forall2 good (pl_cat2 pl) v2).
    { rewrite mmap_map in E2. apply (Forall2_mmap_map _ _ _ _ E2). intros q w Iq Eq. apply good2; assumption. }
    assert (F3 : Forall2 good (pl_cat3 pl) v3).
    { rewrite mmap_map in E3. apply (Forall2_mmap_map _ _ _ _ E3). intros q w Iq Eq. apply (good3 maxroot); auto. }
    pose proof (Forall2_app F1 (Forall2_app F2 F3)) as F. set (cats := pl_cat1 pl ++ pl_cat2 pl ++ pl_cat3 pl) in *. set (vs := v1 ++ v2 ++ v3) in *.
    assert (Hc : checkRates m (new_values (pc_val m) cats vs) = true) by (apply checkRates_spec; [exact Hwf|apply Hval]).
    unfold instantiate in Em'. rewrite Hc in Em'. cbn [snd] in Em'. subst m'.
    split; [repeat split|]. split; [reflexivity|]. split; [exact Pos|].
    assert (Cur : forall q, current (mkPC (pc_mat m) (pc_lab m) (pc_expr m) (new_values (pc_val m) cats vs) (pc_ind m) (pc_par m) (pc_ini m) (pc_name m)) q = given cats vs (dget (pc_val m)) q).
    { intros q. unfold current, parameterValue. cbn [pc_val]. apply new_values_get. }
    split.
    - intros q NI. rewrite Cur. apply given_other. intros I. apply NI. apply cat_free. exact I.
    - exists (fun q => if Req_EM_T (V q) 0 then 1 else match given cats vs (dget (pc_val m)) q with Some w => w / V q | None => 1 end).
      intros q I. pose proof (proj2 (cat_free q) I) as Ic. fold cats in Ic. apply In_nth_error in Ic. destruct Ic as [k Ek].
      destruct (Forall2_nth_error _ _ _ F k q Ek) as (w & Ew & (W0 & Wz & Wn)). destruct (V_ok q I) as (_ & _ & V0).
      assert (ND : NoDup cats) by (apply (Permutation_NoDup (Permutation_sym (po_cats _ _ _ Hplan))), free_NoDup; exact Hidx).
      rewrite Cur, (given_nth cats vs _ k q w ND Ek Ew). destruct (Req_EM_T (V q) 0) as [Z|NZ].
      + split; [lra|]. rewrite (Wz Z), Z. split; [f_equal; ring|]. left. split; [reflexivity|]. apply idle_zero; assumption.
      + split; [apply Rdiv_le_0_compat; lra|]. split; [f_equal; field; exact NZ|]. destruct (Wn NZ) as [[-> Id]|Eq]; [left; split; [field; exact NZ|exact Id]|right; exact Eq].
  Qed.
  (** *** A round succeeds when the parameters of the third category are absent *)
  Lemma work_ok x t : pl_cat3 pl = [] -> In (x, t) set -> processWork_PCTMC kind false m h pl (view x) t = Ok (work' x t).
  Proof.
    intros C3 I. unfold processWork_PCTMC, work'. destruct (Nat.ltb_spec (length (fst (view x))) 2) as [L|_]; [pose proof (Hlen x t I); lia|].
    rewrite (Hfb x t I). cbn [bind]. rewrite (HPa x t I). nR. unfold Reqb. destruct (Req_EM_T (P x) 0); [reflexivity|]. cbn [bind].
    rewrite (LBW.mmap_ok _ (fun q => (sumL (places m q) (w1d x t), sumL (places m q) (w1n x t)))).
    2:{ intros q Iq. apply acc2_spec. intros y Iy. apply work1_ok; [exact I|]. apply (place_range q); [apply cat1_free|]; assumption. }
    cbn [bind]. rewrite (LBW.mmap_ok _ (fun q => (sumL (places m q) (w2d q x t), sumL (places m q) (w2n q x t)))).
    2:{ intros q Iq. apply acc2_spec. intros y Iy. apply work2_ok; [exact I|]. apply (place_range q); [apply cat2_free|]; assumption. }
    cbn [bind]. unfold mk. rewrite C3. reflexivity.
  Qed.
  Lemma mmap_total {A B} (g : A -> res B) (l : list A) : (forall x, In x l -> exists y, g x = Ok y) -> exists r, mmap g l = Ok r.
  Proof.
    induction l as [|x l IH]; intros H; [exists []; reflexivity|]. destruct (H x (or_introl eq_refl)) as [y Ey]. destruct IH as [r Er]; [intros; apply H; right; assumption|].
    exists (y :: r). cbn [mmap]. rewrite Ey, Er. reflexivity.
  Qed.
  Lemma round_ok maxroot p : pl_cat3 pl = [] -> (exists x t, In (x, t) set /\ 0 < P x) -> ((1 < p)%nat \/ forall x t, In (x, t) set -> 0 < P x) ->
    exists m' ll, round_PCTMC maxroot kind false p pl pset m = Ok (m', ll).
  Proof.
    intros C3 (x0 & t0 & I0 & P0) Hp. unfold round_PCTMC. rewrite Hh. cbn [bind].
    assert (Er : run_workers p (processWork_PCTMC kind false m h pl) pset = Ok (runProcesses p work' set)).
    { unfold run_workers. rewrite mmap_map. rewrite (LBW.mmap_ok _ (fun st => work' (fst st) (snd st))); [reflexivity|].
      intros [x t] I. cbn [fst snd]. apply work_ok; assumption. }
    rewrite Er. cbn [bind]. unfold update_PCTMC.
    assert (U : unwrap (runProcesses p work' set) = Ok gs).
    { destruct Hp as [Hp|Hp]; [apply unwrap_run_many; exact Hp|]. destruct (Nat.lt_ge_cases 1 p) as [L|L]; [apply unwrap_run_many; exact L|].
      apply unwrap_run_one; [exact L|]. intros [x t] I. cbn [fst snd]. specialize (Hp x t I). unfold work'. destruct (Req_EM_T _ 0); [lra|discriminate]. }
    rewrite U. cbn [bind]. destruct gs as [|g0 gl] eqn:Eg.
    - exfalso. assert (In (mk x0 t0) gs) by (apply In_goods; exists (x0, t0); split; [exact I0|]; cbn [fst snd]; unfold work'; destruct (Req_EM_T _ 0); [lra|reflexivity]). rewrite Eg in H. destruct H.
    - rewrite <- Eg. assert (NE : gs <> []) by (rewrite Eg; discriminate). clear Eg U g0 gl.
      assert (Em : mkPC (pc_mat m) (pc_lab m) (match pc_expr m with e0 :: es => e0 :: es | [] => [] end) (pc_val m) (pc_ind m) (pc_par m) (pc_ini m) (pc_name m) = m).
      { destruct m as [M L X Va I Pa In Nm]. cbn. destruct X; reflexivity. }
      cbn beta iota. rewrite Em. rewrite (totals3 NE), C3. cbn [map mmap].
      destruct (mmap_total (fun qd => new_value1 m (fst qd) (snd qd)) (combine (pl_cat1 pl) (psum_all (map sp_1 gs)))) as [v1 ->].
      { intros [q dn] I. apply in_combine_l in I. cbn [fst snd]. unfold new_value1. destruct (V_ok q (cat1_free q I)) as (-> & _). destruct (neqb _ _); eauto. }
      cbn [bind]. destruct (mmap_total (fun qd => new_value2 m pl (fst qd) (snd qd)) (combine (pl_cat2 pl) (psum_all (map sp_2 gs)))) as [v2 ->].
      { intros [q dn] I. apply in_combine_l in I. cbn [fst snd]. unfold new_value2. pose proof (cat2_free q I) as If. destruct (V_ok q If) as (-> & _). destruct (neqb _ _); [eauto|].
        destruct (po_2 _ _ _ Hplan q I) as (c & C0 & C). case_eq (places m q); [intros E; apply (po_ne _ _ _ Hplan) in E; [destruct E|exact If]|]. intros y0 l Ep.
        assert (Iy0 : In y0 (places m q)) by (rewrite Ep; left; reflexivity). rewrite (po_C _ _ _ Hplan y0 (place_range q y0 If Iy0)). cbn [bind].
        rewrite (C y0 Iy0). destruct (Nat.eqb_spec c 0) as [|_]; [lia|]. eauto. }
      cbn [bind]. eauto.
  Qed.
End Round.

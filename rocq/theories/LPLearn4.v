(** Learning of parametric CTMCs: what a round preserves, and the rounds on timed
    traces. *)
From Coq Require Import String ZArith Bool Reals List Lia Lra Permutation FunctionalExtensionality.
From Verif Require Import Num Py SNum SPath LSum MSet MModels MCtor MLik MBW MPctmc SPctmc LPctmc LCtor LFB LEM SBW SExp LBW LBWSet LBWMC SLik LLik LLik2 LEMGen LBWMDP LBWCT PBWCT MPLearn SPLearn LMM LPLearn LPLearn2 LPLearn3 PPctmc.
Import ListNotations.
Local Open Scope R_scope.

(** ** The CTMC of the current rates *)
Lemma hval_total (m : pctmc R) : indexed m -> valued m -> exists h, hval m = Ok h.
Proof.
  intros Hi Hv. unfold hval.
  assert (G : exists mat, mmap (fun s => mmap (fun ss => match evaluateTransition m s ss None with Some v => Ok v | None => Err TypeError end) (seq 0 (pc_n m))) (seq 0 (pc_n m)) = Ok mat).
  { assert (Mo : forall (A B : Type) (f : A -> res B) l, (forall a, In a l -> exists b, f a = Ok b) -> exists r, mmap f l = Ok r).
    { induction l as [|x l IH]; intros H; [exists []; reflexivity|]. destruct (H x (or_introl eq_refl)) as [b Eb]. destruct IH as [r Er]; [intros; apply H; right; assumption|].
      exists (b :: r). cbn [mmap]. rewrite Eb. cbn [bind]. rewrite Er. reflexivity. }
    apply Mo. intros s Is. apply Mo. intros s' Is'. apply in_seq in Is, Is'.
    pose proof (proj2 (rate_denote m (s, s') _ Hi Hv (conj (proj2 Is) (proj2 Is'))) eq_refl) as Hr. cbn [fst snd] in Hr. apply evaluate_rate in Hr. rewrite Hr. eauto. }
  destruct G as [mat ->]. cbn [bind]. eauto.
Qed.
Lemma hval_realises (m : pctmc R) h : hval m = Ok h -> realises m h.
Proof.
  intros E. destruct (hval_ok m h E) as (A & B & _ & [L1 L2] & D). split; [exact A|]. split; [exact B|]. split; [exact L1|]. split; [exact L2|].
  intros i j Hi Hj. apply evaluate_rate. apply (D i j Hi Hj).
Qed.
Lemma realises_unique (m : pctmc R) c h : realises m c -> realises m h -> ct_mat c = ct_mat h /\ ct_lab c = ct_lab h /\ ct_ini c = ct_ini h.
Proof.
  intros (A & B & C & D & E) (A' & B' & C' & D' & E'). split; [|split; congruence].
  unfold ct_n in *. apply (nth_ext _ _ [] []); [congruence|]. intros i Hi. rewrite C in Hi.
  assert (L : length (nth i (ct_mat c) []) = pc_n m) by (apply D, nth_In; lia). assert (L' : length (nth i (ct_mat h) []) = pc_n m) by (apply D', nth_In; lia).
  apply (nth_ext _ _ 0 0); [congruence|]. intros j Hj. rewrite L in Hj. apply (has_value_fun _ _ _ _ (E i j Hi Hj) (E' i j Hi Hj)).
Qed.
Lemma realises_density (m : pctmc R) c h : realises m c -> realises m h -> ct_density c = ct_density h.
Proof.
  intros A B. destruct (realises_unique m c h A B) as (E1 & E2 & E3). destruct c as [m1 l1 i1 n1], h as [m2 l2 i2 n2]. cbn in E1, E2, E3. subst. reflexivity.
Qed.
Lemma hval_wf (m : pctmc R) h : wf_pctmc m -> hval m = Ok h -> wf_ctmc h.
Proof.
  intros (_ & W2 & W3 & _ & W5) E. pose proof (hval_n m h E) as En. destruct (hval_ok m h E) as (A & B & _ & Sq & _). unfold wf_ctmc. rewrite En, A, B. auto.
Qed.
Lemma hval_nonneg (m : pctmc R) h : valued m -> hval m = Ok h -> nonneg_mat (ct_mat h).
Proof.
  intros [_ Vr] E. destruct (hval_realises m h E) as (_ & _ & En & Sq & Hr). intros r Ir x Ix.
  apply (In_nth _ _ []) in Ir. destruct Ir as [i [Hi Ei]]. apply (In_nth _ _ 0) in Ix. destruct Ix as [j [Hj Ej]]. unfold ct_n in En. rewrite En in Hi.
  assert (L : length r = pc_n m) by (apply Sq; rewrite <- Ei; apply nth_In; lia). rewrite L in Hj. subst r x. apply (Vr i j _ Hi Hj). apply (Hr i j Hi Hj).
Qed.

(** ** What a round preserves *)
Lemma prodL_ext {A} (l : list A) f g : (forall x, In x l -> f x = g x) -> prodL l f = prodL l g.
Proof. induction l as [|x l IH]; intros H; [reflexivity|]. rewrite !prodL_cons, H by (left; reflexivity). f_equal. apply IH. intros; apply H; right; assumption. Qed.
Lemma prodL_nonneg {A} (l : list A) f : (forall x, In x l -> 0 <= f x) -> 0 <= prodL l f.
Proof. induction l as [|x l IH]; intros H; [unfold prodL; cbn; lra|]. rewrite prodL_cons. apply Rmult_le_pos; [apply H; left; reflexivity|apply IH; intros; apply H; right; assumption]. Qed.
Lemma prodL_single {A} (dec : forall x y : A, {x = y} + {x <> y}) (l : list A) f q : NoDup l -> In q l -> (forall x, In x l -> x <> q -> f x = 1) -> prodL l f = f q.
Proof.
  induction 1 as [|x l NI ND IH]; intros I H; [destruct I|]. rewrite prodL_cons. destruct (dec x q) as [->|N].
  - rewrite (prodL_one l f); [ring|]. intros y Iy. apply H; [right; exact Iy|]. intros ->. contradiction.
  - rewrite (H x) by (auto; left; reflexivity). rewrite IH; [ring| |intros; apply H; [right|]; assumption]. destruct I as [->|I]; [congruence|exact I].
Qed.

Section Next.
  Variables (fixed : list string) (m m' : pctmc R) (pl : plan R) (z : string -> R).
  Notation Ps := (free_params fixed m).
  Notation V := (total (pc_val m)).
  Hypothesis Hwf : wf_pctmc m.
  Hypothesis Hidx : indexed m.
  Hypothesis Hlearn : learnable fixed m.
  Hypothesis Hval : valued m.
  Hypothesis Hplan : plan_ok fixed m pl.
  Hypothesis Hsh : same_shape m m'.
  Hypothesis Hother : forall q, ~ In q Ps -> current m' q = current m q.
  Hypothesis Hz : forall q, In q Ps -> 0 <= z q /\ current m' q = Some (V q * z q).

  Lemma next_total q : In q (pc_par m) -> current m' q = Some (total (pc_val m') q) /\ total (pc_val m') q = if in_dec string_dec q Ps then V q * z q else V q.
  Proof.
    intros I. destruct (in_dec string_dec q Ps) as [F|F].
    - destruct (Hz q F) as [_ E]. unfold current, parameterValue in *. unfold total. rewrite E. auto.
    - pose proof (Hother q F) as E. destruct Hval as [Vv _]. destruct (Vv q I) as (v & Ev & _). rewrite Ev in E. unfold current, parameterValue in *. unfold total. rewrite E, Ev. auto.
  Qed.
  Lemma next_rate y : inrange m y -> denote (total (pc_val m')) (expr_at m y) = denote V (expr_at m y) * prodL Ps (fun p => z p ^ adeg m fixed p y).
  Proof.
    intros Rg. rewrite (denote_scale Ps V (total (pc_val m')) z (expr_at m y)).
    - f_equal. apply prodL_ext. intros p Ip. rewrite adeg_free by exact Ip. reflexivity.
    - apply free_NoDup. exact Hidx.
    - apply (learn_at m fixed Hlearn). exact Rg.
    - intros x O. apply next_total. destruct Hidx as (_ & Hs & _). apply (Hs (fst y) (snd y)); [apply Rg|apply Rg|exact O].
  Qed.
  Lemma V_nonneg q : In q (pc_par m) -> 0 <= V q.
  Proof. intros I. destruct Hval as [Vv _]. destruct (Vv q I) as (v & Ev & P0). unfold current, parameterValue in Ev. unfold total. rewrite Ev. exact P0. Qed.
  Lemma rate_nonneg y : inrange m y -> 0 <= denote V (expr_at m y).
  Proof. intros Rg. destruct Hval as [_ Vr]. apply (Vr (fst y) (snd y)); [apply Rg|apply Rg|]. apply rate_denote; auto. Qed.
  Lemma next_rate_nonneg y : inrange m y -> 0 <= denote (total (pc_val m')) (expr_at m y).
  Proof. intros Rg. rewrite next_rate by exact Rg. apply Rmult_le_pos; [apply rate_nonneg; exact Rg|]. apply prodL_nonneg. intros p Ip. apply pow_le. apply (Hz p Ip). Qed.
  Lemma next_indexed : indexed m'. Proof. apply (shape_indexed m); assumption. Qed.
  Lemma next_learnable : learnable fixed m'. Proof. apply (shape_learnable fixed m); assumption. Qed.
  Lemma next_wf : wf_pctmc m'. Proof. apply (shape_wf m); assumption. Qed.
  Lemma next_has_rate y v : inrange m y -> has_rate m' (current m') (fst y) (snd y) v -> v = denote (total (pc_val m')) (expr_at m y).
  Proof.
    intros Rg (rho & Hr & ->). destruct (shape_expr m m' Hsh) as (Es & _ & _). pose proof (Es y) as Ey. change (transition m' (fst y) (snd y)) with (expr_at m' y) in *. rewrite Ey in *.
    apply denote_ext. intros x O. assert (I : In x (pc_par m)) by (destruct Hidx as (_ & Hs & _); apply (Hs (fst y) (snd y)); [apply Rg|apply Rg|exact O]).
    destruct (next_total x I) as [E _]. specialize (Hr x O). rewrite E in Hr. injection Hr as <-. reflexivity.
  Qed.
  Lemma next_valued : valued m'.
  Proof.
    destruct (shape_expr m m' Hsh) as (_ & _ & En). split.
    - intros p Ip. assert (I : In p (pc_par m)) by (destruct Hsh as (_ & _ & _ & _ & <- & _); exact Ip). destruct (next_total p I) as [E Et]. exists (total (pc_val m') p). split; [exact E|].
      rewrite Et. pose proof (V_nonneg p I). destruct (in_dec string_dec p Ps) as [F|F]; [|assumption]. apply Rmult_le_pos; [assumption|apply (Hz p F)].
    - intros i j v Hi Hj Hr. rewrite En in Hi, Hj. rewrite (next_has_rate (i, j) v); [|split; assumption|exact Hr]. apply next_rate_nonneg. split; assumption.
  Qed.
  Lemma next_plan : plan_ok fixed m' pl.
  Proof.
    destruct (shape_expr m m' Hsh) as (Es & Ep & En). pose proof Hsh as (_ & _ & _ & _ & Epar & _).
    assert (Ri : forall x, inrange m' x <-> inrange m x) by (intros x; unfold inrange; rewrite En; tauto).
    assert (Ea : forall p x, a_get m' (pl_a pl) p x = a_get m (pl_a pl) p x) by (intros p x; unfold a_get; rewrite Epar; reflexivity).
    constructor.
    - intros p x Rg. rewrite Ea, (shape_adeg fixed m m' p x Hsh). apply (po_a _ _ _ Hplan). apply Ri. exact Rg.
    - intros x Rg. rewrite (shape_tdeg fixed m m' x Hsh). rewrite <- (po_C _ _ _ Hplan x) by (apply Ri; exact Rg). unfold C_of. rewrite Es, Epar.
      assert (G : forall l k, mfold (fun r p => do _ <- index_err String.eqb p (pc_par m); Ok (r + a_get m' (pl_a pl) p x)%nat) l k = mfold (fun r p => do _ <- index_err String.eqb p (pc_par m); Ok (r + a_get m (pl_a pl) p x)%nat) l k).
      { induction l as [|p l IH]; intros k; cbn [mfold]; [reflexivity|]. rewrite Ea. destruct (index_err _ _ _); cbn [bind]; [apply IH|reflexivity]. }
      apply G.
    - rewrite (shape_free fixed m m' Hsh). apply (po_cats _ _ _ Hplan).
    - intros q x Iq Ix. rewrite Ep in Ix. rewrite (shape_adeg fixed m m' q x Hsh), (shape_tdeg fixed m m' x Hsh). destruct (po_1 _ _ _ Hplan q x Iq Ix) as (A1 & A2 & A3).
      split; [exact A1|]. split; [exact A2|]. intros v r Ev Hr.
      assert (Iq' : In q Ps) by (apply (Permutation_in _ (po_cats _ _ _ Hplan)), in_or_app; left; exact Iq).
      assert (Rg : inrange m x) by (destruct (places_spec m Hidx q) as [_ Q]; [apply free_In in Iq'; apply Iq'|]; apply Q in Ix; apply Ix).
      destruct (Hz q Iq') as [_ Ez]. rewrite Ez in Ev. injection Ev as <-. rewrite (next_has_rate x r Rg Hr), (next_rate x Rg).
      assert (Cq : current m q = Some (V q)).
      { destruct Hval as [Vv _]. apply free_In in Iq'. destruct (Vv q (proj1 Iq')) as (v & E & _). unfold current, parameterValue in *. unfold total. rewrite E. reflexivity. }
      specialize (A3 (V q) (denote V (expr_at m x)) Cq (proj2 (rate_denote m x _ Hidx Hval Rg) eq_refl)). rewrite <- Rmult_assoc, A3. f_equal.
      rewrite (prodL_single string_dec Ps (fun p => z p ^ adeg m fixed p x) q); [rewrite A1; ring|apply free_NoDup; exact Hidx|exact Iq'|].
      intros p Ip Np. destruct (adeg m fixed p x) as [|k] eqn:Ek; [reflexivity|]. exfalso. apply Np. apply (tdeg_1 m fixed Hidx p q x); auto; lia.
    - intros q Iq. destruct (po_2 _ _ _ Hplan q Iq) as (c & C0 & C). exists c. split; [exact C0|]. intros x Ix. rewrite (shape_tdeg fixed m m' x Hsh). apply C. rewrite <- Ep. exact Ix.
    - intros q Iq. rewrite (shape_free fixed m m' Hsh) in Iq. rewrite Ep. apply (po_ne _ _ _ Hplan). exact Iq.
  Qed.
  Variables (h h' : ctmc R).
  Hypothesis Hh : hval m = Ok h.
  Hypothesis Hh' : hval m' = Ok h'.
  Lemma next_h y : inrange m y -> mget (ct_mat h') (fst y) (snd y) = mget (ct_mat h) (fst y) (snd y) * prodL Ps (fun p => z p ^ adeg m fixed p y).
  Proof.
    intros Rg. rewrite (rt_denote m h Hh Hidx Hval y Rg). rewrite <- next_rate by exact Rg.
    destruct (shape_expr m m' Hsh) as (Es & _ & En). rewrite (rt_denote m' h' Hh' next_indexed next_valued y); [rewrite Es; reflexivity|]. unfold inrange. rewrite En. exact Rg.
  Qed.
End Next.

(** ** The gain of a round *)
Lemma sumL_prod {A B} (l : list A) (r : list B) F : sumL (list_prod l r) F = sumL l (fun x => sumL r (fun y => F (x, y))).
Proof. induction l as [|x l IH]; [reflexivity|]. cbn [list_prod]. rewrite sumL_app, sumL_cons, IH, sumL_map. reflexivity. Qed.
Section Gain.
  Variables (fixed : list string) (m m' : pctmc R) (pl : plan R) (z : string -> R) (h h' : ctmc R).
  Notation Ps := (free_params fixed m).
  Notation n := (pc_n m).
  Notation V := (total (pc_val m)).
  Notation pairs := (list_prod (seq 0 n) (seq 0 n)).
  Hypothesis Hidx : indexed m.
  Hypothesis Hlearn : learnable fixed m.
  Hypothesis Hval : valued m.
  Hypothesis Hsh : same_shape m m'.
  Hypothesis Hother : forall q, ~ In q Ps -> current m' q = current m q.
  Hypothesis Hh : hval m = Ok h.
  Hypothesis Hh' : hval m' = Ok h'.
  Variables (N : nat * nat -> R) (D : nat -> R).
  Hypothesis HN : forall y, inrange m y -> 0 <= N y.
  Hypothesis HD : forall s, (s < n)%nat -> 0 <= D s.
  Hypothesis HNr : forall y, inrange m y -> 0 < N y -> 0 < mget (ct_mat h) (fst y) (snd y).
  Hypothesis Hz : forall q, In q Ps -> 0 <= z q /\ current m' q = Some (V q * z q) /\
    (z q = 1 \/ sumL pairs (fun y => INR (adeg m fixed q y) * (D (fst y) * mget (ct_mat h) (fst y) (snd y) * z q ^ tdeg m fixed y)) = sumL pairs (fun y => INR (adeg m fixed q y) * N y)).
  Notation r := (fun y => mget (ct_mat h) (fst y) (snd y)).
  Notation r' := (fun y => mget (ct_mat h') (fst y) (snd y)).
  Lemma g_hr y : In y pairs -> r' y = r y * prodL Ps (fun p => z p ^ adeg m fixed p y).
  Proof. intros I. apply pairs_In in I. apply (next_h fixed m m' z); auto. intros q Iq. destruct (Hz q Iq) as (A & B & _). auto. Qed.
  Lemma g_deg y : LMM.deg Ps (adeg m fixed) y = tdeg m fixed y.
  Proof.
    unfold LMM.deg, tdeg, nsumL. assert (G : forall l (g : string -> nat), fold_right Nat.add 0%nat (map g l) = fold_right (fun p k => (g p + k)%nat) 0%nat l) by (intros l g; induction l as [|p l IH]; [reflexivity|]; cbn [map fold_right]; rewrite IH; reflexivity).
    apply G.
  Qed.
  Lemma g_nonneg y : In y pairs -> 0 <= r y.
  Proof. intros I. apply pairs_In in I. apply (rt_nonneg m h Hh Hidx Hval y I). Qed.
  Lemma g_eq q : In q Ps -> z q = 1 \/ sumL pairs (fun y => INR (adeg m fixed q y) * (D (fst y) * r y * z q ^ LMM.deg Ps (adeg m fixed) y)) = sumL pairs (fun y => INR (adeg m fixed q y) * N y).
  Proof.
    intros I. destruct (Hz q I) as (_ & _ & [E|E]); [left; exact E|right]. rewrite <- E. apply sumL_ext. intros y _. rewrite g_deg. reflexivity.
  Qed.
  Lemma gain_supp y : inrange m y -> 0 < N y -> 0 < r' y.
  Proof.
    intros Rg Q. apply (mm_supp pairs Ps N (fun y => D (fst y)) r r' (adeg m fixed) z); auto.
    - intros t I. apply HN, pairs_In, I.
    - intros t I. apply HNr, pairs_In, I.
    - intros p Ip. apply (Hz p Ip).
    - apply g_hr.
    - apply g_eq.
    - apply pairs_In. exact Rg.
  Qed.
  Lemma gain : 0 <= Sum n (fun s => Sum n (fun s' => N (s, s') * ln (mget (ct_mat h') s s' / mget (ct_mat h) s s') - D s * (mget (ct_mat h') s s' - mget (ct_mat h) s s'))).
  Proof.
    pose proof (mm_gain pairs Ps N (fun y => D (fst y)) r r' (adeg m fixed) z) as G.
    unfold Sum. rewrite sumL_prod in G. apply G.
    - intros t I. apply HN, pairs_In, I.
    - intros t I. apply HD. apply pairs_In in I. apply I.
    - apply g_nonneg.
    - intros t I. apply HNr, pairs_In, I.
    - intros p Ip. apply (Hz p Ip).
    - apply g_hr.
    - apply g_eq.
  Qed.
  Lemma gain_zero y : inrange m y -> r y = 0 -> r' y = 0.
  Proof. intros Rg Z. cbv beta in *. rewrite (g_hr y) by (apply pairs_In; exact Rg). cbv beta. rewrite Z. ring. Qed.
End Gain.

(** ** Lengths *)
Lemma bmul_eq (x y : list R) : length x = length y -> bmul x y = Ok (zipwith Rmult x y).
Proof. intros L. unfold bmul. rewrite L, Nat.eqb_refl. reflexivity. Qed.
Lemma workers_len {S} (view : S -> ptrace R) kind uc m h pl p (set : list (S * Z)) temp :
  run_workers p (processWork_PCTMC kind uc m h pl) (map (fun st => (view (fst st), snd st)) set) = Ok temp -> forall x t, In (x, t) set -> (2 <= length (fst (view x)))%nat.
Proof.
  intros E x t I. unfold run_workers in E. apply bind_ok in E. destruct E as (rs & Er & _). rewrite mmap_map in Er. apply mmap_forall2 in Er.
  destruct (Forall2_In_l _ _ _ (x, t) Er I) as (b & _ & Eb). cbn [fst snd] in Eb. unfold processWork_PCTMC in Eb. destruct (Nat.ltb_spec (length (fst (view x))) 2); [discriminate|assumption].
Qed.
Lemma xi_zero n (W : list (nat -> nat -> R)) f s s' : (forall w, In w W -> w s s' = 0) -> forall a, rsum (xi n a W f s s') = 0.
Proof.
  induction W as [|w W IH]; intros H a; [reflexivity|]. cbn [xi]. rewrite rsum_cons, IH by (intros; apply H; right; assumption). rewrite (H w) by (left; reflexivity). ring.
Qed.
Lemma gam_zero n (W : list (nat -> nat -> R)) f s : (forall w, In w W -> forall s', (s' < n)%nat -> w s s' = 0) -> forall a k, nth k (gam n a W f s) 0 = 0.
Proof.
  induction W as [|w W IH]; intros H a k; [destruct k; reflexivity|]. cbn [gam]. destruct k as [|k]; cbn [nth].
  - cbn [Bk]. rewrite Sum_zero_ext; [ring|]. intros s' Hs'. rewrite (H w (or_introl eq_refl) s' Hs'). ring.
  - apply IH. intros; apply H; [right|]; assumption.
Qed.
Lemma combine_short {A B} (l : list A) (ts : list B) : length l = S (length ts) -> combine l ts = combine (removelast l) ts.
Proof.
  revert ts. induction l as [|x l IH]; intros ts L; [discriminate|]. destruct ts as [|t ts]; [destruct l; [reflexivity|discriminate]|].
  destruct l as [|y l]; [discriminate|]. cbn [length] in L. change (removelast (x :: y :: l)) with (x :: removelast (y :: l)). cbn [combine]. f_equal. apply IH. cbn [length]. lia.
Qed.
Lemma wsum_zero (l c : list R) : (forall k, nth k l 0 = 0) -> wsum l c = 0.
Proof.
  unfold wsum. revert c. induction l as [|x l IH]; intros c H; [reflexivity|]. destruct c as [|y c]; [reflexivity|]. cbn [zipwith]. rewrite rsum_cons. rewrite IH by (intros k; apply (H (S k))).
  rewrite (H O : x = 0). ring.
Qed.
Lemma nsum_zero_all (l : list R) : (forall x, In x l -> 0 <= x) -> ~ 0 < nsum l -> forall x, In x l -> x = 0.
Proof.
  intros P NP x I. assert (E : rsum l = 0).
  { assert (0 <= rsum l) by (rewrite rsum_sumL; apply sumL_nonneg; auto). change (nsum l) with (rsum l) in NP. lra. }
  rewrite rsum_sumL in E. apply (sumL_eq0 l (fun v => v) P E x I).
Qed.
Lemma nsum_pos_ex (l : list R) : 0 < nsum l -> exists x, In x l /\ x <> 0.
Proof.
  intros P. change (nsum l) with (rsum l) in P. induction l as [|x l IH]; [cbn in P; lra|]. rewrite rsum_cons in P. destruct (Req_dec x 0) as [Z|Z]; [|exists x; split; [left; reflexivity|exact Z]].
  destruct IH as (y & I & N); [lra|]. exists y. split; [right; exact I|exact N].
Qed.

(** ** Timed traces *)
Definition tview (tr : list string * list R) : ptrace R := (fst tr, Some (snd tr)).
Section Timed.
  Variables (m : pctmc R) (fixed : list string) (pl : plan R) (h : ctmc R) (set : list ((list string * list R) * Z)).
  Hypothesis Hh : hval m = Ok h.
  Hypothesis Hwf : wf_pctmc m.
  Hypothesis Hidx : indexed m.
  Hypothesis Hlearn : learnable fixed m.
  Hypothesis Hval : valued m.
  Hypothesis Hplan : plan_ok fixed m pl.
  Hypothesis Hset : timed_set set.
  Hypothesis HT : pos_times set.
  Notation n := (ct_n h).
  Notation a0 := (vget (ct_ini h)).
  Notation rt y := (mget (ct_mat h) (fst y) (snd y)).
  Lemma tm_n : ct_n h = pc_n m. Proof. apply hval_n. exact Hh. Qed.
  Lemma tm_wf : wf_ctmc h. Proof. apply (hval_wf m); assumption. Qed.
  Lemma tm_nn : nonneg_mat (ct_mat h). Proof. apply (hval_nonneg m); assumption. Qed.
  Definition tal tr := mask_last (ct_mask h tr) (bw_alphas n (ct_ini h) (tW h tr)).
  Definition tbe tr := bw_betas n (zipwith Rmult (vones n) (ct_mask h tr)) (tW h tr).
  Definition tnx tr (y : nat * nat) := rsum (xi n a0 (tW h tr) (tf h tr) (fst y) (snd y)).
  Definition tgx tr s := wsum (gam n a0 (tW h tr) (tf h tr) s) (tc tr).

  Lemma tm_fb tr : forward_backward KTimed h (tview tr) = Ok (tal tr, tbe tr).
  Proof.
    destruct tr as [obs ts]. unfold forward_backward, tview. cbn [fst snd]. change (combine (removelast obs) ts) with (ots (obs, ts)). rewrite ct_ws_eq. reflexivity.
  Qed.
  Lemma tm_P tr : proba_of (tal tr) = tP h tr.
  Proof.
    unfold tal. rewrite (proba_model_mask n) by (auto using (ct_ini_len h tm_wf); apply lab_mask_length). unfold Pof. apply tot_ext_f. intros s Hs. apply lab_mask_get. exact Hs.
  Qed.
  Lemma ots_len tr : length (fst tr) = S (length (snd tr)) -> length (ots tr) = length (snd tr).
  Proof. intros L. unfold ots. rewrite combine_length, (rl_len tr L). lia. Qed.
  Lemma tW_len tr : length (tW h tr) = length (ots tr). Proof. apply map_length. Qed.
  Lemma tm_weights tr y : length (fst tr) = S (length (snd tr)) -> move_weights h (tview tr) y = map (fun w => w (fst y) (snd y)) (tW h tr).
  Proof.
    intros L. destruct tr as [obs ts], y as [s s']. cbn [fst snd] in L. unfold move_weights, tview. cbn [fst snd]. rewrite (combine_short obs ts L). change (combine (removelast obs) ts) with (ots (obs, ts)).
    rewrite <- ct_ws_eq, map_map. reflexivity.
  Qed.
  Lemma col_init_len (ws : list (nat -> nat -> R)) s : length (col_init (bw_alphas n (ct_ini h) ws) s) = length ws.
  Proof. unfold col_init. rewrite map_length, removelast_length, bw_alphas_length. lia. Qed.
  Lemma betas_len f (ws : list (nat -> nat -> R)) : length (bw_betas n f ws) = S (length ws).
  Proof. induction ws as [|w ws IH]; [reflexivity|]. cbn [bw_betas length]. rewrite IH. reflexivity. Qed.
  Lemma col_init_blen f (ws : list (nat -> nat -> R)) s : length (col_init (bw_betas n f ws) s) = length ws.
  Proof. unfold col_init. rewrite map_length, removelast_length, betas_len. lia. Qed.
  Lemma col_tail_blen f (ws : list (nat -> nat -> R)) s : length (col_tail (bw_betas n f ws) s) = length ws.
  Proof. unfold col_tail. rewrite map_length. pose proof (betas_len f ws) as L. destruct (bw_betas n f ws); [discriminate|]. cbn in *. lia. Qed.

  Lemma tm_moves tr y k : length (fst tr) = S (length (snd tr)) -> inrange m y -> moves (tal tr) (tbe tr) (move_weights h (tview tr) y) k y = Ok (tnx tr y * k).
  Proof.
    intros L [R1 R2]. rewrite <- tm_n in R1, R2. unfold moves. rewrite tm_weights by exact L. unfold tal, tbe. rewrite col_init_mask.
    rewrite bmul_eq by (rewrite col_init_len, map_length; reflexivity). cbn [bind]. rewrite bmul_eq by (rewrite zipwith_length, col_init_len, map_length, col_tail_blen; lia). cbn [bind].
    pose proof (xi_model n (ct_ini h) (zipwith Rmult (vones n) (ct_mask h tr)) (tW h tr) (fst y) (snd y) (ct_ini_len h tm_wf) (ct_mask_len h tr) R1 R2) as G.
    rewrite (xi_ext_f n a0 (tW h tr) _ (tf h tr)) in G by (auto; intros; apply ct_mask_ok; assumption). revert G. nR. intros G.
    rewrite G. unfold tnx. toR. rewrite !rsum_sumL, sumL_map, sumL_scal_r. reflexivity.
  Qed.
  Lemma tm_stay tr s k : length (fst tr) = S (length (snd tr)) -> (s < pc_n m)%nat -> stay (tal tr) (tbe tr) (snd (tview tr)) k s = Ok (tgx tr s * k).
  Proof.
    intros L Hs. rewrite <- tm_n in Hs. unfold stay, tal, tbe. rewrite col_init_mask. rewrite bmul_eq by (rewrite col_init_len, col_init_blen; reflexivity). cbn [bind tview snd].
    rewrite bmul_eq by (rewrite zipwith_length, col_init_len, col_init_blen, tW_len, (ots_len tr L); lia). cbn [bind].
    pose proof (gam_model n (ct_ini h) (zipwith Rmult (vones n) (ct_mask h tr)) (tW h tr) s (ct_ini_len h tm_wf) (ct_mask_len h tr) Hs) as G.
    rewrite (gam_ext_f n a0 (tW h tr) _ (tf h tr)) in G by (auto; intros; apply ct_mask_ok; assumption). revert G. nR. intros G.
    rewrite G. unfold tgx, wsum. rewrite (tc_eq tr L). toR. rewrite !rsum_sumL, sumL_map, sumL_scal_r. reflexivity.
  Qed.
  Lemma tm_w tr w s s' : In w (tW h tr) -> exists ot, In ot (ots tr) /\ w s s' = is_label (ct_lab h) (fst ot) s * exp (- (exit_rate h s * snd ot)) * mget (ct_mat h) s s'.
  Proof. intros I. unfold tW, ew in I. apply in_map_iff in I. destruct I as (ot & <- & I). exists ot. split; [exact I|]. reflexivity. Qed.
  Lemma tm_w_nonneg tr w s s' : In w (tW h tr) -> 0 <= w s s'.
  Proof.
    intros I. destruct (tm_w tr w s s' I) as (ot & _ & ->). pose proof (exp_pos (- (exit_rate h s * snd ot))). pose proof (mget_nonneg (ct_mat h) s s' tm_nn).
    destruct (LBWMDP.is_label_01 (ct_lab h) (fst ot) s) as [-> | ->]; apply Rmult_le_pos; lra.
  Qed.
  Lemma tm_gp tr y : length (fst tr) = S (length (snd tr)) -> inrange m y -> 0 < nsum (move_weights h (tview tr) y) -> 0 < rt y.
  Proof.
    intros L Rg Q. rewrite tm_weights in Q by exact L. apply nsum_pos_ex in Q. destruct Q as (x & I & NZ). apply in_map_iff in I. destruct I as (w & <- & I).
    destruct (tm_w tr w (fst y) (snd y) I) as (ot & _ & E). rewrite E in NZ. pose proof (mget_nonneg (ct_mat h) (fst y) (snd y) tm_nn) as G.
    destruct (Req_dec (rt y) 0) as [Z|Z]; [|lra]. exfalso. apply NZ. rewrite Z. ring.
  Qed.
  Lemma tm_gn tr y : length (fst tr) = S (length (snd tr)) -> inrange m y -> ~ 0 < nsum (move_weights h (tview tr) y) -> tnx tr y = 0 /\ tgx tr (fst y) / 1 * rt y = 0.
  Proof.
    intros L Rg Q. rewrite tm_weights in Q by exact L.
    assert (Z : forall w, In w (tW h tr) -> w (fst y) (snd y) = 0).
    { intros w I. apply (nsum_zero_all _ (fun x I => ltac:(apply in_map_iff in I; destruct I as (w0 & <- & I); apply (tm_w_nonneg tr w0 (fst y) (snd y) I))) Q). apply in_map_iff. exists w. auto. }
    split; [apply xi_zero; exact Z|]. destruct (Req_dec (rt y) 0) as [Zr|Zr]; [rewrite Zr; ring|].
    replace (tgx tr (fst y)) with 0; [unfold Rdiv; ring|]. symmetry. unfold tgx. apply wsum_zero. intros k. apply gam_zero. intros w I s' Hs'.
    specialize (Z w I). unfold tW, ew in I. apply in_map_iff in I. destruct I as (ot & <- & I). unfold tA, tb in *. change (matR (ct_mat h) (fst y) (snd y)) with (rt y) in Z.
    apply Rmult_integral in Z. destruct Z as [->|Z]; [ring|contradiction].
  Qed.
  Lemma tm_nx tr t y : In (tr, t) set -> inrange m y -> 0 <= tnx tr y.
  Proof.
    intros I [R1 R2]. rewrite <- tm_n in R1, R2. unfold tnx. rewrite rsum_sumL. apply sumL_nonneg. intros v Iv.
    apply (xi_nonneg n a0 (tW h tr) (tf h tr) (fst y) (snd y)); auto; [apply (t_oka h tm_wf)|apply (t_okw h set tm_nn tr t I)|apply (t_okf h set tr t I)].
  Qed.
  Lemma tm_dx tr t s : In (tr, t) set -> (s < pc_n m)%nat -> 0 <= tgx tr s / 1.
  Proof.
    intros I Hs. rewrite <- tm_n in Hs. apply Rdiv_le_0_compat; [|lra]. apply wsum_nonneg.
    - intros y Iy. apply (gam_nonneg n a0 (tW h tr) (tf h tr) s); auto; [apply (t_oka h tm_wf)|apply (t_okw h set tm_nn tr t I)|apply (t_okf h set tr t I)].
    - intros y Iy. apply (tc_nonneg set (timed_dw set Hset) tr t y I Iy).
  Qed.

  Notation N := (fun y => set_expected (ct_density h) (ct_expected_moves h (fst y) (snd y)) set).
  Notation D := (fun s => set_expected (ct_density h) (ct_expected_dwell h s) set).
  Lemma tm_N y : inrange m y -> LPLearn3.N set m a0 (tW h) (tf h) tnx y = N y.
  Proof.
    intros [R1 R2]. rewrite <- tm_n in R1, R2. cbv beta. rewrite <- (tXI_path h set Hset) by assumption. unfold LPLearn3.N, cXI, XI. rewrite <- tm_n. apply psum_ext. intros x t _ _.
    unfold tnx, ones1. rewrite wsum_ones1 by apply xi_length. reflexivity.
  Qed.
  Lemma tm_D s : (s < pc_n m)%nat -> LPLearn3.D set tview m h a0 (tW h) (tf h) tgx s = D s.
  Proof.
    intros R1. rewrite <- tm_n in R1. cbv beta. rewrite <- (tDEN_path h set Hset) by assumption. unfold LPLearn3.D, cDEN, GA. rewrite <- tm_n. apply psum_ext. intros x t _ _.
    unfold dx, ksc, tview. cbn [snd]. unfold tgx. unfold Rdiv. rewrite Rinv_1, Rmult_1_r. reflexivity.
  Qed.

  (** One round: every free parameter is multiplied by a factor which is 1 or
      solves its equation. *)
  Lemma timed_round maxroot p m' ll : solver maxroot ->
    round_PCTMC maxroot KTimed false p pl (map (fun st => (tview (fst st), snd st)) set) m = Ok (m', ll) ->
    same_shape m m' /\ ll = set_ll (ct_density h) set /\
    (forall q, ~ In q (free_params fixed m) -> current m' q = current m q) /\
    exists z : string -> R, forall q, In q (free_params fixed m) -> 0 <= z q /\ current m' q = Some (total (pc_val m) q * z q) /\
      (z q = 1 /\ sumL (list_prod (seq 0 (pc_n m)) (seq 0 (pc_n m))) (fun y => INR (adeg m fixed q y) * (D (fst y) * rt y)) = 0 \/
       sumL (list_prod (seq 0 (pc_n m)) (seq 0 (pc_n m))) (fun y => INR (adeg m fixed q y) * (D (fst y) * rt y * z q ^ tdeg m fixed y)) =
                  sumL (list_prod (seq 0 (pc_n m)) (seq 0 (pc_n m))) (fun y => INR (adeg m fixed q y) * N y)).
  Proof.
    intros Hs Er. pose proof Er as Er2. unfold round_PCTMC in Er2. rewrite Hh in Er2. cbn [bind] in Er2. apply bind_ok in Er2. destruct Er2 as (temp & Et & _).
    pose proof (workers_len tview _ _ _ _ _ _ set temp Et) as Hl.
    assert (HL : forall x t, In (x, t) set -> length (fst x) = S (length (snd x))) by (intros x t I; apply (Hset x t I)).
    destruct (round_spec set tview m fixed pl KTimed h Hh Hwf Hidx Hlearn Hval Hplan a0 (tW h) (tf h) tal tbe tnx tgx) with (maxroot := maxroot) (p := p) (m' := m') (ll := ll) as (A & B & C & E & z & F); auto.
    - intros x t I. apply tm_fb.
    - intros x t I. rewrite <- tm_n. apply tm_P.
    - intros x t I. rewrite <- tm_n. apply (t_P_nonneg h tm_wf set tm_nn x t I).
    - intros x t I. apply Rlt_le. apply IZR_lt. apply (HT (x, t) I).
    - intros x t y k I Rg. apply tm_moves; eauto.
    - intros x t s k I Rg. apply tm_stay; eauto.
    - intros x t y I Rg. apply tm_gp; eauto.
    - intros x t y I Rg. apply tm_gn; eauto.
    - intros x t y I Rg. apply (tm_nx x t); assumption.
    - intros x t s I Rg. apply (tm_dx x t); assumption.
    - split; [exact A|]. split; [rewrite B; apply set_ll_ext; intros tr t I; rewrite <- tm_n; apply tP_path; apply (Hset tr t I)|]. split; [exact E|].
      exists z. intros q I. destruct (F q I) as (F1 & F2 & F3). split; [exact F1|]. split; [exact F2|]. destruct F3 as [[F3 F4]|F3]; [left; split; [exact F3|]|right].
      { rewrite <- F4. apply sumL_ext. intros y Iy. apply pairs_In in Iy. rewrite tm_D by apply Iy. reflexivity. }
      unfold eqn in F3.
      rewrite (sumL_ext _ (fun y => INR (adeg m fixed q y) * N y) (fun y => INR (adeg m fixed q y) * LPLearn3.N set m a0 (tW h) (tf h) tnx y)).
      2:{ intros y Iy. apply pairs_In in Iy. rewrite tm_N by exact Iy. reflexivity. }
      rewrite <- F3. apply sumL_ext. intros y Iy. apply pairs_In in Iy. rewrite tm_D by apply Iy. reflexivity.
  Qed.
  Lemma timed_round_ok maxroot p : pl_cat3 pl = [] -> (forall tr t, In (tr, t) set -> (2 <= length (fst tr))%nat) ->
    (exists tr t, In (tr, t) set /\ 0 < ct_density h tr) -> ((1 < p)%nat \/ forall tr t, In (tr, t) set -> 0 < ct_density h tr) ->
    exists m' ll, round_PCTMC maxroot KTimed false p pl (map (fun st => (tview (fst st), snd st)) set) m = Ok (m', ll).
  Proof.
    intros C3 Hl Hex Hp.
    assert (HL : forall x t, In (x, t) set -> length (fst x) = S (length (snd x))) by (intros x t I; apply (Hset x t I)).
    assert (HP : forall x t, In (x, t) set -> Pof (pc_n m) a0 (tW h) (tf h) x = ct_density h x) by (intros x t I; rewrite <- tm_n; apply tP_path; apply (Hset x t I)).
    apply (round_ok set tview m fixed pl KTimed h Hh Hwf Hidx Hlearn Hval Hplan a0 (tW h) (tf h) tal tbe tnx tgx); auto.
    - intros x t I. apply tm_fb.
    - intros x t I. rewrite <- tm_n. apply tm_P.
    - intros x t I. rewrite <- tm_n. apply (t_P_nonneg h tm_wf set tm_nn x t I).
    - intros x t y k I Rg. apply tm_moves; eauto.
    - intros x t s k I Rg. apply tm_stay; eauto.
    - intros x t y I Rg. apply tm_gp; eauto.
    - intros x t y I Rg. apply tm_gn; eauto.
    - intros x t y I Rg. apply (tm_nx x t); assumption.
    - intros x t s I Rg. apply (tm_dx x t); assumption.
    - destruct Hex as (x & t & I & Q). exists x, t. rewrite (HP x t I). auto.
    - destruct Hp as [Hp|Hp]; [left; exact Hp|right]. intros x t I. rewrite (HP x t I). eauto.
  Qed.
End Timed.

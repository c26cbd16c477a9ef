(** Theorems C127-C128: parametric CTMCs and stormpy. *)
From Coq Require Import String Ascii ZArith Bool Reals Permutation List Lra Lia.
From Verif Require LAlergia.
From Verif Require Import Num Py SNum LSum MTools LTools SSet LSet SPath MModels MCtor SCtor LCtor PCtor MLik SBW SLik MPctmc SPctmc LPctmc PPctmc MStorm SStorm LStorm PStorm PStorm2.
Import ListNotations.
Local Open Scope R_scope.

(** ** C127: an instantiated parametric CTMC *)

(** Every parameter written in a rate is listed among the parameters. *)
Definition listed (m : pctmc R) : Prop := forall i j x, (i < pc_n m)%nat -> (j < pc_n m)%nat -> occurs x (transition m i j) -> In x (pc_par m).

Lemma uniform_unique labels a b : uniform_on_init labels a -> uniform_on_init labels b -> a = b.
Proof.
  intros (La & _ & Ua) (Lb & _ & Ub). apply (nth_ext _ _ 0 0); [congruence|]. intros i Hi. rewrite La in Hi. transitivity (vecR b i); [|reflexivity]. rewrite Ub by exact Hi. apply Ua, Hi.
Qed.

Theorem C127_PCTMCtoCTMC : forall (m : pctmc R), wf_pctmc m -> listed m -> uniform_on_init (pc_lab m) (pc_ini m) -> In "init"%string (pc_lab m) ->
  ((exists c, PCTMCtoCTMC m = Ok c) <-> forall p, In p (pc_par m) -> current m p <> None) /\
  (forall c, PCTMCtoCTMC m = Ok c -> realises m c /\ ct_name c = pc_name m) /\
  (forall e, PCTMCtoCTMC m = Err e -> e = ValueError).
Proof.
  intros m (SQ & LL & LI & _) LS UI IN. unfold PCTMCtoCTMC.
  assert (IM : inst_model m = true <-> forall p, In p (pc_par m) -> current m p <> None).
  { unfold inst_model. rewrite forallb_forall. unfold inst_param, current, parameterValue. split; intros H p I; specialize (H p I); destruct (dget (pc_val m) p); congruence. }
  destruct (inst_model m); cbn [negb].
  2:{ split; [split; [intros (c & X); discriminate|intros X; apply IM in X; discriminate]|]. split; [discriminate|congruence]. }
  pose proof (proj1 IM eq_refl) as HI.
  assert (HR : forall s j, (s < pc_n m)%nat -> (j < pc_n m)%nat -> exists v, evaluateTransition m s j None = Some v /\ has_rate m (current m) s j v).
  { intros s j Hs Hj. destruct (eval_some (pc_val m) (transition m s j)) as (v & E); [intros x O; apply HI, (LS s j x Hs Hj O)|].
    exists v. assert (X : evaluateTransition m s j None = Some v) by (unfold evaluateTransition; rewrite transition_eq; exact E). split; [exact X|]. apply evaluate_rate, X. }
  destruct (mmap_nth (fun s => mmap (fun s' => match evaluateTransition m s s' None with Some v => Ok v | None => Err TypeError end) (seq 0 (pc_n m)))
     (fun s r => length r = pc_n m /\ forall j, (j < pc_n m)%nat -> has_rate m (current m) s j (nth j r 0)) (seq 0 (pc_n m)) O []) as (mat & E & L & P).
  { intros s Hs. rewrite seq_length in Hs. rewrite seq_nth by exact Hs. cbn [Nat.add].
    destruct (mmap_nth (fun s' => match evaluateTransition m s s' None with Some v => Ok v | None => Err TypeError end) (fun j v => has_rate m (current m) s j v) (seq 0 (pc_n m)) O 0) as (r & Er & Lr & Pr).
    - intros j Hj. rewrite seq_length in Hj. rewrite seq_nth by exact Hj. cbn [Nat.add]. destruct (HR s j Hs Hj) as (v & Ev & Hv). rewrite Ev. eauto.
    - rewrite seq_length in *. exists r. auto. }
  rewrite E. cbn [bind]. rewrite seq_length in L, P. destruct (C16_CTMC_constructor mat (pc_lab m) (pc_name m)) as (A & B & C).
  split; [|split; [|exact C]].
  - rewrite A. split; [intros _; exact HI|]. intros _. split; [exact IN|]. rewrite L. exact LL.
  - intros c Ec. destruct (B c Ec) as (EM & EL & EN & U). split; [|exact EN]. unfold realises, ct_n. rewrite EM, EL.
    split; [reflexivity|]. split; [apply (uniform_unique (pc_lab m)); assumption|]. split; [exact L|]. split.
    + intros r I. apply (In_nth _ _ []) in I as (s & Hs & <-). apply P. lia.
    + intros i j Hi Hj. apply P; assumption.
Qed.
Print Assumptions C127_PCTMCtoCTMC.

(** ** C128: a sparse parametric CTMC *)

(** The transitions of the sparse model in the order of iteration. *)
Definition sp_transitions {V} (h : sparse V R) : list (nat * nat * V) :=
  flat_map (fun ir => flat_map (map (fun t => (fst ir, fst t, snd t))) (snd ir)) (combine (seq 0 (length (sp_labels h))) (sp_rows h)).

Lemma mfold_map {A B S} (f : S -> B -> res S) (g : A -> B) l : forall s, mfold f (map g l) s = mfold (fun s a => f s (g a)) l s.
Proof. induction l as [|a l IH]; intros s; [reflexivity|]. cbn. destruct (f s (g a)); cbn; [apply IH|reflexivity]. Qed.
Lemma mfold_flat_map {A B S} (f : S -> B -> res S) (g : A -> list B) l : forall s, mfold f (flat_map g l) s = mfold (fun s a => mfold f (g a) s) l s.
Proof. induction l as [|a l IH]; intros s; [reflexivity|]. cbn. rewrite mfold_app. destruct (mfold f (g a) s); cbn; [apply IH|reflexivity]. Qed.
Lemma mfold_ext {A S} (f g : S -> A -> res S) l : (forall s a, f s a = g s a) -> forall s, mfold f l s = mfold g l s.
Proof. intros H. induction l as [|a l IH]; intros s; [reflexivity|]. cbn. rewrite H. destruct (g s a); cbn; [apply IH|reflexivity]. Qed.

Section Params.
  (** (ps, pi) represents the positions [F x] of each parameter *)
  Definition rep (ps : list string) (pi : list (list (Z * Z))) (F : string -> list (Z * Z)) : Prop :=
    NoDup ps /\ length pi = length ps /\ (forall q, (q < length ps)%nat -> nth q pi [] = F (nth q ps EmptyString)) /\ forall x, ~ In x ps -> F x = [].
  Lemma note_one c d ps pi F v : rep ps pi F -> exists ps' pi', note_param c d (ps, pi) v = Ok (ps', pi') /\
    rep ps' pi' (fun x => if String.eqb x v then F x ++ [(Z.of_nat c, Z.of_nat d)] else F x) /\ forall x, In x ps' <-> In x ps \/ x = v.
  Proof.
    intros (N & L & H & Z0). unfold note_param.
    assert (G : forall ps pi, NoDup ps -> length pi = length ps -> (forall q, (q < length ps)%nat -> nth q pi [] = F (nth q ps EmptyString)) -> (forall x, ~ In x ps -> F x = []) -> In v ps ->
       exists pi', (do q <- index_err String.eqb v ps; do l <- at_list pi q; Ok (ps, upd pi q (l ++ [(Z.of_nat c, Z.of_nat d)]))) = Ok (ps, pi') /\
         rep ps pi' (fun x => if String.eqb x v then F x ++ [(Z.of_nat c, Z.of_nat d)] else F x)).
    { clear. intros ps pi N L H Z0 I. destruct (index_of_In String.eqb String.eqb_eq v ps I) as (q & E). unfold index_err. rewrite E.
      apply (index_of_Some String.eqb String.eqb_eq) in E.
      assert (Hq : (q < length ps)%nat) by (apply nth_error_Some; congruence).
      assert (Eq : nth q ps EmptyString = v) by (apply nth_error_nth, E).
      cbn [bind]. unfold at_list. rewrite (nth_error_nth' _ []) by lia. cbn [bind]. eexists. split; [reflexivity|].
      split; [exact N|]. split; [rewrite upd_length; exact L|]. split.
      - intros k Hk. rewrite upd_nth by lia. destruct (Nat.eqb_spec q k) as [<-|NE].
        + rewrite Eq, String.eqb_refl, H by exact Hq. rewrite Eq. reflexivity.
        + destruct (String.eqb_spec (nth k ps EmptyString) v) as [Ek|_]; [|apply H, Hk]. exfalso. apply NE. apply (proj1 (NoDup_nth _ EmptyString) N); congruence.
      - intros x NI. destruct (String.eqb_spec x v) as [->|_]; [contradiction|apply Z0, NI]. }
    destruct (memb String.eqb v ps) eqn:M.
    - apply memb_str in M. destruct (G ps pi N L H Z0 M) as (pi' & E & RP). exists ps, pi'. split; [exact E|]. split; [exact RP|]. intros x. split; [auto|intros [I| ->]; auto].
    - apply memb_str_false in M. destruct (G (ps ++ [v]) (pi ++ [[]])) as (pi' & E & RP).
      + apply (Permutation_NoDup (Permutation_cons_append ps v)). constructor; assumption.
      + rewrite !app_length. cbn. lia.
      + intros q Hq. rewrite app_length in Hq. cbn in Hq. destruct (Nat.eq_dec q (length ps)) as [->|NE].
        * rewrite !app_nth2 by lia. rewrite L, Nat.sub_diag. cbn. symmetry. apply Z0, M.
        * rewrite !app_nth1 by lia. apply H. lia.
      + intros x NI. apply Z0. intros I. apply NI. apply in_or_app. auto.
      + apply in_or_app. right. left. reflexivity.
      + exists (ps ++ [v]), pi'. split; [exact E|]. split; [exact RP|]. intros x. rewrite in_app_iff. cbn. intuition.
  Qed.
  Lemma note_all c d vs : forall ps pi F, NoDup vs -> rep ps pi F -> exists ps' pi', mfold (note_param c d) vs (ps, pi) = Ok (ps', pi') /\
    rep ps' pi' (fun x => if memb String.eqb x vs then F x ++ [(Z.of_nat c, Z.of_nat d)] else F x) /\ forall x, In x ps' <-> In x ps \/ In x vs.
  Proof.
    induction vs as [|v vs IH]; intros ps pi F N RP; [exists ps, pi; split; [reflexivity|]; split; [exact RP|intros x; cbn; tauto]|].
    inversion N as [|? ? NI N']; subst. destruct (note_one c d ps pi F v RP) as (ps1 & pi1 & E1 & R1 & I1). destruct (IH ps1 pi1 _ N' R1) as (ps2 & pi2 & E2 & R2 & I2).
    exists ps2, pi2. cbn [mfold]. rewrite E1. cbn [bind]. split; [exact E2|]. split.
    - destruct R2 as (A & B & C & D). split; [exact A|]. split; [exact B|].
      assert (X : forall x, (if memb String.eqb x vs then (if String.eqb x v then F x ++ [(Z.of_nat c, Z.of_nat d)] else F x) ++ [(Z.of_nat c, Z.of_nat d)] else if String.eqb x v then F x ++ [(Z.of_nat c, Z.of_nat d)] else F x)
          = if memb String.eqb x (v :: vs) then F x ++ [(Z.of_nat c, Z.of_nat d)] else F x).
      { intros x. unfold memb. cbn [existsb]. fold (memb String.eqb x vs). destruct (String.eqb_spec x v) as [->|NE]; cbn [orb]; [|reflexivity].
        destruct (memb String.eqb v vs) eqn:M; [apply memb_str in M; contradiction|reflexivity]. }
      split; [intros q Hq; rewrite <- X; apply C, Hq|intros x NI'; rewrite <- X; apply D, NI'].
    - intros x. rewrite I2, I1. cbn. intuition.
  Qed.
End Params.

(** The positions of the transitions of T in which the parameter x occurs. *)
Definition places (T : list (nat * nat * expr R)) (x : string) : list (Z * Z) :=
  flat_map (fun t : nat * nat * expr R => if memb String.eqb x (symbols (snd t)) then [(Z.of_nat (fst (fst t)), Z.of_nat (snd (fst t)))] else []) T.
Definition zmat (m : list (list Z)) (s j : nat) : Z := nth j (nth s m []) 0%Z.
Definition pinv (n : nat) (T : list (nat * nat * expr R)) (st : pstate) : Prop :=
  let '(m, ex, ps, pi) := st in
  length m = n /\ (forall s, (s < n)%nat -> length (nth s m []) = n) /\
  (1 <= length ex <= S (length T))%nat /\ nth 0 ex (EConst 0) = EConst 0 /\
  (forall s j, (s < n)%nat -> (j < n)%nat -> (0 <= zmat m s j < Z.of_nat (length ex))%Z /\
     (forall e, In (s, j, e) T -> nth (Z.to_nat (zmat m s j)) ex (EConst 0) = e) /\ ((forall e, ~ In (s, j, e) T) -> zmat m s j = 0%Z)) /\
  rep ps pi (places T) /\ forall x, In x ps <-> exists t, In t T /\ occurs x (snd t).

Definition gathers (gather : expr R -> list string) : Prop := forall e, NoDup (gather e) /\ forall x, In x (gather e) <-> occurs x e.

Lemma zmat_upd n m s j v s' j' : length m = n -> (forall s, (s < n)%nat -> length (nth s m []) = n) -> (s < n)%nat -> (j < n)%nat -> (s' < n)%nat -> (j' < n)%nat ->
  zmat (upd m s (upd (nth s m []) j v)) s' j' = if Nat.eqb s s' && Nat.eqb j j' then v else zmat m s' j'.
Proof.
  intros L R Hs Hj Hs' Hj'. unfold zmat. rewrite upd_nth by lia. destruct (Nat.eqb_spec s s') as [<-|NE]; cbn [andb]; [|reflexivity]. rewrite upd_nth by (rewrite R by exact Hs; exact Hj). reflexivity.
Qed.
Lemma upd_square {A} n (m : list (list A)) s r : length m = n -> (forall s, (s < n)%nat -> length (nth s m []) = n) -> (s < n)%nat -> length r = n ->
  length (upd m s r) = n /\ forall s', (s' < n)%nat -> length (nth s' (upd m s r) []) = n.
Proof.
  intros L R Hs Lr. split; [rewrite upd_length; exact L|]. intros s' Hs'. rewrite upd_nth by lia. destruct (Nat.eqb s s'); [exact Lr|apply R, Hs'].
Qed.

Lemma param_one n gather T st s j e : gathers gather -> pinv n T st -> (Z.of_nat (S (length T)) < 65536)%Z -> (s < n)%nat -> (j < n)%nat -> (forall e, ~ In (s, j, e) T) ->
  exists st', param_step gather s st (j, e) = Ok st' /\ pinv n (T ++ [(s, j, e)]) st'.
Proof.
  intros G. destruct st as [[[m ex] ps] pi]. intros (Lm & Rm & Lx & N0 & HM & RP & HP) B Hs Hj NI.
  unfold param_step. destruct (G e) as (GN & GO). destruct (note_all s j (gather e) ps pi (places T) GN RP) as (ps' & pi' & E & RP' & IP'). rewrite E. cbn [bind]. clear E.
  assert (RPn : rep ps' pi' (places (T ++ [(s, j, e)]))).
  { assert (X : forall x, places (T ++ [(s, j, e)]) x = if memb String.eqb x (gather e) then places T x ++ [(Z.of_nat s, Z.of_nat j)] else places T x).
    { intros x. unfold places. rewrite flat_map_app. cbn [flat_map fst snd]. rewrite app_nil_r.
      assert (Y : memb String.eqb x (symbols e) = memb String.eqb x (gather e)).
      { apply eq_true_iff_eq. rewrite !memb_str, GO. apply symbols_occurs. }
      rewrite Y. destruct (memb String.eqb x (gather e)); [reflexivity|apply app_nil_r]. }
    destruct RP' as (a & b & c & d). split; [exact a|]. split; [exact b|]. split; [intros q Hq; rewrite X; apply c, Hq|intros x Nx; rewrite X; apply d, Nx]. }
  assert (IPn : forall x, In x ps' <-> exists t, In t (T ++ [(s, j, e)]) /\ occurs x (snd t)).
  { intros x. rewrite IP', HP, GO. split.
    - intros [(t & I & O)|O]; [exists t; split; [apply in_or_app; auto|exact O]|exists (s, j, e); split; [apply in_or_app; right; left; reflexivity|exact O]].
    - intros (t & I & O). apply in_app_or in I as [I|[<-|[]]]; [left; eauto|right; exact O]. }
  assert (SET : forall ex' k, (k < length ex')%nat -> nth k ex' (EConst 0) = e -> (1 <= length ex' <= S (length T + 1))%nat -> nth 0 ex' (EConst 0) = EConst 0 ->
     (length ex <= length ex')%nat -> (forall q, (q < length ex)%nat -> nth q ex' (EConst 0) = nth q ex (EConst 0)) ->
     exists st', (do m0 <- np_set m (Z.of_nat s) (Z.of_nat j) (Z.of_nat k mod 65536)%Z; Ok (m0, ex', ps', pi')) = Ok st' /\ pinv n (T ++ [(s, j, e)]) st').
  { intros ex' k Hk Ek L' N0' LE EQ. rewrite np_set_ok by (rewrite ?Lm, ?Rm; assumption). cbn [bind]. eexists. split; [reflexivity|].
    rewrite Z.mod_small by lia. unfold pinv. destruct (upd_square n m s (upd (nth s m []) j (Z.of_nat k)) Lm Rm Hs) as (A1 & A2); [rewrite upd_length; apply Rm, Hs|].
    split; [exact A1|]. split; [exact A2|]. split; [rewrite app_length; cbn [length]; exact L'|]. split; [exact N0'|]. split; [|auto].
    intros s' j' Hs' Hj'. rewrite (zmat_upd n) by assumption. destruct (HM s' j' Hs' Hj') as (H1 & H2 & H3).
    destruct (Nat.eqb_spec s s') as [<-|NE]; [destruct (Nat.eqb_spec j j') as [<-|NE]|]; cbn [andb].
    - split; [lia|]. rewrite Nat2Z.id. split.
      + intros e' I. apply in_app_or in I as [I|[I|[]]]; [exfalso; apply (NI e' I)|congruence].
      + intros X. exfalso. apply (X e). apply in_or_app. right. left. reflexivity.
    - split; [lia|]. split.
      + intros e' I. apply in_app_or in I as [I|[I|[]]]; [|congruence]. rewrite EQ by lia. apply H2, I.
      + intros X. apply H3. intros e' I. apply (X e'), in_or_app. auto.
    - split; [lia|]. split.
      + intros e' I. apply in_app_or in I as [I|[I|[]]]; [|congruence]. rewrite EQ by lia. apply H2, I.
      + intros X. apply H3. intros e' I. apply (X e'), in_or_app. auto. }
  destruct (is_number e || negb (memb expr_eqb e ex)) eqn:C.
  - apply SET.
    + rewrite app_length. cbn. lia.
    + rewrite app_nth2, Nat.sub_diag by lia. reflexivity.
    + rewrite app_length. cbn. lia.
    + rewrite app_nth1 by lia. exact N0.
    + rewrite app_length. lia.
    + intros q Hq. apply app_nth1, Hq.
  - apply orb_false_iff in C as [_ C]. apply negb_false_iff in C. apply (memb_In expr_eqb expr_eqb_eq) in C.
    destruct (index_of_In expr_eqb expr_eqb_eq e ex C) as (q & Eq). unfold index_err. rewrite Eq. cbn [bind].
    apply (index_of_Some expr_eqb expr_eqb_eq) in Eq. assert (Hq : (q < length ex)%nat) by (apply nth_error_Some; congruence).
    apply SET; [exact Hq|apply nth_error_nth, Eq|lia|exact N0|lia|reflexivity].
Qed.
Lemma param_all n gather T2 : forall T st, gathers gather -> pinv n T st -> (Z.of_nat (length T + length T2) < 65536)%Z ->
  (forall s j e, In (s, j, e) T2 -> (s < n)%nat /\ (j < n)%nat) -> NoDup (map fst (T ++ T2)) ->
  exists st', mfold (fun st (t : nat * nat * expr R) => param_step gather (fst (fst t)) st (snd (fst t), snd t)) T2 st = Ok st' /\ pinv n (T ++ T2) st'.
Proof.
  induction T2 as [|[[s j] e] T2 IH]; intros T st G H B IN ND; [exists st; rewrite app_nil_r; auto|].
  destruct (IN s j e (or_introl eq_refl)) as (Hs & Hj). cbn [length] in B.
  destruct (param_one n gather T st s j e G H) as (st1 & E1 & H1); [lia|exact Hs|exact Hj| |].
  - intros e' I. rewrite map_app in ND. cbn [map fst] in ND. apply NoDup_remove_2 in ND. apply ND, in_or_app. left. apply (in_map fst) in I. exact I.
  - destruct (IH (T ++ [(s, j, e)]) st1 G H1) as (st2 & E2 & H2).
    + rewrite app_length. cbn [length]. lia.
    + intros s' j' e' I. apply (IN s' j' e'). right. exact I.
    + rewrite <- app_assoc. exact ND.
    + exists st2. cbn [mfold fst snd]. rewrite E1. cbn [bind]. split; [exact E2|]. rewrite <- app_assoc in H2. exact H2.
Qed.

Lemma in_sp_transitions {V} (h : sparse V R) s j e : well_formed h -> one_action h ->
  (In (s, j, e) (sp_transitions h) <-> (s < length (sp_labels h))%nat /\ In (j, e) (action h s 0)).
Proof.
  intros (L & _ & W) ONE. unfold sp_transitions, action. rewrite in_flat_map. split.
  - intros ([s' acts] & I & J). cbn [fst snd] in J. apply in_flat_map in J as (ts & I2 & J). apply in_map_iff in J as ([j' e'] & EQ & J). cbn [fst snd] in EQ. injection EQ as -> -> ->.
    apply (In_nth _ _ (O, [])) in I as (q & Hq & Eq). rewrite combine_length, seq_length in Hq. rewrite combine_nth in Eq by (rewrite seq_length; lia). rewrite seq_nth in Eq by lia. cbn [Nat.add] in Eq.
    injection Eq as -> <-. split; [lia|].
    assert (IA : In (nth s (sp_rows h) []) (sp_rows h)) by (apply nth_In; lia). specialize (ONE _ IA).
    destruct (nth s (sp_rows h) []) as [|a [|]]; try discriminate. cbn in I2 |- *. destruct I2 as [->|[]]. exact J.
  - intros (Hs & I). exists (s, nth s (sp_rows h) []). split.
    + assert (X : nth s (combine (seq 0 (length (sp_labels h))) (sp_rows h)) (O, []) = (s, nth s (sp_rows h) [])) by (rewrite combine_nth by (rewrite seq_length; lia); rewrite seq_nth by lia; reflexivity).
      rewrite <- X. apply nth_In. rewrite combine_length, seq_length. lia.
    + cbn [fst snd]. apply in_flat_map. exists (nth 0 (nth s (sp_rows h) []) []). split.
      * apply nth_In. rewrite (ONE (nth s (sp_rows h) [])) by (apply nth_In; lia). lia.
      * apply in_map_iff. exists (j, e). auto.
Qed.
Lemma NoDup_rows {V} (rows : list (list (list (nat * V)))) : forall k n, (forall acts, In acts rows -> length acts = 1%nat) -> (forall acts ts, In acts rows -> In ts acts -> NoDup (map fst ts)) ->
  NoDup (map fst (flat_map (fun ir : nat * list (list (nat * V)) => flat_map (map (fun t => (fst ir, fst t, snd t))) (snd ir)) (combine (seq k n) rows))).
Proof.
  induction rows as [|acts rows IH]; intros k n ONE W; [rewrite combine_nil; constructor|]. destruct n as [|n]; [constructor|]. cbn [seq combine flat_map fst snd].
  rewrite map_app. apply LAlergia.NoDup_app_intro.
  - specialize (ONE acts (or_introl eq_refl)). specialize (W acts). destruct acts as [|a [|]]; try discriminate. cbn [flat_map]. rewrite app_nil_r, map_map. cbn [fst].
    assert (X : NoDup (map fst a)) by (apply W; left; reflexivity). rewrite <- map_map with (f := fst) (g := fun x => (k, x)). apply FinFun.Injective_map_NoDup; [intros x y [=]; assumption|exact X].
  - apply IH; intros; [apply ONE|eapply W; eauto]; right; assumption.
  - intros [a b] I1 I2. apply in_map_iff in I1 as (t1 & E1 & I1). apply in_flat_map in I1 as (ts & _ & I1). apply in_map_iff in I1 as (u & <- & _). cbn in E1. injection E1 as <- _.
    apply in_map_iff in I2 as (t2 & E2 & I2). apply in_flat_map in I2 as ([k' r] & I2 & I3). apply in_combine_l in I2. apply in_seq in I2.
    apply in_flat_map in I3 as (ts2 & _ & I3). apply in_map_iff in I3 as (u2 & <- & _). cbn in E2. injection E2 as -> _. lia.
Qed.

Lemma places_in T x z : In z (places T x) <-> exists s j e, z = (Z.of_nat s, Z.of_nat j) /\ In (s, j, e) T /\ occurs x e.
Proof.
  unfold places. rewrite in_flat_map. split.
  - intros ([[s j] e] & I & J). cbn [fst snd] in J. destruct (memb String.eqb x (symbols e)) eqn:M; [|destruct J]. destruct J as [<-|[]]. apply memb_str, symbols_occurs in M. exists s, j, e. auto.
  - intros (s & j & e & -> & I & O). exists (s, j, e). split; [exact I|]. cbn [fst snd]. apply symbols_occurs, memb_str in O. rewrite O. left. reflexivity.
Qed.
Lemma places_NoDup T x : NoDup (map fst T) -> NoDup (places T x).
Proof.
  induction T as [|[[s j] e] T IH]; intros N; [constructor|]. cbn [map fst] in N. inversion N as [|? ? NI N']; subst.
  change (places ((s, j, e) :: T) x) with ((if memb String.eqb x (symbols e) then [(Z.of_nat s, Z.of_nat j)] else []) ++ places T x).
  destruct (memb String.eqb x (symbols e)); [|apply IH, N']. cbn [app]. constructor; [|apply IH, N'].
  intros I. apply places_in in I as (s' & j' & e' & E & I & _). injection E as E1 E2. apply Nat2Z.inj in E1, E2. subst. apply NI. apply (in_map fst) in I. exact I.
Qed.

Lemma pair_dec (a b : nat * nat) : {a = b} + {a <> b}.
Proof. decide equality; apply Nat.eq_dec. Defined.
Lemma nth_repeat_lt {A} (x d : A) n i : (i < n)%nat -> nth i (repeat x n) d = x.
Proof. revert i. induction n as [|n IH]; intros [|i] Hi; cbn; try lia; [reflexivity|apply IH; lia]. Qed.

Theorem C128_PCTMC : forall gather (h : sparse (expr R) R), gathers gather -> well_formed h -> one_action h ->
  let n := length (sp_labels h) in
  (Z.of_nat (length (sp_transitions h)) < 65535)%Z ->
  ((exists m, stormpy_to_PCTMC gather h = Ok m) <-> has_initial (sp_labels h) /\ one_marked (sp_labels h)) /\
  (forall m, stormpy_to_PCTMC gather h = Ok m ->
     wf_pctmc m /\ pc_name m = "unknow_PCTMC"%string /\ uniform_on_init (pc_lab m) (pc_ini m) /\
     (exists o, only_marked (sp_labels h) o /\ converted_labels (sp_labels h) o (pc_lab m) /\
        (forall s j, (s < n)%nat -> (j < n)%nat -> entry (EConst 0) (action h s 0) j (transition m s j)) /\
        forall s0, o = Some s0 -> (forall s, (s < n)%nat -> transition m s n = EConst 0) /\
                                  (forall j, (j <= n)%nat -> transition m n j = EConst (if Nat.eqb j s0 then 1 else 0))) /\
     NoDup (pc_par m) /\ (forall x, In x (pc_par m) <-> exists s j, (s < n)%nat /\ (j < n)%nat /\ occurs x (transition m s j)) /\
     length (pc_ind m) = length (pc_par m) /\
     (forall q, (q < length (pc_par m))%nat -> NoDup (nth q (pc_ind m) []) /\
        forall z, In z (nth q (pc_ind m) []) <-> exists s j, z = (Z.of_nat s, Z.of_nat j) /\ (s < n)%nat /\ (j < n)%nat /\ occurs (nth q (pc_par m) EmptyString) (transition m s j)) /\
     (forall x, current m x = None)) /\
  (forall e, stormpy_to_PCTMC gather h = Err e -> e = ValueError).
Proof.
  intros gather h G WF ONE n B. unfold stormpy_to_PCTMC. fold n.
  assert (FL : forall st, mfold (fun st ir => mfold (fun st acts => mfold (param_step gather (fst ir)) acts st) (snd ir) st) (combine (seq 0 n) (sp_rows h)) st
     = mfold (fun st (t : nat * nat * expr R) => param_step gather (fst (fst t)) st (snd (fst t), snd t)) (sp_transitions h) st).
  { intros st. unfold sp_transitions. rewrite mfold_flat_map. apply mfold_ext. clear st. intros st ir. rewrite mfold_flat_map. apply mfold_ext. clear st. intros st acts. rewrite mfold_map.
    apply mfold_ext. intros s [a b]. reflexivity. }
  rewrite FL. clear FL. set (T := sp_transitions h) in *.
  assert (INT : forall s j e, In (s, j, e) T <-> (s < n)%nat /\ In (j, e) (action h s 0)) by (intros; apply in_sp_transitions; assumption).
  assert (BT : forall s j e, In (s, j, e) T -> (s < n)%nat /\ (j < n)%nat).
  { intros s j e I. apply INT in I as [Hs I]. split; [exact Hs|]. destruct WF as (L & _ & W). eapply (W (nth s (sp_rows h) []) (action h s 0)); [apply nth_In; rewrite L; exact Hs| |exact I].
    apply nth_In. rewrite (ONE (nth s (sp_rows h) [])) by (apply nth_In; rewrite L; exact Hs). lia. }
  assert (NDT : NoDup (map fst T)) by (apply NoDup_rows; [exact ONE|intros acts ts I J; apply (proj2 (proj2 WF) acts ts I J)]).
  destruct (param_all n gather T [] (repeat (repeat 0%Z n) n, [EConst 0], [], [])) as (st & E & H); [exact G| |cbn [length]; lia|exact BT|exact NDT|].
  { split; [apply repeat_length|]. split; [intros s Hs; rewrite nth_repeat_lt by exact Hs; apply repeat_length|]. split; [cbn; lia|]. split; [reflexivity|]. split; [|split].
    - intros s j Hs Hj. unfold zmat. rewrite nth_repeat_lt by exact Hs. rewrite nth_repeat_lt by exact Hj. split; [cbn; lia|]. split; [intros e []|reflexivity].
    - split; [constructor|]. split; [reflexivity|]. split; [cbn; intros; lia|reflexivity].
    - intros x. split; [intros []|intros (t & [] & _)]. }
  change (@EConst R n0) with (@EConst R 0). rewrite E. cbn [bind]. cbn [app] in H. destruct st as [[[m ex] ps] pi]. destruct H as (Lm & Rm & Lx & N0 & HM & (NP & LP & HP & _) & IP).
  set (o := add_init_of (sp_labels h)).
  set (mx := match o with None => (m, ex) | Some c => (map (fun r => r ++ [0%Z]) (m ++ [upd (repeat 0%Z n) c (Z.of_nat (length ex) mod 65536)%Z]), ex ++ [EConst n1]) end).
  set (k := (n + extra o)%nat).
  assert (HO : forall s0, o = Some s0 -> (s0 < n)%nat) by (intros s0 Eo; pose proof (marked_fold (sp_labels h) 0 None) as F; cbn zeta in F; fold (add_init_of (sp_labels h)) in F; fold o in F; rewrite Eo in F; destruct F as [[_ E1]|(s & Hs & _ & E1 & _)]; [discriminate|injection E1 as ->; exact Hs]).
  assert (MX : length (fst mx) = k /\ (forall s, (s < k)%nat -> length (nth s (fst mx) []) = k) /\ nth 0 (snd mx) (EConst 0) = EConst 0 /\
     (forall s j, (s < k)%nat -> (j < k)%nat -> (0 <= zmat (fst mx) s j < Z.of_nat (length (snd mx)))%Z) /\
     (forall s j, (s < n)%nat -> (j < n)%nat -> nth (Z.to_nat (zmat (fst mx) s j)) (snd mx) (EConst 0) = nth (Z.to_nat (zmat m s j)) ex (EConst 0)) /\
     (forall s0, o = Some s0 -> (forall s, (s < n)%nat -> zmat (fst mx) s n = 0%Z) /\ forall j, (j <= n)%nat -> nth (Z.to_nat (zmat (fst mx) n j)) (snd mx) (EConst 0) = EConst (if Nat.eqb j s0 then 1 else 0))).
  { subst mx k. destruct o as [s0|] eqn:Eo; cbn [fst snd extra].
    - specialize (HO s0 eq_refl). rewrite Z.mod_small by lia. set (last := upd (repeat 0%Z n) s0 (Z.of_nat (length ex))).
      assert (LL : length last = n) by (unfold last; rewrite upd_length; apply repeat_length).
      assert (Hin : forall s, (s < n)%nat -> nth s (map (fun r => r ++ [0%Z]) (m ++ [last])) [] = nth s m [] ++ [0%Z]).
      { intros s Hs. rewrite (nth_indep _ _ (([] : list Z) ++ [0%Z])) by (rewrite map_length, app_length; cbn; lia). rewrite (map_nth (fun r : list Z => r ++ [0%Z])), app_nth1 by lia. reflexivity. }
      assert (Hout : nth n (map (fun r => r ++ [0%Z]) (m ++ [last])) [] = last ++ [0%Z]).
      { rewrite (nth_indep _ _ (([] : list Z) ++ [0%Z])) by (rewrite map_length, app_length; cbn; lia). rewrite (map_nth (fun r : list Z => r ++ [0%Z])), app_nth2 by lia. rewrite Lm, Nat.sub_diag. reflexivity. }
      assert (Zin : forall s j, (s < n)%nat -> (j < n)%nat -> zmat (map (fun r => r ++ [0%Z]) (m ++ [last])) s j = zmat m s j).
      { intros s j Hs Hj. unfold zmat. rewrite Hin, app_nth1 by (rewrite ?Rm; assumption). reflexivity. }
      assert (Zcol : forall s, (s < n)%nat -> zmat (map (fun r => r ++ [0%Z]) (m ++ [last])) s n = 0%Z).
      { intros s Hs. unfold zmat. rewrite Hin, app_nth2 by (rewrite ?Rm by exact Hs; lia). rewrite Rm, Nat.sub_diag by exact Hs. reflexivity. }
      assert (Zrow : forall j, (j <= n)%nat -> zmat (map (fun r => r ++ [0%Z]) (m ++ [last])) n j = if Nat.eqb j s0 then Z.of_nat (length ex) else 0%Z).
      { intros j Hj. unfold zmat. rewrite Hout. destruct (Nat.eq_dec j n) as [->|NE].
        - rewrite app_nth2, LL, Nat.sub_diag by lia. destruct (Nat.eqb_spec n s0); [lia|reflexivity].
        - rewrite app_nth1 by lia. unfold last. rewrite upd_nth by (rewrite repeat_length; lia). rewrite Nat.eqb_sym. destruct (Nat.eqb_spec j s0) as [->|]; [reflexivity|]. apply nth_repeat_lt. lia. }
      split; [rewrite map_length, app_length; cbn; lia|]. split.
      { intros s Hs. destruct (Nat.eq_dec s n) as [->|NE]; [rewrite Hout, app_length, LL; reflexivity|]. rewrite Hin, app_length, Rm by lia. reflexivity. }
      split; [rewrite app_nth1 by lia; exact N0|]. rewrite app_length. cbn [length]. split.
      { intros s j Hs Hj. destruct (Nat.eq_dec s n) as [->|NE]; [rewrite Zrow by lia; destruct (Nat.eqb j s0); lia|].
        destruct (Nat.eq_dec j n) as [->|NE']; [rewrite Zcol by lia; lia|]. rewrite Zin by lia. destruct (HM s j) as (X & _); lia. }
      split.
      { intros s j Hs Hj. rewrite Zin by assumption. destruct (HM s j Hs Hj) as (X & _). rewrite app_nth1 by lia. reflexivity. }
      intros s1 [= <-]. split; [exact Zcol|]. intros j Hj. rewrite Zrow by exact Hj. destruct (Nat.eqb j s0); [rewrite Nat2Z.id, app_nth2, Nat.sub_diag by lia; reflexivity|].
      cbn [Z.to_nat]. rewrite app_nth1 by lia. exact N0.
    - rewrite Nat.add_0_r. split; [exact Lm|]. split; [exact Rm|]. split; [exact N0|]. split; [intros; apply HM; assumption|]. split; [reflexivity|discriminate]. }
  destruct mx as [m2 ex2]. cbn [fst snd] in MX. destruct MX as (L2 & R2 & N2 & V2 & T2 & X2).
  destruct (C86_PCTMC_constructor m2 (labelling_of (sp_labels h)) ex2 (map (fun p => (p, None)) ps) pi ps "unknow_PCTMC") as (A & C & D).
  pose proof (proj1 (proj2 WF)) as ND.
  assert (OMk : (length (labelling_of (sp_labels h)) = length m2 <-> one_marked (sp_labels h))).
  { destruct (rows_and_labels (repeat (repeat 0 n) n) (sp_labels h) (fun _ _ => 0) ND) as (_ & I2 & _).
    - apply repeat_length.
    - intros s Hs. fold n in Hs |- *. rewrite nth_repeat_lt by exact Hs. split; [apply repeat_length|]. intros j Hj. unfold matR, vecR. rewrite nth_repeat_lt by exact Hs. apply nth_repeat_lt, Hj.
    - rewrite <- I2. fold o. assert (X : length (add_state (repeat (repeat 0 n) n) o) = k).
      { unfold k. destruct o; cbn [add_state extra]; [rewrite map_length, app_length|]; rewrite repeat_length; cbn [length]; lia. }
      rewrite X, L2. reflexivity. }
  split; [|split; [|exact D]].
  - rewrite A, OMk, (init_labelling _ ND). unfold has_initial. split; [intros (X & _ & _ & _ & Y); auto|]. intros ((s & Hs & X) & Y). split; [eauto|]. split; [exact LP|].
    fold n in Hs. assert (Hk : (s < k)%nat) by (unfold k; lia). split; [|split; [|exact Y]].
    + exists (nth s m2 []), (zmat m2 s s). split; [apply nth_In; lia|]. unfold zmat. apply nth_In. rewrite R2 by exact Hk. exact Hk.
    + intros r c Ir Ic. apply (In_nth _ _ []) in Ir as (a & Ha & <-). apply (In_nth _ _ 0%Z) in Ic as (b & Hb & <-). rewrite R2 in Hb by lia. apply V2; lia.
  - intros c Ec. assert (OM : one_marked (sp_labels h)) by (apply OMk, A; eauto). destruct (C c Ec) as (E1 & E2 & E3 & E4 & E5 & E6 & E7 & E8).
    assert (PN : pc_n c = k) by (unfold pc_n; rewrite E1, map_length; exact L2).
    assert (TR : forall s j, (s < k)%nat -> (j < k)%nat -> transition c s j = nth (Z.to_nat (zmat m2 s j)) ex2 (EConst 0)).
    { intros s j Hs Hj. unfold transition. rewrite E1, E3. change (@nil nat) with (map Z.to_nat []). rewrite map_nth. change O with (Z.to_nat 0) at 1. rewrite map_nth. reflexivity. }
    assert (TT : forall s j, (s < n)%nat -> (j < n)%nat -> (forall e, In (s, j, e) T -> transition c s j = e) /\ ((forall e, ~ In (s, j, e) T) -> transition c s j = EConst 0)).
    { intros s j Hs Hj. rewrite TR, T2 by (unfold k; lia || assumption). destruct (HM s j Hs Hj) as (_ & X & Y). split; [exact X|]. intros Z0. rewrite (Y Z0). exact N0. }
    assert (OC : forall x s j, (s < n)%nat -> (j < n)%nat -> (occurs x (transition c s j) <-> exists e, In (s, j, e) T /\ occurs x e)).
    { intros x s j Hs Hj. destruct (TT s j Hs Hj) as (X & Y). split.
      - intros O. destruct (in_dec (fun a b => pair_dec a b) (s, j) (map fst T)) as [I|NI].
        + apply in_map_iff in I as ([[s' j'] e] & EQ & I). cbn in EQ. injection EQ as -> ->. exists e. split; [exact I|]. rewrite <- (X e I). exact O.
        + rewrite Y in O; [destruct O|]. intros e I. apply NI. apply (in_map fst) in I. exact I.
      - intros (e & I & O). rewrite (X e I). exact O. }
    split; [|split; [exact E6|split; [rewrite E2; exact E7|split]]].
    + split; [|rewrite E2, PN; split; [|split; [|split; [rewrite E3; exact N2|]]]].
      * intros r I. rewrite E1 in I. apply in_map_iff in I as (r0 & <- & I). apply (In_nth _ _ []) in I as (a & Ha & <-). rewrite map_length, PN, R2 by lia. split; [reflexivity|].
        intros q Q. apply in_map_iff in Q as (z & <- & Q). apply (In_nth _ _ 0%Z) in Q as (b & Hb & <-). rewrite R2 in Hb by lia. specialize (V2 a b). unfold zmat in V2. rewrite E3. lia.
      * rewrite <- L2. apply OMk, OM.
      * destruct E7 as (X & _). rewrite X, <- L2. apply OMk, OM.
      * apply E7.
    + exists o. destruct (add_init_spec (sp_labels h) ND (proj1 (unique_marked _ ND) OM)) as [OM' _]. fold o in OM'. split; [exact OM'|]. split; [rewrite E2; apply labels_converted; [exact ND|apply (proj1 (unique_marked _ ND) OM)]|]. split.
      * intros s j Hs Hj. destruct (TT s j Hs Hj) as (X & Y). destruct (in_dec (fun a b => pair_dec a b) (s, j) (map fst T)) as [I|NI].
        -- apply in_map_iff in I as ([[s' j'] e] & EQ & I). cbn in EQ. injection EQ as -> ->. left. rewrite (X e I). apply INT, I.
        -- right. assert (Z0 : forall e, ~ In (s, j, e) T) by (intros e I; apply NI; apply (in_map fst) in I; exact I). split; [|apply Y, Z0]. intros w Iw. apply (Z0 w), INT. auto.
      * intros s0 Eo. destruct (X2 s0 Eo) as (P1 & P2). assert (Ek : k = S n) by (unfold k; rewrite Eo; cbn; lia). split; [intros s Hs; rewrite TR, P1 by lia; exact N2|intros j Hj; rewrite TR by lia; apply P2, Hj].
    + rewrite E5, E4. split; [exact NP|]. split.
      { intros x. rewrite IP. split.
        - intros ([[s j] e] & I & O). destruct (BT s j e I) as (Hs & Hj). exists s, j. split; [exact Hs|]. split; [exact Hj|]. apply OC; eauto.
        - intros (s & j & Hs & Hj & O). apply OC in O as (e & I & O); [|assumption..]. exists (s, j, e). auto. }
      split; [exact LP|]. split.
      { intros q Hq. rewrite HP by exact Hq. split; [apply places_NoDup, NDT|]. intros z. rewrite places_in. split.
        - intros (s & j & e & EZ & I & O). destruct (BT s j e I) as (Hs & Hj). exists s, j. split; [exact EZ|]. split; [exact Hs|]. split; [exact Hj|]. apply OC; eauto.
        - intros (s & j & EZ & Hs & Hj & O). apply OC in O as (e & I & O); [|assumption..]. exists s, j, e. auto. }
      intros x. unfold current. destruct (parameterValue c x) as [v|] eqn:PV; [|reflexivity]. apply E8 in PV; [|rewrite map_map; cbn [fst]; rewrite map_id; exact NP].
      apply in_map_iff in PV as (p & EQ & _). discriminate.
Qed.
Print Assumptions C128_PCTMC.

(** ** Instances *)
Example C127_instance : exists m c, wf_pctmc m /\ listed m /\ PCTMCtoCTMC m = Ok c /\ matR (ct_mat c) 0 1 = 3.
Proof.
  destruct C86_instance as (m & E & V). destruct (C86_PCTMC_constructor [[0; 1]; [2; 0]]%Z ["init"; "a"]%string [EConst 0; EVar "x"; EConst 2] [("x"%string, Some 3)] [[(0, 1)%Z]] ["x"%string] "m") as (_ & B & _).
  destruct (B m E) as (E1 & E2 & E3 & E4 & E5 & E6 & (U1 & (U2 & U3) & U4) & E8). cbn in E1.
  assert (W : wf_pctmc m).
  { unfold wf_pctmc, pc_n. rewrite E1, E2, E3. split; [|split; [reflexivity|split; [exact U1|split; [reflexivity|exact U2]]]]. intros r [<-|[<-|[]]]; (split; [reflexivity|]); intros k [<-|[<-|[]]]; cbn; lia. }
  assert (LS : listed m).
  { unfold listed, pc_n, transition. rewrite E1, E3, E5. intros [|[|i]] [|[|j]] x Hi Hj O; cbn in Hi, Hj, O; try lia; try contradiction. left. auto. }
  assert (IN : In "init"%string (pc_lab m)) by (rewrite E2; left; reflexivity).
  destruct (C127_PCTMCtoCTMC m W LS) as (A & C & _); [rewrite E2; split; [exact U1|split; [split; assumption|exact U4]]|exact IN|].
  destruct (proj2 A) as (c & Ec); [rewrite E5; intros p [<-|[]]; unfold current; rewrite V; discriminate|]. exists m, c. split; [exact W|]. split; [exact LS|]. split; [exact Ec|].
  destruct (C c Ec) as ((_ & _ & _ & _ & HR) & _). destruct (HR O 1%nat) as (rho & R1 & ->); [unfold pc_n; rewrite E1; cbn; lia..|].
  assert (T : transition m 0 1 = EVar "x") by (unfold transition; rewrite E1, E3; reflexivity). rewrite T in *. cbn. specialize (R1 "x"%string eq_refl). unfold current in R1. congruence.
Qed.

Definition ex_psparse : sparse (expr R) R := mkSparse [["init"; "a"]; ["b"]]%string [[[(1%nat, EVar "p")]]; [[(O, EMul (EConst 2) (EVar "p")); (1%nat, EConst 3)]]] [].
Definition ex_gather (e : expr R) : list string := nodup string_dec (symbols e).
Lemma ex_gathers : gathers ex_gather.
Proof. intros e. unfold ex_gather. split; [apply NoDup_nodup|]. intros x. rewrite nodup_In. apply symbols_occurs. Qed.
Example C128_instance : exists m, stormpy_to_PCTMC ex_gather ex_psparse = Ok m /\ transition m 1 0 = EMul (EConst 2) (EVar "p") /\ In "p"%string (pc_par m).
Proof.
  assert (WF : well_formed ex_psparse).
  { split; [reflexivity|]. split.
    - intros L [<-|[<-|[]]]; repeat constructor; cbn; intuition discriminate.
    - intros acts ts [<-|[<-|[]]] [<-|[]]; (split; [repeat constructor; cbn; intuition discriminate|]).
      + intros j v [[= <- <-]|[]]; cbn; lia.
      + intros j v [[= <- <-]|[[= <- <-]|[]]]; cbn; lia. }
  assert (ONE : one_action ex_psparse) by (intros acts [<-|[<-|[]]]; reflexivity).
  destruct (C128_PCTMC ex_gather ex_psparse ex_gathers WF ONE) as (A & B & _); [cbn; lia|]. destruct (proj2 A) as (m & E).
  - split.
    + exists O. split; [cbn; lia|left; reflexivity].
    + intros [|[|s]] [|[|s']] Hs Hs'; cbn in Hs, Hs'; try lia; cbn [nth sp_labels ex_psparse]; intros (I & _) (I' & _); cbn in I, I'; intuition discriminate.
  - exists m. split; [exact E|]. destruct (B m E) as (_ & _ & _ & (o & _ & _ & HT & _) & _ & HP & _).
    assert (T : transition m 1 0 = EMul (EConst 2) (EVar "p")).
    { destruct (HT 1%nat O) as [I|(N & _)]; [cbn; lia..| |]; cbn in *; [destruct I as [[= X]|[X|[]]]; congruence|]. exfalso. apply (N (EMul (EConst 2) (EVar "p"))). left. reflexivity. }
    split; [exact T|]. apply HP. exists 1%nat, O. split; [cbn; lia|]. split; [cbn; lia|]. rewrite T. cbn. auto.
Qed.

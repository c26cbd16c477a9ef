(** C156 for Markov decision processes. *)
From Coq Require Import String ZArith Bool Reals Lra Lia List.
From Verif Require Import Num Py SNum SPath LSum MSet SSet LSet MModels MLik MBW LFB LEM SBW LBW LBWSet LBWMC SLik LPath LLik LLik2 LBWLoop LBWPath SExp LEMGen LBWMDP PLik LFit PBWMDP SGain LGain LGibbs LPLearn3 PRace SExact LExact PExact LExact2.
Import ListNotations.
Local Open Scope R_scope.

Lemma pw_pos As Bs x : Forall (fun A : nat -> nat -> R => forall i j, 0 <= A i j) As -> Forall (fun b : nat -> R => forall i, 0 <= b i) Bs -> 0 <= path_weight As Bs x.
Proof.
  revert Bs x. induction As as [|A As IH]; intros Bs x FA FB; destruct Bs as [|b Bs], x as [|i x]; cbn; try lra; inversion FB as [|? ? B1 B2]; subst.
  - destruct Bs, x; rewrite ?Rmult_0_r, ?Rmult_1_r; try lra; apply B1.
  - inversion FA as [|? ? A1 A2]; subst. destruct Bs as [|b' Bs]; [lra|]. destruct x as [|j x]; [lra|]. apply Rmult_le_pos; [apply B1|]. apply Rmult_le_pos; [apply A1|]. apply IH; assumption.
Qed.
Lemma pw_label (labs : list string) o : ~ In o labs -> forall w As x, In o w -> (forall k, In k x -> (k < length labs)%nat) -> path_weight As (map (is_label labs) w) x = 0.
Proof.
  intros N. induction w as [|o' w IH]; intros As x I Rx; [destruct I|]. destruct x as [|i x]; [destruct As; reflexivity|]. replace (path_weight As (map (is_label labs) (o' :: w)) (i :: x)) with (is_label labs o' i * match map (is_label labs) w, As, x with [], [], [] => 1 | _ :: _, A :: As', s' :: _ => A i s' * path_weight As' (map (is_label labs) w) x | _, _, _ => 0 end) by (destruct As; reflexivity). destruct I as [->|I].
  - replace (is_label labs o i) with 0; [ring|]. unfold is_label. destruct (String.eqb_spec (nth i labs EmptyString) o) as [E|]; [|reflexivity]. exfalso. apply N. rewrite <- E. apply nth_In, Rx. left; reflexivity.
  - destruct w as [|o2 w]; [destruct I|]. cbn [map]. destruct As as [|A As]; [ring|]. destruct x as [|j x]; [ring|]. specialize (IH As (j :: x) I). cbn [map] in IH. rewrite IH; [ring|]. intros k K. apply Rx. right; exact K.
Qed.
Lemma pw_action {Y} (f : Y -> nat -> nat -> R) a : (forall i j, f a i j = 0) -> forall acts Bs x, In a acts -> path_weight (map f acts) Bs x = 0.
Proof.
  intros Z. induction acts as [|b acts IH]; intros Bs x I; [destruct I|]. destruct Bs as [|B Bs], x as [|i x]; try reflexivity. cbn [map path_weight]. destruct Bs as [|B' Bs]; [ring|]. destruct x as [|j x]; [ring|].
  destruct I as [->|I]; [rewrite Z; ring|]. rewrite IH by exact I. ring.
Qed.
Lemma total_move (m : mdp R) b s s' : (s < mdp_n m)%nat -> (s' < mdp_n m)%nat -> forall acts a, Forall (rows1 (mdp_n m)) (map (act_mat m) acts) ->
  total (mdp_n m) a (map (act_mat m) acts) (map (fun x => on_move s s' (ind (String.eqb x b))) acts)
  = total (mdp_n m) a (map (act_mat m) acts) (map (fun x => on_leave s (ind (String.eqb x b))) acts) * act_mat m b s s'.
Proof.
  intros Ls Ls'. induction acts as [|x acts IH]; intros a F; cbn [map total]; [ring|]. inversion F as [|? ? F1 F2]; subst. rewrite IH by exact F2. rewrite Rmult_plus_distr_r. f_equal.
  rewrite (Sum_ext _ _ (fun i => if Nat.eqb i s then a i * (act_mat m x i s' * ind (String.eqb x b)) else 0)).
  - rewrite (Sum_ext _ (fun i => a i * Sum _ (fun j => _ * on_leave _ _ i j)) (fun i => if Nat.eqb i s then a i * ind (String.eqb x b) else 0)).
    + rewrite !Sum_indicator_in by exact Ls. destruct (String.eqb_spec x b) as [->|]; unfold ind; ring.
    + intros i Li. unfold on_leave. destruct (Nat.eqb_spec i s) as [->|]; [|rewrite Sum_zero_ext; [ring|intros; ring]]. f_equal. unfold Sum. rewrite sumL_scal_r. fold (Sum (mdp_n m) (act_mat m x s)). rewrite (F1 s Ls). ring.
  - intros i Li. unfold on_move. destruct (Nat.eqb_spec i s) as [->|]; [|rewrite Sum_zero_ext; [ring|intros; ring]]. f_equal.
    rewrite (Sum_ext _ _ (fun j => if Nat.eqb j s' then act_mat m x s j * ind (String.eqb x b) else 0)); [apply Sum_indicator_in, Ls'|]. intros j _. destruct (Nat.eqb j s'); ring.
Qed.

Lemma mdp_exact_round (m m' : mdp R) p set ll : wf_mdp m -> nonneg_mdp m -> mdp_rows (fun x => x = 1) m -> alternating_set set -> exact_set_by odds (mdp_trace_prob m) set ->
  round_MDP p set m = Ok (m', ll) -> m' = m.
Proof.
  intros W N S1 AS HE Er. pose proof HE as (_ & Pos & _).
  assert (HT : pos_times set) by (intros [tr t] I; apply Pos in I; apply I).
  destruct (round_mdp_ok m set p m' ll (conj W N) Er HT) as ((W' & _) & En & El & Ea & Ei & Enm).
  destruct (C73_mdp_round_is_ratio_of_expectations m m' p set ll W N AS Er) as (_ & _ & _ & _ & _ & _ & G).
  pose proof W as (Sh & Ll & NDa & Li & Ni).
  assert (HB : forall s, (s < mdp_n m)%nat -> sumL (nodup String.string_dec (mdp_lab m)) (fun o => is_label (mdp_lab m) o s) = 1) by (intros s Hs; apply label_total; lia).
  assert (Fp : forall acts, Forall (fun A : nat -> nat -> R => forall i j, 0 <= A i j) (map (act_mat m) acts)) by (intros acts; apply Forall_forall; intros A I; apply in_map_iff in I as (x & <- & _); intros; apply act_mat_nonneg, N).
  assert (Fb : forall w, Forall (fun b : nat -> R => forall i, 0 <= b i) (map (is_label (mdp_lab m)) w)) by (intros w; apply Forall_forall; intros b I; apply in_map_iff in I as (x & <- & _); intros i; unfold is_label; destruct (String.eqb _ _); lra).
  assert (Vp : forall i, 0 <= vecR (mdp_ini m) i) by (intros i; apply vecR_nonneg, Ni).
  assert (Pn : forall tr, 0 <= mdp_trace_prob m tr) by (intros tr; apply sumL_nonneg; intros x _; apply Rmult_le_pos; [apply Vp|apply pw_pos; [apply Fp|apply Fb]]).
  assert (Ez : forall g tr, mdp_trace_prob m tr = 0 -> mdp_expected m g tr = 0).
  { intros g tr Z. unfold mdp_trace_prob, trace_prob in Z. apply sumL_zero_ext. intros x I.
    pose proof (sumL_eq0 _ _ (fun x _ => Rmult_le_pos _ _ (Vp (hd 0%nat x)) (pw_pos _ _ x (Fp (odds tr)) (Fb (evens tr)))) Z x I) as Z'. cbv beta in Z'. rewrite Z'. ring. }
  set (enum := fun acts => map (fun w => weave w acts) (words (nodup String.string_dec (mdp_lab m)) (S (length acts)))).
  destruct (exact_sums_by String.string_dec (list_eq_dec String.string_dec) odds enum (mdp_trace_prob m) set HE) as (Ts & c & TS & X).
  - intros k. unfold enum. assert (ND := words_NoDup (nodup String.string_dec (mdp_lab m)) (S (length k)) (NoDup_nodup _ _)).
    assert (Lw : forall w, In w (words (nodup String.string_dec (mdp_lab m)) (S (length k))) -> length w = S (length k)) by (intros w I; apply (words_length _ _ _ I)).
    revert ND Lw. generalize (words (nodup String.string_dec (mdp_lab m)) (S (length k))). intros l. induction l as [|w l IH]; intros ND Lw; [constructor|]. inversion ND as [|? ? N1 N2]; subst. cbn [map]. constructor; [|apply IH; [exact N2|intros; apply Lw; right; assumption]].
    intros I. apply in_map_iff in I as (w' & E & I). apply N1. replace w with w'; [exact I|]. rewrite <- (proj1 (weave_evens k w (Lw w (or_introl eq_refl)))), <- (proj1 (weave_evens k w' (Lw w' (or_intror I)))), E. reflexivity.
  - intros tr t I. destruct (weave_back tr (length tr) (le_n _) (AS tr t I)) as [E L]. apply in_map_iff. exists (evens tr). split; [symmetry; exact E|]. rewrite <- L. apply words_In. intros o Io. apply nodup_In.
    destruct (in_dec String.string_dec o (mdp_lab m)) as [|No]; [assumption|]. exfalso. destruct (Pos tr t I) as (_ & _ & Q). assert (Z : mdp_trace_prob m tr = 0); [|lra].
    apply sumL_zero_ext. intros x Ix. apply paths_range in Ix as [_ Rx]. rewrite (pw_label (mdp_lab m) o No (evens tr)); [ring|exact Io|]. intros k K. rewrite Ll. apply Rx, K.
  - intros tr t tr' I I'. split; [|apply Pn]. apply in_map_iff in I' as (w & <- & Iw). apply words_length in Iw. apply (weave_evens (odds tr) w Iw).
  - assert (RW : forall T, In T Ts -> Forall (rows1 (mdp_n m)) (map (act_mat m) T)).
    { intros T IT. destruct (TS T IT) as (tr & t & I & <-). apply Forall_forall. intros A IA. apply in_map_iff in IA as (x & <- & Ix). intros s Ls.
      destruct (in_dec String.string_dec x (mdp_act m)) as [Kx|Kx].
      - apply (In_nth _ _ EmptyString) in Kx as (j & Lj & <-). rewrite (Sum_ext _ _ (tget (mdp_mat m) s j)) by (intros; apply act_nth; assumption). rewrite <- (S1 s j Ls Lj). unfold row_total. destruct (Sh (nth s (mdp_mat m) [])) as [L1 L2]; [apply nth_In; exact Ls|].
        rewrite rsum_nth, L2 by (apply nth_In; lia). reflexivity.
      - exfalso. destruct (Pos tr t I) as (_ & _ & Q). assert (Z : mdp_trace_prob m tr = 0); [|lra]. apply sumL_zero_ext. intros y _. rewrite (pw_action (act_mat m) x); [ring| |exact Ix]. intros; apply act_out, Kx. }
    assert (XE : forall g, set_expected (mdp_trace_prob m) (mdp_expected m g) set = sumL Ts (fun T => c T * total (mdp_n m) (vecR (mdp_ini m)) (map (act_mat m) T) (map g T))).
    { intros g. rewrite X by apply Ez. apply sumL_ext. intros T IT. f_equal. unfold enum. rewrite sumL_map. rewrite (sumL_ext _ _ (ex2 (mdp_n m) (is_label (mdp_lab m)) (vecR (mdp_ini m)) (map (act_mat m) T) (map g T))).
      - rewrite <- (map_length (act_mat m) T). apply ex2_words; [exact HB|apply RW, IT|rewrite !map_length; reflexivity].
      - intros w Iw. apply words_length in Iw. destruct (weave_evens T w Iw) as [E1 E2]. unfold mdp_expected, ex2. rewrite E1, E2. reflexivity. }
    assert (EG : forall s j s', (s < mdp_n m)%nat -> (j < length (mdp_act m))%nat -> (s' < mdp_n m)%nat -> prob_of m' s j s' = prob_of m s j s').
    { intros s j s' Ls Lj Ls'. rewrite G by assumption. cbv zeta. unfold mdp_expected_visits, mdp_expected_moves. rewrite !XE. destruct (Req_EM_T _ 0) as [|Q]; [reflexivity|].
      rewrite (sumL_ext Ts (fun T => c T * total _ _ _ (map (fun x => on_move s s' _) T)) (fun T => (c T * total (mdp_n m) (vecR (mdp_ini m)) (map (act_mat m) T) (map (fun x => on_leave s (ind (String.eqb x (nth j (mdp_act m) EmptyString)))) T)) * prob_of m s j s')).
      - rewrite sumL_scal_r. field. exact Q.
      - intros T IT. rewrite total_move by (try assumption; apply RW, IT). rewrite act_nth by assumption. change (tget (mdp_mat m) s j s') with (prob_of m s j s'). ring. }
    assert (EM : mdp_mat m' = mdp_mat m).
    { destruct W' as (Sh' & _). unfold mdp_n in En. apply (nth_ext _ _ [] []); [exact En|]. intros s Ls. pose proof Ls as Ls2. rewrite En in Ls2.
      destruct (Sh (nth s (mdp_mat m) [])) as [L1 L2]; [apply nth_In; exact Ls2|]. destruct (Sh' (nth s (mdp_mat m') [])) as [L1' L2']; [apply nth_In; exact Ls|].
      apply (nth_ext _ _ [] []); [congruence|]. intros j Lj. assert (Lj2 : (j < length (mdp_act m))%nat) by (rewrite L1' in Lj; congruence).
      assert (R1 : length (nth j (nth s (mdp_mat m') []) []) = mdp_n m) by (rewrite L2' by (apply nth_In; lia); exact En). assert (R2 : length (nth j (nth s (mdp_mat m) []) []) = mdp_n m) by (apply L2, nth_In; lia).
      apply (nth_ext _ _ 0 0); [congruence|]. intros s' Ls'. apply (EG s j s' Ls2 Lj2). lia. }
    destruct m, m'. cbn in *. congruence.
Qed.

(** MDP in which every action is available everywhere; traces with the same
    actions are compared, so any way of choosing the actions of the training set
    is allowed. *)
Theorem C156_mdp_exact_frequencies : forall (m : mdp R) (p : nat) (set : list (list string * Z)),
  wf_mdp m -> nonneg_mdp m -> mdp_rows (fun x => x = 1) m -> set <> [] -> alternating_set set -> exact_set_by odds (mdp_trace_prob m) set ->
  round_MDP p set m = Ok (m, set_ll (mdp_trace_prob m) set) /\
  forall eps max_it, 0 < eps -> (2 <= max_it)%nat -> bw_loop (round_MDP p set) eps max_it None 0 m = Ok (m, 2%nat, Some (set_ll (mdp_trace_prob m) set), true).
Proof.
  intros m p set W N S NE AS HE. assert (Pp : forall tr t, In (tr, t) set -> 0 < mdp_trace_prob m tr).
  { intros tr t I. destruct HE as (_ & Q & _). apply (Q tr t I). }
  destruct (round_mdp_succeeds m set p) as (m' & ll & E); [split; assumption|exact AS| |right; exact Pp|].
  { destruct set as [|[tr t] set]; [congruence|]. exists tr, t. split; [left; reflexivity|]. apply (Pp tr t). left; reflexivity. }
  pose proof (mdp_exact_round m m' p set ll W N S AS HE E) as ->.
  destruct (C73_mdp_round_is_ratio_of_expectations m m p set ll W N AS E) as (_ & _ & _ & _ & _ & L & _).
  rewrite <- L. split; [exact E|]. intros eps mx P K. apply fixed_loop; assumption.
Qed.
Print Assumptions C156_mdp_exact_frequencies.

(** Non-vacuity: action a moves to y with probability 1/2, action b always moves. *)
Definition xt_mdp : mdp R := mkMDP [[[1/2; 1/2]; [0; 1]]; [[0; 1]; [1; 0]]] ["x"; "y"]%string ["a"; "b"]%string [1; 0] "e"%string.
Definition xt_dset : list (list string * Z) := [(["x"; "a"; "x"], 2%Z); (["x"; "a"; "y"], 2%Z); (["x"; "b"; "y"], 7%Z)]%string.
Ltac xtd := unfold mdp_trace_prob, trace_prob, sumL, is_label, act_mat, Sum, sumL, vecR; cbn; lra.
Lemma xt_dexact : exact_set_by odds (mdp_trace_prob xt_mdp) xt_dset.
Proof.
  assert (P1 : mdp_trace_prob xt_mdp ["x"; "a"; "x"]%string = 1/2) by xtd. assert (P2 : mdp_trace_prob xt_mdp ["x"; "a"; "y"]%string = 1/2) by xtd. assert (P3 : mdp_trace_prob xt_mdp ["x"; "b"; "y"]%string = 1) by xtd.
  split; [|split; [|split]].
  - repeat constructor; cbn; intuition discriminate.
  - intros tr t I. cbn in I. repeat (destruct I as [I|I]; [injection I as <- <-; (split; [discriminate|]; split; [lia|]); lra|]). destruct I.
  - intros tr t tr' I L Pp.
    assert (U : forall tr o, In o (evens tr) -> o <> "x"%string -> o <> "y"%string -> mdp_trace_prob xt_mdp tr = 0).
    { intros w o Io N1 N2. apply sumL_zero_ext. intros x Ix. apply paths_range in Ix as [_ Rx]. rewrite (pw_label (mdp_lab xt_mdp) o); [ring|intros [<-|[<-|[]]]; congruence|exact Io|exact Rx]. }
    assert (C : forall o, In o (evens tr') -> o = "x"%string \/ o = "y"%string).
    { intros o Io. destruct (String.string_dec o "x") as [|N1]; [auto|]. destruct (String.string_dec o "y") as [|N2]; [auto|]. rewrite (U tr' o Io N1 N2) in Pp. lra. }
    assert (Len : odds tr' = ["a"]%string \/ odds tr' = ["b"]%string) by (cbn in I; intuition (match goal with H : (_, _) = (_, _) |- _ => injection H as <- <- end; cbn in L; auto)). clear I L U.
    destruct tr' as [|l [|a tr']]; [destruct Len; discriminate|destruct Len; discriminate|]. cbn [odds evens] in Len, C.
    assert (Lt : tr' = [] \/ exists l', tr' = [l']).
    { destruct tr' as [|l' [|a' tr']]; [auto|eauto|]. cbn [odds evens] in Len. destruct Len as [Len|Len]; discriminate Len. }
    destruct Lt as [->|(l' & ->)].
    { exfalso. revert Pp. unfold mdp_trace_prob, trace_prob, sumL. cbn. lra. }
    destruct (C l) as [->| ->]; [cbn; auto| |]; destruct (C l') as [->| ->]; try (cbn; auto; fail); (destruct Len as [Len|Len]; injection Len as ->); try (exfalso; revert Pp; xtd); eexists; cbn; eauto 9.
  - intros tr t tr' t' I I' L. cbn in I, I'. repeat (destruct I as [I|I]; [injection I as <- <-; repeat (destruct I' as [I'|I']; [injection I' as <- <-; try discriminate L; rewrite ?P1, ?P2, ?P3; lra|]); destruct I'|]). destruct I.
Qed.
Example C156_mdp_instance : wf_mdp xt_mdp /\ nonneg_mdp xt_mdp /\ mdp_rows (fun x => x = 1) xt_mdp /\ xt_dset <> [] /\ alternating_set xt_dset /\ exact_set_by odds (mdp_trace_prob xt_mdp) xt_dset.
Proof.
  split; [|split; [|split; [|split; [discriminate|split; [|exact xt_dexact]]]]].
  - unfold wf_mdp, mdp_n; cbn. repeat split; auto; try (intros r [<-|[<-|[]]]; lra).
    + destruct H as [<-|[<-|[]]]; reflexivity.
    + destruct H as [<-|[<-|[]]]; intros r [<-|[<-|[]]]; reflexivity.
    + constructor; [intros [X|[]]; discriminate|]. constructor; [intros []|constructor].
  - intros ra [<-|[<-|[]]] r [<-|[<-|[]]] v [<-|[<-|[]]]; lra.
  - intros s j Ls Lj. destruct s as [|[|?]]; [| |cbn in Ls; lia]; (destruct j as [|[|?]]; [| |cbn in Lj; lia]); unfold row_total; cbn; lra.
  - intros tr t I. cbn in I. repeat (destruct I as [I|I]; [injection I as <- <-; reflexivity|]). destruct I.
Qed.

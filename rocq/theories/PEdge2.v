(** C169, C112: learning a parametric CTMC from nothing: the exceptions. *)
From Coq Require Import String ZArith Bool Reals List Lia Lra.
From Verif Require Import Num Py SNum LSum MTools MSet SSet LSet MModels MLik SPath MBW LFB LEM SBW LBW LBWSet SLik LPath LLik LLik2 LBWLoop LBWPath SExp
  LBWCT PBWCT MPctmc SPctmc LPctmc MPLearn SPLearn LPLearn3 LPLearn4 MBWObj PBWObj LBWMC LPLearn6 PBWMC PBWCTU PPLearn PPLearn2 PPLearn3 PEdge.
Import ListNotations.
Local Open Scope R_scope.

Lemma all_none {A T} (l : list A) : filter (fun r : option T => match r with Some _ => true | None => false end) (map (fun _ => None) l) = [].
Proof. induction l; auto. Qed.
Section AnyK.
Context {K : Type} {NK : Num K} {TK : Trans K}.
Lemma mmap_err {A B} (f : A -> res B) e0 l : (forall x e, In x l -> f x = Err e -> e = e0) -> forall e, mmap f l = Err e -> e = e0.
Proof.
  induction l as [|x l IH]; intros H e E; [discriminate|]. cbn [mmap] in E. destruct (f x) as [y|e'] eqn:Ex; cbn [bind] in E.
  - destruct (mmap f l) as [ys|e'] eqn:El; cbn [bind] in E; [discriminate|]. injection E as <-. apply IH; [intros; apply (H x0); [right; assumption|assumption]|reflexivity].
  - injection E as <-. apply (H x); [left; reflexivity|exact Ex].
Qed.
Lemma hval_err (m : pctmc K) e : hval m = Err e -> e = TypeError.
Proof.
  unfold hval. destruct (mmap _ _) as [mat|e'] eqn:E; cbn [bind]; [discriminate|]. intros [= <-]. revert E. apply mmap_err. intros s e _. apply mmap_err. intros ss e1 _. destruct (evaluateTransition m s ss None); [discriminate|]. intros [= <-]. reflexivity.
Qed.
Lemma round_type maxroot kind uc p pl set (m : pctmc K) : (forall h tr t, In (tr, t) set -> processWork_PCTMC kind uc m h pl tr t = Err TypeError) ->
  round_PCTMC maxroot kind uc p pl set m = Err TypeError.
Proof.
  intros H. unfold round_PCTMC. destruct (hval m) as [h|e] eqn:Eh; cbn [bind]; [|rewrite (hval_err m e Eh); reflexivity]. unfold run_workers.
  destruct set as [|[tr t] set]; cbn [mmap fst snd].
  - cbn [bind]. destruct (1 <? p)%nat; reflexivity.
  - rewrite (H h tr t (or_introl eq_refl)). reflexivity.
Qed.
End AnyK.

(** C169: the empty training set, in any arithmetic and whatever the model. *)
Theorem C169_pctmc_empty_set : forall K (NK : Num K) (TK : Trans K) ob p (maxroot : list K -> res K) uc pl (eps : K) max_it (m : pctmc K),
  ob_verbose ob = true -> ob_processes ob = Some p -> bw_PCTMC ob maxroot uc pl [] eps (S max_it) m = Err TypeError.
Proof.
  intros K NK TK ob p maxroot uc pl eps n m V P. unfold bw_PCTMC. rewrite V, P. cbn [negb bw_loop]. rewrite round_type by (intros h tr t []). reflexivity.
Qed.
Print Assumptions C169_pctmc_empty_set.

(** C112: [fit] on untimed traces of at least two observations: TypeError. *)
Theorem C112_fit_untimed_exception : forall K (NK : Num K) (TK : Trans K) (maxroot : list K -> res K) p (l : list (list string * Z)) (m m0 : pctmc K) pl fixed uc (eps : K) max_it rnd,
  rnd m = Some m0 -> sortParameters m0 fixed = Ok pl -> (forall tr t, In (tr, t) l -> (2 <= length tr)%nat) ->
  fit_PCTMC maxroot p (Untimed l) m (Some fixed) uc eps (S max_it) rnd = Some (Err TypeError).
Proof.
  intros K NK TK maxroot p l m m0 pl fixed uc eps n rnd Er Es L. unfold fit_PCTMC. rewrite Er, Es. cbn [bind]. unfold bw_PCTMC. cbn [ob_verbose negb ob_processes ob_kind bw_loop]. rewrite round_type; [reflexivity|].
  intros h tr t I. unfold training_of in I. apply in_map_iff in I as ([x k] & [= <- <-] & I). specialize (L x k I). cbn [fst]. unfold processWork_PCTMC. cbn [fst].
  destruct (Nat.ltb_spec (length (if memb String.eqb "init"%string (alphabet_of (K := K) (Untimed l)) then x else "init"%string :: x)) 2) as [B|_]; [|reflexivity]. exfalso. destruct (memb _ _ _); cbn [length] in B; lia.
Qed.
Print Assumptions C112_fit_untimed_exception.

(** C169: no timed trace has a positive density. *)
Theorem C169_pctmc_timed_nothing_explained : forall ob p (maxroot : list R -> res R) uc pl (set : list (timed * Z)) (eps : R) max_it (m : pctmc R) (c : ctmc R),
  wf_pctmc m -> valued m -> indexed m -> realises m c -> ob_verbose ob = true -> ob_processes ob = Some p -> ob_kind ob = KTimed ->
  (forall tr t, In (tr, t) set -> (1 <= length (snd tr))%nat /\ length (fst tr) = S (length (snd tr)) /\ ct_density c tr = 0) ->
  bw_PCTMC ob maxroot uc pl (timed_traces set) eps (S max_it) m = Err TypeError.
Proof.
  intros ob p maxroot uc pl set eps n m c W V X Rc E1 E2 E3 Z. unfold bw_PCTMC. rewrite E1, E2, E3. cbn [negb bw_loop].
  assert (RD : round_PCTMC maxroot KTimed uc p pl (timed_traces set) m = Err TypeError); [|rewrite RD; reflexivity].
  destruct (hval_total m X V) as [h Hh]. destruct (realises_same m c h Rc (hval_realises m h Hh)) as [nm ->].
  unfold round_PCTMC. rewrite Hh. cbn [bind]. unfold run_workers.
  assert (N : mmap (fun st => processWork_PCTMC KTimed uc m h pl (fst st) (snd st)) (timed_traces set) = Ok (map (fun _ => None) (timed_traces set))).
  { clear - Z Hh W. unfold timed_traces. induction set as [|[tr t] set IH]; [reflexivity|]. cbn [map mmap fst snd]. destruct (Z tr t (or_introl eq_refl)) as (L1 & L2 & D).
    rewrite IH by (intros; apply (Z tr0 t0); right; assumption). assert (PW : processWork_PCTMC KTimed uc m h pl (fst tr, Some (snd tr)) t = Ok None); [|rewrite PW; reflexivity].
    unfold processWork_PCTMC. cbn [fst]. destruct (Nat.ltb_spec (length (fst tr)) 2); [lia|]. change (fst tr, Some (snd tr)) with (tview tr). rewrite tm_fb. cbn [bind].
    rewrite (tm_P m h Hh W), (tP_path h tr L2). assert (D' : ct_density h tr = 0) by exact D. rewrite D'. nR. unfold Reqb. destruct (Req_EM_T 0 0) as [_|B]; [reflexivity|contradiction]. }
  rewrite N. cbn [bind]. destruct set as [|x set]; [change (map (fun _ : ptrace R * BinNums.Z => @None (@stat_pc R)) (timed_traces [])) with (@nil (option (@stat_pc R))); cbn [filter]; destruct (1 <? p)%nat; reflexivity|].
  destruct (1 <? p)%nat; [|reflexivity].
  rewrite all_none. reflexivity.
Qed.
Print Assumptions C169_pctmc_timed_nothing_explained.

(** C169: untimed traces, whose probabilities are those of the jump chain. *)
Theorem C169_ctmc_untimed_nothing_explained : forall (m : ctmc R) (fixed : list (list bool)) (p : nat) (set : list (list string * Z)) (eps : R) (max_it : nat),
  wf_ctmc m -> (forall tr t, In (tr, t) set -> mc_trace_prob_move (jump_chain m) tr = 0) ->
  bw_loop (round_CTMC_untimed p fixed set) eps (S max_it) None 0 m = Err TypeError.
Proof.
  intros m fixed p set eps n W Z. apply loop_first. unfold round_CTMC_untimed, update_CTMC.
  assert (N : forall tr t, In (tr, t) set -> processWork_CTMC_untimed m fixed tr t = None).
  { intros tr t I. rewrite (pw_untimed m W fixed). destruct (Req_EM_T _ 0) as [_|X]; [reflexivity|]. exfalso. apply X. rewrite <- (Z tr t I). apply u_P. }
  destruct (used_cases p set) as [H|[H NE]]; [rewrite (nothing_used p _ set N H)|rewrite (nothing_used_one p _ set N H NE)]; reflexivity.
Qed.
Print Assumptions C169_ctmc_untimed_nothing_explained.
Theorem C169_pctmc_untimed_nothing_explained : forall ob p (maxroot : list R -> res R) uc pl (set : list (list string * Z)) (eps : R) max_it (m : pctmc R) (c : ctmc R),
  wf_pctmc m -> valued m -> indexed m -> realises m c -> ob_verbose ob = true -> ob_processes ob = Some p -> ob_kind ob = KGeneric ->
  (forall tr t, In (tr, t) set -> (2 <= length tr)%nat /\ mc_trace_prob_move (jump_chain c) tr = 0) ->
  bw_PCTMC ob maxroot uc pl (untimed_traces set) eps (S max_it) m = Err TypeError.
Proof.
  intros ob p maxroot uc pl set eps n m c W V X Rc E1 E2 E3 Z. unfold bw_PCTMC. rewrite E1, E2, E3. cbn [negb bw_loop].
  assert (RD : round_PCTMC maxroot KGeneric uc p pl (untimed_traces set) m = Err TypeError); [|rewrite RD; reflexivity].
  destruct (hval_total m X V) as [h Hh]. destruct (realises_same m c h Rc (hval_realises m h Hh)) as [nm ->].
  unfold round_PCTMC. rewrite Hh. cbn [bind]. unfold run_workers.
  assert (N : mmap (fun st => processWork_PCTMC KGeneric uc m h pl (fst st) (snd st)) (untimed_traces set) = Ok (map (fun _ => None) (untimed_traces set))).
  { clear - Z Hh W. unfold untimed_traces. induction set as [|[tr t] set IH]; [reflexivity|]. cbn [map mmap fst snd]. destruct (Z tr t (or_introl eq_refl)) as (L1 & D).
    rewrite IH by (intros; apply (Z tr0 t0); right; assumption). assert (PW : processWork_PCTMC KGeneric uc m h pl (tr, None) t = Ok None); [|rewrite PW; reflexivity].
    unfold processWork_PCTMC. cbn [fst]. destruct (Nat.ltb_spec (length tr) 2); [lia|]. change (tr, None) with (uview tr). rewrite (um_fb m h Hh W). cbn [bind].
    rewrite (um_P m h Hh W). assert (D' : mc_trace_prob_move (jump_chain h) tr = 0) by exact D. match goal with |- context [neqb ?x n0] => assert (PZ : x = 0) by (rewrite <- D'; apply u_P) end. rewrite PZ. nR. unfold Reqb. destruct (Req_EM_T 0 0) as [_|B]; [reflexivity|contradiction]. }
  rewrite N. cbn [bind]. destruct set as [|x set]; [change (map (fun _ : ptrace R * BinNums.Z => @None (@stat_pc R)) (untimed_traces [])) with (@nil (option (@stat_pc R))); cbn [filter]; destruct (1 <? p)%nat; reflexivity|].
  destruct (1 <? p)%nat; [|reflexivity].
  rewrite all_none. reflexivity.
Qed.
Print Assumptions C169_pctmc_untimed_nothing_explained.

(** A trace that starts with a label of no state; traces for [fit] *)
Example C169_pctmc_instance : forall pl eps n, bw_PCTMC (mkBW true (Some 1%nat) KTimed) quad false pl (timed_traces [((["nowhere"; "a"]%string, [1]), 2%Z)]) eps (S n) exL = Err TypeError /\
  bw_PCTMC (mkBW true (Some 2%nat) KGeneric) quad false pl (untimed_traces [(["init"; "nowhere"]%string, 2%Z)]) eps (S n) exL = Err TypeError /\
  bw_loop (round_CTMC_untimed 2 [] [(["init"; "nowhere"]%string, 2%Z)]) eps (S n) None 0 exC = Err TypeError /\ wf_ctmc exC /\
  fit_PCTMC quad 1 (Untimed exU) exL (Some []) true eps (S n) Some = Some (Err TypeError) /\ length exU <> O.
Proof.
  intros pl eps n.
  assert (U : mc_trace_prob_move (jump_chain exC) ["init"; "nowhere"]%string = 0) by (unfold mc_trace_prob_move, trace_prob, is_label, sumL; cbn; lra).
  assert (WC : wf_ctmc exC) by (destruct (hval_total exL exL_indexed exL_valued) as [h Hh]; destruct (realises_same exL exC h exL_realises (hval_realises exL h Hh)) as [nm ->]; exact (hval_wf exL h exL_wf Hh)).
  split; [|split; [|split; [|split; [exact WC|split]]]].
  - apply (C169_pctmc_timed_nothing_explained (mkBW true (Some 1%nat) KTimed) 1 quad false pl _ eps n exL exC exL_wf exL_valued exL_indexed exL_realises eq_refl eq_refl eq_refl).
    intros tr t [[= <- <-]|[]]. split; [cbn; lia|]. split; [reflexivity|]. unfold ct_density, trace_prob, is_label, sumL. cbn. lra.
  - apply (C169_pctmc_untimed_nothing_explained (mkBW true (Some 2%nat) KGeneric) 2 quad false pl _ eps n exL exC exL_wf exL_valued exL_indexed exL_realises eq_refl eq_refl eq_refl).
    intros tr t [[= <- <-]|[]]. split; [cbn; lia|exact U].
  - apply C169_ctmc_untimed_nothing_explained; [exact WC|]. intros tr t [[= <- <-]|[]]. exact U.
  - destruct exL_sort as (pl' & Ep & _). apply (C112_fit_untimed_exception R _ _ quad 1 exU exL exL pl'); [reflexivity|exact Ep|]. intros tr t [[= <- <-]|[[= <- <-]|[]]]; cbn; lia.
  - discriminate.
Qed.

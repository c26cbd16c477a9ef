(** Exact results at the edges of the API, found by edits of the model that left every
    earlier theorem true. *)
From Coq Require Import String Ascii ZArith Bool Reals List Lra Lia.
From Verif Require Import Num Py SNum LSum MTools LTools MSet SSet LSet MModels MCtor SCtor LCtor PCtor MText SText LText PText MRun SRun LRun PRun MRunFrom PRunFrom MBW SLik SBW PLik MActive PActive PActive3 PTight3 MPctmc MPLearn LPLearn3 SPctmc PPctmc SPLearn PPRoot.
Import ListNotations.

(** ** C65: a backslash before a letter that is not an escape is kept *)
Theorem C65_unknown_escape : forall K (TK : Text K) (q e : ascii) (rest : text), (q = QUOTE \/ q = DQUOTE) ->
  ~ In e ["\"; QUOTE; DQUOTE; "n"; "r"; "t"; "x"; NL]%char -> 
  literal_eval (K := K) ([q; "\"%char; e] ++ flat_map (esc q) rest ++ [q]) = Ok (PStr (t2s (["\"%char; e] ++ rest))).
Proof.
  intros K TK q e rest Hq Ne. unfold literal_eval.
  assert (PS : parse_str q (["\"%char; e] ++ flat_map (esc q) rest ++ [q]) = Some (["\"%char; e] ++ rest, [])).
  { cbn [app parse_str]. assert (ceq "\" q = false) as -> by (destruct Hq as [-> | ->]; reflexivity). assert (ceq "\" NL = false) as -> by reflexivity. assert (ceq "\" "\" = true) as -> by reflexivity.
    rewrite parse_str_spec by exact Hq.
    repeat (match goal with |- context [ceq e ?c] => replace (ceq e c) with false by (symmetry; apply ceq_neq; intros ->; apply Ne; cbn; auto 9) end). reflexivity. }
  cbn [app] in PS |- *. cbn [parse]. assert (ceq q "[" = false) as -> by (destruct Hq as [-> | ->]; reflexivity). assert (ceq q QUOTE || ceq q DQUOTE = true) as -> by (destruct Hq as [-> | ->]; reflexivity).
  rewrite PS. reflexivity.
Qed.
Print Assumptions C65_unknown_escape.
Example C65_unknown_escape_instance : forall K (TK : Text K), literal_eval (K := K) (s2t "'\alpha'") = Ok (PStr "\alpha").
Proof. intros K TK. exact (C65_unknown_escape K TK QUOTE "a" (s2t "lpha") (or_introl eq_refl) ltac:(cbn; intuition discriminate)). Qed.

Local Open Scope R_scope.
(** ** C70: an initial distribution of another length *)
Theorem C70_createCTMC_wrong_length : forall (ts : list (Z * Z * R)) labels name sync sts D l,
  ids_of (mentioned ts ++ map fst sync ++ map snd sync) sts -> described snd ts sts D ->
  (length sts <= length labels)%nat -> ~ In "init"%string labels -> l <> [] -> length l <> length sts ->
  fst (createCTMC ts labels (IniList l) name sync) = Err ValueError.
Proof.
  intros ts labels name sync sts D l IDS DE LL NI NE NL.
  unfold createCTMC. rewrite (proj2 (memb_str_false _ _) NI).
  assert (ES : sorted_set Z.eqb Z.leb (map (fun t => fst (fst t)) ts ++ map (fun t => snd (fst t)) ts ++ map fst sync ++ map snd sync) = sts).
  { apply sorted_ids. unfold mentioned in IDS. rewrite <- !app_assoc in IDS. exact IDS. }
  rewrite ES. destruct (Nat.ltb_spec (length labels) (length sts)); [lia|].
  destruct (fill_described ts sts sts) as (m & Em & RC & DM); [|apply IDS|reflexivity|].
  { intros t It. destruct IDS as [_ I]. split; apply I, in_or_app; left; apply in_or_app; [left|right]; apply in_map, It. }
  rewrite Em. cbn [fst]. unfold assign_row. rewrite app_length. cbn [length]. destruct (Nat.eqb_spec (length l + 1) (length sts + 1)) as [E|_]; [lia|].
  destruct l as [|x [|y l]]; [congruence|reflexivity|reflexivity].
Qed.
Print Assumptions C70_createCTMC_wrong_length.
Example C70_wrong_length_instance : fst (createCTMC [(0%Z, 1%Z, 2); (1%Z, 0%Z, 3)] ["a"; "b"]%string (IniList [1/2; 1/4; 1/4]) "m" []) = Err ValueError.
Proof.
  apply (C70_createCTMC_wrong_length _ _ _ _ [0%Z; 1%Z] (fun a b => if (a =? b)%nat then 0 else if (a =? 0)%nat then 2 else 3)).
  - split; [repeat constructor; cbn; intuition lia|]. intros z. cbn. intuition.
  - intros [|[|a]] [|[|b]] La Lb; cbn in La, Lb; try lia; cbn.
    + right. split; [|reflexivity]. intros t [<-|[<-|[]]] (X & Y); cbn in X, Y; lia.
    + left. exists [], (0%Z, 1%Z, 2), [(1%Z, 0%Z, 3)]. repeat split. intros u [<-|[]] (X & _); cbn in X; lia.
    + left. exists [(0%Z, 1%Z, 2)], (1%Z, 0%Z, 3), []. repeat split. intros u [].
    + right. split; [|reflexivity]. intros t [<-|[<-|[]]] (X & Y); cbn in X, Y; lia.
  - cbn. lia.
  - cbn. intuition discriminate.
  - discriminate.
  - cbn. lia.
Qed.

(** ** C147: generateSet of an MC with dwell times, no step *)
Theorem C147_mc_generate_no_step : forall (m : mc R) draws z, wf_mc m -> (2 <= mc_n m)%nat -> (z <= 0)%Z -> mc_run_true m z draws = Ok [nth 1 (mc_lab m) EmptyString].
Proof.
  intros m draws z W N Hz. pose proof W as (_ & Ll & _). unfold mc_run_true. replace (Z.to_nat z) with O by lia. change 1%Z with (Z.of_nat 1). rewrite (pyget_nth (mc_lab m) 1 EmptyString) by lia. reflexivity.
Qed.
Print Assumptions C147_mc_generate_no_step.
Example C147_no_step_instance : mc_run_true ex_apart 0 (fun _ => 1/2) = Ok ["b"%string].
Proof.
  apply (C147_mc_generate_no_step ex_apart); [|cbn; lia|lia]. split; [split; [reflexivity|intros r [<-|[<-|[]]]; reflexivity]|]. split; [reflexivity|]. split; [reflexivity|]. intros x [<-|[<-|[]]]; lra.
Qed.

(** ** C112: a trace of one observation among those of a parametric CTMC *)
Theorem C112_short_trace : forall (maxroot : list R -> res R) kind uc p pl (before after : list (ptrace R * Z)) tr t (m : pctmc R) h,
  hval m = Ok h -> (forall tr' t', In (tr', t') before -> exists st, processWork_PCTMC kind uc m h pl tr' t' = Ok st) -> (length (fst tr) < 2)%nat ->
  round_PCTMC maxroot kind uc p pl (before ++ (tr, t) :: after) m = Err IndexError.
Proof.
  intros maxroot kind uc p pl before after tr t m h Eh B L. unfold round_PCTMC. rewrite Eh. cbn [bind]. unfold run_workers.
  assert (mmap (fun st => processWork_PCTMC kind uc m h pl (fst st) (snd st)) (before ++ (tr, t) :: after) = Err IndexError) as ->; [|reflexivity].
  induction before as [|[tr' t'] before IH]; cbn [app mmap fst snd].
  - unfold processWork_PCTMC. destruct (Nat.ltb_spec (length (fst tr)) 2); [reflexivity|lia].
  - destruct (B tr' t' (or_introl eq_refl)) as (st & ->). cbn [bind]. rewrite IH; [reflexivity|]. intros; apply B; right; assumption.
Qed.
Print Assumptions C112_short_trace.
Example C112_short_trace_instance : forall maxroot, round_PCTMC maxroot KTimed false 1 ex4P ([] ++ ((["init"%string], Some []), 3%Z) :: training_of (Timed ex4T)) ex4M = Err IndexError.
Proof.
  intros maxroot. eapply (C112_short_trace maxroot KTimed false 1 ex4P [] (training_of (Timed ex4T))); [reflexivity|intros ? ? []|cbn; lia].
Qed.

(** ** C105: a list of traces given to the active learner *)
Theorem C105_list_training : forall (so sto vs : bool) (p fuel max_it : nat) (eps : R) (sul : mdp R) (lr : rate R) (iterations nb L : Z) (eg : R) (l : list (list string)) (h0 h1 : mdp R) draws c ll b,
  (iterations <= 0)%Z -> (so = true -> sto = true \/ vs = true) ->
  bw_loop (round_MDP p (map (fun tr => (tr, Z.of_nat (occ tr_eqb tr l))) (first_occ tr_eqb l))) eps max_it None 0 h0 = Ok (h1, c, ll, b) ->
  exists st, active_fit sto so vs p fuel max_it eps sul lr iterations nb (Some L) eg (AList l) h0 draws = Some (Ok st, draws) /\
    hypothesis st = h1 /\ seqs (total st) = first_occ tr_eqb l /\ times (total st) = map (fun tr => Z.of_nat (occ tr_eqb tr l)) (first_occ tr_eqb l) /\ ty (total st) = Some 0%Z.
Proof.
  intros so sto vs p fuel mx eps sul lr its nb L eg l h0 h1 draws c ll b Hi Hs E.
  pose proof (setFromList_spec tr_eqb tr_eqb_ok l) as SP.
  assert (EA : atraining_set (AList l) = mkset (first_occ tr_eqb l) (map (fun tr => Z.of_nat (occ tr_eqb tr l)) (first_occ tr_eqb l)) (Some 0%Z)).
  { unfold atraining_set. rewrite SP. reflexivity. }
  destruct (C105_no_iteration so sto vs p fuel mx eps sul lr its nb (Some L) eg (AList l) h0 h1 draws c ll b Hi Hs) as (st & Ef & Eh & Et).
  - discriminate.
  - rewrite EA. unfold weighted. cbn [seqs times]. rewrite LPLearn3.combine_map_r. exact E.
  - exists st. rewrite Et, EA. auto.
Qed.
Print Assumptions C105_list_training.

(** ** C101: traces without actions, one process, one state and one action: the sum is
    the number 0, not a matrix *)
Theorem C101_no_action_taken : forall (h : mdp R) p (l : list (string * Z)), (p <= 1)%nat -> mdp_n h = 1%nat -> length (mdp_act h) = 1%nat ->
  strategy p h (map (fun x => ([fst x], snd x)) l) = Ok None.
Proof.
  intros h p l Hp Hn Ha. unfold strategy. destruct (Nat.ltb_spec 1 p); [lia|]. rewrite Hn, Ha. cbn [Nat.mul Nat.add Nat.eqb negb andb].
  match goal with |- Ok (match ?X with _ => _ end) = _ => assert (X = []) as ->; [|reflexivity] end.
  induction l as [|[o t] l IH]; [reflexivity|]. cbn [map flat_map fst snd]. rewrite filter_app. rewrite IH, app_nil_r.
  unfold computeProbas. match goal with |- context [if ?b then None else _] => destruct b end; [reflexivity|].
  rewrite Hn. destruct (mdp_act h) as [|a [|? ?]]; try discriminate Ha. cbn. unfold Reqb. destruct (Req_EM_T 0 0); [reflexivity|contradiction].
Qed.
Print Assumptions C101_no_action_taken.
Example C101_no_action_instance : strategy 1 (mkMDP [[[1]]] ["x"%string] ["a"%string] [1] "m"%string) [(["x"%string], 3%Z); (["y"%string], 2%Z)] = Ok None.
Proof. apply (C101_no_action_taken _ 1 [("x"%string, 3%Z); ("y"%string, 2%Z)]); [lia|reflexivity|reflexivity]. Qed.

(** Files cut short, for example by a crash while they were written. *)
From Coq Require Import String Ascii ZArith QArith Bool List Lia DecimalString.
From Verif Require Import Num Py MSet MModels MCtor MText SText LText PText LCut MPctmc MPText SPctmc PPText.
Import ListNotations.
Local Open Scope nat_scope.

(** ** C164: a model file that was cut is not loaded *)
Section Loads.
  Context {K : Type} {TK : Text K} {NK : Num K} {SK : Sym K}.
  Ltac steps := repeat (first [progress cbn [bind] | match goal with
    | |- context [bind ?x _] => destruct x
    | |- context [let (_, _) := nextline ?t in _] => destruct (nextline t); cbn [fst snd] in *
    end]); eauto.
  Lemma load_tail_last t e : literal_eval (K := K) (nth_line 2 t) = Err e -> exists e', load_tail (K := K) t = Err e'.
  Proof.
    cbn [nth_line]. unfold load_tail. intros H. destruct (nextline t) as [a t1]. cbn [fst snd] in H. destruct (nextline t1) as [b t2]. cbn [fst snd] in H.
    destruct (nextline t2) as [c t3]. cbn [fst snd] in H. destruct (literal_eval b) as [iv|]; cbn [bind]; eauto. destruct (as_vec iv); cbn [bind]; eauto. rewrite H. cbn [bind]. eauto.
  Qed.
  Ltac onel H := match goal with |- context [nextline ?t] => destruct (nextline t) as [? ?]; cbn [fst snd] in H end.
  Ltac lit := match goal with |- context [literal_eval ?t] => destruct (literal_eval t); cbn [bind]; eauto end.
  Ltac tailed H := apply load_tail_last in H as [? H]; rewrite H; cbn [bind]; eauto.
  Lemma loadMC_last f e : literal_eval (K := K) (nth_line 4 (newlines f)) = Err e -> exists e', loadMC (K := K) f = Err e'.
  Proof.
    change (nth_line 4 (newlines f)) with (nth_line 2 (snd (nextline (snd (nextline (newlines f)))))). unfold loadMC. intros H. onel H. destruct (negb _); eauto. onel H. lit.
    match goal with |- context [as_strs ?p] => destruct (as_strs p); cbn [bind]; eauto end. tailed H.
  Qed.
  Lemma loadCTMC_last f e : literal_eval (K := K) (nth_line 4 (newlines f)) = Err e -> exists e', loadCTMC (K := K) f = Err e'.
  Proof.
    change (nth_line 4 (newlines f)) with (nth_line 2 (snd (nextline (snd (nextline (newlines f)))))). unfold loadCTMC. intros H. onel H. onel H. lit.
    match goal with |- context [as_strs ?p] => destruct (as_strs p); cbn [bind]; eauto end. tailed H.
  Qed.
  Lemma loadMDP_last f e : literal_eval (K := K) (nth_line 5 (newlines f)) = Err e -> exists e', loadMDP (K := K) f = Err e'.
  Proof.
    change (nth_line 5 (newlines f)) with (nth_line 2 (snd (nextline (snd (nextline (snd (nextline (newlines f)))))))). unfold loadMDP. intros H. onel H. destruct (negb _); eauto. onel H. lit.
    match goal with |- context [as_strs ?p] => destruct (as_strs p); cbn [bind]; eauto end. onel H. lit.
    match goal with |- context [as_strs ?p] => destruct (as_strs p); cbn [bind]; eauto end. tailed H.
  Qed.
  Lemma loadHMM_last f e : literal_eval (K := K) (nth_line 5 (newlines f)) = Err e -> exists e', loadHMM (K := K) f = Err e'.
  Proof.
    change (nth_line 5 (newlines f)) with (nth_line 2 (snd (nextline (snd (nextline (snd (nextline (newlines f)))))))). unfold loadHMM. intros H. onel H. onel H. lit.
    match goal with |- context [as_strs ?p] => destruct (as_strs p); cbn [bind]; eauto end. onel H. lit.
    match goal with |- context [as_mat ?p] => destruct (as_mat p); cbn [bind]; eauto end. tailed H.
  Qed.
  Lemma loadGoHMM_last f e : literal_eval (K := K) (nth_line 4 (newlines f)) = Err e -> exists e', loadGoHMM (K := K) f = Err e'.
  Proof.
    change (nth_line 4 (newlines f)) with (nth_line 2 (snd (nextline (snd (nextline (newlines f)))))). unfold loadGoHMM. intros H. onel H. onel H. lit.
    match goal with |- context [as_ten ?p] => destruct (as_ten p); cbn [bind]; eauto end. match goal with |- context [mmap ?f ?p] => destruct (mmap f p); cbn [bind]; eauto end. tailed H.
  Qed.
  Lemma loadPCTMC_last f e : literal_eval (K := K) (nth_line 7 (newlines f)) = Err e -> exists e', loadPCTMC (K := K) f = Err e'.
  Proof.
    unfold loadPCTMC. intros H. cbn [nth_line] in H. onel H. destruct (negb _); eauto. onel H. onel H. lit.
    match goal with |- context [as_zmat ?p] => destruct (as_zmat p); cbn [bind]; eauto end. onel H. lit.
    match goal with |- context [as_strs ?p] => destruct (as_strs p); cbn [bind]; eauto end. onel H.
    match goal with |- context [eval_dict ?p] => destruct (eval_dict p); cbn [bind]; eauto end. onel H. lit.
    match goal with |- context [as_cells ?p] => destruct (as_cells p); cbn [bind]; eauto end. onel H. lit.
    match goal with |- context [as_strs ?p] => destruct (as_strs p); cbn [bind]; eauto end. onel H. rewrite H. cbn [bind]. eauto.
  Qed.
  (** The last line of the file is a list; without its end it is not a literal. *)
  Lemma cut_file ls (l : list (pyv K)) k : (forall x, In x ls -> plain x) -> writable_val (PList l) ->
    k < length (flat_map line (ls ++ [repr (PList l)])) ->
    literal_eval (K := K) (nth_line (length ls) (newlines (firstn k (flat_map line (ls ++ [repr (PList l)]))))) = Err ValueError.
  Proof.
    intros P W L. assert (PA : forall x, In x (ls ++ [repr (PList l)]) -> plain x).
    { intros x I. apply in_app_or in I as [I|[<-|[]]]; [auto|apply plain_repr, W]. }
    rewrite cut_newlines by exact PA. destruct (cut_last ls (repr (PList l)) k PA ltac:(discriminate) L) as (s & NS & E).
    exact (literal_cut l _ s W E NS).
  Qed.
End Loads.

Ltac plains := let x := fresh in let I := fresh in intros x I; cbn [In] in I; repeat (destruct I as [<-|I]; [|]); [..|destruct I].
Ltac one_plain := first [apply plain_lit; reflexivity | apply plain_name; assumption | apply plain_repr, w_strs | apply plain_repr, w_vec; assumption | apply plain_repr, w_mat; assumption | apply plain_repr, w_ten; assumption
  | apply plain_repr, w_zmat | apply plain_repr, w_cells | apply plain_dict; assumption].

Theorem C164_MC_cut : forall K (TK : Text K) (NK : Num K) (m : mc K) k, one_line (mc_name m) -> writable_vec (mc_ini m) -> writable_mat (mc_mat m) ->
  k < length (mc_save m) -> exists e, loadMC (K := K) (firstn k (mc_save m)) = Err e.
Proof.
  intros K TK NK m k N I M.
  assert (E : mc_save m = flat_map line ([s2t "MC"; repr (strs (K := K) (mc_lab m)); s2t (mc_name m); repr (vec (mc_ini m))] ++ [repr (mat (mc_mat m))])) by (cbn [flat_map app]; rewrite app_nil_r; reflexivity).
  rewrite E. intros L. apply (loadMC_last _ ValueError). refine (cut_file [_; _; _; _] _ k _ (w_mat _ M) L). plains; one_plain.
Qed.
Print Assumptions C164_MC_cut.
Theorem C164_CTMC_cut : forall K (TK : Text K) (NK : Num K) (m : ctmc K) k, one_line (ct_name m) -> writable_vec (ct_ini m) -> writable_mat (ct_mat m) ->
  k < length (ctmc_save m) -> exists e, loadCTMC (K := K) (firstn k (ctmc_save m)) = Err e.
Proof.
  intros K TK NK m k N I M.
  assert (E : ctmc_save m = flat_map line ([s2t "CTMC"; repr (strs (K := K) (ct_lab m)); s2t (ct_name m); repr (vec (ct_ini m))] ++ [repr (mat (ct_mat m))])) by (cbn [flat_map app]; rewrite app_nil_r; reflexivity).
  rewrite E. intros L. apply (loadCTMC_last _ ValueError). refine (cut_file [_; _; _; _] _ k _ (w_mat _ M) L). plains; one_plain.
Qed.
Print Assumptions C164_CTMC_cut.
Theorem C164_MDP_cut : forall K (TK : Text K) (NK : Num K) (m : mdp K) k, one_line (mdp_name m) -> writable_vec (mdp_ini m) -> writable_ten (mdp_mat m) ->
  k < length (mdp_save m) -> exists e, loadMDP (K := K) (firstn k (mdp_save m)) = Err e.
Proof.
  intros K TK NK m k N I M.
  assert (E : mdp_save m = flat_map line ([s2t "MDP"; repr (strs (K := K) (mdp_act m)); repr (strs (K := K) (mdp_lab m)); s2t (mdp_name m); repr (vec (mdp_ini m))] ++ [repr (ten (mdp_mat m))])) by (cbn [flat_map app]; rewrite app_nil_r; reflexivity).
  rewrite E. intros L. apply (loadMDP_last _ ValueError). refine (cut_file [_; _; _; _; _] _ k _ (w_ten _ M) L). plains; one_plain.
Qed.
Print Assumptions C164_MDP_cut.
Theorem C164_HMM_cut : forall K (TK : Text K) (NK : Num K) (m : hmm K) k, one_line (hmm_name m) -> writable_vec (hmm_ini m) -> writable_mat (hmm_mat m) -> writable_mat (hmm_out m) ->
  k < length (hmm_save m) -> exists e, loadHMM (K := K) (firstn k (hmm_save m)) = Err e.
Proof.
  intros K TK NK m k N I M O.
  assert (E : hmm_save m = flat_map line ([s2t "HMM"; repr (strs (K := K) (hmm_alph m)); repr (mat (hmm_out m)); s2t (hmm_name m); repr (vec (hmm_ini m))] ++ [repr (mat (hmm_mat m))])) by (cbn [flat_map app]; rewrite app_nil_r; reflexivity).
  rewrite E. intros L. apply (loadHMM_last _ ValueError). refine (cut_file [_; _; _; _; _] _ k _ (w_mat _ M) L). plains; one_plain.
Qed.
Print Assumptions C164_HMM_cut.
Theorem C164_GoHMM_cut : forall K (TK : Text K) (NK : Num K) (m : gohmm K) k, one_line (go_name m) -> writable_vec (go_ini m) -> writable_mat (go_mat m) ->
  (forall l p, In l (go_out m) -> In p l -> writable (fst p) /\ writable (snd p)) ->
  k < length (go_save m) -> exists e, loadGoHMM (K := K) (firstn k (go_save m)) = Err e.
Proof.
  intros K TK NK m k N I M O.
  assert (O' : writable_ten (map (map (fun p => [fst p; snd p])) (go_out m))).
  { intros a J. apply in_map_iff in J as (l & <- & Jl). intros b J. apply in_map_iff in J as (p & <- & Jp). destruct (O l p Jl Jp). intros x [<-|[<-|[]]]; assumption. }
  assert (E : go_save m = flat_map line ([s2t "GoHMM"; repr (go_out_val (go_out m)); s2t (go_name m); repr (vec (go_ini m))] ++ [repr (mat (go_mat m))])) by (cbn [flat_map app]; rewrite app_nil_r; reflexivity).
  rewrite E. intros L. apply (loadGoHMM_last _ ValueError). refine (cut_file [_; _; _; _] _ k _ (w_mat _ M) L). plains; one_plain.
Qed.
Print Assumptions C164_GoHMM_cut.
Theorem C164_PCTMC_cut : forall K (TK : Text K) (NK : Num K) (SK : Sym K) (m : pctmc K) own k, savable m ->
  k < length (pctmc_save (m, own)) -> exists e, loadPCTMC (K := K) (firstn k (pctmc_save (m, own))) = Err e.
Proof.
  intros K TK NK SK m own k [N W]. assert (Wv : forall p, In p (pc_val m) -> writable (snd p)) by (intros [x v] I; apply (W x v I)).
  assert (E : pctmc_save (m, own) = flat_map line ([s2t "PCTMC"; s2t (pc_name m); repr (PList (map (fun r => ints (K := K) (map Z.of_nat r)) (pc_mat m))); repr (strs (K := K) (pc_lab m)); repr_dict (pc_val m);
    repr (cells (K := K) (pc_ind m)); repr (strs (K := K) (pc_par m))] ++ [repr (strs (K := K) (map show_expr (pc_expr m)))])) by (cbn [flat_map app]; rewrite app_nil_r; reflexivity).
  rewrite E. intros L. apply (loadPCTMC_last _ ValueError). refine (cut_file [_; _; _; _; _; _; _] _ k _ (w_strs _) L). plains; one_plain.
Qed.
Print Assumptions C164_PCTMC_cut.

(** ** Sets *)
(** What int() reads in a beginning of the digits of a count. *)
Definition shortened (n z : Z) : Prop := exists p s, show_int n = p ++ s /\ s <> [] /\ read_int p = Some z.
Definition is_list {K} (v : pyv K) : Prop := exists l, v = PList l.
Section Sets.
  Context {K : Type} {TK : Text K}.
  Definition pairs_text (l : list (pyv K * Z)) : text := flat_map (fun xt => repr (fst xt) ++ [NL] ++ show_int (snd xt) ++ [NL]) l.
  Lemma readline_cut t r k : plain t -> k <= length t -> readline (firstn k (line t ++ r)) = (firstn k t, []).
  Proof.
    intros P L. assert (firstn k (line t ++ r) = firstn k t) as ->.
    { unfold line. rewrite <- app_assoc, firstn_app. replace (k - length t) with 0 by lia. rewrite firstn_O, app_nil_r. reflexivity. }
    apply readline_open. intros I. assert (J : In NL t) by (rewrite <- (firstn_skipn k t); apply in_or_app; auto). apply P in J. destruct J as [J _]. exact (J eq_refl).
  Qed.
  Lemma readline_whole t r k : plain t -> length t < k -> readline (firstn k (line t ++ r)) = (line t, firstn (k - S (length t)) r).
  Proof.
    intros P L. rewrite firstn_app, (firstn_all2 (line t)) by (unfold line; rewrite app_length; cbn; lia). unfold line at 1 2. rewrite <- app_assoc. cbn [app].
    rewrite readline_line by (intros c I; apply P, I). unfold line. rewrite app_length. cbn [length]. f_equal. f_equal. lia.
  Qed.
  Lemma load_pairs_cut : forall (l : list (pyv K * Z)) k fuel ss ts, (forall v n, In (v, n) l -> writable_val v /\ is_list v) -> load_pairs fuel (firstn k (pairs_text l)) = Ok (ss, ts) ->
    exists j, j <= length l /\ ss = firstn j (map fst l) /\
      (ts = firstn j (map snd l) \/ exists i z, j = S i /\ ts = firstn i (map snd l) ++ [z] /\ shortened (nth i (map snd l) 0%Z) z).
  Proof.
    induction l as [|[v n] l IH]; intros k fuel ss ts W E; (destruct fuel as [|fuel]; [discriminate|]).
    - exists 0. cbn [pairs_text flat_map] in E. rewrite firstn_nil in E. cbn in E. injection E as <- <-. auto.
    - destruct (W v n (or_introl eq_refl)) as [Wv [lv ->]].
      assert (T : pairs_text ((PList lv, n) :: l) = line (repr (PList lv)) ++ line (show_int n) ++ pairs_text l).
      { unfold pairs_text, line. cbn [flat_map fst snd]. rewrite <- !app_assoc. reflexivity. }
      rewrite T in E. clear T. set (V := repr (PList lv)) in *. assert (PV : plain V) by apply plain_repr, Wv.
      destruct k as [|k]; [exists 0; cbn in E; injection E as <- <-; split; [lia|auto]|].
      destruct (Nat.le_gt_cases (S k) (length V)) as [L|L].
      + cbn [load_pairs] in E. rewrite (readline_cut V _ (S k) PV L) in E. destruct (firstn (S k) V) as [|c p] eqn:Ep; [destruct V; [cbn in L; lia|discriminate]|].
        unfold chop in E. destruct (removelast_prefix (c :: p)) as [X|[x X]]; [discriminate|].
        assert (EV : V = removelast (c :: p) ++ [x] ++ skipn (S k) V). { rewrite app_assoc, <- X, <- Ep. symmetry. apply firstn_skipn. }
        rewrite (literal_cut lv (removelast (c :: p)) ([x] ++ skipn (S k) V) Wv EV ltac:(discriminate)) in E. discriminate.
      + cbn [load_pairs] in E. rewrite (readline_whole V _ (S k) PV L) in E. destruct (line V) as [|c0 w0] eqn:EL; [unfold line in EL; destruct V; discriminate|]. rewrite <- EL in E. clear EL c0 w0.
        unfold chop in E. unfold line at 1 in E. rewrite removelast_last in E. unfold V at 1 in E. rewrite literal_eval_repr in E by exact Wv. cbn [bind] in E.
        set (k' := S k - S (length V)) in *. destruct (Nat.le_gt_cases k' (length (show_int n))) as [L'|L'].
        * rewrite (readline_cut _ _ k' (plain_int n) L') in E. destruct (read_int (removelast (firstn k' (show_int n)))) as [z|] eqn:Ez; [|discriminate]. cbn [bind] in E.
          assert (RS : load_pairs (K := K) fuel [] = Ok ([], [])) by (destruct fuel; [cbn in E; discriminate|reflexivity]). rewrite RS in E. cbn [bind fst snd] in E. injection E as <- <-.
          exists 1. cbn [length map firstn fst snd]. split; [lia|]. split; [reflexivity|]. right. exists 0, z. split; [reflexivity|]. split; [reflexivity|]. cbn [nth].
          destruct (removelast_prefix (firstn k' (show_int n))) as [X|[x X]]; [rewrite X in Ez; discriminate|].
          exists (removelast (firstn k' (show_int n))), ([x] ++ skipn k' (show_int n)). split; [|split; [discriminate|exact Ez]]. rewrite app_assoc, <- X. symmetry. apply firstn_skipn.
        * rewrite (readline_whole _ _ k' (plain_int n) L') in E. unfold line at 1 in E. rewrite removelast_last, read_show_int in E. cbn [bind] in E.
          destruct (load_pairs fuel (firstn (k' - S (length (show_int n))) (pairs_text l))) as [[ss' ts']|] eqn:Er; [|discriminate]. cbn [bind fst snd] in E. injection E as <- <-.
          destruct (IH _ _ _ _ (fun v' n' I => W v' n' (or_intror I)) Er) as (j & Lj & -> & T). exists (S j). cbn [length map firstn fst snd]. split; [lia|]. split; [reflexivity|].
          destruct T as [->|(i & z & -> & -> & Sz)]; [left; reflexivity|right]. exists (S i), z. split; [reflexivity|]. split; [reflexivity|exact Sz].
  Qed.
End Sets.

(** A set file that was cut is loaded as the beginning of the set: the last traces
    are missing, and the last count can be a number with fewer digits. *)
Theorem C164_Set_cut_partial : forall K (TK : Text K) (s s' : tset (pyv K)) k, length (times s) = length (seqs s) -> (forall v, In v (seqs s) -> writable_val v /\ is_list v) ->
  (ty s = None \/ exists z, ty s = Some z /\ (0 <= z <= 9)%Z) -> loadSet (firstn k (set_save s)) = Ok s' ->
  ty s' = ty s /\ exists j, j <= length (seqs s) /\ seqs s' = firstn j (seqs s) /\
    (times s' = firstn j (times s) \/ exists i z, j = S i /\ times s' = firstn i (times s) ++ [z] /\ shortened (nth i (times s) 0%Z) z).
Proof.
  intros K TK s s' k L W TY E. set (l := combine (seqs s) (times s)) in *.
  assert (E1 : map fst l = seqs s). { unfold l. revert L. generalize (times s). clear. induction (seqs s) as [|a u IH]; intros [|b t] L; cbn in *; try discriminate; [reflexivity|]. f_equal. apply IH. injection L as ->; reflexivity. }
  assert (E2 : map snd l = times s). { unfold l. revert L. generalize (times s). clear. induction (seqs s) as [|a u IH]; intros [|b t] L; cbn in *; try discriminate; [reflexivity|]. f_equal. apply IH. injection L as ->; reflexivity. }
  assert (Wl : forall v n, In (v, n) l -> writable_val v /\ is_list v) by (intros v n I; apply W, (in_combine_l _ _ _ _ I)).
  assert (T : set_save s = line (type_text (ty s)) ++ pairs_text l) by (unfold set_save, line, pairs_text; rewrite <- app_assoc; reflexivity).
  rewrite T in E. unfold loadSet in E.
  assert (NC : newlines (firstn k (line (type_text (ty s)) ++ pairs_text l)) = firstn k (line (type_text (ty s)) ++ pairs_text l)).
  { apply newlines_id. intros I. assert (J : In CR (line (type_text (ty s)) ++ pairs_text l)) by (rewrite <- (firstn_skipn k); apply in_or_app; auto).
    unfold line in J. apply in_app_or in J as [J|J]; [apply in_app_or in J as [J|[J|[]]]; [apply plain_type in J; tauto|discriminate]|].
    apply in_flat_map in J as ([v n] & Il & J). cbn [fst snd] in J. apply in_app_or in J as [J|J]; [apply plain_repr in J; [tauto|apply (Wl v n Il)]|].
    apply in_app_or in J as [[J|[]]|J]; [discriminate|]. apply in_app_or in J as [J|[J|[]]]; [apply plain_int in J; tauto|discriminate]. }
  rewrite NC in E. clear NC. destruct (Nat.le_gt_cases k (length (type_text (ty s)))) as [Lk|Lk].
  - exfalso. rewrite (readline_cut _ _ k (plain_type _) Lk) in E.
    assert (X : literal_eval (K := K) (chop (firstn k (type_text (ty s)))) = Err ValueError).
    { destruct TY as [TY|(z & TY & Hz)]; rewrite TY in *; cbn [type_text] in *.
      - destruct k as [|[|[|[|[|k]]]]]; reflexivity.
      - assert (Z9 : (z = 0 \/ z = 1 \/ z = 2 \/ z = 3 \/ z = 4 \/ z = 5 \/ z = 6 \/ z = 7 \/ z = 8 \/ z = 9)%Z) by lia.
        repeat (destruct Z9 as [-> | Z9]; [destruct k as [|[|k]]; [reflexivity|reflexivity|cbn in Lk; lia]|]). subst z. destruct k as [|[|k]]; [reflexivity|reflexivity|cbn in Lk; lia]. }
    rewrite X in E. discriminate.
  - rewrite (readline_whole _ _ k (plain_type _) Lk) in E. unfold chop in E. unfold line at 1 in E. rewrite removelast_last, eval_type in E. cbn [bind] in E.
    match type of E with context [load_pairs ?f ?t] => destruct (load_pairs f t) as [[ss ts]|] eqn:Er; [|discriminate] end. cbn [bind fst snd] in E.
    apply load_pairs_cut in Er as (j & Lj & Es & Et); [|exact Wl]. rewrite E1, E2 in *.
    assert (LL : length l = length (seqs s)) by (rewrite <- E1, map_length; reflexivity). rewrite LL in Lj.
    destruct (ty s) as [z|].
    + injection E as <-. cbn [ty seqs times]. split; [reflexivity|]. exists j. auto.
    + destruct ss; [|discriminate]. injection E as <-. cbn [ty seqs times]. split; [reflexivity|]. exists 0. split; [lia|]. split; [reflexivity|left; reflexivity].
Qed.
Print Assumptions C164_Set_cut_partial.

#[local] Instance QText : Text Q := {
  show := fun q => (NilZero.string_of_int (Z.to_int (Qround.Qfloor (q * 1000))) ++ "e-3")%string;
  read := fun s => let t := s2t s in match read_int (firstn (length t - 3) t) with Some z => Some (Qred (z # 1000)) | None => None end }.
(** A set file without its last character (the newline): 12 becomes 1. *)
Theorem C164_Set_cut_refuted : exists (s s' : tset (pyv Q)) k, length (times s) = length (seqs s) /\ (forall v, In v (seqs s) -> writable_val v /\ is_list v) /\
  loadSet (set_save s) = Ok s /\ k = length (set_save s) - 1 /\ loadSet (firstn k (set_save s)) = Ok s' /\ times s = [3; 12]%Z /\ times s' = [3; 1]%Z.
Proof.
  exists (mkset [PList [PStr "init"; PStr "a"]; PList [PStr "init"; PStr "b"]] [3; 12]%Z (Some 0%Z)), (mkset [PList [PStr "init"; PStr "a"]; PList [PStr "init"; PStr "b"]] [3; 1]%Z (Some 0%Z)). eexists.
  split; [reflexivity|]. split; [intros v [<-|[<-|[]]]; (split; [cbn; tauto|eexists; reflexivity])|]. split; [vm_compute; reflexivity|]. split; [reflexivity|]. split; [vm_compute; reflexivity|]. split; reflexivity.
Qed.
Print Assumptions C164_Set_cut_refuted.
Example C164_instance : forall k, (k < length (mc_save two_states))%nat -> exists e, loadMC (firstn k (mc_save two_states)) = Err e.
Proof. intros k. exact (C164_MC_cut Q _ _ two_states k ltac:(one) (proj1 two_states_writable) (proj2 two_states_writable)). Qed.

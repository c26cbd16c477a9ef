(** Files: C15, C65, C85. *)
From Coq Require Import String Ascii ZArith QArith Qround Bool DecimalString Lia List.
From Verif Require Import Num Py MTools MSet MModels MCtor MText SText LCtor LText.
Import ListNotations.
Local Open Scope nat_scope.

(** ** C15: saving and loading a Set *)
Section Sets.
  Context {K : Type} `{TK : Text K}.
  Lemma load_pairs_spec : forall (l : list (pyv K * Z)) fuel, (forall v n, In (v, n) l -> writable_val v) -> length l < fuel ->
    load_pairs fuel (flat_map (fun xt => repr (fst xt) ++ [NL] ++ show_int (snd xt) ++ [NL]) l) = Ok (map fst l, map snd l).
  Proof.
    induction l as [|[v n] l IH]; intros fuel W L; (destruct fuel as [|f]; [cbn in L; lia|]); [reflexivity|]. cbn [flat_map fst snd].
    set (rest := flat_map _ l) in *. rewrite <- !app_assoc. cbn [app]. cbn [load_pairs].
    assert (Wv : writable_val v) by (apply (W v n); left; reflexivity).
    rewrite readline_line by (intros c I; apply (plain_repr v Wv), I).
    destruct (repr v ++ [NL]) as [|c t] eqn:E; [destruct (repr v); discriminate|]. rewrite <- E. unfold chop at 1. rewrite removelast_last.
    rewrite (literal_eval_repr v Wv). cbn [bind]. rewrite readline_line by (intros d I; apply (plain_int n), I). unfold chop. rewrite removelast_last, read_show_int. cbn [bind].
    rewrite IH by (try (intros; apply (W v0 n0); right; assumption); cbn in L; lia). reflexivity.
  Qed.

  Lemma newlines_pairs (l : list (pyv K * Z)) : (forall v n, In (v, n) l -> writable_val v) ->
    let t := flat_map (fun xt => repr (fst xt) ++ [NL] ++ show_int (snd xt) ++ [NL]) l in newlines t = t.
  Proof.
    intros W. cbn zeta. rewrite <- (app_nil_r (flat_map _ l)) at 1. rewrite newlines_app; [apply app_nil_r|].
    intros c I. apply in_flat_map in I as ([v n] & J & I). cbn [fst snd app] in I. apply in_app_or in I as [I|[<-|I]]; [apply (plain_repr v (W v n J)), I|discriminate|].
    apply in_app_or in I as [I|[<-|[]]]; [apply (plain_int n), I|discriminate].
  Qed.

  Lemma plain_type o : plain (type_text o).
  Proof. destruct o; cbn [type_text]; [apply plain_int|]. intros c I. cbn in I. repeat (destruct I as [<-|I]; [split; discriminate|]). destruct I. Qed.
  Lemma eval_type o : literal_eval (K := K) (type_text o) = Ok match o with Some z => PInt z | None => PNone end.
  Proof. destruct o as [z|]; [apply (literal_eval_repr (PInt z)); exact I|reflexivity]. Qed.
End Sets.

(** A string is written between two quotes, on one line, with printable Latin-1
    characters only. *)
Definition shown (c : ascii) : Prop := let n := nat_of_ascii c in (32 <= n <= 126)%nat \/ (161 <= n)%nat /\ n <> 173%nat.
Lemma hexdigit_shown n : shown (hexdigit n).
Proof.
  unfold hexdigit. do 16 (destruct n as [|n]; [left; cbn; lia|]). rewrite nth_overflow by (cbn; lia). left. cbn. lia.
Qed.
Theorem C15_written_strings : forall s : string, exists q t, (q = QUOTE \/ q = DQUOTE) /\ (q = DQUOTE <-> In QUOTE (s2t s) /\ ~ In DQUOTE (s2t s)) /\ repr_str s = q :: t ++ [q] /\
  (forall c, In c (repr_str s) -> shown c) /\
  ((forall c, In c (s2t s) -> shown c /\ c <> QUOTE /\ c <> "\"%char) -> t = s2t s).
Proof.
  intros s. unfold repr_str. exists (quote_of (s2t s)), (flat_map (esc (quote_of (s2t s))) (s2t s)). pose proof (quote_of_quote (s2t s)) as Q.
  assert (SQ : shown (quote_of (s2t s))) by (destruct Q as [->| ->]; left; cbn; lia).
  assert (EX : forall x, existsb (ceq x) (s2t s) = true <-> In x (s2t s)).
  { intros x. rewrite existsb_exists. split; [intros (c & I & E); apply ceq_eq in E; subst; exact I|intros I; exists x; split; [exact I|apply ceq_eq; reflexivity]]. }
  split; [destruct Q; auto|]. split.
  { unfold quote_of. rewrite <- (EX QUOTE), <- (EX DQUOTE). destruct (existsb (ceq QUOTE) (s2t s)), (existsb (ceq DQUOTE) (s2t s)); cbn; split; intros H; try discriminate; try reflexivity; try (destruct H; congruence). split; congruence. }
  split; [reflexivity|]. clear EX. split.
  - intros c [<-|I]; [exact SQ|]. apply in_app_or in I as [I|[<-|[]]]; [|exact SQ]. apply in_flat_map in I as (x & _ & I). revert I. unfold esc.
    assert (B : shown "\"%char) by (left; cbn; lia).
    destruct (ceq x "\"); [intros [<-|[<-|[]]]; exact B|]. destruct (ceq x _); [intros [<-|[<-|[]]]; assumption|].
    destruct (ceq x NL); [intros [<-|[<-|[]]]; [exact B|left; cbn; lia]|]. destruct (ceq x CR); [intros [<-|[<-|[]]]; [exact B|left; cbn; lia]|].
    destruct (ceq x TAB); [intros [<-|[<-|[]]]; [exact B|left; cbn; lia]|].
    destruct (printable x) eqn:P; [|intros [<-|[<-|[<-|[<-|[]]]]]; [exact B|left; cbn; lia|apply hexdigit_shown|apply hexdigit_shown]].
    intros [<-|[]]. unfold printable in P. unfold shown. apply orb_true_iff in P as [P|P]; apply andb_true_iff in P as [P1 P2].
    + apply Nat.leb_le in P1, P2. left. lia.
    + apply Nat.leb_le in P1. apply negb_true_iff, Nat.eqb_neq in P2. right. auto.
  - intros A. assert (NQ : quote_of (s2t s) = QUOTE).
    { unfold quote_of. assert (existsb (ceq QUOTE) (s2t s) = false) as ->; [|reflexivity].
      apply not_true_is_false. intros E. apply existsb_exists in E as (c & I & E). apply ceq_eq in E. destruct (A c I) as (_ & N & _). congruence. }
    rewrite NQ. clear Q SQ NQ. revert A. induction (s2t s) as [|c t IH]; intros A; [reflexivity|]. cbn [flat_map]. rewrite IH by (intros x I; apply A; right; exact I).
    destruct (A c (or_introl eq_refl)) as (Sh & N1 & N2). unfold esc. apply ceq_neq in N1, N2. rewrite N1, N2.
    assert (G : forall x, ~ shown x -> ceq c x = false) by (intros x H; apply ceq_neq; intros ->; exact (H Sh)).
    rewrite !G by (unfold shown; cbn; lia).
    assert (P : printable c = true); [|rewrite P; reflexivity]. unfold printable, shown in *. destruct Sh as [[S1 S2]|[S1 S2]].
    + apply Nat.leb_le in S1, S2. rewrite S1, S2. reflexivity.
    + apply Nat.leb_le in S1. apply Nat.eqb_neq in S2. rewrite S1, S2. cbn. apply orb_true_r.
Qed.
Print Assumptions C15_written_strings.
Example C15_written_instance : let s := String "a" (String "b" EmptyString) in (forall c, In c (s2t s) -> shown c /\ c <> QUOTE /\ c <> "\"%char).
Proof. cbn. intros c [<-|[<-|[]]]; (split; [left; cbn; lia|split; discriminate]). Qed.

Theorem C15_save_load : forall K (TK : Text K) (s : tset (pyv K)),
  length (times s) = length (seqs s) -> (forall v, In v (seqs s) -> writable_val v) -> (ty s = None -> seqs s = []) ->
  loadSet (set_save s) = Ok s.
Proof.
  intros K TK s L W TY. unfold loadSet, set_save. set (l := combine (seqs s) (times s)).
  assert (Wl : forall v n, In (v, n) l -> writable_val v) by (intros v n I; apply W, (in_combine_l _ _ _ _ I)).
  set (r := flat_map _ l). replace (type_text (ty s) ++ [NL] ++ r) with (line (type_text (ty s)) ++ r) by (unfold line; rewrite <- app_assoc; reflexivity).
  rewrite newlines_line by apply plain_type. unfold r at 1. rewrite newlines_pairs by exact Wl. fold r.
  unfold line. rewrite <- app_assoc. cbn [app]. rewrite readline_line by (intros c I; apply (plain_type (ty s)), I). unfold chop. rewrite removelast_last, eval_type. cbn [bind].
  assert (LL : length l < S (length r)).
  { unfold r. clear. induction l as [|[v n] l IH]; [cbn; lia|]. cbn [flat_map fst snd length]. rewrite !app_length. cbn [length]. lia. }
  unfold r at 2. rewrite load_pairs_spec by assumption. cbn [bind fst snd].
  assert (E1 : map fst l = seqs s). { unfold l. revert L. generalize (times s). clear. induction (seqs s) as [|a u IH]; intros [|b t] L; cbn in *; try discriminate; [reflexivity|]. f_equal. apply IH. injection L as ->; reflexivity. }
  assert (E2 : map snd l = times s). { unfold l. revert L. generalize (times s). clear. induction (seqs s) as [|a u IH]; intros [|b t] L; cbn in *; try discriminate; [reflexivity|]. f_equal. apply IH. injection L as ->; reflexivity. }
  rewrite E1, E2. destruct s as [sq tm o]. cbn [ty seqs times] in *. destruct o as [z|]; [reflexivity|]. rewrite (TY eq_refl) in *. destruct tm; [reflexivity|discriminate].
Qed.
Print Assumptions C15_save_load.

(** ** C65: saving and loading a model *)
Section Models.
  Context {K : Type} `{TK : Text K} `{NK : Num K}.
  Lemma as_strs_ok l : as_strs (strs (K := K) l) = Ok l.
  Proof. unfold as_strs, strs. cbn [as_list bind]. induction l as [|s l IH]; [reflexivity|]. cbn [map mmap as_str bind]. rewrite IH. reflexivity. Qed.
  Lemma as_vec_ok (l : list K) : as_vec (vec l) = Ok l.
  Proof. unfold as_vec, vec. cbn [as_list bind]. induction l as [|s l IH]; [reflexivity|]. cbn [map mmap as_flt bind]. rewrite IH. reflexivity. Qed.
  Lemma as_mat_ok (m : list (list K)) : as_mat (mat m) = Ok m.
  Proof. unfold as_mat, mat. cbn [as_list bind]. induction m as [|s l IH]; [reflexivity|]. cbn [map mmap]. rewrite as_vec_ok. cbn [bind]. rewrite IH. reflexivity. Qed.
  Lemma as_ten_ok (m : list (list (list K))) : as_ten (ten m) = Ok m.
  Proof. unfold as_ten, ten. cbn [as_list bind]. induction m as [|s l IH]; [reflexivity|]. cbn [map mmap]. rewrite as_mat_ok. cbn [bind]. rewrite IH. reflexivity. Qed.
  Lemma as_pairs_ok (o : list (list (K * K))) : mmap (mmap as_pair) (map (map (fun p => [fst p; snd p])) o) = Ok o.
  Proof.
    assert (A : forall l : list (K * K), mmap as_pair (map (fun p => [fst p; snd p]) l) = Ok l) by (induction l as [|[a b] l IH]; [reflexivity|]; cbn [map mmap as_pair bind fst snd]; rewrite IH; reflexivity).
    induction o as [|l o IH]; [reflexivity|]. cbn [map mmap]. rewrite A. cbn [bind]. rewrite IH. reflexivity.
  Qed.
  Lemma w_strs l : writable_val (strs (K := K) l).
  Proof. apply writable_list. intros v I. apply in_map_iff in I as (s & <- & _). exact Logic.I. Qed.
  Lemma w_vec (l : list K) : writable_vec l -> writable_val (vec l).
  Proof. intros W. apply writable_list. intros v I. apply in_map_iff in I as (x & <- & I). apply W, I. Qed.
  Lemma w_mat (m : list (list K)) : writable_mat m -> writable_val (mat m).
  Proof. intros W. apply writable_list. intros v I. apply in_map_iff in I as (x & <- & I). apply w_vec, W, I. Qed.
  Lemma w_ten (m : list (list (list K))) : writable_ten m -> writable_val (ten m).
  Proof. intros W. apply writable_list. intros v I. apply in_map_iff in I as (x & <- & I). apply w_mat, W, I. Qed.
  Lemma plain_name s : one_line s -> plain (s2t s).
  Proof. intros (A & B) c I. split; intros ->; auto. Qed.

  Lemma newlines_model name (ini : list K) matrix : one_line name -> writable_vec ini -> writable_val matrix ->
    newlines (model_save name ini matrix) = model_save name ini matrix.
  Proof.
    intros N I M. unfold model_save. rewrite newlines_line by apply plain_name, N. rewrite newlines_line by apply plain_repr, w_vec, I.
    rewrite <- (app_nil_r (line (repr matrix))). rewrite newlines_line by apply plain_repr, M. reflexivity.
  Qed.
  Lemma load_tail_ok name (ini : list K) matrix : one_line name -> writable_vec ini -> writable_val matrix ->
    load_tail (model_save name ini matrix) = Ok (name, ini, matrix).
  Proof.
    intros N I M. unfold load_tail, model_save. rewrite nextline_line by apply plain_name, N. rewrite nextline_line by apply plain_repr, w_vec, I.
    rewrite literal_eval_repr by apply w_vec, I. cbn [bind]. rewrite as_vec_ok. cbn [bind]. rewrite <- (app_nil_r (line (repr matrix))). rewrite nextline_line by apply plain_repr, M.
    rewrite literal_eval_repr by exact M. cbn [bind]. rewrite t2s_s2t. reflexivity.
  Qed.
  Lemma plain_lit s : (forallb (fun c => negb (ceq c NL) && negb (ceq c CR)) (s2t s) = true) -> plain (s2t s).
  Proof. intros F c I. rewrite forallb_forall in F. apply F, andb_true_iff in I as (A & B). apply negb_true_iff in A, B. apply ceq_neq in A, B. auto. Qed.
  Ltac lit := apply plain_lit; reflexivity.
  Ltac rdl tac := rewrite newlines_line by tac; rewrite ?nextline_line by tac.

  Lemma load_MC h m : plain h -> one_line (mc_name m) -> writable_vec (mc_ini m) -> writable_mat (mc_mat m) ->
    nextline (newlines (line h ++ base_mc_save (mc_lab m) (mc_name m) (mc_ini m) (mat (mc_mat m)))) = (h, base_mc_save (mc_lab m) (mc_name m) (mc_ini m) (mat (mc_mat m))).
  Proof.
    intros P N I M. rewrite newlines_line by exact P. unfold base_mc_save. rewrite newlines_line by apply plain_repr, w_strs. rewrite newlines_model by (auto using w_mat). apply nextline_line, P.
  Qed.
End Models.

Theorem C65_MC_save_load : forall K (TK : Text K) (NK : Num K) (m : mc K),
  MC_new (mc_mat m) (mc_lab m) (mc_name m) = Ok m -> one_line (mc_name m) -> writable_vec (mc_ini m) -> writable_mat (mc_mat m) ->
  loadMC (mc_save m) = Ok m.
Proof.
  intros K TK NK m E N I M. unfold loadMC, mc_save. rewrite load_MC by (auto; apply plain_lit; reflexivity). rewrite t2s_s2t. cbn [String.eqb Ascii.eqb Bool.eqb negb].
  unfold base_mc_save. rewrite nextline_line by apply plain_repr, w_strs. rewrite literal_eval_repr by apply w_strs. cbn [bind]. rewrite as_strs_ok. cbn [bind].
  rewrite load_tail_ok by (auto using w_mat). cbn [bind fst snd]. rewrite as_mat_ok. exact E.
Qed.
Print Assumptions C65_MC_save_load.

Theorem C65_CTMC_save_load : forall K (TK : Text K) (NK : Num K) (m : ctmc K),
  CTMC_new (ct_mat m) (ct_lab m) (ct_name m) = Ok m -> one_line (ct_name m) -> writable_vec (ct_ini m) -> writable_mat (ct_mat m) ->
  loadCTMC (ctmc_save m) = Ok m.
Proof.
  intros K TK NK m E N I M. unfold loadCTMC, ctmc_save. rewrite (load_MC _ (mkMC (ct_mat m) (ct_lab m) (ct_ini m) (ct_name m))) by (auto; apply plain_lit; reflexivity). cbn [mc_mat mc_lab mc_ini mc_name].
  unfold base_mc_save. rewrite nextline_line by apply plain_repr, w_strs. rewrite literal_eval_repr by apply w_strs. cbn [bind]. rewrite as_strs_ok. cbn [bind].
  rewrite load_tail_ok by (auto using w_mat). cbn [bind fst snd]. rewrite as_mat_ok. exact E.
Qed.
Print Assumptions C65_CTMC_save_load.

Theorem C65_MDP_save_load : forall K (TK : Text K) (NK : Num K) (m : mdp K),
  MDP_new (mdp_mat m) (mdp_lab m) (mdp_act m) (mdp_name m) = Ok m -> one_line (mdp_name m) -> writable_vec (mdp_ini m) -> writable_ten (mdp_mat m) ->
  loadMDP (mdp_save m) = Ok m.
Proof.
  intros K TK NK m E N I M. unfold loadMDP, mdp_save, base_mc_save. rewrite newlines_line by (apply plain_lit; reflexivity). rewrite !newlines_line by apply plain_repr, w_strs.
  rewrite newlines_model by (auto using w_ten). rewrite nextline_line by (apply plain_lit; reflexivity). rewrite t2s_s2t. cbn [String.eqb Ascii.eqb Bool.eqb negb].
  rewrite nextline_line by apply plain_repr, w_strs. rewrite literal_eval_repr by apply w_strs. cbn [bind]. rewrite as_strs_ok. cbn [bind].
  rewrite nextline_line by apply plain_repr, w_strs. rewrite literal_eval_repr by apply w_strs. cbn [bind]. rewrite as_strs_ok. cbn [bind].
  rewrite load_tail_ok by (auto using w_ten). cbn [bind fst snd]. rewrite as_ten_ok. exact E.
Qed.
Print Assumptions C65_MDP_save_load.

Theorem C65_HMM_save_load : forall K (TK : Text K) (NK : Num K) (m : hmm K),
  HMM_new (hmm_mat m) (hmm_out m) false (hmm_alph m) (IniList (hmm_ini m)) (hmm_name m) = Ok m ->
  one_line (hmm_name m) -> writable_vec (hmm_ini m) -> writable_mat (hmm_mat m) -> writable_mat (hmm_out m) ->
  loadHMM (hmm_save m) = Ok m.
Proof.
  intros K TK NK m E N I M O. unfold loadHMM, hmm_save. rewrite newlines_line by (apply plain_lit; reflexivity). rewrite newlines_line by apply plain_repr, w_strs. rewrite newlines_line by apply plain_repr, w_mat, O.
  rewrite newlines_model by (auto using w_mat). rewrite nextline_line by (apply plain_lit; reflexivity).
  rewrite nextline_line by apply plain_repr, w_strs. rewrite literal_eval_repr by apply w_strs. cbn [bind]. rewrite as_strs_ok. cbn [bind].
  rewrite nextline_line by apply plain_repr, w_mat, O. rewrite literal_eval_repr by apply w_mat, O. cbn [bind]. rewrite as_mat_ok. cbn [bind].
  rewrite load_tail_ok by (auto using w_mat). cbn [bind fst snd]. rewrite as_mat_ok. exact E.
Qed.
Print Assumptions C65_HMM_save_load.

Theorem C65_GoHMM_save_load : forall K (TK : Text K) (NK : Num K) (m : gohmm K),
  GoHMM_new (go_mat m) (go_out m) (IniList (go_ini m)) (go_name m) = Ok m ->
  one_line (go_name m) -> writable_vec (go_ini m) -> writable_mat (go_mat m) -> (forall l p, In l (go_out m) -> In p l -> writable (fst p) /\ writable (snd p)) ->
  loadGoHMM (go_save m) = Ok m.
Proof.
  intros K TK NK m E N I M O.
  assert (O' : writable_ten (map (map (fun p => [fst p; snd p])) (go_out m))).
  { intros a J. apply in_map_iff in J as (l & <- & Jl). intros b J. apply in_map_iff in J as (p & <- & Jp). destruct (O l p Jl Jp). intros x [<-|[<-|[]]]; assumption. }
  unfold loadGoHMM, go_save, go_out_val. rewrite newlines_line by (apply plain_lit; reflexivity). rewrite newlines_line by apply plain_repr, w_ten, O'.
  rewrite newlines_model by (auto using w_mat). rewrite nextline_line by (apply plain_lit; reflexivity).
  rewrite nextline_line by apply plain_repr, w_ten, O'. rewrite literal_eval_repr by apply w_ten, O'. cbn [bind]. rewrite as_ten_ok. cbn [bind]. rewrite as_pairs_ok. cbn [bind].
  rewrite load_tail_ok by (auto using w_mat). cbn [bind fst snd]. rewrite as_mat_ok. exact E.
Qed.
Print Assumptions C65_GoHMM_save_load.

(** ** Decimal texts for rational numbers, for the examples *)
#[local] Instance QText : Text Q := {
  show := fun q => (NilZero.string_of_int (Z.to_int (Qfloor (q * 1000))) ++ "e-3")%string;
  read := fun s => let t := s2t s in match read_int (firstn (length t - 3) t) with Some z => Some (Qred (z # 1000)) | None => None end }.

Definition two_states : mc Q := mkMC [[0; 1]; [1 # 2; 1 # 2]]%Q ["init"; String (ascii_of_nat 10) "it's ""x"" \"]%string [1; 0]%Q "chain".
Lemma two_states_writable : writable_vec (mc_ini two_states) /\ writable_mat (mc_mat two_states).
Proof.
  assert (W0 : writable 0%Q) by (repeat split; [discriminate|intros c I; vm_compute in I |- *; tauto]).
  assert (W1 : writable 1%Q) by (repeat split; [discriminate|intros c I; vm_compute in I |- *; tauto]).
  assert (W2 : writable (1 # 2)%Q) by (repeat split; [discriminate|intros c I; vm_compute in I |- *; tauto]).
  split.
  - intros x [<-|[<-|[]]]; assumption.
  - intros r [<-|[<-|[]]] x [<-|[<-|[]]]; assumption.
Qed.
Ltac one := split; intros H; vm_compute in H; repeat (destruct H as [H|H]; [discriminate H|]); exact H.
Example C65_instance : loadMC (mc_save two_states) = Ok two_states.
Proof. apply C65_MC_save_load; [vm_compute; reflexivity|one|exact (proj1 two_states_writable)|exact (proj2 two_states_writable)]. Qed.
Example C65_instance_CTMC : let m := mkCTMC [[0; 1]; [1 # 2; 0]]%Q ["init"; "b"]%string [1; 0]%Q "c d" in loadCTMC (ctmc_save m) = Ok m.
Proof. destruct two_states_writable as (V & M). intros m. apply C65_CTMC_save_load; [vm_compute; reflexivity|one|exact V|]. intros r [<-|[<-|[]]] x [<-|[<-|[]]]; solve [apply (M [0; 1]%Q); cbn; tauto|apply (M [1 # 2; 1 # 2]%Q); cbn; tauto]. Qed.
Example C65_instance_MDP : let m := mkMDP [[[0; 1]; [1 # 2; 1 # 2]]; [[1; 0]; [0; 0]]]%Q ["init"; "b"]%string ["u"; "v"]%string [1; 0]%Q "c d" in loadMDP (mdp_save m) = Ok m.
Proof.
  destruct two_states_writable as (V & M). intros m. apply C65_MDP_save_load; [vm_compute; reflexivity|one|exact V|].
  intros a [<-|[<-|[]]] r [<-|[<-|[]]] x [<-|[<-|[]]]; solve [apply (M [0; 1]%Q); cbn; tauto|apply (M [1 # 2; 1 # 2]%Q); cbn; tauto].
Qed.
Example C65_instance_HMM : let m := mkHMM [[0; 1]; [1 # 2; 1 # 2]]%Q [[1; 0]; [0; 1]]%Q ["a"; "b"]%string [1 # 2; 1 # 2]%Q "c d" in loadHMM (hmm_save m) = Ok m.
Proof.
  destruct two_states_writable as (V & M). intros m. apply C65_HMM_save_load; [vm_compute; reflexivity|one|apply (M [1 # 2; 1 # 2]%Q); cbn; tauto|exact M|].
  intros r [<-|[<-|[]]] x [<-|[<-|[]]]; solve [apply (M [0; 1]%Q); cbn; tauto|apply (M [1 # 2; 1 # 2]%Q); cbn; tauto].
Qed.
Example C65_instance_GoHMM : let m := mkGO [[0; 1]; [1 # 2; 1 # 2]]%Q [[(0, 1)]; [(1 # 2, 1)]]%Q [1; 0]%Q "c d" in loadGoHMM (go_save m) = Ok m.
Proof.
  destruct two_states_writable as (V & M). intros m. apply C65_GoHMM_save_load; [vm_compute; reflexivity|one|exact V|exact M|].
  intros l p [<-|[<-|[]]] [<-|[]]; split; solve [apply (M [0; 1]%Q); cbn; tauto|apply (M [1 # 2; 1 # 2]%Q); cbn; tauto].
Qed.

(** Non-vacuity for C15: labels with both kinds of quotes, a newline, a
    float, nested lists. *)
Example C15_instance : let s := mkset [PList [PStr "a"; PStr (String (ascii_of_nat 10) "it's ""x"" \")]; PList [PStr "b"; PFlt (1 # 2)%Q; PInt (-3)]; PList []] [2%Z; 1%Z; 7%Z] (Some 4%Z) in
  loadSet (set_save s) = Ok s.
Proof.
  intros s. apply C15_save_load; [reflexivity| |discriminate]. destruct two_states_writable as (_ & M).
  intros v [<-|[<-|[<-|[]]]]; cbn; repeat split; try exact I; apply (M [1 # 2; 1 # 2]%Q); cbn; tauto.
Qed.

(** A name that contains a newline makes the file unreadable. *)
Theorem C65_newline_refuted : exists m : mc Q, MC_new (mc_mat m) (mc_lab m) (mc_name m) = Ok m /\ writable_vec (mc_ini m) /\ writable_mat (mc_mat m) /\
  exists e, loadMC (mc_save m) = Err e.
Proof.
  exists (mkMC (mc_mat two_states) ["init"; "b"]%string (mc_ini two_states) (String "a" (String (ascii_of_nat 10) "b"))).
  split; [vm_compute; reflexivity|]. split; [exact (proj1 two_states_writable)|]. split; [exact (proj2 two_states_writable)|eexists; vm_compute; reflexivity].
Qed.
Print Assumptions C65_newline_refuted.

(** The initial distribution is written by [save] and not read back: a model
    whose labels were changed comes back with another initial distribution. *)
Theorem C65_initial_refuted : exists (m : mc Q) m', m = fst (MC_updateLabelling two_states ["a"; "init"]%string) /\ loadMC (mc_save m) = Ok m' /\
  mc_ini m = [1; 0]%Q /\ mc_ini m' = [0; 1]%Q.
Proof. eexists; eexists. split; [reflexivity|]. split; [vm_compute; reflexivity|]. split; reflexivity. Qed.
Print Assumptions C65_initial_refuted.

(** ** C85: files of another kind *)
Definition first_line (t : text) : string := t2s (fst (nextline (newlines t))).
Theorem C85_MC_rejects : forall K (TK : Text K) (NK : Num K) t, first_line t <> "MC"%string -> loadMC (K := K) t = Err ValueError.
Proof. intros K TK NK t H. unfold loadMC, first_line in *. destruct (nextline (newlines t)) as [h r]. cbn [fst] in H. apply String.eqb_neq in H. rewrite H. reflexivity. Qed.
Theorem C85_MDP_rejects : forall K (TK : Text K) (NK : Num K) t, first_line t <> "MDP"%string -> loadMDP (K := K) t = Err ValueError.
Proof. intros K TK NK t H. unfold loadMDP, first_line in *. destruct (nextline (newlines t)) as [h r]. cbn [fst] in H. apply String.eqb_neq in H. rewrite H. reflexivity. Qed.
Print Assumptions C85_MC_rejects.
Print Assumptions C85_MDP_rejects.
(** Every saved file starts with the name of its class, so none of the other
    classes can be loaded as an MC or an MDP. *)
Theorem C85_headers : forall K (TK : Text K) (c : mc K) (t : ctmc K) (d : mdp K) (h : hmm K) (g : gohmm K),
  first_line (mc_save c) = "MC"%string /\ first_line (ctmc_save t) = "CTMC"%string /\ first_line (mdp_save d) = "MDP"%string /\
  first_line (hmm_save h) = "HMM"%string /\ first_line (go_save g) = "GoHMM"%string.
Proof.
  intros. assert (A : forall s r, plain (s2t s) -> first_line (line (s2t s) ++ r) = s). { intros s r P. unfold first_line. rewrite newlines_line by exact P. rewrite nextline_line by exact P. apply t2s_s2t. }
  repeat split; apply A; apply plain_lit; reflexivity.
Qed.
Print Assumptions C85_headers.

(** [loadCTMC], [loadHMM] and [loadGoHMM] do not depend on the first line. *)
Theorem C85_ignored_refuted : forall K (TK : Text K) (NK : Num K) a b rest, plain a -> plain b ->
  loadCTMC (K := K) (line a ++ rest) = loadCTMC (line b ++ rest) /\ loadHMM (K := K) (line a ++ rest) = loadHMM (line b ++ rest) /\ loadGoHMM (K := K) (line a ++ rest) = loadGoHMM (line b ++ rest).
Proof.
  intros K TK NK a b rest A B. repeat split; [unfold loadCTMC|unfold loadHMM|unfold loadGoHMM]; rewrite !newlines_line by assumption; rewrite !nextline_line by assumption; reflexivity.
Qed.
Print Assumptions C85_ignored_refuted.
Theorem C85_CTMC_refuted : exists m, loadCTMC (mc_save two_states) = Ok m.
Proof. eexists. vm_compute. reflexivity. Qed.
Print Assumptions C85_CTMC_refuted.
Example C85_instance : loadMC (K := Q) (ctmc_save (mkCTMC [[0; 1]; [1 # 2; 0]]%Q ["init"; "b"]%string [1; 0]%Q "c d")) = Err ValueError.
Proof. apply C85_MC_rejects. vm_compute. discriminate. Qed.

(** C120: the Prism file of a parametric CTMC. *)
From Coq Require Import String Ascii ZArith QArith Qround Bool DecimalString Reals Lia List.
From Verif Require Import Num Py MTools MSet MModels MCtor MText SText LText MPrism SPrism LPrism PPrism MPctmc MPText MPPrism SPPrism SCtor PCtor SPctmc PPctmc.
Import ListNotations.
Local Open Scope nat_scope.

(** ** Vocabulary *)
(** The words of a rate, with [^] for powers. *)
Definition rate_words {K} `{Num K} `{Sym K} (e : expr K) : list tok := words (caret (s2t (show_expr e))).
(** Rates are written with at least one word and without colons. *)
Definition rates_ok {K} `{Num K} `{Sym K} (m : pctmc K) : Prop :=
  forall e, In e (pc_expr m) -> rate_words e <> [] /\ ~ In (TSym ":"%char) (rate_words e).
(** References of the matrix are valid. *)
Definition refs_ok {K} (m : pctmc K) : Prop := forall r k, In r (pc_mat m) -> In k r -> k < length (pc_expr m).
(** The transition from s to s' has an expression other than the first, [e]. *)
Definition pentry {K} `{Num K} (m : pctmc K) (s s' : nat) (e : expr K) : Prop :=
  exists row k, nth_error (pc_mat m) s = Some row /\ nth_error row s' = Some k /\ k <> 0 /\ nth_error (pc_expr m) k = Some e.

Section Lines.
  Context {K : Type} `{NK : Num K} `{TK : Text K} `{SK : Sym K}.
  Local Open Scope char_scope.

  (** *** Constants *)
  Definition const_toks (c : string * option K) : list tok :=
    [TId "const"; TId "double"; TId (fst c)] ++ match snd c with Some v => [TSym "="; TNum (show v)] | None => [] end ++ [TSym ";"].
  Lemma words_const m p u : name_ok p -> (forall v, parameterValue m p = Some v -> number_ok v) -> words (const_line m p ++ u) = const_toks (p, parameterValue m p) ++ words u.
  Proof.
    intros N V. unfold const_line, const_toks, inst_param. cbn [fst snd]. change (dget (pc_val m) p) with (parameterValue m p). rewrite <- !app_assoc. rewrite (words_lit "const double ") by reflexivity.
    destruct (parameterValue m p) as [v|].
    - rewrite words_before by reflexivity. rewrite (words_name _ N). rewrite <- !app_assoc. rewrite (words_lit " = ") by reflexivity. rewrite words_before by reflexivity. rewrite words_num by (apply V; reflexivity).
      rewrite (words_lit ";") by reflexivity. cbn [app]. rewrite words_nl. reflexivity.
    - cbn [app]. rewrite words_before by reflexivity. rewrite (words_name _ N). rewrite (words_lit ";") by reflexivity. cbn [app]. rewrite words_nl. reflexivity.
  Qed.
  Lemma words_consts m : forall l u, (forall p, In p l -> name_ok p /\ forall v, parameterValue m p = Some v -> number_ok v) ->
    words (flat_map (const_line m) l ++ u) = flat_map const_toks (map (fun p => (p, parameterValue m p)) l) ++ words u.
  Proof.
    induction l as [|p l IH]; intros u N; [reflexivity|]. cbn [flat_map map]. destruct (N p (or_introl eq_refl)). rewrite <- !app_assoc, words_const by assumption.
    rewrite IH by (intros; apply N; right; assumption). reflexivity.
  Qed.
  Definition not_const (ts : list tok) : Prop := match ts with TId s :: _ => s <> "const"%string | _ => True end.
  Lemma get_consts_ok : forall (l : list (string * option K)) f r, (forall c, In c l -> name_ok (fst c) /\ forall v, snd c = Some v -> number_ok v) -> length l < f ->
    get_consts f (flat_map const_toks l ++ TId "module" :: r) = Some (l, TId "module" :: r).
  Proof.
    induction l as [|[p o] l IH]; intros f r N L; (destruct f as [|f]; [cbn in L; lia|]); [reflexivity|].
    destruct (N _ (or_introl eq_refl)) as (A & B). cbn [fst snd] in A, B. cbn [flat_map]. rewrite <- !app_assoc. unfold const_toks at 1. cbn [fst snd]. rewrite <- !app_assoc. cbn [app get_consts expect tok_eqb String.eqb Ascii.eqb Bool.eqb]. rewrite (get_id_ok p _ A).
    assert (L' : length l < f) by (cbn [length] in L; lia). specialize (IH f r (fun c I => N c (or_intror I)) L'). destruct o as [v|]; cbn [app].
    - cbn [get_num]. destruct (B v eq_refl) as (_ & _ & _ & _ & _ & E). rewrite E. cbn [expect tok_eqb ceq Ascii.eqb Bool.eqb]. rewrite IH. reflexivity.
    - rewrite IH. reflexivity.
  Qed.

  (** *** Commands *)
  Definition pbranch (m : pctmc K) (sk : nat * nat) : text := s2t " " ++ rate_text m (snd sk) ++ s2t " : (s'=" ++ show_nat (fst sk) ++ s2t ")".
  Definition pbranch_toks (sx : nat * list tok) : list tok :=
    snd sx ++ [TSym ":"; TSym "("; TId "s"; TSym "'"; TSym "="; TNum (t2s (show_nat (fst sx))); TSym ")"].
  Definition rwords (m : pctmc K) (sk : nat * nat) : nat * list tok := (fst sk, words (rate_text m (snd sk))).
  Definition rate_ok (x : list tok) : Prop := x <> [] /\ ~ In (TSym ":") x.
  Lemma words_pbranch m sk u : words (pbranch m sk ++ u) = pbranch_toks (rwords m sk) ++ words u.
  Proof.
    unfold pbranch, pbranch_toks, rwords. cbn [fst snd]. rewrite <- !app_assoc. rewrite words_lit by reflexivity. rewrite words_before by reflexivity. rewrite (words_lit " : (s'=") by reflexivity.
    rewrite words_before by reflexivity. rewrite words_nat. rewrite words_lit by reflexivity. reflexivity.
  Qed.
  Lemma words_pbranches m : forall l x u, words (sepmap (pbranch m) (s2t " +") x l ++ u) = sepmap pbranch_toks [TSym "+"] (rwords m x) (map (rwords m) l) ++ words u.
  Proof.
    induction l as [|y l IH]; intros x u; cbn [sepmap map]; [apply words_pbranch|]. rewrite <- !app_assoc. rewrite words_pbranch. rewrite words_plus. rewrite IH. reflexivity.
  Qed.
  Lemma before_colon_ok x r : ~ In (TSym ":") x -> before_colon (x ++ TSym ":" :: r) = Some (x, r).
  Proof.
    induction x as [|a x IH]; intros N; [reflexivity|]. specialize (IH (fun I => N (or_intror I))). cbn [app before_colon]. rewrite IH.
    destruct a as [s|s|c]; try reflexivity. destruct (ceq c ":") eqn:E; [apply ceq_eq in E; subst c; destruct N; left; reflexivity|].
    destruct c as [[] [] [] [] [] [] [] []]; try reflexivity; discriminate.
  Qed.
  Lemma get_rate_ok x r : rate_ok x -> get_rate (x ++ TSym ":" :: r) = Some (x, r).
  Proof. intros (A & B). unfold get_rate. rewrite before_colon_ok by exact B. destruct x; [congruence|reflexivity]. Qed.
  Lemma get_pbranches_ok : forall l x f r, (forall y, In y (x :: l) -> rate_ok (snd y)) -> length l < f ->
    get_pbranches f (sepmap pbranch_toks [TSym "+"] x l ++ TSym ";" :: r) = Some (x :: l, r).
  Proof.
    induction l as [|y l IH]; intros [s x] f r N L; (destruct f as [|f]; [lia|]); cbn [sepmap]; unfold pbranch_toks at 1; cbn [fst snd get_pbranches]; rewrite <- ?app_assoc; cbn [app];
      (rewrite get_rate_ok by (apply (N (s, x)); left; reflexivity)); cbn [expect tok_eqb ceq Ascii.eqb Bool.eqb String.eqb]; rewrite get_nat_ok; cbn [expect tok_eqb ceq Ascii.eqb Bool.eqb].
    - reflexivity.
    - rewrite IH; [reflexivity|intros z I; apply N; right; exact I|cbn [length] in L; lia].
  Qed.
  Definition pcmd_toks (c : string * nat * list (nat * list tok)) : list tok :=
    let '(_, s, b) := c in
    [TSym "["; TSym "]"; TId "s"; TSym "="; TNum (t2s (show_nat s)); TSym "-"; TSym ">"] ++ match b with [] => [] | x :: l => sepmap pbranch_toks [TSym "+"] x l end ++ [TSym ";"].
  Definition pcmd_of (m : pctmc K) (s : nat) : list (string * nat * list (nat * list tok)) :=
    match refs 0 (nth s (pc_mat m) []) with [] => [] | b => [(EmptyString, s, map (rwords m) b)] end.
  Lemma refs_empty i row : refs i row = [] <-> existsb (fun k => negb (k =? 0)%nat) row = false.
  Proof. revert i. induction row as [|x r IH]; intros i; cbn [refs existsb]; [tauto|]. destruct (x =? 0)%nat; cbn [orb negb]; [apply IH|split; discriminate]. Qed.
  Lemma words_pcommand m s u : words (pcommand m s ++ u) = flat_map pcmd_toks (pcmd_of m s) ++ words u.
  Proof.
    unfold pcommand, pcmd_of. set (row := nth s (pc_mat m) []). cbv zeta. destruct (existsb _ row) eqn:E.
    - destruct (refs 0 row) as [|x l] eqn:S; [apply refs_empty in S; congruence|].
      set (pre := s2t "	[] s=" ++ show_nat s ++ s2t " ->").
      match goal with |- context [firstn ?n ?t] => replace t with (pre ++ sepmap (pbranch m) (s2t " +") x l ++ s2t " +") end.
      2: { unfold pre. rewrite <- flat_map_sep. rewrite <- !app_assoc. do 3 f_equal. apply flat_map_ext. intros y. unfold pbranch. rewrite <- !app_assoc. reflexivity. }
      rewrite (app_assoc pre). rewrite (chop_end (pre ++ sepmap (pbranch m) (s2t " +") x l) (s2t " +") 2) by reflexivity. unfold pre. rewrite <- !app_assoc.
      rewrite words_lit by reflexivity. rewrite words_before by reflexivity. rewrite words_nat. rewrite words_lit by reflexivity. rewrite words_pbranches.
      rewrite words_lit by reflexivity. cbn [app]. rewrite words_nl. cbn [flat_map pcmd_toks map]. rewrite <- !app_assoc. reflexivity.
    - assert (refs 0 row = []) as -> by (apply refs_empty, E). reflexivity.
  Qed.
  Lemma words_pcommands m : forall l u, words (flat_map (pcommand m) l ++ u) = flat_map pcmd_toks (flat_map (pcmd_of m) l) ++ words u.
  Proof. induction l as [|s l IH]; intros u; [reflexivity|]. cbn [flat_map]. rewrite <- app_assoc, words_pcommand, IH, flat_map_app, app_assoc. reflexivity. Qed.
  Lemma get_pcommands_ok : forall l f r, (forall a s b, In (a, s, b) l -> a = EmptyString /\ b <> [] /\ forall y, In y b -> rate_ok (snd y)) -> length l < f ->
    get_pcommands f (flat_map pcmd_toks l ++ TId "endmodule" :: r) = Some (l, r).
  Proof.
    induction l as [|[[a s] b] l IH]; intros f r N L; (destruct f as [|f]; [cbn in L; lia|]); [reflexivity|].
    destruct (N a s b (or_introl eq_refl)) as (-> & B & Nb). destruct b as [|x b]; [congruence|]. cbn [flat_map pcmd_toks]. rewrite <- !app_assoc. cbn [app get_pcommands get_action].
    cbn [expect tok_eqb ceq Ascii.eqb Bool.eqb String.eqb]. rewrite get_nat_ok. cbn [expect tok_eqb ceq Ascii.eqb Bool.eqb].
    rewrite get_pbranches_ok; [|exact Nb|].
    - rewrite IH; [reflexivity|intros; apply (N a s0 b0); right; assumption|cbn [length] in L; lia].
    - rewrite app_length. clear. revert x. induction b as [|y b IH]; intros x; cbn [sepmap length]; [lia|]. rewrite app_length. cbn [length app]. specialize (IH y). cbn [length] in IH. lia.
  Qed.

  Lemma refs_in (row : list nat) i j k : In (j, k) (refs i row) <-> i <= j /\ nth_error row (j - i) = Some k /\ k <> 0%nat.
  Proof.
    revert i. induction row as [|a r IH]; intros i; cbn [refs].
    - split; [intros []|]. intros (_ & E & _). destruct (j - i); discriminate.
    - assert (G : i < j -> (In (j, k) (refs (S i) r) <-> i <= j /\ nth_error (a :: r) (j - i) = Some k /\ k <> 0%nat)).
      { intros L. rewrite IH. replace (j - i) with (S (j - S i)) by lia. cbn [nth_error]. intuition lia. }
      destruct (Nat.lt_trichotomy j i) as [L|[->|L]].
      + split; [|lia]. destruct (a =? 0)%nat; [intros I|intros [[= <- <-]|I]]; try lia; apply IH in I; lia.
      + rewrite Nat.sub_diag. cbn [nth_error]. split.
        * destruct (Nat.eqb_spec a 0) as [E|E]; [intros I; apply IH in I; lia|]. intros [[= <-]|I]; [auto|apply IH in I; lia].
        * intros (_ & [= ->] & E). destruct (Nat.eqb_spec k 0); [contradiction|]. left. reflexivity.
      + rewrite <- (G L). destruct (a =? 0)%nat; [reflexivity|]. split; [intros [[= <- <-]|I]; [lia|exact I]|intros I; right; exact I].
  Qed.
  Lemma refs_nodup (row : list nat) i : NoDup (map fst (refs i row)).
  Proof.
    revert i. induction row as [|a r IH]; intros i; cbn [refs]; [constructor|]. destruct (a =? 0)%nat; [apply IH|]. cbn [map fst]. constructor; [|apply IH].
    intros I. apply in_map_iff in I as ([j x] & E & I). cbn in E. subst. apply refs_in in I. lia.
  Qed.
End Lines.

(** The Prism file declares every parameter, in order, with its value if it has
    one, and lists exactly the transitions of the model, with their expressions,
    and its labels; it starts in the initial state.  The range of the variable
    has one state more than the model. *)
Theorem C120_prism : forall K (NK : Num K) (TK : Text K) (SK : Sym K) (m : pctmc K) i,
  length (pc_lab m) = pc_n m -> names_ok (pc_name m) (pc_lab m) -> (forall p, In p (pc_par m) -> name_ok p) ->
  (forall p v, In p (pc_par m) -> parameterValue m p = Some v -> number_ok v) -> refs_ok m -> rates_ok m -> starts_at (pc_ini m) i ->
  exists t cs p, pctmc_savePrism m = Ok t /\ read_pprism t = Some (cs, p) /\
    cs = map (fun x => (x, parameterValue m x)) (pc_par m) /\
    p_kind p = "ctmc"%string /\ p_name p = pc_name m /\ p_max p = pc_n m /\ p_init p = i /\
    lists_transitions p (fun a s s' ws => a = EmptyString /\ exists e, pentry m s s' e /\ ws = rate_words e) /\ lists_labels p (pc_lab m).
Proof.
  intros K NK TK SK m i LL (Nn & Nl) NP NV RO RT ST.
  assert (F : first_one 0 (pc_ini m) = Ok i) by (apply first_one_ok; rewrite Nat.sub_0_r; split; [lia|exact ST]).
  unfold pctmc_savePrism. rewrite F. cbn [bind]. eexists _, _, _. split; [reflexivity|].
  set (cmds := flat_map (pcmd_of m) (seq 0 (pc_n m))).
  assert (C : forall a s b, In (a, s, b) cmds <-> a = EmptyString /\ s < pc_n m /\ b = map (rwords m) (refs 0 (nth s (pc_mat m) [])) /\ b <> []).
  { intros a s b. unfold cmds. rewrite in_flat_map. split.
    - intros (t & I & J). apply in_seq in I. unfold pcmd_of in J. destruct (refs 0 (nth t (pc_mat m) [])) as [|x l] eqn:E; [destruct J|]. destruct J as [[= <- <- <-]|[]]. rewrite E. repeat split; [lia|discriminate].
    - intros (-> & I & -> & E). exists s. split; [apply in_seq; lia|]. unfold pcmd_of. destruct (refs 0 (nth s (pc_mat m) [])); [destruct E; reflexivity|]. left. reflexivity. }
  assert (En : forall s s' ws, s < pc_n m -> (In (s', ws) (map (rwords m) (refs 0 (nth s (pc_mat m) []))) <-> exists e, pentry m s s' e /\ ws = rate_words e)).
  { intros s s' ws I. rewrite in_map_iff. split.
    - intros ([j k] & [= -> <-] & J). apply refs_in in J as (_ & J & Z). rewrite Nat.sub_0_r in J. cbn [snd].
      assert (Ik : k < length (pc_expr m)). { apply (RO (nth s (pc_mat m) [])); [apply nth_In, I|]. eapply nth_error_In; exact J. }
      exists (nth k (pc_expr m) (EConst n0)). split; [|reflexivity]. exists (nth s (pc_mat m) []), k. split; [apply nth_error_nth'; exact I|]. split; [exact J|]. split; [exact Z|]. apply nth_error_nth', Ik.
    - intros (e & (row & k & E1 & E2 & Z & E3) & ->). exists (s', k). apply nth_error_nth with (d := []) in E1. rewrite E1. split.
      + unfold rwords, rate_text, rate_words. cbn [fst snd]. apply nth_error_nth with (d := EConst n0) in E3. rewrite E3. reflexivity.
      + apply refs_in. rewrite Nat.sub_0_r. split; [lia|]. split; [exact E2|exact Z]. }
  assert (Cok : forall a s b, In (a, s, b) cmds -> a = EmptyString /\ b <> [] /\ forall y, In y b -> rate_ok (snd y)).
  { intros a s b I. apply C in I as (-> & I & -> & NE). split; [reflexivity|]. split; [exact NE|]. intros [s' ws] J. apply (En s s' ws I) in J as (e & (row & k & _ & _ & _ & E) & ->). cbn [snd].
    apply RT. eapply nth_error_In; exact E. }
  destruct (label_table_spec (pc_lab m)) as (T1 & T2 & T3).
  assert (TL : forall q, In q (label_table (pc_lab m)) -> name_ok (fst q) /\ snd q <> []).
  { intros [l q] J. destruct (T2 l q J) as (E & _). cbn [fst snd]. split; [|exact E]. destruct q as [|s q]; [congruence|].
    destruct (proj1 (T3 l s) (ex_intro _ _ (conj J (or_introl eq_refl)))) as (I1 & I2). apply Nl; [|exact I2]. apply in_combine_r in I1. exact I1. }
  split.
  { unfold read_pprism. rewrite words_before by reflexivity. change (words (s2t "ctmc")) with [TId "ctmc"]. cbn [app]. rewrite !words_nl. cbn [String.eqb Ascii.eqb Bool.eqb negb].
    rewrite words_consts by (intros p I; split; [apply NP, I|intros v V; apply (NV p v I V)]). cbn [app]. rewrite !words_nl.
    rewrite (words_lit "module ") by reflexivity. change (words (s2t "module ")) with [TId "module"]. rewrite words_before by reflexivity. rewrite (words_name _ Nn). cbn [app]. rewrite !words_nl.
    rewrite words_range. rewrite words_before by reflexivity. rewrite words_nat. rewrite (words_lit "] init ") by reflexivity. change (words (s2t "] init ")) with [TSym "]"; TId "init"]. rewrite words_before by reflexivity. rewrite words_nat.
    rewrite (words_lit ";") by reflexivity. change (words (s2t ";")) with [TSym ";"]. cbn [app]. rewrite !words_nl.
    rewrite words_pcommands. fold cmds. rewrite words_before by reflexivity. change (words (s2t "endmodule")) with [TId "endmodule"]. cbn [app]. rewrite !words_nl.
    rewrite words_labels by exact TL.
    rewrite get_consts_ok.
    2:{ intros c I. apply in_map_iff in I as (p & <- & I). cbn [fst snd]. split; [apply NP, I|intros v V; apply (NV p v I V)]. }
    2:{ rewrite app_length. enough (length (map (fun x => (x, parameterValue m x)) (pc_par m)) <= length (flat_map const_toks (map (fun x => (x, parameterValue m x)) (pc_par m)))) by lia. apply flat_map_length_ge. intros c _. unfold const_toks. cbn. lia. }
    cbn [expect tok_eqb String.eqb Ascii.eqb Bool.eqb]. rewrite (get_id_ok _ _ Nn). cbn [expect tok_eqb ceq String.eqb Ascii.eqb Bool.eqb]. rewrite get_nat_ok. cbn [expect tok_eqb ceq String.eqb Ascii.eqb Bool.eqb]. rewrite get_nat_ok.
    cbn [expect tok_eqb ceq Ascii.eqb Bool.eqb]. rewrite get_pcommands_ok; [|exact Cok|].
    - rewrite get_labels_ok; [reflexivity|exact TL|]. enough (length (label_table (pc_lab m)) <= length (flat_map label_toks (label_table (pc_lab m)))) by lia. apply flat_map_length_ge. intros q _. unfold label_toks. cbn. lia.
    - rewrite app_length. cbn [length]. enough (length cmds <= length (flat_map pcmd_toks cmds)) by lia. apply flat_map_length_ge. intros [[a s] b] _. cbn. lia. }
  split; [reflexivity|]. do 4 (split; [reflexivity|]). split; [|apply labels_listed; reflexivity]. split; [|split]; cbn [p_cmds].
  - unfold cmds. rewrite map_flat_map. apply NoDup_flat_map; [apply seq_NoDup| |].
    + intros s _. unfold pcmd_of. destruct (refs 0 _); cbn [map]; repeat constructor. intros [].
    + intros s t z _ _ I J. apply in_map_iff in I as (c & <- & I). apply in_map_iff in J as (d & E & J). unfold pcmd_of in I, J. destruct (refs 0 (nth s _ _)); [destruct I|]. destruct (refs 0 (nth t _ _)); [destruct J|]. destruct I as [<-|[]]. destruct J as [<-|[]]. cbn in E. congruence.
  - intros [a s] b I. apply C in I as (_ & _ & -> & _). rewrite map_map. apply refs_nodup.
  - intros a s s' x. split.
    + intros (b & I & J). apply C in I as (-> & I & -> & _). split; [reflexivity|]. apply En; assumption.
    + intros (-> & E). assert (I : s < pc_n m). { destruct E as (e & (row & k & E & _) & _). apply nth_error_Some_lt in E. exact E. }
      apply En in E; [|exact I]. exists (map (rwords m) (refs 0 (nth s (pc_mat m) []))). split; [|exact E]. apply C. repeat split; [exact I|]. intros Z. rewrite Z in E. exact E.
Qed.
Print Assumptions C120_prism.

(** A model accepted by the constructor has a Prism file exactly when one state
    only is labelled init; that state is then the initial one. *)
Theorem C120_savePrism : forall (TK : Text R) (SK : Sym R) matrix labels exprs values indexes params name (m : pctmc R),
  PCTMC_new matrix labels exprs values indexes params name = Ok m ->
  ((exists t, pctmc_savePrism m = Ok t) <-> label_count "init" labels = 1) /\ (forall e, pctmc_savePrism m = Err e -> e = IndexError) /\
  (forall i, nth_error labels i = Some "init"%string -> label_count "init" labels = 1 -> starts_at (pc_ini m) i).
Proof.
  intros TK SK matrix labels exprs values indexes params name m E. destruct (C86_PCTMC_constructor matrix labels exprs values indexes params name) as (A & B & _). pose proof (B m E) as AT. destruct (proj1 A (ex_intro _ m E)) as (I & _).
  assert (U : uniform_on_init labels (pc_ini m)) by (decompose [and] AT; assumption).
  destruct (first_one_init labels (pc_ini m) U I) as (F1 & F2). unfold pctmc_savePrism.
  destruct (Nat.eq_dec (label_count "init" labels) 1) as [C|C].
  - destruct (F1 C) as (i & Ei & F). rewrite F. cbn [bind]. split; [split; [auto|eauto]|]. split; [discriminate|]. intros j Ej _.
    rewrite (count_one_unique "init" labels j i C Ej Ei). apply first_one_ok in F. rewrite Nat.sub_0_r in F. apply F.
  - rewrite (F2 C). cbn [bind]. split; [split; [intros (t & T); discriminate|intros; contradiction]|]. split; [intros e [= <-]; reflexivity|intros; contradiction].
Qed.
Print Assumptions C120_savePrism.

(** ** Examples over the rationals *)
#[local] Instance QText : Text Q := {
  show := fun q => (NilZero.string_of_int (Z.to_int (Qfloor (q * 1000))) ++ "e-3")%string;
  read := fun s => let t := s2t s in match read_int (firstn (length t - 3) t) with Some z => Some (Qred (z # 1000)) | None => None end }.
#[local] Instance QSym : Sym Q := {
  show_expr := fun e => match e with EConst c => show c | EVar x => x | EMul (EConst c) (EPow (EVar x) 2) => (show c ++ "*" ++ x ++ "**2")%string | _ => "?"%string end;
  read_expr := fun s => None }.
Definition pP : pctmc Q := mkPC [[0; 1; 0]; [2; 0; 3]; [3; 0; 0]]%nat ["a"; "b_1"; "init"]%string [EConst 0; EVar "x"; EMul (EConst 2) (EPow (EVar "y") 2); EConst (1 # 2)]%Q
  [("x"%string, 3 # 2)]%Q [[(0, 1)%Z]; [(1, 0)%Z]] ["x"; "y"]%string [0; 0; 1]%Q "cell".
Lemma pP_new : PCTMC_new [[0; 1; 0]; [2; 0; 3]; [3; 0; 0]]%Z (pc_lab pP) (pc_expr pP) [("x"%string, Some (3 # 2)%Q)] (pc_ind pP) (pc_par pP) "cell" = Ok pP.
Proof. vm_compute. reflexivity. Qed.
Example C120_file : exists t, pctmc_savePrism pP = Ok t /\ t = s2t "ctmc

const double x = 1500e-3;
const double y;

module cell
	s: [0..3] init 2;

	[] s=0 -> x : (s'=1);
	[] s=1 -> 2000e-3*y^2 : (s'=0) + 500e-3 : (s'=2);
	[] s=2 -> 500e-3 : (s'=0);
endmodule

label ""a"" = s=0 ;
label ""b_1"" = s=1 ;
"%string.
Proof. eexists. split; vm_compute; reflexivity. Qed.
Example C120_instance : exists t cs p, pctmc_savePrism pP = Ok t /\ read_pprism t = Some (cs, p) /\ cs = [("x"%string, Some (3 # 2)%Q); ("y"%string, None)] /\ p_init p = 2 /\
  lists_transitions p (fun a s s' ws => a = EmptyString /\ exists e, pentry pP s s' e /\ ws = rate_words e) /\ lists_labels p (pc_lab pP).
Proof.
  destruct (C120_prism Q QNum QText QSym pP 2) as (t & cs & p & E1 & E2 & E3 & _ & _ & _ & E4 & E5 & E6).
  - reflexivity.
  - split; [name "c"%char "ell"%string|]. intros l [<-|[<-|[<-|[]]]] D; [name "a"%char ""%string|name "b"%char "_1"%string|congruence].
  - intros p [<-|[<-|[]]]; [name "x"%char ""%string|name "y"%char ""%string].
  - intros p v [<-|[<-|[]]] E; vm_compute in E; [|discriminate]. injection E as <-. exists "1"%char, (s2t "500e-3"). repeat split.
  - intros r k [<-|[<-|[<-|[]]]] I; cbn in *; intuition lia.
  - intros e [<-|[<-|[<-|[<-|[]]]]]; vm_compute; (split; [discriminate|]); intros I; repeat (destruct I as [I|I]; [discriminate|]); exact I.
  - split; [exists 1%Q; split; reflexivity|]. intros [|[|k]] x L E; try lia; injection E as <-; reflexivity.
  - exists t, cs, p. subst cs. exact (conj E1 (conj E2 (conj eq_refl (conj E4 (conj E5 E6))))).
Qed.

(** The variable has a value that is not a state of the model. *)
Theorem C120_range_refuted : exists matrix labels exprs values indexes params name (m : pctmc Q) t cs p,
  PCTMC_new matrix labels exprs values indexes params name = Ok m /\ pctmc_savePrism m = Ok t /\ read_pprism (K := Q) t = Some (cs, p) /\
  pc_n m = 3 /\ p_max p = 3.
Proof.
  do 7 eexists. exists pP. do 3 eexists. split; [exact pP_new|]. split; [vm_compute; reflexivity|]. split; [vm_compute; reflexivity|]. split; reflexivity.
Qed.
Print Assumptions C120_range_refuted.
(** Two initial states: accepted by the constructor, not by savePrism. *)
Theorem C120_several_initial_refuted : exists matrix labels exprs values indexes params name (m : pctmc Q),
  PCTMC_new matrix labels exprs values indexes params name = Ok m /\ pctmc_savePrism m = Err IndexError.
Proof. exists [[0; 1]; [1; 0]]%Z, ["init"; "init"]%string, [EConst 0; EConst 1]%Q, [], [], [], "m"%string. eexists. split; vm_compute; reflexivity. Qed.
Print Assumptions C120_several_initial_refuted.

(** Files that were not written by save: any content, other line ends. *)
From Coq Require Import String Ascii ZArith QArith Qround Bool Reals List Lia Lra DecimalString.
From Verif Require Import Num Py SNum LSum MTools MSet MModels MCtor SCtor LCtor PCtor PCtor2 MText SText LText PText LCut MPctmc MPText PPText.
Import ListNotations.
Local Open Scope nat_scope.

(** ** Line ends *)
(** The lines end with CR LF (Windows) or with CR. *)
Definition with_crlf (t : text) : text := flat_map (fun c => if ceq c NL then [CR; NL] else [c]) t.
Definition with_cr (t : text) : text := map (fun c => if ceq c NL then CR else c) t.
Lemma newlines_noCR t : ~ In CR (newlines t).
Proof.
  remember (length t) as n eqn:En. assert (L : length t <= n) by lia. clear En. revert t L. induction n as [|n IH]; intros t L; [destruct t; [intros []|cbn in L; lia]|].
  destruct t as [|c t]; [intros []|]. cbn [length] in L. cbn [newlines]. destruct (ceq_spec c CR) as [->|N].
  - destruct t as [|d t]; [intros [X|[]]; discriminate|]. cbn [length] in L. destruct (ceq d NL); intros [X|X]; try discriminate; revert X; apply IH; cbn; lia.
  - intros [X|X]; [congruence|]. revert X. apply IH. lia.
Qed.
Lemma newlines_crlf t : ~ In CR t -> newlines (with_crlf t) = t.
Proof.
  induction t as [|c t IH]; intros N; [reflexivity|]. assert (IH' := IH (fun I => N (or_intror I))). cbn [with_crlf flat_map]. fold (with_crlf t). destruct (ceq_spec c NL) as [->|M].
  - cbn. rewrite IH'. reflexivity.
  - cbn [app newlines]. destruct (ceq_spec c CR) as [->|_]; [exfalso; apply N; left; reflexivity|]. rewrite IH'. reflexivity.
Qed.
Lemma newlines_cr t : ~ In CR t -> newlines (with_cr t) = t.
Proof.
  induction t as [|c t IH]; intros N; [reflexivity|]. assert (IH' := IH (fun I => N (or_intror I))). cbn [with_cr map]. fold (with_cr t). destruct (ceq_spec c NL) as [->|M].
  - cbn [newlines]. change (ceq CR CR) with true. cbn iota. destruct (with_cr t) as [|d r] eqn:E; [cbn in IH'; subst; reflexivity|].
    assert (Nd : ceq d NL = false). { destruct t as [|x t]; [discriminate|]. cbn [with_cr map] in E. injection E as <- _. destruct (ceq_spec x NL); [reflexivity|apply ceq_neq; assumption]. }
    rewrite Nd. rewrite IH'. reflexivity.
  - cbn [newlines]. destruct (ceq_spec c CR) as [->|_]; [exfalso; apply N; left; reflexivity|]. rewrite IH'. reflexivity.
Qed.
Theorem C163_line_ends : forall K (TK : Text K) (NK : Num K) (SK : Sym K) (file : text), ~ In CR file -> forall f, f = with_crlf file \/ f = with_cr file ->
  loadMC (K := K) f = loadMC file /\ loadCTMC (K := K) f = loadCTMC file /\ loadMDP (K := K) f = loadMDP file /\ loadHMM (K := K) f = loadHMM file /\
  loadGoHMM (K := K) f = loadGoHMM file /\ loadPCTMC (K := K) f = loadPCTMC file /\ loadSet (K := K) f = loadSet file.
Proof.
  intros K TK NK SK file N f Hf. assert (E : newlines f = newlines file).
  { rewrite (newlines_id file N). destruct Hf as [-> | ->]; [apply newlines_crlf, N|apply newlines_cr, N]. }
  unfold loadMC, loadCTMC, loadMDP, loadHMM, loadGoHMM, loadPCTMC, loadSet. rewrite E. repeat split.
Qed.
Print Assumptions C163_line_ends.

(** ** The name is on one line *)
Lemma readline_one t : ~ In NL (removelast (fst (readline t))) /\ (forall c, In c (fst (readline t)) -> In c t) /\ (forall c, In c (snd (readline t)) -> In c t).
Proof.
  induction t as [|c t (A & B & C)]; [repeat split; auto|]. cbn [readline]. destruct (ceq_spec c NL) as [->|N].
  - cbn. split; [auto|]. split; [intros x [<-|[]]; auto|auto].
  - destruct (readline t) as [l u]. cbn [fst snd] in *. split; [|split].
    + destruct l as [|d l]; [cbn; auto|]. cbn [removelast] in *. intros [X|X]; [congruence|exact (A X)].
    + intros x [<-|I]; [left; reflexivity|right; auto].
    + intros x I. right. auto.
Qed.
Lemma nextline_rest t c : In c (snd (nextline t)) -> In c t.
Proof. unfold nextline. destruct (readline_one t) as (_ & _ & C). destruct (readline t). apply C. Qed.
Lemma nextline_name t : ~ In CR t -> one_line (t2s (fst (nextline t))).
Proof.
  intros N. unfold nextline. destruct (readline_one t) as (A & B & _). destruct (readline t) as [l u]. cbn [fst snd] in *. unfold one_line. rewrite s2t_t2s. split; [exact A|].
  intros I. apply N, B. destruct (removelast_prefix l) as [->|[x E]]; [destruct I|rewrite E; apply in_or_app; auto].
Qed.

(** ** Any content *)
Ltac inv_bind E := match type of E with bind ?x _ = Ok _ => let v := fresh "v" in let X := fresh "X" in destruct x as [v|] eqn:X; [cbn [bind] in E|discriminate E] end.
Ltac inv_line E := match type of E with context [nextline ?t] => let l := fresh "l" in let u := fresh "u" in let X := fresh "NL" in destruct (nextline t) as [l u] eqn:X end.
Section Any.
  Context {K : Type} {TK : Text K} {NK : Num K}.
  Lemma load_tail_name t n i v : ~ In CR t -> load_tail (K := K) t = Ok (n, i, v) -> one_line n.
  Proof.
    intros N E. unfold load_tail in E. pose proof (nextline_name t N) as O. destruct (nextline t) as [a t1]. cbn [fst] in O. destruct (nextline t1) as [b t2].
    repeat inv_bind E. destruct (nextline t2). repeat inv_bind E. injection E as <- _ _. exact O.
  Qed.
  Lemma rest_noCR t l u : nextline t = (l, u) -> ~ In CR t -> ~ In CR u.
  Proof. intros E N I. apply N, nextline_rest. rewrite E. exact I. Qed.
  Lemma loadMC_ends file m : loadMC (K := K) file = Ok m -> one_line (mc_name m) /\ MC_new (mc_mat m) (mc_lab m) (mc_name m) = Ok m.
  Proof.
    intros E. unfold loadMC in E. inv_line E. destruct (negb _); [discriminate|]. inv_line E. repeat inv_bind E. destruct v1 as [[n i] mm]. cbn [fst snd] in *.
    assert (O : one_line n). { apply load_tail_name in X1; [exact X1|]. eapply rest_noCR; [eassumption|]. eapply rest_noCR; [eassumption|apply newlines_noCR]. }
    pose proof E as E0. unfold MC_new in E. inv_bind E. destruct (forallb _ _); [|discriminate]. injection E as <-. cbn. split; [exact O|exact E0].
  Qed.
  Lemma loadCTMC_ends file m : loadCTMC (K := K) file = Ok m -> one_line (ct_name m) /\ CTMC_new (ct_mat m) (ct_lab m) (ct_name m) = Ok m.
  Proof.
    intros E. unfold loadCTMC in E. inv_line E. inv_line E. repeat inv_bind E. destruct v1 as [[n i] mm]. cbn [fst snd] in *.
    assert (O : one_line n). { apply load_tail_name in X1; [exact X1|]. eapply rest_noCR; [eassumption|]. eapply rest_noCR; [eassumption|apply newlines_noCR]. }
    pose proof E as E0. unfold CTMC_new in E. inv_bind E. injection E as <-. cbn. split; [exact O|exact E0].
  Qed.
  Lemma loadMDP_ends file m : loadMDP (K := K) file = Ok m -> one_line (mdp_name m) /\ MDP_new (mdp_mat m) (mdp_lab m) (mdp_act m) (mdp_name m) = Ok m.
  Proof.
    intros E. unfold loadMDP in E. inv_line E. destruct (negb _); [discriminate|]. inv_line E. repeat inv_bind E. inv_line E. repeat inv_bind E. destruct v3 as [[n i] mm]. cbn [fst snd] in *.
    assert (O : one_line n). { apply load_tail_name in X3; [exact X3|]. eapply rest_noCR; [eassumption|]. eapply rest_noCR; [eassumption|]. eapply rest_noCR; [eassumption|apply newlines_noCR]. }
    pose proof E as E0. unfold MDP_new in E. repeat inv_bind E. injection E as <-. cbn. split; [exact O|exact E0].
  Qed.
  Lemma base_hmm_list (m : list (list K)) i v : base_hmm_init m (IniList i) = Ok v -> v = i.
  Proof. unfold base_hmm_init, model_init. destruct (negb _); cbn [bind]; [discriminate|]. destruct (forallb _ _); congruence. Qed.
  Lemma loadHMM_ends file m : loadHMM (K := K) file = Ok m -> one_line (hmm_name m) /\ HMM_new (hmm_mat m) (hmm_out m) false (hmm_alph m) (IniList (hmm_ini m)) (hmm_name m) = Ok m.
  Proof.
    intros E. unfold loadHMM in E. inv_line E. inv_line E. repeat inv_bind E. inv_line E. repeat inv_bind E. destruct v3 as [[n i] mm]. cbn [fst snd] in *.
    assert (O : one_line n). { apply load_tail_name in X3; [exact X3|]. eapply rest_noCR; [eassumption|]. eapply rest_noCR; [eassumption|]. eapply rest_noCR; [eassumption|apply newlines_noCR]. }
    pose proof E as E0. unfold HMM_new in E. inv_bind E.
    apply base_hmm_list in X5. subst v3.
    inv_bind E. injection E as <-. cbn. split; [exact O|exact E0].
  Qed.
  Lemma loadGoHMM_ends file m : loadGoHMM (K := K) file = Ok m -> one_line (go_name m) /\ GoHMM_new (go_mat m) (go_out m) (IniList (go_ini m)) (go_name m) = Ok m.
  Proof.
    intros E. unfold loadGoHMM in E. inv_line E. inv_line E. repeat inv_bind E. destruct v2 as [[n i] mm]. cbn [fst snd] in *.
    assert (O : one_line n). { apply load_tail_name in X2; [exact X2|]. eapply rest_noCR; [eassumption|]. eapply rest_noCR; [eassumption|apply newlines_noCR]. }
    pose proof E as E0. unfold GoHMM_new in E. destruct v1 as [|o0 v1]; [discriminate|]. destruct (negb _); [discriminate|]. destruct (concat (o0 :: v1)); [discriminate|]. destruct (existsb _ _); [discriminate|].
    inv_bind E. apply base_hmm_list in X4. subst. destruct (negb _); [discriminate|]. injection E as <-. cbn. split; [exact O|exact E0].
  Qed.
End Any.

(** ** C163: whatever the file contains *)
(** Any file, with numbers of any kind: the model that was loaded can be saved and
    loaded again, and is the same. *)
Theorem C163_load_save_load : forall K (TK : Text K) (NK : Num K) (file : text),
  (forall m, loadMC (K := K) file = Ok m -> writable_vec (mc_ini m) -> writable_mat (mc_mat m) -> loadMC (mc_save m) = Ok m) /\
  (forall m, loadCTMC (K := K) file = Ok m -> writable_vec (ct_ini m) -> writable_mat (ct_mat m) -> loadCTMC (ctmc_save m) = Ok m) /\
  (forall m, loadMDP (K := K) file = Ok m -> writable_vec (mdp_ini m) -> writable_ten (mdp_mat m) -> loadMDP (mdp_save m) = Ok m) /\
  (forall m, loadHMM (K := K) file = Ok m -> writable_vec (hmm_ini m) -> writable_mat (hmm_mat m) -> writable_mat (hmm_out m) -> loadHMM (hmm_save m) = Ok m) /\
  (forall m, loadGoHMM (K := K) file = Ok m -> writable_vec (go_ini m) -> writable_mat (go_mat m) -> (forall l p, In l (go_out m) -> In p l -> writable (fst p) /\ writable (snd p)) -> loadGoHMM (go_save m) = Ok m).
Proof.
  intros K TK NK file. split; [|split; [|split; [|split]]].
  - intros m E W1 W2. apply loadMC_ends in E as [O C]. apply C65_MC_save_load; assumption.
  - intros m E W1 W2. apply loadCTMC_ends in E as [O C]. apply C65_CTMC_save_load; assumption.
  - intros m E W1 W2. apply loadMDP_ends in E as [O C]. apply C65_MDP_save_load; assumption.
  - intros m E W1 W2 W3. apply loadHMM_ends in E as [O C]. apply C65_HMM_save_load; assumption.
  - intros m E W1 W2 W3. apply loadGoHMM_ends in E as [O C]. apply C65_GoHMM_save_load; assumption.
Qed.
Print Assumptions C163_load_save_load.

Local Open Scope R_scope.
(** What was loaded has passed the checks of its constructor. *)
Theorem C163_loaded_is_checked : forall (TK : Text R) (file : text),
  (forall m, loadMC file = Ok m -> In "init"%string (mc_lab m) /\ length (mc_lab m) = mc_n m /\ (forall r, In r (mc_mat m) -> row_ok (rsum r)) /\ uniform_on_init (mc_lab m) (mc_ini m)) /\
  (forall m, loadCTMC file = Ok m -> In "init"%string (ct_lab m) /\ length (ct_lab m) = ct_n m /\ uniform_on_init (ct_lab m) (ct_ini m)) /\
  (forall m, loadMDP file = Ok m -> In "init"%string (mdp_lab m) /\ length (mdp_lab m) = mdp_n m /\
     (forall r, In r (mdp_mat m) -> forall a, (a < length (mdp_act m))%nat -> exists x, nth_error r a = Some x /\ row_ok (rsum x)) /\ uniform_on_init (mdp_lab m) (mdp_ini m)) /\
  (forall m, loadHMM file = Ok m -> ini_ok (hmm_n m) (IniList (hmm_ini m)) /\ (forall r, In r (hmm_mat m) -> row_ok (rsum r)) /\ forall s, (s < hmm_n m)%nat -> row_ok (rsum (nth s (hmm_out m) []))) /\
  (forall m, loadGoHMM file = Ok m -> go_outputs_ok (go_n m) (go_out m) /\ ini_ok (go_n m) (IniList (go_ini m)) /\ forall r, In r (go_mat m) -> row_ok (rsum r)).
Proof.
  intros TK file. split; [|split; [|split; [|split]]].
  - intros m E. apply loadMC_ends in E as [_ C]. destruct (C16_MC_constructor (mc_mat m) (mc_lab m) (mc_name m)) as (A & B & _).
    destruct (proj1 A (ex_intro _ m C)) as (I & L & F). destruct (B m C) as (_ & _ & _ & U). auto.
  - intros m E. apply loadCTMC_ends in E as [_ C]. destruct (C16_CTMC_constructor (ct_mat m) (ct_lab m) (ct_name m)) as (A & B & _).
    destruct (proj1 A (ex_intro _ m C)) as (I & L). destruct (B m C) as (_ & _ & _ & U). auto.
  - intros m E. apply loadMDP_ends in E as [_ C]. destruct (C16_MDP_constructor (mdp_mat m) (mdp_lab m) (mdp_act m) (mdp_name m)) as (A & B & _).
    destruct (proj1 A (ex_intro _ m C)) as (I & L & F). destruct (B m C) as (_ & _ & _ & _ & U). auto.
  - intros m E. apply loadHMM_ends in E as [_ C]. destruct (C16_HMM_constructor (hmm_mat m) (hmm_out m) (hmm_alph m) (IniList (hmm_ini m)) (hmm_name m)) as (A & _).
    destruct (proj1 A (ex_intro _ m C)) as (I & F & _ & G). auto.
  - intros m E. apply loadGoHMM_ends in E as [_ C]. destruct (C16_GoHMM_constructor (go_mat m) (go_out m) (IniList (go_ini m)) (go_name m)) as (A & _).
    destruct (proj1 A (ex_intro _ m C)) as (_ & G & I & F). auto.
Qed.
Print Assumptions C163_loaded_is_checked.

(** The checks are those of the constructors: a file with negative rates is loaded. *)
#[local] Instance QText : Text Q := {
  show := fun q => (NilZero.string_of_int (Z.to_int (Qfloor (q * 1000))) ++ "e-3")%string;
  read := fun s => let t := s2t s in match read_int (firstn (length t - 3) t) with Some z => Some (Qred (z # 1000)) | None => None end }.
Definition file_of (l : list string) : text := flat_map (fun s => line (s2t s)) l.
Theorem C163_negative_rate_refuted : exists (file : text) (m : ctmc Q), loadCTMC file = Ok m /\ mget (ct_mat m) 0 1 = (-2 # 1)%Q.
Proof. exists (file_of ["CTMC"; "['init', 'a']"; "x"; "[1, 0]"; "[[0, -2], [3, 0]]"]%string). eexists. split; vm_compute; reflexivity. Qed.
Print Assumptions C163_negative_rate_refuted.
(** A file written by hand: integers, blanks, double quotes. *)
Example C163_instance : exists m : mc Q, loadMC (with_crlf (file_of ["MC"; "[""init"",'a']"; "by hand"; "[]"; "[[0,  1], [500e-3,500e-3]]"]%string)) = Ok m /\
  mc_lab m = ["init"; "a"]%string /\ mc_mat m = [[0; 1]; [1 # 2; 1 # 2]]%Q /\ mc_ini m = [1; 0]%Q.
Proof. eexists. split; [vm_compute; reflexivity|]. repeat split. Qed.

(** Alergia: C55-C57 and C80-C83. *)
From Coq Require Import String ZArith Reals Lra Lia Bool List Sorting Permutation.
From Verif Require Import Num Py SNum SPath LSum LTools MTools MSet MModels MCtor SSet SBW SCtor LSet LCtor LRun MAlergia SAlergia LAlergia LAlergia2 LAlergia3 LAlergia4 LAlergia5 PCtor PLik.
Import ListNotations.
Local Open Scope R_scope.

Notation traces s := (combine (seqs s) (times s)).

(** ** Sorting the training set *)
Lemma alergia_sort_perm s : wf_set s ->
  let s' := alergia_sort trace_eqb trace_leb s in
  Permutation (traces s) (traces s') /\ sorted_by trace_leb (map fst (traces s')) /\ wf_set s' /\ ty s' = ty s /\
  (forall x, mult trace_eqb s' x = mult trace_eqb s x).
Proof.
  intros (L & ND). cbn zeta. unfold alergia_sort. set (ss := isort_list trace_leb (seqs s)).
  set (g := fun x => match index_of trace_eqb x (seqs s) with Some i => nth i (times s) 0%Z | None => 0%Z end).
  assert (Pss : Permutation (seqs s) ss) by apply isort_perm.
  assert (E0 : traces s = map (fun x => (x, g x)) (seqs s)).
  { unfold g. apply (nth_ext _ _ ([], 0%Z) ([], 0%Z)).
    - rewrite combine_length, map_length. lia.
    - intros i Li. rewrite combine_length in Li. rewrite combine_nth by (symmetry; exact L).
      set (k := fun x => _). rewrite (nth_indep (map k (seqs s)) ([], 0%Z) (k [])) by (rewrite map_length; lia). rewrite map_nth. unfold k.
      rewrite (index_of_nth trace_eqb (lex_eqb_decides _ string_eqb_decides)) by (auto; lia). reflexivity. }
  assert (E1 : combine ss (map g ss) = map (fun x => (x, g x)) ss).
  { clear. induction ss as [|a l IH]; [reflexivity|]. cbn. f_equal. exact IH. }
  assert (P1 : Permutation (traces s) (combine ss (map g ss))) by (rewrite E0, E1; apply Permutation_map, Pss).
  destruct (sort_spec trace_eqb (lex_eqb_decides _ string_eqb_decides) trace_leb
    (lex_total String.eqb String.leb string_eqb_decides string_leb_total)
    (lex_trans String.eqb String.leb string_eqb_decides string_leb_trans string_leb_antisym)
    (lex_antisym String.eqb String.leb string_eqb_decides string_leb_antisym) (mkset ss (map g ss) (ty s))) as (A & B & C & D & E & F).
  { cbn. apply map_length. }
  set (s' := sort trace_eqb trace_leb (mkset ss (map g ss) (ty s))) in *. cbn [seqs times ty] in A, D, E.
  split; [rewrite P1; exact D|]. split.
  { assert (M : map fst (traces s') = seqs s'); [|rewrite M; exact C]. clear - B. revert B. generalize (times s'). induction (seqs s') as [|a l IH]; intros [|b t] B; cbn in *; try discriminate; [reflexivity|]. f_equal. apply IH. lia. }
  split; [split; [exact B|rewrite <- E, <- Pss; exact ND]|]. split; [exact A|].
  intros x. rewrite F. unfold mult. cbn [seqs times].
  apply wmult_perm, Permutation_sym, P1.
Qed.

(** C82: the training set is sorted in place; it stands for the same traces *)
Theorem C82_training_set_kept : forall (s : tset (list string)) (alpha : R) fuel prism name, wf_set s ->
  let s' := snd (alergia_fit trace_eqb trace_leb fuel s alpha prism name) in
  (forall x, mult trace_eqb s' x = mult trace_eqb s x) /\ Permutation (traces s) (traces s') /\ sorted_by trace_leb (seqs s') /\ wf_set s' /\ ty s' = ty s.
Proof.
  intros s alpha fuel prism name W. unfold alergia_fit. destruct (pta_build _) as [h al]. cbn [snd].
  destruct (alergia_sort_perm s W) as (A & B & C & D & E). split; [exact E|]. split; [exact A|]. split; [|split; assumption].
  destruct C as (C & _). assert (M : map fst (traces (alergia_sort trace_eqb trace_leb s)) = seqs (alergia_sort trace_eqb trace_leb s)); [|rewrite <- M; exact B].
  clear - C. revert C. generalize (times (alergia_sort trace_eqb trace_leb s)). induction (seqs (alergia_sort trace_eqb trace_leb s)) as [|a l IH]; intros [|b t] C; cbn in *; try discriminate; [reflexivity|]. f_equal. apply IH. lia.
Qed.
Print Assumptions C82_training_set_kept.

(** C82: not if a sequence is stored twice: both copies get the first multiplicity *)
Theorem C82_duplicates_refuted : exists s : tset (list string), length (times s) = length (seqs s) /\ pos_set s /\
  forall (alpha : R) fuel prism name, exists x, mult trace_eqb (snd (alergia_fit trace_eqb trace_leb fuel s alpha prism name)) x <> mult trace_eqb s x.
Proof.
  exists (mkset [["a"]; ["a"]]%string [1; 5]%Z (Some 0%Z)). split; [reflexivity|]. split; [intros t [<-|[<-|[]]]; lia|].
  intros alpha fuel prism name. exists ["a"%string]. unfold alergia_fit. destruct (pta_build _) as [h al]. cbn [snd]. vm_compute. discriminate.
Qed.
Print Assumptions C82_duplicates_refuted.

(** ** C55: the prefix tree *)
Lemma pcount_perm T T' w : Permutation T T' -> pcount T w = pcount T' w.
Proof. intros P. apply (zs_perm T T' (fun tm => if starts w (fst tm) then snd tm else 0%Z)), P. Qed.

Theorem C55_prefix_tree : forall s : tset (list string), wf_set s ->
  let h := fst (pta_build (traces (alergia_sort trace_eqb trace_leb s))) in
  exists path : nat -> list string,
    (* the nodes are the prefixes of the training traces, the root the empty one *)
    (0 < length h)%nat /\ path O = [] /\
    (forall i j, (i < length h)%nat -> (j < length h)%nat -> path i = path j -> i = j) /\
    (forall w, (exists i, (i < length h)%nat /\ path i = w) <-> w = [] \/ exists t, In t (seqs s) /\ starts w t = true) /\
    (* the edges lead from a prefix to the prefixes with one more symbol and carry their number *)
    (forall n, (n < length h)%nat -> forall k c, In (k, c) (nd_kids (nth n h no_node)) <->
       (k < length h)%nat /\ path k = path n ++ [nd_label (nth k h no_node)] /\ c = pcount (traces s) (path k)) /\
    (* each node knows its parent; siblings have distinct labels in increasing order *)
    (forall k n, (n < length h)%nat -> (k < length h)%nat -> path k = path n ++ [nd_label (nth k h no_node)] -> nd_parent (nth k h no_node) = Some n) /\
    (forall n, (n < length h)%nat -> let l := map (fun kc => nd_label (nth (fst kc) h no_node)) (nd_kids (nth n h no_node)) in
       sorted_by String.leb l /\ NoDup l).
Proof.
  intros s W h. destruct (alergia_sort_perm s W) as (Pm & Srt & (Lw & _) & _).
  destruct (pta_build_spec _ Srt) as (ps & P & IP). fold h in P. exists (fun i => nth i ps []).
  pose proof (pi_len _ _ _ P) as LP.
  assert (TI : forall t, In t (seqs s) <-> exists m, In (t, m) (traces s)).
  { intros t. destruct W as (LW & _). rewrite <- In_fst. enough (M : map fst (traces s) = seqs s) by (rewrite M; reflexivity).
    clear - LW. revert LW. generalize (times s). induction (seqs s) as [|a l IH]; intros [|b u] C; cbn in *; try discriminate; [reflexivity|]. f_equal. apply IH. lia. }
  split; [apply P|]. split; [apply P|]. split; [intros i j Li Lj E; apply (pi_inj h ps _ i j P Li Lj E)|]. split; [|split; [|split]].
  - intros w. split.
    + intros (i & Li & <-). assert (J : In (nth i ps []) ps) by (apply nth_In; lia). apply IP in J as [J|(t & m & J & S)]; [left; exact J|].
      right. exists t. split; [|exact S]. apply TI. exists m. apply (Permutation_in _ (Permutation_sym Pm) J).
    + intros J. assert (I : In w ps).
      { apply IP. destruct J as [->|(t & J & S)]; [left; reflexivity|]. right. apply TI in J as (m & J). exists t, m. split; [apply (Permutation_in _ Pm J)|exact S]. }
      apply (In_nth _ _ []) in I as (i & Li & E). exists i. rewrite <- LP. auto.
  - intros n Ln k c. pose proof (pi_kids _ _ _ P n Ln k c) as K. change (nd_kids (nth n h no_node)) with (kids h n). change (nd_label (nth k h no_node)) with (label h k).
    rewrite K, (pcount_perm _ _ _ Pm). split.
    + intros (A & _ & B & C). auto.
    + intros (A & B & C). split; [exact A|]. split; [|auto]. intros ->. rewrite (proj1 (pi_0 _ _ _ P)) in B. symmetry in B. apply app_eq_nil in B as (_ & B). discriminate.
  - intros k n Ln Lk E. change (nd_parent (nth k h no_node)) with (parent h k). change (nd_label (nth k h no_node)) with (label h k) in E.
    apply (kids_parent h ps _ P n k (pcount (traces (alergia_sort trace_eqb trace_leb s)) (nth k ps [])) Ln). apply (pi_kids _ _ _ P n Ln).
    split; [exact Lk|]. split; [|auto]. intros ->. rewrite (proj1 (pi_0 _ _ _ P)) in E. symmetry in E. apply app_eq_nil in E as (_ & E). discriminate.
  - intros n Ln. apply (pi_sorted _ _ _ P n Ln).
Qed.
Print Assumptions C55_prefix_tree.

(** The number of nodes is at most one more than the number of symbols. *)
Definition total_length (s : tset (list string)) : nat := fold_right (fun t a => (length t + a)%nat) O (seqs s).
Lemma pta_size s : wf_set s -> (length (fst (pta_build (traces (alergia_sort trace_eqb trace_leb s)))) <= 1 + total_length s)%nat.
Proof.
  intros W. destruct (C55_prefix_tree s W) as (path & L0 & P0 & Inj & On & _). set (h := fst _) in *. clearbody h.
  set (all := [] :: flat_map (fun t => map (fun p => firstn p t) (seq 1 (length t))) (seqs s)).
  assert (LA : length all = (1 + total_length s)%nat).
  { unfold all, total_length. cbn [length Nat.add]. f_equal. clear. induction (seqs s) as [|t l IH]; [reflexivity|]. cbn [flat_map fold_right].
    rewrite app_length, map_length, seq_length, IH. reflexivity. }
  rewrite <- LA. rewrite <- (seq_length (length h) 0), <- (map_length path). apply NoDup_incl_length.
  - assert (G : forall l, (forall x, In x l -> (x < length h)%nat) -> NoDup l -> NoDup (map path l)).
    { induction l as [|a l IH]; intros R N; [constructor|]. inversion N as [|? ? NI N']; subst. cbn. constructor; [|apply IH; auto; intros; apply R; right; assumption].
      intros J. apply in_map_iff in J as (b & E & J). apply NI. replace a with b; [exact J|]. apply Inj; [apply R; right; exact J|apply R; left; reflexivity|exact E]. }
    apply G; [intros x J; apply in_seq in J; lia|apply seq_NoDup].
  - intros w J. apply in_map_iff in J as (i & <- & J). apply in_seq in J. destruct (proj1 (On (path i))) as [E|(t & It & S)]; [exists i; split; [lia|reflexivity]|rewrite E; left; reflexivity|].
    destruct (path i) as [|a u] eqn:E; [left; reflexivity|]. right. apply in_flat_map. exists t. split; [exact It|]. apply starts_firstn in S as (E1 & L1).
    apply in_map_iff. exists (length (a :: u)). split; [symmetry; exact E1|]. apply in_seq. cbn [length] in *. lia.
Qed.

(** ** The alphabet kept with the tree *)
Lemma pta_trace_al_in : forall tr h al n m x, In x (snd (pta_trace h al n tr m)) -> In x al \/ In x tr.
Proof.
  induction tr as [|ch tr IH]; intros h al n m x; cbn [pta_trace]; [cbn; auto|].
  set (al' := if memb String.eqb ch al then al else al ++ [ch]).
  assert (S : forall y, In y al' -> In y al \/ y = ch).
  { intros y. unfold al'. destruct (memb String.eqb ch al); [auto|]. intros J. apply in_app_or in J as [J|[J|[]]]; auto. }
  destruct (incKid_label h n ch m) as [[h' k]|].
  - intros J. apply IH in J as [J|J]; [apply S in J as [J| ->]|]; cbn; auto.
  - destruct (addKids h n (ch :: tr) m). cbn [snd]. intros J. apply S in J as [J| ->]; cbn; auto.
Qed.
Lemma pta_trace_al_keep : forall tr h al n m x, In x al \/ (exists u, tr = x :: u) -> In x (snd (pta_trace h al n tr m)).
Proof.
  induction tr as [|ch tr IH]; intros h al n m x; cbn [pta_trace]; [intros [J|[u J]]; [exact J|discriminate]|].
  set (al' := if memb String.eqb ch al then al else al ++ [ch]).
  assert (S : forall y, In y al \/ y = ch -> In y al').
  { intros y. unfold al'. destruct (memb String.eqb ch al) eqn:M; [intros [J| ->]; [exact J|apply memb_str, M]|]. intros [J| ->]; apply in_or_app; [left; exact J|right; left; reflexivity]. }
  intros J. assert (J' : In x al') by (apply S; destruct J as [J|[u [= -> _]]]; auto).
  destruct (incKid_label h n ch m) as [[h' k]|]; [apply IH; left; exact J'|]. destruct (addKids h n (ch :: tr) m). exact J'.
Qed.
Lemma pta_al_in T x : In x (snd (pta_build T)) -> exists t m, In (t, m) T /\ In x t.
Proof.
  unfold pta_build. assert (G : forall T2 h al, In x (snd (fold_left (fun ha t => pta_trace (fst ha) (snd ha) 0 (fst t) (snd t)) T2 (h, al))) -> In x al \/ exists t m, In (t, m) T2 /\ In x t).
  { induction T2 as [|[t m] T2 IH]; intros h al; cbn [fold_left fst snd]; [auto|]. destruct (pta_trace h al 0 t m) as [h' al'] eqn:E. intros J. apply IH in J as [J|(t' & m' & J & K)].
    - pose proof (pta_trace_al_in t h al 0 m x) as Q. rewrite E in Q. apply Q in J as [J|J]; [auto|]. right. exists t, m. split; [left; reflexivity|exact J].
    - right. exists t', m'. split; [right; exact J|exact K]. }
  intros J. apply G in J as [[]|J]. exact J.
Qed.
Lemma pta_al_first T x u m : In (x :: u, m) T -> In x (snd (pta_build T)).
Proof.
  unfold pta_build. assert (G : forall T2 h al, In x al \/ In (x :: u, m) T2 -> In x (snd (fold_left (fun ha t => pta_trace (fst ha) (snd ha) 0 (fst t) (snd t)) T2 (h, al)))).
  { induction T2 as [|[t n] T2 IH]; intros h al; cbn [fold_left fst snd]; [intros [J|[]]; exact J|]. destruct (pta_trace h al 0 t n) as [h' al'] eqn:E. intros J. apply IH.
    pose proof (pta_trace_al_keep t h al 0 n x) as Q. rewrite E in Q. cbn [snd] in Q. destruct J as [J|[[= -> ->]|J]]; [left; apply Q; auto|left; apply Q; eauto|auto]. }
  intros J. apply G. auto.
Qed.

(** ** The learned model *)
Definition usable (s : tset (list string)) : Prop :=
  wf_set s /\ pos_set s /\ forall t, In t (seqs s) -> ~ In EmptyString t.
(** The traces as read by the learned model: 'init' in front of each. *)
Definition with_init (T : list (list string * Z)) : list (list string * Z) := map (fun tm => ("init"%string :: fst tm, snd tm)) T.

Lemma zs_shift m (F : nat -> Z) : zs (seq 1 m) F = zs (seq 0 m) (fun p => F (S p)).
Proof. rewrite <- seq_shift. apply zs_map. Qed.

Lemma wt_all_pos h n k c (g : nat -> bool) : (forall k c, In (k, c) (kids h n) -> (0 < c)%Z) -> In (k, c) (kids h n) -> g k = true -> (0 < wt h n g)%Z.
Proof.
  intros P I G. unfold wt. apply (zs_pos _ _ (k, c)); [|exact I|cbn; rewrite G; apply (P k c I)].
  intros [k' c'] J. cbn. destruct (g k'); [|lia]. pose proof (P k' c' J). lia.
Qed.

Lemma usable_sorted s : usable s -> let T := traces (alergia_sort trace_eqb trace_leb s) in
  Permutation (traces s) T /\ sorted_by trace_leb (map fst T) /\ (forall t m, In (t, m) T -> (1 <= m)%Z) /\ (forall t m, In (t, m) T -> ~ In EmptyString t) /\
  (forall t m, In (t, m) T -> In t (seqs s)) /\ (forall t, In t (seqs s) -> exists m, In (t, m) T).
Proof.
  intros (W & Ps & NE). destruct (alergia_sort_perm s W) as (A & B & _). cbn zeta. set (T := traces (alergia_sort trace_eqb trace_leb s)) in *.
  assert (TI : forall t m, In (t, m) T -> In t (seqs s) /\ In m (times s)).
  { intros t m J. apply (Permutation_in _ (Permutation_sym A)) in J. split; [apply (in_combine_l _ _ _ _ J)|apply (in_combine_r _ _ _ _ J)]. }
  split; [exact A|]. split; [exact B|]. split; [intros t m J; apply Ps, (TI t m J)|]. split; [intros t m J; apply NE, (TI t m J)|].
  split; [intros t m J; apply (TI t m J)|]. intros t J. apply (In_nth _ _ []) in J as (i & Li & <-). destruct W as (L & _). exists (nth i (times s) 0%Z).
  apply (Permutation_in _ A). rewrite <- combine_nth by (symmetry; exact L). apply nth_In. rewrite combine_length. lia.
Qed.

Lemma visits_perm f T T' i j : Permutation T T' -> visits f T i j = visits f T' i j.
Proof. intros P. apply (zs_perm T T' (fun tm => snd tm * Z.of_nat (moves f (fst tm) i j))%Z), P. Qed.
Lemma quotient_perm T T' m f : Permutation T T' -> quotient T m f -> quotient T' m f.
Proof.
  intros P [A B C D E]. constructor.
  - exact A.
  - intros t n w o J. apply (B t n w o). apply (Permutation_in _ (Permutation_sym P)), J.
  - intros i Li. destruct (C i Li) as [Q|(t & n & w & J & Q)]; [auto|]. right. exists t, n, w. split; [apply (Permutation_in _ P J)|exact Q].
  - intros i j Li Lj. assert (V : forall k, visits f T' i k = visits f T i k) by (intros; apply visits_perm, Permutation_sym, P).
    assert (VF : visits_from f T' (mc_n m) i = visits_from f T (mc_n m) i).
    { unfold visits_from. induction (seq 0 (mc_n m)) as [|a l IH]; [reflexivity|]. cbn. rewrite V. f_equal. exact IH. }
    rewrite VF, V. apply D; assumption.
  - exact E.
Qed.

(** The two cases: 'init' is not used, or it starts every trace. *)
Definition model_of (s : tset (list string)) (alpha : R) fuel name (T : list (list string * Z)) : Prop :=
  exists m f, fst (alergia_fit trace_eqb trace_leb fuel s alpha false name) = Some (Ok m) /\
    mc_name m = name /\ wf_mc m /\ stochastic01 (mc_mat m) /\ uniform_on_init (mc_lab m) (mc_ini m) /\ quotient T m f.

Lemma fit_plain s alpha fuel name : usable s -> (1 + total_length s <= fuel)%nat ->
  ~ In "init"%string (snd (pta_build (traces (alergia_sort trace_eqb trace_leb s)))) -> model_of s alpha fuel name (with_init (traces s)).
Proof.
  intros U Fu NI. pose proof (pta_size s (proj1 U)) as Sz. destruct (usable_sorted s U) as (Pm & Srt & Pos & NoE & _).
  unfold model_of, alergia_fit. set (T := traces (alergia_sort trace_eqb trace_leb s)) in *.
  destruct (merged_tree T alpha Srt Pos NoE fuel (snd (pta_build T))) as (h' & N & L & Fw & EL & Len & (N0 & NF) & L0 & F0 & F0' & On & Lw & Lab & Det & Kd & Wt); [lia|].
  destruct (pta_build T) as [h al] eqn:EB. cbn [fst snd] in *. rewrite EL. unfold toMC.
  assert (memb String.eqb "init"%string al = false) as -> by (apply memb_str_false, NI).
  set (hh := set_label h' 0 "init"%string).
  assert (H0 : (0 < length h')%nat) by lia.
  assert (Kh : forall x, kids hh x = kids h' x) by (intros x; unfold hh, kids, set_label; rewrite nd_upd by exact H0; destruct (Nat.eqb_spec 0 x); subst; reflexivity).
  assert (Lh : forall x, label hh x = if (0 =? x)%nat then "init"%string else label h' x) by (intros x; unfold hh, label, set_label; rewrite nd_upd by exact H0; destruct (Nat.eqb_spec 0 x); subst; reflexivity).
  assert (NZ : forall x k c, L x = true -> In (k, c) (kids h' x) -> k <> O).
  { intros x k c Lx J ->. assert (P : (0 < wt h' x (Nat.eqb 0))%Z) by (apply (wt_all_pos h' x O c); [intros k' c' J'; apply (Kd x k' c' Lx J')|exact J|reflexivity]).
    rewrite (Wt x _ Lx) in P. unfold passages in P. apply zs_pos_inv in P as ([t m] & It & P). cbn [fst snd] in P.
    assert (P' : (0 < zs (seq 1 (length t)) (fun p => if (Fw (firstn (p - 1) t) =? x)%nat && (0 =? Fw (firstn p t))%nat then 1 else 0))%Z) by (pose proof (Pos t m It); nia).
    apply zs_pos_inv in P' as (p & Jp & P'). apply in_seq in Jp. destruct (_ =? x)%nat; cbn [andb] in P'; [|lia]. destruct (Nat.eqb_spec 0 (Fw (firstn p t))) as [E|]; [|lia].
    symmetry in E. apply F0' in E; [|right; exists t, m; split; [exact It|apply starts_spec; exists (skipn p t); symmetry; apply firstn_skipn]].
    apply (f_equal (@length string)) in E. rewrite firstn_length in E. cbn in E. lia. }
  set (G := fun w => Fw (tl w)).
  destruct (graph_quotient hh O N (fun x => L x = true) (with_init T) G) with (fuel := fuel) (name := name) as (states & m & f & EBF & EM & Mn & Mw & Ms & Mi & Mq).
  - exact L0.
  - intros x Lx. apply (On x Lx).
  - intros x k c Lx J. rewrite Kh in J. destruct (Kd x k c Lx J). auto.
  - intros x Lx. assert (EQ : labels_of hh x = labels_of h' x); [|rewrite EQ; apply Det, Lx].
    unfold labels_of. rewrite Kh. apply map_ext_in. intros [k c] J. cbn [fst]. rewrite Lh. destruct (Nat.eqb_spec 0 k) as [<-|]; [|reflexivity]. exfalso. apply (NZ x 0%nat c Lx J eq_refl).
  - intros x Lx. destruct (On x Lx) as (_ & w & Pw & E). destruct w as [|a w]; [left; congruence|].
    destruct Pw as [Pw|(t & n & It & S)]; [discriminate|]. right. exists ("init"%string :: t), n, ("init"%string :: a :: w). split; [apply in_map_iff; exists (t, n); auto|].
    split; [discriminate|]. split; [exact S|exact E].
  - rewrite Lh. reflexivity.
  - intros t n J. apply in_map_iff in J as ([t' n'] & E & J). injection E as <- <-. apply (Pos t' n' J).
  - intros t n J. apply in_map_iff in J as ([t' n'] & E & J). injection E as <- <-. reflexivity.
  - exact F0.
  - intros t n w o J S. apply in_map_iff in J as ([t' n'] & E & J). injection E as <- <-. unfold G. destruct w as [|a w].
    + cbn [app tl]. rewrite F0, Lh. cbn in S. apply andb_true_iff in S as (S & _). apply String.eqb_eq in S. symmetry; exact S.
    + cbn [app tl]. cbn in S. apply andb_true_iff in S as (_ & S).
      assert (Pw : is_prefix T (w ++ [o])) by (right; eauto). rewrite Lh. destruct (Nat.eqb_spec 0 (Fw (w ++ [o]))) as [E|]; [|apply Lab, Pw].
      symmetry in E. apply (F0' _ E) in Pw. destruct w; discriminate.
  - intros x g Lx. transitivity (wt h' x g); [apply wt_kids, Kh|]. rewrite (Wt x g Lx). unfold passages, flow, with_init. rewrite zs_map. apply zs_ext. intros [t n] J.
    cbn [fst snd length]. f_equal. replace (S (length t) - 1)%nat with (length t) by lia. apply zs_ext. intros p Jp. apply in_seq in Jp. unfold G.
    destruct p as [|p]; [lia|]. cbn [firstn tl]. replace (S p - 1)%nat with p by lia. destruct p; reflexivity.
  - lia.
  - rewrite EBF, EM. exists m, f. split; [reflexivity|]. split; [exact Mn|]. split; [exact Mw|]. split; [exact Ms|]. split; [exact Mi|].
    apply (quotient_perm (with_init T)); [apply Permutation_map, Permutation_sym, Pm|exact Mq].
Qed.

Lemma fit_init s alpha fuel name : usable s -> (1 + total_length s <= fuel)%nat -> seqs s <> [] ->
  (forall t, In t (seqs s) -> hd EmptyString t = "init"%string) -> model_of s alpha fuel name (traces s).
Proof.
  intros U Fu NE HD. pose proof (pta_size s (proj1 U)) as Sz. destruct (usable_sorted s U) as (Pm & Srt & Pos & NoE & In1 & In2).
  unfold model_of, alergia_fit. set (T := traces (alergia_sort trace_eqb trace_leb s)) in *.
  assert (HT : forall t m, In (t, m) T -> exists u, t = "init"%string :: u).
  { intros t m J. pose proof (HD t (In1 t m J)) as E. destruct t as [|a u]; [discriminate|]. cbn in E. subst. eauto. }
  destruct (merged_tree T alpha Srt Pos NoE fuel (snd (pta_build T))) as (h' & N & L & Fw & EL & Len & (N0 & NF) & L0 & F0 & F0' & On & Lw & Lab & Det & Kd & Wt); [lia|].
  assert (EX : exists t0 m0, In (t0, m0) T).
  { destruct (seqs s) as [|t l] eqn:E; [congruence|]. destruct (In2 t) as (m & J); [left; reflexivity|]. eauto. }
  destruct EX as (t0 & m0 & I0). destruct (HT t0 m0 I0) as (u0 & ->).
  assert (AL : memb String.eqb "init"%string (snd (pta_build T)) = true) by (apply memb_str, (pta_al_first T _ u0 m0 I0)).
  destruct (pta_build T) as [h al] eqn:EB. cbn [fst snd] in *. rewrite EL. unfold toMC. rewrite AL.
  set (r := Fw ["init"%string]).
  assert (Pr : is_prefix T ["init"%string]) by (right; exists ("init"%string :: u0), m0; split; [exact I0|reflexivity]).
  assert (Pfx : forall t m p, In (t, m) T -> is_prefix T (firstn p t)) by (intros t m p J; right; exists t, m; split; [exact J|apply starts_spec; exists (skipn p t); symmetry; apply firstn_skipn]).
  (* where edges come from *)
  assert (EDGE : forall x k c, L x = true -> In (k, c) (kids h' x) -> exists t m p, In (t, m) T /\ (1 <= p <= length t)%nat /\ Fw (firstn (p - 1) t) = x /\ Fw (firstn p t) = k).
  { intros x k c Lx J. assert (P : (0 < wt h' x (Nat.eqb k))%Z) by (apply (wt_all_pos h' x k c); [intros k' c' J'; apply (Kd x k' c' Lx J')|exact J|apply Nat.eqb_refl]).
    rewrite (Wt x _ Lx) in P. unfold passages in P. apply zs_pos_inv in P as ([t m] & It & P). cbn [fst snd] in P.
    assert (P' : (0 < zs (seq 1 (length t)) (fun p => if (Fw (firstn (p - 1) t) =? x)%nat && (k =? Fw (firstn p t))%nat then 1 else 0))%Z) by (pose proof (Pos t m It); nia).
    apply zs_pos_inv in P' as (p & Jp & P'). apply in_seq in Jp. destruct (Nat.eqb_spec (Fw (firstn (p - 1) t)) x) as [E1|]; cbn [andb] in P'; [|lia].
    destruct (Nat.eqb_spec k (Fw (firstn p t))) as [E2|]; [|lia]. exists t, m, p. split; [exact It|]. split; [lia|]. auto. }
  assert (FZ : forall t m p, In (t, m) T -> (1 <= p <= length t)%nat -> Fw (firstn p t) <> O).
  { intros t m p It Lp E. apply F0' in E; [|apply (Pfx t m p It)]. apply (f_equal (@length string)) in E. rewrite firstn_length in E. cbn in E. lia. }
  assert (K0 : exists c, kids h' 0 = [(r, c)]).
  { assert (ALL : forall k c, In (k, c) (kids h' 0) -> k = r).
    { intros k c J. destruct (EDGE O k c L0 J) as (t & m & p & It & Lp & E1 & E2). destruct p as [|p]; [lia|]. replace (S p - 1)%nat with p in E1 by lia.
      destruct p as [|p]; [|exfalso; apply (FZ t m (S p) It); [lia|exact E1]]. destruct (HT t m It) as (u & ->). cbn [firstn] in E2. subst k. reflexivity. }
    assert (P : (0 < wt h' 0 (fun _ => true))%Z).
    { rewrite (Wt O _ L0). unfold passages. apply (zs_pos _ _ ("init"%string :: u0, m0)); [|exact I0|].
      - intros [t m] It. cbn [fst snd]. apply Z.mul_nonneg_nonneg; [pose proof (Pos t m It); lia|]. apply zs_nonneg. intros p _. destruct (_ && _); lia.
      - cbn [fst snd]. apply Z.mul_pos_pos; [pose proof (Pos _ m0 I0); lia|]. apply (zs_pos _ _ 1%nat); [intros p _; destruct (_ && _); lia|apply in_seq; cbn [length]; lia|].
        cbn [firstn Nat.sub]. rewrite F0. reflexivity. }
    pose proof (NoDup_kids h' 0 (Det O L0)) as ND. destruct (kids h' 0) as [|[k c] ks] eqn:EK; [unfold wt in P; rewrite EK in P; cbn in P; lia|].
    exists c. rewrite (ALL k c (or_introl eq_refl)) in *. destruct ks as [|[k2 c2] ks]; [reflexivity|]. exfalso. rewrite (ALL k2 c2 (or_intror (or_introl eq_refl))) in ND.
    cbn [map fst] in ND. inversion ND as [|? ? NI _]; subst. apply NI. left; reflexivity. }
  destruct K0 as (c0 & K0). rewrite K0. assert (Lr : label h' r = "init"%string) by (apply (Lab [] "init"%string), Pr). rewrite Lr. rewrite String.eqb_refl.
  destruct (graph_quotient h' r N (fun x => L x = true /\ x <> O) T Fw) with (fuel := fuel) (name := name) as (states & m & f & EBF & EM & Mn & Mw & Ms & Mi & Mq).
  - split; [apply Lw, Pr|]. apply (FZ _ m0 1%nat I0). cbn [length]. lia.
  - intros x (Lx & _). apply (On x Lx).
  - intros x k c (Lx & Nx) J. destruct (Kd x k c Lx J) as (A & B). split; [|exact A]. split; [exact B|]. destruct (EDGE x k c Lx J) as (t & n & p & It & Lp & _ & <-). apply (FZ t n p It Lp).
  - intros x (Lx & _). apply Det, Lx.
  - intros x (Lx & Nx). destruct (On x Lx) as (_ & w & Pw & E). destruct w as [|a w]; [congruence|]. destruct Pw as [Pw|(t & n & It & S)]; [discriminate|].
    right. exists t, n, (a :: w). split; [exact It|]. split; [discriminate|]. auto.
  - exact Lr.
  - exact Pos.
  - intros t n J. destruct (HT t n J) as (u & ->). reflexivity.
  - reflexivity.
  - intros t n w o J S. apply Lab. right. eauto.
  - intros x g (Lx & Nx). rewrite (Wt x g Lx). unfold passages, flow. apply zs_ext. intros [t n] J. cbn [fst snd]. f_equal. destruct (HT t n J) as (u & ->).
    cbn [length]. replace (S (length u) - 1)%nat with (length u) by lia. rewrite zs_shift. cbn [seq]. rewrite zs_cons. cbn [Nat.sub firstn]. rewrite F0.
    destruct (Nat.eqb_spec 0 x); [congruence|]. cbn [andb]. rewrite Z.add_0_l. apply zs_ext. intros p _. rewrite Nat.sub_0_r. reflexivity.
  - lia.
  - rewrite EBF, EM. exists m, f. split; [reflexivity|]. split; [exact Mn|]. split; [exact Mw|]. split; [exact Ms|]. split; [exact Mi|].
    apply (quotient_perm T); [apply Permutation_sym, Pm|exact Mq].
Qed.

(** How the traces are read: 'init' is put in front of traces which do not use
    it; otherwise it must start, and only start, every trace. *)
Inductive readings (s : tset (list string)) : list (list string * Z) -> Prop :=
| read_plain : (forall t, In t (seqs s) -> ~ In "init"%string t) -> readings s (with_init (traces s))
| read_marked : seqs s <> [] -> (forall t, In t (seqs s) -> exists u, t = "init"%string :: u /\ ~ In "init"%string u) -> readings s (traces s).

Lemma fit_any s alpha fuel name T : usable s -> (1 + total_length s <= fuel)%nat -> readings s T -> model_of s alpha fuel name T.
Proof.
  intros U Fu [NI|NE HD].
  - apply fit_plain; [exact U|exact Fu|]. intros J. apply pta_al_in in J as (t & m & It & J). destruct (usable_sorted s U) as (_ & _ & _ & _ & In1 & _). apply (NI t (In1 t m It) J).
  - apply fit_init; [exact U|exact Fu|exact NE|]. intros t It. destruct (HD t It) as (u & -> & _). reflexivity.
Qed.

Lemma readings_start s T t n : readings s T -> In (t, n) T -> exists u, t = "init"%string :: u /\ ~ In "init"%string u.
Proof.
  intros [NI|NE HD] J.
  - apply in_map_iff in J as ([t' n'] & E & J). injection E as <- <-. exists t'. split; [reflexivity|]. apply NI, (in_combine_l _ _ _ _ J).
  - apply HD, (in_combine_l _ _ _ _ J).
Qed.
Lemma readings_pos s T t n : usable s -> readings s T -> In (t, n) T -> (1 <= n)%Z.
Proof.
  intros (_ & P & _) [NI|NE HD] J.
  - apply in_map_iff in J as ([t' n'] & E & J). injection E as <- <-. apply P, (in_combine_r _ _ _ _ J).
  - apply P, (in_combine_r _ _ _ _ J).
Qed.

(** Only state 0 is labelled 'init'. *)
Lemma quotient_init s T m f i : readings s T -> quotient T m f -> (i < mc_n m)%nat -> nth i (mc_lab m) EmptyString = "init"%string -> i = O.
Proof.
  intros Rd Q Li E. destruct (q_onto _ _ _ Q i Li) as [->|(t & n & w & It & NW & S & Fi)]; [reflexivity|].
  destruct (readings_start s T t n Rd It) as (u & -> & NU). destruct (exists_last NW) as (v & o & ->).
  pose proof (proj2 (q_label _ _ _ Q _ _ v o It S)) as EL. rewrite Fi, E in EL. subst o.
  destruct v as [|a v]; [rewrite <- Fi; apply (proj1 (q_start _ _ _ Q))|]. exfalso. apply NU.
  cbn in S. apply andb_true_iff in S as (_ & S). apply starts_spec in S as (x & ->). apply in_or_app. left. apply in_or_app. right. left. reflexivity.
Qed.

Lemma count_occ_head (ls : list string) : (0 < length ls)%nat -> (forall i, (i < length ls)%nat -> nth i ls EmptyString = "init"%string <-> i = O) -> label_count "init" ls = 1%nat.
Proof.
  intros L Hd. destruct ls as [|a l]; [cbn in L; lia|]. assert (a = "init"%string) as -> by (apply (Hd O); [cbn; lia|reflexivity]).
  unfold label_count. cbn [filter]. rewrite String.eqb_refl. cbn [length]. f_equal.
  assert (N : forall x, In x l -> x <> "init"%string).
  { intros x J ->. apply (In_nth _ _ EmptyString) in J as (i & Li & E). specialize (Hd (S i)). cbn [nth length] in Hd. assert (S i = O) by (apply Hd; [lia|exact E]). lia. }
  clear Hd L. induction l as [|x l IH]; [reflexivity|]. cbn [filter]. destruct (String.eqb_spec "init"%string x) as [E|]; [exfalso; apply (N x); [left; reflexivity|auto]|]. apply IH. intros y J. apply N. right; exact J.
Qed.

(** C56: Alergia terminates and returns a valid chain *)
Theorem C56_valid_chain : forall (s : tset (list string)) (alpha : R) fuel name T,
  0 < alpha <= 2 -> usable s -> readings s T -> (1 + total_length s <= fuel)%nat ->
  exists m, fst (alergia_fit trace_eqb trace_leb fuel s alpha false name) = Some (Ok m) /\
    mc_name m = name /\ wf_mc m /\ stochastic01 (mc_mat m) /\ (1 <= mc_n m <= 1 + total_length s)%nat /\
    is_dist (mc_ini m) /\
    forall i, (i < mc_n m)%nat -> (nth i (mc_lab m) EmptyString = "init"%string <-> i = O) /\ vecR (mc_ini m) i = if (i =? 0)%nat then 1 else 0.
Proof.
  intros s alpha fuel name T Ha U Rd Fu. destruct (fit_any s alpha fuel name T U Fu Rd) as (m & f & E & Nm & W & St & Ui & Q).
  exists m. split; [exact E|]. split; [exact Nm|]. split; [exact W|]. split; [exact St|].
  pose proof (q_start _ _ _ Q) as (F0 & N0 & L0).
  assert (HD : forall i, (i < mc_n m)%nat -> nth i (mc_lab m) EmptyString = "init"%string <-> i = O).
  { intros i Li. split; [apply (quotient_init s T m f i Rd Q Li)|intros ->; exact L0]. }
  split.
  - split; [lia|]. (* every state is the image of a prefix *)
    set (all := ["init"%string] :: flat_map (fun tm => map (fun p => firstn (S p) (fst tm)) (seq 1 (length (fst tm) - 1))) T).
    assert (LA : (length all <= 1 + total_length s)%nat).
    { assert (C : (length (flat_map (fun tm => map (fun p => firstn (S p) (fst tm)) (seq 1 (length (fst tm) - 1))) T) <= total_length s)%nat).
      { assert (S2 : forall T' : list (list string * Z), length (flat_map (fun tm => map (fun p => firstn (S p) (fst tm)) (seq 1 (length (fst tm) - 1))) T') = fold_right (fun tm a => (length (fst tm) - 1 + a)%nat) O T').
        { induction T' as [|tm T' IH]; [reflexivity|]. cbn [flat_map fold_right]. rewrite app_length, map_length, seq_length, IH. reflexivity. }
        rewrite S2. unfold total_length. destruct U as ((LW & _) & _). clear - Rd LW. destruct Rd as [_|_ _].
        - unfold with_init. revert LW. generalize (times s). induction (seqs s) as [|t l IH]; intros [|b u] LW; cbn in *; try discriminate; try lia. specialize (IH u). lia.
        - revert LW. generalize (times s). induction (seqs s) as [|t l IH]; intros [|b u] LW; cbn in *; try discriminate; try lia. specialize (IH u). lia. }
      unfold all. cbn [length]. lia. }
    enough (mc_n m <= length all)%nat by lia. rewrite <- (map_length f all), <- (seq_length (mc_n m) 0).
    apply NoDup_incl_length; [apply seq_NoDup|]. intros i J. apply in_seq in J. apply in_map_iff.
    destruct (q_onto _ _ _ Q i ltac:(lia)) as [->|(t & n & w & It & NW & S & Fi)]; [exists ["init"%string]; split; [exact F0|left; reflexivity]|].
    exists w. split; [exact Fi|]. destruct (readings_start s T t n Rd It) as (u & -> & _). apply starts_firstn in S as (Ew & Lw).
    destruct w as [|a w]; [congruence|]. cbn [length] in *. cbn [firstn] in Ew. destruct w as [|b w]; [left; cbn in Ew; congruence|]. right. apply in_flat_map. exists ("init"%string :: u, n). split; [exact It|].
    cbn [fst]. apply in_map_iff. exists (S (length w)). split; [cbn [firstn]; cbn [length firstn] in Ew; congruence|]. apply in_seq. cbn [length] in *. lia.
  - destruct Ui as (LI & DI & UI). split; [exact DI|]. intros i Li. split; [apply HD, Li|].
    destruct W as (_ & WL & _). rewrite UI by (rewrite WL; exact Li).
    assert (label_count "init" (mc_lab m) = 1%nat) as -> by (apply count_occ_head; rewrite WL; auto).
    destruct (Nat.eqb_spec i 0) as [->|NE].
    + rewrite L0, String.eqb_refl. cbn. field.
    + destruct (String.eqb_spec (nth i (mc_lab m) EmptyString) "init") as [E1|]; [apply HD in E1; [congruence|exact Li]|reflexivity].
Qed.
Print Assumptions C56_valid_chain.

(** ** C57: training traces stay possible *)
Lemma path_weight_pos (A : nat -> nat -> R) (lab : list string) : forall (t : list string) (x : list nat), t <> [] -> length x = length t ->
  (forall i, (i < length t)%nat -> nth (nth i x O) lab EmptyString = nth i t EmptyString) ->
  (forall i, (S i < length t)%nat -> 0 < A (nth i x O) (nth (S i) x O)) ->
  0 < path_weight (repeat A (length t - 1)) (map (is_label lab) t) x.
Proof.
  induction t as [|o t IH]; intros x NE L HL HA; [congruence|]. destruct x as [|a x]; [discriminate|].
  assert (B : is_label lab o a = 1) by (unfold is_label; pose proof (HL O ltac:(cbn; lia)) as E; cbn [nth] in E; rewrite E, String.eqb_refl; reflexivity).
  destruct t as [|o2 t]; [destruct x; [cbn; rewrite B; lra|discriminate]|]. destruct x as [|a2 x]; [discriminate|].
  replace (length (o :: o2 :: t) - 1)%nat with (S (length (o2 :: t) - 1)) by (cbn; lia). cbn [repeat map path_weight]. rewrite B.
  apply Rmult_lt_0_compat; [lra|]. apply Rmult_lt_0_compat; [apply (HA O); cbn; lia|]. apply IH; [discriminate|cbn in *; lia| |].
  - intros i Li. apply (HL (S i)). cbn in *. lia.
  - intros i Li. apply (HA (S i)). cbn in *. lia.
Qed.

Lemma visits_step T f (m : mc R) t n p : In (t, n) T -> (forall t n, In (t, n) T -> (1 <= n)%Z) -> (1 <= p)%nat -> (S p <= length t)%nat ->
  (0 < visits f T (f (firstn p t)) (f (firstn (S p) t)))%Z.
Proof.
  intros J Pos L1 L2. unfold visits. apply (zs_pos _ (fun tm => (snd tm * Z.of_nat (moves f (fst tm) (f (firstn p t)) (f (firstn (S p) t))))%Z) (t, n)); [|exact J|].
  - intros [t' n'] J'. cbn [fst snd]. pose proof (Pos t' n' J'). lia.
  - cbn [fst snd]. apply Z.mul_pos_pos; [pose proof (Pos t n J); lia|]. unfold moves. set (l := filter _ _).
    assert (I : In p l). { unfold l. apply filter_In. split; [apply in_seq; lia|]. rewrite !Nat.eqb_refl. reflexivity. }
    destruct l; [destruct I|cbn; lia].
Qed.

Lemma quotient_step T f m t n p : quotient T m f -> In (t, n) T -> (forall t n, In (t, n) T -> (1 <= n)%Z) -> (1 <= p)%nat -> (S p <= length t)%nat ->
  (f (firstn p t) < mc_n m)%nat /\ (f (firstn (S p) t) < mc_n m)%nat /\ 0 < matR (mc_mat m) (f (firstn p t)) (f (firstn (S p) t)).
Proof.
  intros Q J Pos L1 L2. pose proof (visits_step T f m t n p J Pos L1 L2) as V.
  assert (B : forall q, (1 <= q <= length t)%nat -> (f (firstn q t) < mc_n m)%nat).
  { intros q Lq. assert (NE : firstn q t <> []) by (intros E; apply (f_equal (@length string)) in E; rewrite firstn_length in E; cbn in E; lia).
    destruct (exists_last NE) as (w & o & E). rewrite E. apply (q_label _ _ _ Q t n w o J). apply starts_spec. exists (skipn q t). rewrite <- E. symmetry. apply firstn_skipn. }
  split; [apply B; lia|]. split; [apply B; lia|]. destruct (q_freq _ _ _ Q (f (firstn p t)) (f (firstn (S p) t))) as (_ & Fr); [apply B; lia|apply B; lia|].
  assert (VF : (0 < visits_from f T (mc_n m) (f (firstn p t)))%Z).
  { unfold visits_from. apply (zs_pos _ (fun j => visits f T (f (firstn p t)) j) (f (firstn (S p) t))); [|apply in_seq; pose proof (B (S p)); lia|exact V].
    intros j _. unfold visits. apply (zs_nonneg T (fun tm => (snd tm * Z.of_nat (moves f (fst tm) (f (firstn p t)) j))%Z)). intros [t' n'] J'. cbn [fst snd]. pose proof (Pos t' n' J'). lia. }
  rewrite Fr by lia. apply Rdiv_lt_0_compat; apply IZR_lt; assumption.
Qed.

Theorem C57_training_traces_possible : forall (s : tset (list string)) (alpha : R) fuel name T,
  0 < alpha <= 2 -> usable s -> readings s T -> (1 + total_length s <= fuel)%nat ->
  exists m, fst (alergia_fit trace_eqb trace_leb fuel s alpha false name) = Some (Ok m) /\
    forall t n, In (t, n) T -> 0 < mc_trace_prob m t.
Proof.
  intros s alpha fuel name T Ha U Rd Fu.
  destruct (C56_valid_chain s alpha fuel name T Ha U Rd Fu) as (m0 & E0 & _ & _ & _ & _ & _ & I0).
  destruct (fit_any s alpha fuel name T U Fu Rd) as (m & f & E & Nm & W & St & Ui & Q).
  assert (m0 = m) as -> by congruence. exists m. split; [exact E|]. intros t n J.
  pose proof (q_start _ _ _ Q) as (F0 & N0 & L0). destruct (readings_start s T t n Rd J) as (u & Et & _).
  set (x := map (fun p => f (firstn p t)) (seq 1 (length t))).
  assert (Lt : (0 < length t)%nat) by (rewrite Et; cbn; lia).
  assert (Nx : forall i, (i < length t)%nat -> nth i x O = f (firstn (S i) t)).
  { intros i Li. unfold x. rewrite (nth_indep _ O (f (firstn 0 t))) by (rewrite map_length, seq_length; exact Li). rewrite (map_nth (fun p => f (firstn p t))). rewrite seq_nth by exact Li. reflexivity. }
  assert (Pre : forall i, (i < length t)%nat -> (f (firstn (S i) t) < mc_n m)%nat /\ nth (f (firstn (S i) t)) (mc_lab m) EmptyString = nth i t EmptyString).
  { intros i Li. assert (Sp : firstn (S i) t = firstn i t ++ [nth i t EmptyString]).
    { clear - Li. revert i Li. induction t as [|a t IH]; intros i Li; [cbn in Li; lia|]. destruct i as [|i]; [reflexivity|]. cbn [firstn nth app]. f_equal. apply IH. cbn in Li; lia. }
    rewrite Sp. apply (q_label _ _ _ Q t n _ _ J). rewrite <- Sp. apply starts_spec. exists (skipn (S i) t). symmetry. apply firstn_skipn. }
  unfold mc_trace_prob. apply (trace_prob_pos (mc_n m) _ _ _ x).
  - unfold x. rewrite !map_length, seq_length. reflexivity.
  - intros i Ji. apply in_map_iff in Ji as (p & <- & Jp). apply in_seq in Jp. destruct p as [|p]; [lia|]. apply Pre. lia.
  - intros i Li. rewrite (proj2 (I0 i Li)). destruct (i =? 0)%nat; lra.
  - intros A i j JA Li Lj. apply repeat_spec in JA as ->. apply matR_nonneg, St.
  - intros B i JB Li. apply in_map_iff in JB as (o & <- & _). unfold is_label. destruct (String.eqb _ _); lra.
  - rewrite Et. discriminate.
  - assert (HX : hd O x = O). { rewrite <- F0. unfold x. rewrite Et. reflexivity. } rewrite HX, (proj2 (I0 O N0)). cbn. lra.
  - apply path_weight_pos; [rewrite Et; discriminate|unfold x; rewrite map_length, seq_length; reflexivity| |].
    + intros i Li. rewrite Nx by exact Li. apply Pre, Li.
    + intros i Li. rewrite !Nx by lia. apply (quotient_step T f m t n (S i) Q J); [intros; apply (readings_pos s T _ _ U Rd ltac:(eassumption))|lia|lia].
Qed.
Print Assumptions C57_training_traces_possible.

(** C80: the learned chain is a deterministic quotient of the prefix tree *)
Theorem C80_quotient : forall (s : tset (list string)) (alpha : R) fuel name T,
  0 < alpha <= 2 -> usable s -> readings s T -> (1 + total_length s <= fuel)%nat ->
  exists m f, fst (alergia_fit trace_eqb trace_leb fuel s alpha false name) = Some (Ok m) /\ quotient T m f.
Proof.
  intros s alpha fuel name T Ha U Rd Fu. destruct (fit_any s alpha fuel name T U Fu Rd) as (m & f & E & _ & _ & _ & _ & Q). eauto.
Qed.
Print Assumptions C80_quotient.

(** C81: output_file_prism always fails: the object has no attribute h *)
Theorem C81_prism_output_refuted : forall (s : tset (list string)) (alpha : R) fuel name T,
  0 < alpha <= 2 -> usable s -> readings s T -> (1 + total_length s <= fuel)%nat ->
  fst (alergia_fit trace_eqb trace_leb fuel s alpha true name) = Some (Err AttributeError).
Proof.
  intros s alpha fuel name T Ha U Rd Fu. destruct (fit_any s alpha fuel name T U Fu Rd) as (m & f & E & _). revert E. unfold alergia_fit.
  destruct (pta_build _) as [h al]. destruct (alergia_loop _ _ _ _ _) as [h'|]; cbn [fst]; [|discriminate]. destruct (toMC fuel h' al name) as [[m'|e]|]; try discriminate. reflexivity.
Qed.
Print Assumptions C81_prism_output_refuted.

(** C83: traces starting with 'init' and traces starting with another symbol are rejected *)
Theorem C83_init_reserved : forall (s : tset (list string)) (alpha : R) fuel prism name u a v,
  0 < alpha <= 2 -> usable s -> (1 + total_length s <= fuel)%nat -> In ("init"%string :: u) (seqs s) -> In (a :: v) (seqs s) -> a <> "init"%string ->
  fst (alergia_fit trace_eqb trace_leb fuel s alpha prism name) = Some (Err SyntaxError).
Proof.
  intros s alpha fuel prism name u a v Ha U Fu I1 I2 NA. pose proof (pta_size s (proj1 U)) as Sz. destruct (usable_sorted s U) as (Pm & Srt & Pos & NoE & In1 & In2).
  unfold alergia_fit. set (T := traces (alergia_sort trace_eqb trace_leb s)) in *.
  destruct (merged_tree T alpha Srt Pos NoE fuel (snd (pta_build T))) as (h' & N & L & Fw & EL & Len & (N0 & NF) & L0 & F0 & F0' & On & Lw & Lab & Det & Kd & Wt); [lia|].
  destruct (In2 _ I1) as (m1 & J1). destruct (In2 _ I2) as (m2 & J2).
  assert (AL : memb String.eqb "init"%string (snd (pta_build T)) = true) by (apply memb_str, (pta_al_first T _ u m1 J1)).
  destruct (pta_build T) as [h al] eqn:EB. cbn [fst snd] in *. rewrite EL. unfold toMC. rewrite AL.
  assert (KID : forall o w m, In (o :: w, m) T -> exists k c, In (k, c) (kids h' 0) /\ label h' k = o).
  { intros o w m J. assert (P : (0 < wt h' 0 (Nat.eqb (Fw [o])))%Z).
    { rewrite (Wt O _ L0). unfold passages. apply (zs_pos _ _ (o :: w, m)); [|exact J|].
      - intros [t n] It. cbn [fst snd]. apply Z.mul_nonneg_nonneg; [pose proof (Pos t n It); lia|]. apply zs_nonneg. intros p _. destruct (_ && _); lia.
      - cbn [fst snd]. apply Z.mul_pos_pos; [pose proof (Pos _ m J); lia|]. apply (zs_pos _ _ 1%nat); [intros p _; destruct (_ && _); lia|apply in_seq; cbn [length]; lia|].
        cbn [firstn Nat.sub]. rewrite F0, !Nat.eqb_refl. reflexivity. }
    unfold wt in P. apply zs_pos_inv in P as ([k c] & Jk & P). cbn [fst snd] in P. destruct (Nat.eqb_spec (Fw [o]) k) as [<-|]; [|lia].
    exists (Fw [o]), c. split; [exact Jk|]. apply (Lab [] o). right. exists (o :: w), m. split; [exact J|]. cbn. rewrite String.eqb_refl. reflexivity. }
  destruct (KID _ _ _ J1) as (k1 & c1 & K1 & E1). destruct (KID _ _ _ J2) as (k2 & c2 & K2 & E2).
  destruct (kids h' 0) as [|[k c] [|kc ks]]; [destruct K1| |reflexivity]. destruct K1 as [K1|[]], K2 as [K2|[]]. congruence.
Qed.
Print Assumptions C83_init_reserved.

Lemma fit_labels fuel s (alpha : R) name m h al h' states :
  pta_build (traces (alergia_sort trace_eqb trace_leb s)) = (h, al) -> alergia_loop fuel h al alpha [O] (map fst (kids h 0)) = Some h' ->
  memb String.eqb "init"%string al = false -> bfs fuel (set_label h' 0 "init"%string) [O] [O] = Some states ->
  fst (alergia_fit trace_eqb trace_leb fuel s alpha false name) = Some (Ok m) -> mc_lab m = map (label (set_label h' 0 "init"%string)) states.
Proof.
  intros EB EL EA EF. unfold alergia_fit. rewrite EB, EL. cbn [fst]. unfold toMC. rewrite EA, EF. unfold MC_new.
  destruct (base_mc_init _ _) as [ini|e]; cbn [bind]; [|discriminate]. destruct (forallb _ _); [|discriminate]. intros [= <-]. reflexivity.
Qed.

(** C83: but 'init' at a later position is not always noticed: the learned chain
    then starts in two states *)
Definition late_init : tset (list string) := mkset [["a"; "init"]]%string [3]%Z (Some 0%Z).
Theorem C83_late_init_refuted : exists s, usable s /\ (exists t, In t (seqs s) /\ In "init"%string (tl t)) /\
  forall alpha name, 0 < alpha <= 2 -> exists m, fst (alergia_fit trace_eqb trace_leb 10 s alpha false name) = Some (Ok m) /\
    mc_lab m = ["init"; "a"; "init"]%string /\ vecR (mc_ini m) 0 = 1/2 /\ vecR (mc_ini m) 2 = 1/2.
Proof.
  exists late_init. assert (U : usable late_init).
  { split; [split; [reflexivity|]|split; [intros t [<-|[]]; lia|]].
    - repeat constructor. intros [].
    - intros t [<-|[]] [E|[E|[]]]; discriminate. }
  split; [exact U|]. split; [exists ["a"; "init"]%string; cbn; auto|]. intros alpha name Ha.
  destruct (fit_plain late_init alpha 10 name U) as (m & f & E & _ & W & _ & (_ & _ & Ui) & _); [cbn; lia| |].
  { vm_compute. intros [J|[]]. discriminate. }
  exists m. split; [exact E|].
  assert (EL : mc_lab m = ["init"; "a"; "init"]%string).
  { destruct (pta_build (traces (alergia_sort trace_eqb trace_leb late_init))) as [h al] eqn:EB. vm_compute in EB. injection EB as <- <-.
    match type of EB with _ = (?h, ?al) => idtac end || idtac. 
    erewrite fit_labels with (5 := E); [|reflexivity|cbv -[hoeffdingBound]; reflexivity|reflexivity|reflexivity]. reflexivity. }
  split; [exact EL|]. rewrite EL in Ui. rewrite !Ui by (cbn; lia). cbn. split; field.
Qed.
Print Assumptions C83_late_init_refuted.

(** ** The merge test *)
(** The word [w] leads from node [n] to node [x]. *)
Inductive walks (h : pheap) : nat -> list string -> nat -> Prop :=
| walk_nil n : walks h n [] n
| walk_cons n o w k c x : In (k, c) (nd_kids (nth n h no_node)) -> nd_label (nth k h no_node) = o -> walks h k w x -> walks h n (o :: w) x.
(** Number of traces going on from [n], with any symbol or with [o]. *)
Definition out (h : pheap) (n : nat) : Z := fold_right (fun kc a => (snd kc + a)%Z) 0%Z (nd_kids (nth n h no_node)).
Definition out_by (h : pheap) (n : nat) (o : string) : Z :=
  fold_right (fun kc a => ((if String.eqb (nd_label (nth (fst kc) h no_node)) o then snd kc else 0) + a)%Z) 0%Z (nd_kids (nth n h no_node)).
(** The frequencies f1/n1 and f2/n2 are close. *)
Definition close (alpha : R) (f1 n_1 f2 n_2 : Z) : Prop :=
  Rabs (IZR f1 / IZR n_1 - IZR f2 / IZR n_2) < (sqrt (1 / IZR n_1) + sqrt (1 / IZR n_2)) * sqrt (1 / 2 * ln (2 / alpha)).
Definition similar (h : pheap) (alpha : R) (a b : nat) : Prop :=
  out h a = 0%Z \/ out h b = 0%Z \/
  forall o, (0 < out_by h a o)%Z \/ (0 < out_by h b o)%Z -> close alpha (out_by h a o) (out h a) (out_by h b o) (out h b).

Lemma hoeffding_close alpha f1 n_1 f2 n_2 : (n_1 * n_2 <> 0)%Z ->
  hoeffdingBound (nofZ f1) (nofZ n_1) (nofZ f2) (nofZ n_2) alpha = true <-> close alpha f1 n_1 f2 n_2.
Proof.
  intros N. unfold close. nR. rewrite hoeffding_iff. split; [intros [E|[E|E]]|intros E; right; right; exact E].
  - apply (eq_IZR _ 0) in E. subst. lia.
  - apply (eq_IZR _ 0) in E. subst. lia.
  - exact E.
Qed.

Lemma freq_out_by h n o : NoDup (labels_of h n) -> freq h n o = out_by h n o.
Proof.
  unfold freq, out_by, labels_of. change (nd_kids (nth n h no_node)) with (kids h n). intros ND.
  assert (G : forall ks a, NoDup (map (fun kc => label h (fst kc)) ks) ->
    fold_left (fun a kc => if String.eqb (label h (fst kc)) o then snd kc else a) ks a =
    if existsb (fun kc => String.eqb (label h (fst kc)) o) ks then fold_right (fun kc a => ((if String.eqb (label h (fst kc)) o then snd kc else 0) + a)%Z) 0%Z ks else a).
  { clear. induction ks as [|[k c] ks IH]; intros a ND; [reflexivity|]. cbn [map fst] in ND. inversion ND as [|? ? NI ND']; subst. cbn [fold_left existsb fold_right fst snd]. rewrite IH by exact ND'.
    destruct (String.eqb_spec (label h k) o) as [E|NE]; cbn [orb].
    - assert (existsb (fun kc => String.eqb (label h (fst kc)) o) ks = false) as EX.
      { apply not_true_is_false. intros X. apply existsb_exists in X as ([k' c'] & J & X). apply String.eqb_eq in X. cbn [fst] in X. apply NI. apply in_map_iff. exists (k', c'). cbn [fst]. split; [congruence|exact J]. }
      rewrite EX. assert (Z0 : fold_right (fun kc a => ((if String.eqb (label h (fst kc)) o then snd kc else 0) + a)%Z) 0%Z ks = 0%Z); [|rewrite Z0; lia].
      clear - EX. induction ks as [|kc ks IH]; [reflexivity|]. cbn in *. apply orb_false_iff in EX as (E1 & E2). rewrite E1, IH by exact E2. reflexivity.
    - destruct (existsb _ ks); [lia|reflexivity]. }
  rewrite G by exact ND. destruct (existsb _ (kids h n)) eqn:EX; [reflexivity|].
  symmetry. change (zs (kids h n) (fun kc => if String.eqb (label h (fst kc)) o then snd kc else 0%Z) = 0%Z). clear - EX. induction (kids h n) as [|kc ks IH]; [reflexivity|].
  cbn [existsb] in EX. apply orb_false_iff in EX as (E1 & E2). rewrite zs_cons, E1, IH by exact E2. reflexivity.
Qed.

Section Test.
  Variables (h : pheap) (alpha : R) (al : list string).
  Variable Q : nat -> Prop.
  Hypothesis Det : forall x, Q x -> NoDup (labels_of h x).
  Hypothesis Cls : forall x k c, Q x -> In (k, c) (kids h x) -> (0 < c)%Z /\ Q k.
  Lemma Cnt x k c : Q x -> In (k, c) (kids h x) -> (0 < c)%Z. Proof. intros A B. apply (Cls x k c A B). Qed.
  Lemma out_by_pos n o : Q n -> (0 < out_by h n o)%Z <-> In o (labels_of h n).
  Proof.
    intros Qn. unfold out_by. change (fold_right _ 0%Z (nd_kids (nth n h no_node))) with (zs (kids h n) (fun kc => if String.eqb (label h (fst kc)) o then snd kc else 0%Z)). split.
    - intros P. apply zs_pos_inv in P as ([k c] & J & P). cbn [fst snd] in P. destruct (String.eqb_spec (label h k) o) as [<-|]; [|lia]. apply in_map_iff. exists (k, c). auto.
    - intros J. apply in_map_iff in J as ([k c] & E & J). apply (zs_pos _ _ (k, c)); [|exact J|].
      + intros [k' c'] J'. cbn [fst snd]. destruct (String.eqb _ _); [|lia]. pose proof (Cnt n k' c' Qn J'). lia.
      + cbn [fst snd] in *. rewrite E, String.eqb_refl. apply (Cnt n k c Qn J).
  Qed.
  Lemma out_zero n : Q n -> out h n = 0%Z -> kids h n = [].
  Proof.
    intros Qn E. unfold out in E. change (zs (kids h n) snd = 0%Z) in E. destruct (kids h n) as [|[k c] ks] eqn:EK; [reflexivity|]. exfalso.
    assert (0 < zs ((k, c) :: ks) snd)%Z; [|lia]. rewrite <- EK. apply (zs_pos _ _ (k, c)); [|rewrite EK; left; reflexivity|cbn; apply (Cnt n k c Qn); rewrite EK; left; reflexivity].
    intros [k' c'] J. pose proof (Cnt n k' c' Qn J). cbn. lia.
  Qed.
  Lemma local_ok_spec n m : Q n -> Q m -> out h n <> 0%Z -> out h m <> 0%Z ->
    local_ok h n m alpha = true <-> forall o, (0 < out_by h n o)%Z \/ (0 < out_by h m o)%Z -> close alpha (out_by h n o) (out h n) (out_by h m o) (out h m).
  Proof.
    intros Qn Qm Nn Nm. unfold local_ok. rewrite forallb_forall. change (leaving h n) with (out h n). change (leaving h m) with (out h m).
    assert (NZ : (out h n * out h m <> 0)%Z) by (intros E; apply Z.mul_eq_0 in E as [E|E]; auto). split; intros A o J.
    - apply hoeffding_close; [exact NZ|]. rewrite <- !freq_out_by by (apply Det; assumption). apply A. apply in_or_app. rewrite !out_by_pos in J by assumption. exact J.
    - rewrite !freq_out_by by (apply Det; assumption). apply hoeffding_close; [exact NZ|]. apply A. rewrite !out_by_pos by assumption. apply in_app_or, J.
  Qed.
  Lemma all_opt_true l : all_opt l = Some true <-> forall x, In x l -> x = Some true.
  Proof.
    induction l as [|[[|]|] l IH]; cbn [all_opt].
    - split; [intros _ x []|reflexivity].
    - rewrite IH. split; [intros A x [<-|J]; [reflexivity|apply A, J]|intros A x J; apply A; right; exact J].
    - split; [discriminate|]. intros A. specialize (A (Some false) (or_introl eq_refl)). discriminate.
    - split; [discriminate|]. intros A. specialize (A None (or_introl eq_refl)). discriminate.
  Qed.
  Lemma all_opt_false l : all_opt l = Some false -> In (Some false) l.
  Proof. induction l as [|[[|]|] l IH]; cbn; intros A; try discriminate; auto. Qed.
  Lemma walks_inv n o w x : Q n -> walks h n (o :: w) x -> exists k, findKid h n o = Some k /\ Q k /\ walks h k w x.
  Proof.
    intros Qn W. inversion W as [|? ? ? k c ? J E W']; subst. exists k. change (In (k, c) (kids h n)) in J. split; [|split; [apply (Cls n k c Qn J)|exact W']].
    destruct (findKid h n (nd_label (nth k h no_node))) as [k'|] eqn:EF; [|exfalso; apply (findKid_None _ _ _ EF k c J); reflexivity].
    apply findKid_Some in EF as (EL & c' & J'). f_equal. pose proof (Det n Qn) as ND. unfold labels_of in ND.
    clear - ND EL J J'. change (nd_label (nth k h no_node)) with (label h k) in EL. revert J J' ND. induction (kids h n) as [|[a b] ks IH]; intros J J' ND; [destruct J|]. cbn [map fst] in ND. inversion ND as [|? ? NI ND']; subst.
    destruct J as [J|J], J' as [J'|J']; try (injection J as -> ->); try (injection J' as -> ->); auto.
    - exfalso. apply NI, in_map_iff. exists (k', c'). auto.
    - exfalso. apply NI, in_map_iff. exists (k, c). auto.
  Qed.
  Lemma walks_kid n o k w x : findKid h n o = Some k -> walks h k w x -> walks h n (o :: w) x.
  Proof. intros EF W. apply findKid_Some in EF as (EL & c & J). apply (walk_cons h n o w k c x J EL W). Qed.

  Lemma compatible_spec : forall fuel n m b, Q n -> Q m -> compatible fuel h al alpha (Some n) (Some m) = Some b ->
    b = true <-> forall w x y, (forall o, In o w -> In o al) -> walks h n w x -> walks h m w y -> label h x = label h y /\ similar h alpha x y.
  Proof.
    induction fuel as [|fuel IH]; intros n m b Qn Qm; cbn [compatible]; [discriminate|].
    destruct (String.eqb_spec (label h n) (label h m)) as [EL|NL]; cbn [negb].
    2:{ intros [= <-]. split; [discriminate|]. intros A. exfalso. apply NL. apply (A [] n m); [intros o []|constructor|constructor]. }
    change (leaving h n) with (out h n). change (leaving h m) with (out h m).
    destruct (Z.eqb_spec (out h n * out h m) 0) as [EZ|NZ].
    { intros [= <-]. split; [|reflexivity]. intros _ w x y _ Wn Wm. apply Z.mul_eq_0 in EZ. destruct w as [|o w].
      - inversion Wn; inversion Wm; subst. split; [exact EL|]. unfold similar. tauto.
      - exfalso. apply walks_inv in Wn as (k & Fk & _); [|exact Qn]. apply walks_inv in Wm as (k' & Fk' & _); [|exact Qm]. apply findKid_Some in Fk as (_ & c & J). apply findKid_Some in Fk' as (_ & c' & J').
        destruct EZ as [E|E]; apply out_zero in E; try assumption; [rewrite E in J; destruct J|rewrite E in J'; destruct J']. }
    assert (Nn : out h n <> 0%Z) by (intros E; apply NZ; rewrite E; lia). assert (Nm : out h m <> 0%Z) by (intros E; apply NZ; rewrite E; lia).
    destruct (local_ok h n m alpha) eqn:LO; cbn [negb].
    2:{ intros [= <-]. split; [discriminate|]. intros A. destruct (A [] n m) as (_ & [S|[S|S]]); [intros o []|constructor|constructor|congruence|congruence|].
        apply (local_ok_spec n m Qn Qm Nn Nm) in S. congruence. }
    pose proof (proj1 (local_ok_spec n m Qn Qm Nn Nm) LO) as LS. intros EA. split.
    - intros ->. pose proof (proj1 (all_opt_true _) EA) as EA'. clear EA. rename EA' into EA. intros w x y Hw Wn Wm. destruct w as [|o w].
      + inversion Wn; inversion Wm; subst. split; [exact EL|]. right; right. exact LS.
      + apply walks_inv in Wn as (k & Fk & Qk & Wk); [|exact Qn]. apply walks_inv in Wm as (k' & Fk' & Qk' & Wk'); [|exact Qm].
        apply (proj1 (IH k k' true Qk Qk' ltac:(rewrite <- Fk, <- Fk'; apply EA, in_map_iff; exists o; split; [reflexivity|apply Hw; left; reflexivity])) eq_refl w x y); auto.
        intros o' J. apply Hw. right; exact J.
    - intros A. destruct b; [reflexivity|]. exfalso.
      assert (EX : exists o, In o al /\ compatible fuel h al alpha (findKid h n o) (findKid h m o) = Some false).
      { apply all_opt_false, in_map_iff in EA as (o & E & J). eauto. }
      destruct EX as (o & Jo & EC). destruct (findKid h n o) as [k|] eqn:Fk; [|destruct fuel; discriminate]. destruct (findKid h m o) as [k'|] eqn:Fk'; [|destruct fuel; discriminate].
      assert (false = true); [|discriminate].
      assert (Qk : Q k) by (destruct (findKid_Some _ _ _ _ Fk) as (_ & c & J); apply (Cls n k c Qn J)). assert (Qk' : Q k') by (destruct (findKid_Some _ _ _ _ Fk') as (_ & c & J); apply (Cls m k' c Qm J)).
      apply (IH k k' false Qk Qk' EC). intros w x y Hw Wk Wk'. apply (A (o :: w)).
      + intros o' [<-|J]; auto.
      + apply (walks_kid n o k); assumption.
      + apply (walks_kid m o k'); assumption.
  Qed.
End Test.

(** C84: two nodes are compatible iff the nodes they lead to by any word over the
    alphabet have the same label and close frequencies *)
Theorem C84_merge_test : forall (h : pheap) (alpha : R) (al : list string) (Q : nat -> Prop) fuel n m b,
  0 < alpha <= 2 -> Q n -> Q m ->
  (forall x k c, Q x -> In (k, c) (nd_kids (nth x h no_node)) -> (0 < c)%Z /\ Q k) ->
  (forall x, Q x -> NoDup (map (fun kc => nd_label (nth (fst kc) h no_node)) (nd_kids (nth x h no_node)))) ->
  compatible fuel h al alpha (Some n) (Some m) = Some b ->
  b = true <-> forall w x y, (forall o, In o w -> In o al) -> walks h n w x -> walks h m w y ->
    nd_label (nth x h no_node) = nd_label (nth y h no_node) /\ similar h alpha x y.
Proof. intros h alpha al Q fuel n m b _ Qn Qm Cls Det E. apply (compatible_spec h alpha al Q Det Cls fuel n m b Qn Qm E). Qed.
Print Assumptions C84_merge_test.

(** C84: but the alphabet lacks the symbols seen only after the first new node of
    each trace, so different subtrees may be merged *)
Definition skewed : tset (list string) := mkset [["a"; "x"; "p"]; ["b"; "a"; "x"; "q"]]%string [1000; 1000]%Z (Some 0%Z).
Lemma usable_skewed : usable skewed.
Proof.
  split; [split; [reflexivity|]|split; [intros t [<-|[<-|[]]]; lia|]].
  - repeat constructor; cbn; intuition discriminate.
  - intros t [<-|[<-|[]]]; cbn; intuition discriminate.
Qed.
Lemma skewed_readings : readings skewed (with_init (traces skewed)).
Proof. apply read_plain. intros t [<-|[<-|[]]]; cbn; intuition discriminate. Qed.
Lemma ln20 : 0 < ln 20 < 20.
Proof. split; [rewrite <- ln_1; apply ln_increasing; lra|]. apply exp_lt_inv. rewrite exp_ln by lra. pose proof (exp_ineq1 20). lra. Qed.
Lemma bound1000 : 0 < sqrt (1 / 1000) * 2 * sqrt (1 / 2 * ln 20) < 1.
Proof.
  pose proof ln20 as (A & B). split; [repeat apply Rmult_lt_0_compat; try lra; apply sqrt_lt_R0; lra|].
  replace (sqrt (1 / 1000) * 2 * sqrt (1 / 2 * ln 20)) with (sqrt (1 / 1000 * 4 * (1 / 2 * ln 20))).
  - apply Rlt_le_trans with (sqrt 1); [apply sqrt_lt_1_alt; lra|rewrite sqrt_1; lra].
  - rewrite !sqrt_mult by lra. replace 4 with (2 * 2) by lra. rewrite sqrt_square by lra. reflexivity.
Qed.

Lemma loop_promote f h al (alpha : R) red s1 bl : first_compatible (S f) h al alpha s1 red = Some None ->
  alergia_loop (S f) h al alpha red (s1 :: bl) = alergia_loop f h al alpha (red ++ [s1]) (blue_of h (red ++ [s1])).
Proof. intros E. cbn [alergia_loop]. rewrite E. reflexivity. Qed.
Lemma loop_merge f h al (alpha : R) red s1 bl s2 h' : first_compatible (S f) h al alpha s1 red = Some (Some s2) -> pmerge (S f) h s2 s1 = Some h' ->
  alergia_loop (S f) h al alpha red (s1 :: bl) = alergia_loop f h' al alpha red (blue_of h' red).
Proof. intros E E'. cbn [alergia_loop]. rewrite E, E'. reflexivity. Qed.
Ltac norm_loop := match goal with |- alergia_loop ?f ?h ?al ?a ?r ?b = ?x =>
  let h' := eval vm_compute in h in let al' := eval vm_compute in al in
  let r' := eval vm_compute in r in let b' := eval vm_compute in b in change (alergia_loop f h' al' a r' b' = x) end.
Ltac promote := rewrite loop_promote by (vm_compute; reflexivity); norm_loop.
Lemma skewed_loop (alpha : R) : hoeffdingBound (IZR 1000) (IZR 1000) (IZR 1000) (IZR 1000) alpha = true ->
  let (h, al) := pta_build (traces (alergia_sort trace_eqb trace_leb skewed)) in exists h',
  memb String.eqb "init"%string al = false /\ alergia_loop 20 h al alpha [O] (map fst (kids h 0)) = Some h' /\ exists st, bfs 20 (set_label h' 0 "init"%string) [O] [O] = Some st /\ map (label (set_label h' 0 "init"%string)) st = ["init"; "a"; "b"; "x"; "p"; "q"]%string.
Proof.
  intros HB. destruct (pta_build (traces (alergia_sort trace_eqb trace_leb skewed))) as [h al] eqn:EB. vm_compute in EB. injection EB as <- <-.
  eexists. split; [reflexivity|]. split.
  - norm_loop. promote. promote. promote.
    erewrite loop_merge with (s2 := 1%nat); [norm_loop| |vm_compute; reflexivity].
    2:{ cbn [first_compatible]. match goal with |- match ?c with _ => _ end = _ => let c' := constr:(Some false) in assert (c = c') as -> by (vm_compute; reflexivity) end.
        match goal with |- match ?c with _ => _ end = _ => assert (c = Some true) as ->; [|reflexivity] end.
        cbn [compatible]. match goal with |- context [local_ok ?h ?n ?m ?a] => assert (local_ok h n m a = true) as -> by (apply forallb_forall; intros o J; cbn in J; destruct J as [<-|[<-|[]]]; exact HB) end.
        vm_compute. reflexivity. }
    repeat promote. vm_compute. reflexivity.
  - vm_compute. eexists. split; reflexivity.
Qed.
Theorem C84_alphabet_refuted : exists s u v w o, usable s /\ readings s (with_init (traces s)) /\
  let c := pcount (traces s) in
  (* the symbol o follows the prefixes u w and v w with different frequencies *)
  (0 < c (u ++ w))%Z /\ (0 < c (v ++ w))%Z /\ ~ close (1/10) (c (u ++ w ++ [o])) (c (u ++ w)) (c (v ++ w ++ [o])) (c (v ++ w)) /\
  (* but the learned chain has only one state for the last symbol of u and v *)
  last u EmptyString = last v EmptyString /\
  forall name, exists m, fst (alergia_fit trace_eqb trace_leb 20 s (1/10) false name) = Some (Ok m) /\
    label_count (last u EmptyString) (mc_lab m) = 1%nat.
Proof.
  exists skewed, ["a"]%string, ["b"; "a"]%string, ["x"]%string, "p"%string. split; [apply usable_skewed|]. split; [apply skewed_readings|].
  cbn zeta. split; [vm_compute; reflexivity|]. split; [vm_compute; reflexivity|]. split.
  { change (~ close (1/10) 1000 1000 0 1000). unfold close. pose proof bound1000 as (A & B). replace (2 / (1/10)) with 20 by lra.
    replace (1000 / 1000 - 0 / 1000) with 1 by lra. rewrite Rabs_R1. lra. }
  split; [reflexivity|]. intros name.
  destruct (C56_valid_chain skewed (1/10) 20 name _ ltac:(lra) usable_skewed skewed_readings) as (m & E & _); [cbn; lia|]. exists m. split; [exact E|].
  assert (HB : hoeffdingBound (IZR 1000) (IZR 1000) (IZR 1000) (IZR 1000) (1/10) = true).
  { apply hoeffding_iff. right; right. rewrite Rminus_diag_eq, Rabs_R0 by reflexivity. pose proof bound1000 as (A & B). replace (2 / (1/10)) with 20 by lra. lra. }
  pose proof (skewed_loop _ HB) as SL. destruct (pta_build _) as [h al] eqn:EB. destruct SL as (h' & EA & EL & st & EF & ES).
  rewrite (fit_labels 20 skewed (1/10) name m h al h' st EB EL EA EF E), ES. reflexivity.
Qed.
Print Assumptions C84_alphabet_refuted.

(** ** Instances *)
Example C55_instance : wf_set skewed. Proof. apply usable_skewed. Qed.
Example C56_instance name : exists m, fst (alergia_fit trace_eqb trace_leb 20 skewed (1/10) false name) = Some (Ok m) /\ wf_mc m /\ 0 < mc_trace_prob m ["init"; "a"; "x"; "p"]%string.
Proof.
  destruct (C56_valid_chain skewed (1/10) 20 name _ ltac:(lra) usable_skewed skewed_readings) as (m & E & _ & W & _); [cbn; lia|].
  destruct (C57_training_traces_possible skewed (1/10) 20 name _ ltac:(lra) usable_skewed skewed_readings) as (m' & E' & P); [cbn; lia|].
  exists m. split; [exact E|]. split; [exact W|]. assert (m' = m) as -> by congruence. apply (P _ 1000%Z). left. reflexivity.
Qed.
Definition marked : tset (list string) := mkset [["init"; "a"]; ["init"; "b"; "a"]]%string [4; 2]%Z (Some 0%Z).
Example C57_instance : usable marked /\ readings marked (traces marked).
Proof.
  split.
  - split; [split; [reflexivity|]|split; [intros t [<-|[<-|[]]]; lia|]].
    + repeat constructor; cbn; intuition discriminate.
    + intros t [<-|[<-|[]]]; cbn; intuition discriminate.
  - apply read_marked; [discriminate|]. intros t [<-|[<-|[]]]; eexists; (split; [reflexivity|]); cbn; intuition discriminate.
Qed.
Example C83_instance : usable (mkset [["init"; "a"]; ["b"; "a"]]%string [4; 2]%Z (Some 0%Z)).
Proof.
  split; [split; [reflexivity|]|split; [intros t [<-|[<-|[]]]; lia|]].
  - repeat constructor; cbn; intuition discriminate.
  - intros t [<-|[<-|[]]]; cbn; intuition discriminate.
Qed.
(** The prefix tree satisfies the hypotheses of C84, and the test ends. *)
Example C84_instance : let h := fst (pta_build (traces (alergia_sort trace_eqb trace_leb skewed))) in
  (forall x k c, True -> In (k, c) (nd_kids (nth x h no_node)) -> (0 < c)%Z /\ True) /\
  (forall x, True -> NoDup (map (fun kc => nd_label (nth (fst kc) h no_node)) (nd_kids (nth x h no_node)))) /\
  exists b, compatible 10 h ["a"; "b"]%string (1/10) (Some 1%nat) (Some 4%nat) = Some b.
Proof.
  set (h := fst _). vm_compute in h. subst h. cbn zeta. split; [|split].
  - intros x k c _ J. split; [|exact I]. do 8 (destruct x as [|x]; [cbn in J; repeat (destruct J as [J|J]; [injection J as <- <-; lia|]); destruct J|]). destruct x; destruct J.
  - intros x _. do 8 (destruct x as [|x]; [cbn; repeat constructor; cbn; intuition discriminate|]). destruct x; constructor.
  - eexists. vm_compute. reflexivity.
Qed.

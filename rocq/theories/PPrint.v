(** What print shows: C138. *)
From Coq Require Import String Ascii ZArith QArith Reals Bool List Lia Lra.
From Verif Require Import Num Py MTools MSet MModels MCtor MText MPrism MPrint SPrism SPrint LText LPrism LPrint PPrism.
Import ListNotations.
Local Open Scope char_scope.
Local Close Scope Q_scope.
Local Close Scope R_scope.
Local Open Scope nat_scope.

(** ** Specification *)
(** Python's str of a float contains no space, comma or end of line. *)
Definition number_texts (K : Type) (TK : Text K) : Prop := forall (x : K) c, In c (s2t (show x)) -> c <> NL /\ c <> " " /\ c <> ",".
(** Names on one line. *)
Definition one_line (s : string) : Prop := ~ In NL (s2t s).
Definition entry {A} (m : list (list A)) (s s' : nat) (x : A) : Prop := exists row, nth_error m s = Some row /\ nth_error row s' = Some x.
(** Shown: more than 0.0001. *)
Definition is_shown {K} `{Num K} (x : K) : Prop := nltb (ndiv (nofZ 1) (nofZ 10000)) x = true.
(** The page starts with the name and the initial states: the first one with
    probability 1, or else those with probability at least 0.001. *)
Definition says_name (p : list info) (name : string) : Prop := hd_error p = Some (Title name) /\ forall x, In (Title x) p -> x = name.
Definition says_start {K} `{Text K} `{Num K} `{Round K} (p : list info) (ini : list K) : Prop :=
  (forall i, starts_at ini i -> In (Start [(i, None)]) p) /\
  ((forall x, In x ini -> neqb x n1 = false) ->
   forall i x, nth_error ini i = Some x ->
     ((exists l, In (Start l) p /\ In (i, Some (show (nround 3 x))) l) <-> nleb (ndiv (nofZ 1) (nofZ 1000)) x = true)) /\
  (forall l l', In (Start l) p -> In (Start l') p -> l = l').
(** One section per state, in order, with the given label and contents, each once. *)
Definition says_states (p : list info) (n : nat) (label : nat -> option string) (content : nat -> info -> Prop) : Prop :=
  length (sections p) = n /\
  forall s, s < n -> exists b, nth_error (sections p) s = Some (s, label s, b) /\ NoDup b /\ forall i, In i b <-> content s i.

(** ** Proofs *)
Lemma body_app p s l r : (forall i, In i p -> forall s l, i <> State s l) -> body (p ++ State s l :: r) = p.
Proof. induction p as [|i p IH]; intros N; [reflexivity|]. cbn. rewrite IH by (intros j J; apply N; right; exact J). destruct i; try reflexivity. exfalso. eapply N; [left; reflexivity|reflexivity]. Qed.
Lemma body_all p : (forall i, In i p -> forall s l, i <> State s l) -> body p = p.
Proof. induction p as [|i p IH]; intros N; [reflexivity|]. cbn. rewrite IH by (intros j J; apply N; right; exact J). destruct i; try reflexivity. exfalso. eapply N; [left; reflexivity|reflexivity]. Qed.
Lemma sections_skip p r : (forall i, In i p -> forall s l, i <> State s l) -> sections (p ++ r) = sections r.
Proof. induction p as [|i p IH]; intros N; [reflexivity|]. cbn. rewrite IH by (intros j J; apply N; right; exact J). destruct i; try reflexivity. exfalso. eapply N; [left; reflexivity|reflexivity]. Qed.
Lemma sections_map (lb : nat -> option string) (b : nat -> list info) l : (forall s i, In i (b s) -> forall s' l', i <> State s' l') ->
  sections (flat_map (fun s => State s (lb s) :: b s) l) = map (fun s => (s, lb s, b s)) l.
Proof.
  intros N. induction l as [|s l IH]; [reflexivity|]. cbn [flat_map map]. change ((State s (lb s) :: b s) ++ ?r) with (State s (lb s) :: (b s ++ r)). cbn [sections]. f_equal.
  - f_equal. destruct l as [|s' l]; cbn [flat_map]; [rewrite app_nil_r; apply body_all, N|]. apply (body_app (b s)), N.
  - rewrite sections_skip by apply N. exact IH.
Qed.
Lemma states_ok (lb : nat -> option string) (b : nat -> list info) n content p h : (forall s i, In i (b s) -> forall s' l', i <> State s' l') ->
  (forall i, In i h -> forall s l, i <> State s l) -> p = h ++ flat_map (fun s => State s (lb s) :: b s) (seq 0 n) ->
  (forall s, s < n -> NoDup (b s) /\ forall i, In i (b s) <-> content s i) -> says_states p n lb content.
Proof.
  intros N Nh -> C. unfold says_states. rewrite sections_skip by exact Nh. rewrite sections_map by exact N. split; [rewrite map_length, seq_length; reflexivity|].
  intros s L. exists (b s). split; [|apply C, L]. rewrite (map_nth_error _ s (seq 0 n) (d := s)); [reflexivity|]. rewrite (nth_error_nth' _ 0) by (rewrite seq_length; exact L). rewrite seq_nth by exact L. reflexivity.
Qed.

Section Common.
  Context {K : Type} {TK : Text K} {NK : Num K} {RK : Round K}.
  Hypothesis HT : number_texts K TK.
  Lemma texts_ok : forall x : K, clean NL (s2t (show x)) /\ clean " " (s2t (show x)) /\ clean "," (s2t (show x)).
  Proof. intros x. repeat split; intros I; apply HT in I; tauto. Qed.
  Lemma visible_shown (x : K) : visible x = true <-> is_shown x.
  Proof. unfold visible, is_shown. tauto. Qed.
  Lemma indexed_in {A} (l : list A) j x : In (j, x) (indexed l) <-> nth_error l j = Some x.
  Proof. unfold indexed. rewrite in_indexed, Nat.sub_0_r. intuition lia. Qed.
  Lemma indexed_nodup {A} (l : list A) : NoDup (map fst (indexed l)).
  Proof. unfold indexed. rewrite map_fst_combine by apply seq_length. apply seq_NoDup. Qed.
  Lemma likely_in (ini : list K) i x : In (i, x) (likely ini) <-> nth_error ini i = Some x /\ nleb (ndiv (nofZ 1) (nofZ 1000)) x = true.
  Proof. unfold likely. rewrite filter_In, indexed_in. reflexivity. Qed.
  Lemma start_ok name (ini : list K) p r : p = Title name :: start_infos ini ++ r -> (forall i, In i r -> (forall x, i <> Title x) /\ (forall l, i <> Start l)) ->
    says_name p name /\ says_start p ini.
  Proof.
    intros -> N. split; [split; [reflexivity|]|].
    - intros x [E|I]; [injection E; auto|]. apply in_app_or in I as [I|I]; [|apply N in I as [I _]; exfalso; eapply I; reflexivity].
      unfold start_infos in I. destruct (first_one 0 ini); [destruct I as [I|[]]; discriminate|]. destruct (likely ini); [destruct I|destruct I as [I|[]]; discriminate].
    - assert (S : forall l, In (Start l) (Title name :: start_infos ini ++ r) <-> In (Start l) (start_infos ini)).
      { intros l. split; [|intros I; right; apply in_or_app; left; exact I]. intros [E|I]; [discriminate|]. apply in_app_or in I as [I|I]; [exact I|]. apply N in I as [_ I]. exfalso. eapply I. reflexivity. }
      unfold says_start. split; [|split].
      + intros i (Hi & Hb). apply S. unfold start_infos. assert (E : first_one 0 ini = Ok i).
        { apply first_one_ok. rewrite Nat.sub_0_r. split; [lia|]. split; [exact Hi|]. exact Hb. }
        rewrite E. left. reflexivity.
      + intros A i x Ei. assert (E : exists e, first_one 0 ini = Err e).
        { destruct (first_one 0 ini) as [j|e] eqn:E; [|eauto]. exfalso. apply first_one_ok in E as (_ & (y & Ey & Ey1) & _). apply nth_error_In in Ey. rewrite A in Ey1 by exact Ey. discriminate. }
        destruct E as [e E]. split.
        * intros (l & I & J). apply S in I. unfold start_infos in I. rewrite E in I. destruct (likely ini) as [|y q] eqn:El; [destruct I|]. rewrite <- El in I. destruct I as [I|[]]. injection I as <-.
          apply in_map_iff in J as ((i' & x') & J & J'). injection J as -> _. apply likely_in in J' as [J1 J2]. rewrite Ei in J1. injection J1 as ->. exact J2.
        * intros L. assert (I : In (i, x) (likely ini)) by (apply likely_in; auto). exists (map (fun ix => (fst ix, Some (show (nround 3 (snd ix))))) (likely ini)). split.
          -- apply S. unfold start_infos. rewrite E. destruct (likely ini) as [|y q]; [destruct I|left; reflexivity].
          -- apply in_map_iff. exists (i, x). split; [reflexivity|exact I].
      + intros l l' I I'. apply S in I, I'. unfold start_infos in I, I'. destruct (first_one 0 ini); [destruct I as [I|[]]; destruct I' as [I'|[]]; congruence|].
        destruct (likely ini); [destruct I|]. destruct I as [I|[]]; destruct I' as [I'|[]]. injection I. injection I'. congruence.
  Qed.
End Common.

Section Lines.
  Context {K : Type} {TK : Text K} {NK : Num K} {RK : Round K}.
  Hypothesis HT : number_texts K TK.
  Lemma page_lines {A} (p : A -> bool) (f : A -> text) (t : A -> text) (g : A -> info) l :
    (forall x, In x l -> t x = f x ++ [NL] /\ clean NL (f x) /\ read_line (f x) = Some (g x)) ->
    page (flat_map (fun x => if p x then t x else []) l) = map g (filter p l) /\ ends (flat_map (fun x => if p x then t x else []) l).
  Proof.
    intros H. assert (E : forall x, In x l -> ends (if p x then t x else [])). { intros x I. destruct (p x); [|apply ends_nil]. destruct (H x I) as [-> _]. apply ends_nl. }
    split; [|apply ends_flat, E]. rewrite page_flat by exact E. clear E. induction l as [|x l IH]; [reflexivity|]. cbn [flat_map filter]. rewrite IH by (intros y I; apply H; right; exact I).
    destruct (H x (or_introl eq_refl)) as (Et & Ec & Er). destruct (p x); [|reflexivity]. rewrite Et, page_line by exact Ec. rewrite Er. reflexivity.
  Qed.
  Ltac cl := repeat apply clean_app; try (apply clean_lit; reflexivity); try (apply clean_nat; reflexivity); try (apply (texts_ok HT)).
  Lemma page_title labels s : one_line (lab labels s) -> page (state_title labels s) = [State s (Some (lab labels s))] /\ ends (state_title labels s).
  Proof.
    intros O. unfold state_title. assert (E : s2t "----STATE " ++ show_nat s ++ s2t "--" ++ s2t (lab labels s) ++ s2t "----" ++ [NL] = (s2t "----STATE " ++ show_nat s ++ s2t "--" ++ s2t (lab labels s) ++ s2t "----") ++ [NL]) by (rewrite <- !app_assoc; reflexivity).
    rewrite E. split; [|apply ends_nl]. rewrite page_line by (cl; exact O). rewrite read_State. reflexivity.
  Qed.
  Lemma page_row (sh : K -> K) s (row : list (nat * K)) :
    page (flat_map (fun jx => if visible (snd jx) then s2t "s" ++ show_nat s ++ s2t " -> s" ++ show_nat (fst jx) ++ s2t " : " ++ s2t (show (sh (snd jx))) ++ [NL] else []) row)
      = map (fun jx => Move s (fst jx) (show (sh (snd jx)))) (filter (fun jx => visible (snd jx)) row) /\
    ends (flat_map (fun jx => if visible (snd jx) then s2t "s" ++ show_nat s ++ s2t " -> s" ++ show_nat (fst jx) ++ s2t " : " ++ s2t (show (sh (snd jx))) ++ [NL] else []) row).
  Proof.
    apply (page_lines (fun jx => visible (snd jx)) (fun jx => s2t "s" ++ show_nat s ++ s2t " -> s" ++ show_nat (fst jx) ++ s2t " : " ++ s2t (show (sh (snd jx))))).
    intros [j x] _. split; [cbn [fst snd]; rewrite <- !app_assoc; reflexivity|]. cbn [fst snd]. split; [cl|]. apply read_Move, (texts_ok HT).
  Qed.
  Lemma row_ok (mat : list (list K)) (sh : K -> K) s : (s < length mat)%nat -> let b := map (fun jx => Move s (fst jx) (show (sh (snd jx)))) (filter (fun jx => visible (snd jx)) (indexed (nth s mat []))) in
    NoDup b /\ forall i, In i b <-> exists s' x, entry mat s s' x /\ is_shown x /\ i = Move s s' (show (sh x)).
  Proof.
    intros L b. split.
    - subst b. generalize (indexed_nodup (nth s mat [])). generalize (indexed (nth s mat [])). induction l as [|[j x] l IH]; intros N; [constructor|]. cbn in N. inversion N as [|? ? N1 N2]; subst.
      cbn. destruct (visible x); [|apply IH, N2]. cbn. constructor; [|apply IH, N2]. intros I. apply in_map_iff in I as ((j' & x') & E & I). injection E as -> _. apply filter_In in I as [I _]. apply N1, in_map_iff. exists (j, x'). auto.
    - intros i. subst b. rewrite in_map_iff. split.
      + intros ((j & x) & <- & I). apply filter_In in I as [I V]. apply indexed_in in I. exists j, x. split; [|split; [apply visible_shown, V|reflexivity]]. exists (nth s mat []). split; [apply nth_error_nth', L|exact I].
      + intros (s' & x & (row & Er & Ex) & V & ->). exists (s', x). split; [reflexivity|]. apply filter_In. split; [|apply visible_shown, V]. apply indexed_in. rewrite (nth_error_nth _ _ _ Er). exact Ex.
  Qed.
End Lines.


Definition detail (i : info) : Prop := match i with Title _ | Start _ | State _ _ => False | _ => True end.
Lemma model_says {K} {TK : Text K} {NK : Num K} {RK : Round K} (HT : number_texts K TK) name (ini : list K) n f (lb lb' : nat -> option string) (b : nat -> list info) content :
  one_line name -> (forall s, page (f s) = State s (lb' s) :: b s /\ ends (f s)) -> (forall s i, In i (b s) -> detail i) ->
  (forall s, s < n -> lb' s = lb s /\ NoDup (b s) /\ forall i, In i (b s) <-> content s i) ->
  let p := page (model_str name ini n f) in says_name p name /\ says_start p ini /\ says_states p n lb content.
Proof.
  intros ON F D C p.
  assert (P : p = Title name :: start_infos ini ++ flat_map (fun s => State s (lb' s) :: b s) (seq 0 n)).
  { unfold p. rewrite page_model; [|apply texts_ok, HT|exact ON|intros s; apply F]. f_equal. f_equal. apply flat_map_ext. intros s. apply F. }
  apply (start_ok name ini) in P as P1; [destruct P1 as [P1 P2]; split; [exact P1|split; [exact P2|]]|].
  2:{ intros i I. apply in_flat_map in I as (s & _ & [<-|I]); [split; discriminate|]. apply D in I. split; intros x ->; exact I. }
  apply (states_ok _ b _ _ _ (Title name :: start_infos ini)).
  - intros s i I. apply D in I. intros s' l' ->. exact I.
  - intros i [<-|I]; [discriminate|]. unfold start_infos in I. destruct (first_one 0 ini); [destruct I as [<-|[]]; discriminate|]. destruct (likely ini); [destruct I|destruct I as [<-|[]]; discriminate].
  - rewrite P. cbn [app]. f_equal. f_equal. rewrite !flat_map_concat_map. f_equal. apply map_ext_in. intros s I. apply in_seq in I. f_equal. f_equal. apply C. lia.
  - intros s Ls. apply C, Ls.
Qed.
Lemma label_line (labels : list string) s : (forall l, In l labels -> one_line l) -> one_line (lab labels s).
Proof. intros OL. unfold lab. destruct (nth_in_or_default s labels EmptyString) as [I|E]; [apply OL, I|rewrite E; intros []]. Qed.
Lemma label_nth (labels : list string) s : s < length labels -> Some (lab labels s) = nth_error labels s.
Proof. intros L. symmetry. apply nth_error_nth', L. Qed.

(** ** C138 *)
Theorem C138_mc_print : forall K (TK : Text K) (NK : Num K) (RK : Round K) (m : mc K), number_texts K TK ->
  one_line (mc_name m) -> (forall l, In l (mc_lab m) -> one_line l) -> length (mc_lab m) = mc_n m ->
  let p := page (mc_str m) in
  says_name p (mc_name m) /\ says_start p (mc_ini m) /\
  says_states p (mc_n m) (nth_error (mc_lab m)) (fun s i => exists s' x, entry (mc_mat m) s s' x /\ is_shown x /\ i = Move s s' (show (nround 5 x))).
Proof.
  intros K TK NK RK m HT ON OL L.
  apply (model_says HT _ _ _ _ _ (fun s => Some (lab (mc_lab m) s)) (fun s => map (fun jx => Move s (fst jx) (show (nround 5 (snd jx)))) (filter (fun jx => visible (snd jx)) (indexed (nth s (mc_mat m) []))))); [exact ON| | |].
  - intros s. unfold mc_state_str. destruct (page_title (mc_lab m) s (label_line _ s OL)) as [E1 E2]. destruct (page_row HT (nround 5) s (indexed (nth s (mc_mat m) []))) as [E3 E4].
    rewrite page_app by exact E2. rewrite E1, E3. split; [reflexivity|apply ends_app; assumption].
  - intros s i I. apply in_map_iff in I as (? & <- & _). exact I.
  - intros s Ls. split; [apply label_nth; lia|apply row_ok; exact Ls].
Qed.
Print Assumptions C138_mc_print.

(** MDP: action names without closing parenthesis. *)
Theorem C138_mdp_print : forall K (TK : Text K) (NK : Num K) (RK : Round K) (m : mdp K), number_texts K TK ->
  one_line (mdp_name m) -> (forall l, In l (mdp_lab m) -> one_line l) -> (forall a, In a (mdp_act m) -> one_line a /\ ~ In ")" (s2t a)) -> NoDup (mdp_act m) ->
  length (mdp_lab m) = mdp_n m ->
  let p := page (mdp_str m) in
  says_name p (mdp_name m) /\ says_start p (mdp_ini m) /\
  says_states p (mdp_n m) (nth_error (mdp_lab m)) (fun s i => exists k a s', nth_error (mdp_act m) k = Some a /\ s' < mdp_n m /\
    let x := mdp_get (mdp_mat m) s k s' in is_shown x /\ i = Act s a s' (show x)).
Proof.
  intros K TK NK RK m HT ON OL OA ND L.
  pose (g := fun (s : nat) (ia : nat * string) => map (fun s' => Act s (snd ia) s' (show (mdp_get (mdp_mat m) s (fst ia) s'))) (filter (fun s' => visible (mdp_get (mdp_mat m) s (fst ia) s')) (seq 0 (mdp_n m)))).
  apply (model_says HT _ _ _ _ _ (fun s => Some (lab (mdp_lab m) s)) (fun s => flat_map (g s) (indexed (mdp_act m)))); [exact ON| | |].
  - intros s. unfold mdp_state_str. destruct (page_title (mdp_lab m) s (label_line _ s OL)) as [E1 E2].
    assert (H : forall ia, In ia (indexed (mdp_act m)) -> let t := flat_map (fun s' => let x := mdp_get (mdp_mat m) s (fst ia) s' in
        if visible x then s2t "s" ++ show_nat s ++ s2t " - (" ++ s2t (snd ia) ++ s2t ") -> s" ++ show_nat s' ++ s2t " : " ++ s2t (show x) ++ [NL] else []) (seq 0 (mdp_n m)) in page t = g s ia /\ ends t).
    { intros [k a] I. apply indexed_in, nth_error_In, OA in I as [O1 O2]. cbv zeta. cbn [fst snd].
      apply (page_lines (fun s' => visible (mdp_get (mdp_mat m) s k s')) (fun s' => s2t "s" ++ show_nat s ++ s2t " - (" ++ s2t a ++ s2t ") -> s" ++ show_nat s' ++ s2t " : " ++ s2t (show (mdp_get (mdp_mat m) s k s')))).
      intros s' _. split; [rewrite <- !app_assoc; reflexivity|]. split; [|apply read_Act, O2]. repeat apply clean_app; try (apply clean_lit; reflexivity); try (apply clean_nat; reflexivity); [exact O1|apply (texts_ok HT)]. }
    split; [|apply ends_app; [exact E2|apply ends_flat; intros ia I; apply (H ia I)]].
    rewrite page_app by exact E2. rewrite E1. cbn [app]. f_equal. rewrite page_flat by (intros ia I; apply (H ia I)). rewrite !flat_map_concat_map. f_equal. apply map_ext_in. intros ia I. apply (H ia I).
  - intros s i I. apply in_flat_map in I as (ia & _ & I). apply in_map_iff in I as (? & <- & _). exact I.
  - intros s Ls. split; [apply label_nth; lia|]. split.
    + apply NoDup_flat_map.
      * apply (NoDup_map_inv fst), indexed_nodup.
      * intros ia _. unfold g. apply FinFun.Injective_map_NoDup; [intros x y E; injection E; auto|]. apply NoDup_filter, seq_NoDup.
      * intros [k a] [k' a'] i I I' J J'. apply in_map_iff in J as (x & <- & _). apply in_map_iff in J' as (y & E & _). injection E as Ea _ _. cbn in Ea. subst a'.
        apply indexed_in in I, I'. f_equal. apply (proj1 (NoDup_nth_error _) ND); [apply nth_error_Some; congruence|congruence].
    + intros i. rewrite in_flat_map. split.
      * intros ((k & a) & I & J). apply in_map_iff in J as (s' & <- & J). apply filter_In in J as [J V]. apply in_seq in J. apply indexed_in in I. exists k, a, s'. split; [exact I|]. split; [lia|]. split; [apply visible_shown, V|reflexivity].
      * intros (k & a & s' & I & Ls' & V & ->). exists (k, a). split; [apply indexed_in, I|]. apply in_map_iff. exists s'. split; [reflexivity|]. apply filter_In. split; [apply in_seq; lia|apply visible_shown, V].
Qed.
Print Assumptions C138_mdp_print.

(** CTMC: the expected waiting time, and the rates which are more than 0.0001
    of the exit rate, not rounded. *)
Theorem C138_ctmc_print : forall K (TK : Text K) (NK : Num K) (RK : Round K) (m : ctmc K), number_texts K TK ->
  one_line (ct_name m) -> (forall l, In l (ct_lab m) -> one_line l) -> length (ct_lab m) = ct_n m ->
  let p := page (ctmc_str m) in
  says_name p (ct_name m) /\ says_start p (ct_ini m) /\
  says_states p (ct_n m) (nth_error (ct_lab m)) (fun s i =>
    let exit := nsum (nth s (ct_mat m) []) in
    (neqb exit n0 = true /\ i = Wait "inf") \/
    (neqb exit n0 = false /\ i = Wait (show (ndiv n1 exit))) \/
    (neqb exit n0 = false /\ exists s' x, entry (ct_mat m) s s' x /\ is_shown (ndiv x exit) /\ i = Rate s s' (show x))).
Proof.
  intros K TK NK RK m HT ON OL L.
  pose (b := fun s => Wait (if neqb (ct_e m s) n0 then "inf" else show (ct_expected_time m s)) :: if neqb (ct_e m s) n0 then [] else
    map (fun jx => Rate s (fst jx) (show (snd jx))) (filter (fun jx => visible (ndiv (snd jx) (ct_e m s))) (indexed (nth s (ct_mat m) [])))).
  apply (model_says HT _ _ _ _ _ (fun s => Some (lab (ct_lab m) s)) b); [exact ON| | |].
  - intros s. unfold ctmc_state_str. cbv zeta. destruct (page_title (ct_lab m) s (label_line _ s OL)) as [E1 E2].
    set (w := if neqb (ct_e m s) n0 then "inf"%string else show (ct_expected_time m s)).
    match goal with |- context[s2t "Exepected waiting time: " ++ ?x ++ _] => replace x with (s2t w) by (unfold w; destruct (neqb _ _); reflexivity) end.
    assert (Cw : clean NL (s2t w)). { unfold w. destruct (neqb _ _); [apply clean_lit; reflexivity|apply (texts_ok HT)]. }
    assert (H : page (flat_map (fun jx => if visible (ndiv (snd jx) (ct_e m s)) then s2t "s" ++ show_nat s ++ s2t " -> s" ++ show_nat (fst jx) ++ s2t " : lambda = " ++ s2t (show (snd jx)) ++ [NL] else []) (indexed (nth s (ct_mat m) [])))
      = map (fun jx => Rate s (fst jx) (show (snd jx))) (filter (fun jx => visible (ndiv (snd jx) (ct_e m s))) (indexed (nth s (ct_mat m) []))) /\
      ends (flat_map (fun jx => if visible (ndiv (snd jx) (ct_e m s)) then s2t "s" ++ show_nat s ++ s2t " -> s" ++ show_nat (fst jx) ++ s2t " : lambda = " ++ s2t (show (snd jx)) ++ [NL] else []) (indexed (nth s (ct_mat m) [])))).
    { apply (page_lines (fun jx => visible (ndiv (snd jx) (ct_e m s))) (fun jx => s2t "s" ++ show_nat s ++ s2t " -> s" ++ show_nat (fst jx) ++ s2t " : lambda = " ++ s2t (show (snd jx)))).
      intros [j x] _. cbn [fst snd]. split; [rewrite <- !app_assoc; reflexivity|]. split; [|apply read_Rate]. repeat apply clean_app; try (apply clean_lit; reflexivity); try (apply clean_nat; reflexivity). apply (texts_ok HT). }
    match goal with |- page (_ ++ _ ++ _ ++ _ ++ ?r) = _ /\ _ => set (rows := r); assert (H' : page rows = tl (b s) /\ ends rows) end.
    { unfold b, rows. cbn [tl]. destruct (neqb _ _); [split; [reflexivity|apply ends_nil]|exact H]. }
    destruct H' as [H1 H2]. rewrite (app_assoc (s2t "Exepected waiting time: ")), (app_assoc _ [NL]). split; [|apply ends_app; [exact E2|apply ends_app; [apply ends_nl|exact H2]]].
    rewrite page_app by exact E2. rewrite page_app by apply ends_nl. rewrite E1, H1. rewrite page_line by (apply clean_app; [apply clean_lit; reflexivity|exact Cw]). rewrite read_Wait. reflexivity.
  - intros s i [<-|I]; [exact I|]. unfold b in I. destruct (neqb _ _); [destruct I|]. apply in_map_iff in I as (? & <- & _). exact I.
  - intros s Ls. split; [apply label_nth; lia|]. unfold b. fold (ct_e m s). unfold ct_expected_time. destruct (neqb (ct_e m s) n0) eqn:Z.
    + split; [repeat constructor; intros []|]. intros i. split; [intros [<-|[]]; left; auto|]. cbv zeta. intros [[_ ->]|[[? _]|[? _]]]; [left; reflexivity|discriminate|discriminate].
    + split.
      * constructor; [intros I; apply in_map_iff in I as (? & E & _); discriminate|].
        generalize (indexed_nodup (nth s (ct_mat m) [])). generalize (indexed (nth s (ct_mat m) [])). induction l as [|[j x] l IH]; intros N; [constructor|]. cbn in N. inversion N as [|? ? N1 N2]; subst.
        cbn. destruct (visible _); [|apply IH, N2]. cbn. constructor; [|apply IH, N2]. intros I. apply in_map_iff in I as ((j' & x') & E & I). injection E as -> _. apply filter_In in I as [I _]. apply N1, in_map_iff. exists (j, x'). auto.
      * intros i. cbv zeta. cbn [In]. rewrite in_map_iff. split.
        -- intros [<-|((j & x) & <- & I)]; [right; left; auto|]. right. right. split; [reflexivity|]. apply filter_In in I as [I V]. apply indexed_in in I. exists j, x. split; [|split; [apply visible_shown, V|reflexivity]]. exists (nth s (ct_mat m) []). split; [apply nth_error_nth', Ls|exact I].
        -- intros [[? _]|[[_ ->]|[_ (s' & x & (row & Er & Ex) & V & ->)]]]; [discriminate|left; reflexivity|]. right. exists (s', x). split; [reflexivity|]. apply filter_In. split; [|apply visible_shown, V]. apply indexed_in. rewrite (nth_error_nth _ _ _ Er). exact Ex.
Qed.
Print Assumptions C138_ctmc_print.

Lemma page_hmm_state {K} {TK : Text K} {NK : Num K} {RK : Round K} (HT : number_texts K TK) (mat : list (list K)) s :
  page (base_hmm_state_str mat s) = State s None :: map (fun jx => Move s (fst jx) (show (snd jx))) (filter (fun jx => visible (snd jx)) (indexed (nth s mat []))) /\ ends (base_hmm_state_str mat s).
Proof.
  unfold base_hmm_state_str. destruct (page_row HT (fun x => x) s (indexed (nth s mat []))) as [E1 E2]. cbv beta in *.
  match type of E2 with ends ?r => set (rows := r) in *; assert (E : s2t "----STATE s" ++ show_nat s ++ s2t "----" ++ [NL] ++ rows ++ s2t "************" ++ [NL]
    = ((s2t "----STATE s" ++ show_nat s ++ s2t "----") ++ [NL]) ++ rows ++ (s2t "************" ++ [NL])) by (rewrite <- !app_assoc; reflexivity) end.
  rewrite E. split; [|apply ends_app; [apply ends_nl|apply ends_app; [exact E2|apply ends_nl]]].
  rewrite page_app by apply ends_nl. rewrite (page_app rows) by exact E2. rewrite E1. rewrite page_line by (repeat apply clean_app; try (apply clean_lit; reflexivity); apply clean_nat; reflexivity).
  rewrite read_HState. rewrite page_line by (apply clean_lit; reflexivity). rewrite read_stars. cbn [infos app]. rewrite app_nil_r. reflexivity.
Qed.
(** HMM: observation names without colon. *)
Theorem C138_hmm_print : forall K (TK : Text K) (NK : Num K) (RK : Round K) (m : hmm K), number_texts K TK ->
  one_line (hmm_name m) -> (forall o, In o (hmm_alph m) -> one_line o /\ ~ In ":" (s2t o)) -> NoDup (hmm_alph m) ->
  length (hmm_out m) = hmm_n m -> (forall r, In r (hmm_out m) -> length r = length (hmm_alph m)) ->
  let p := page (hmm_str m) in
  says_name p (hmm_name m) /\ says_start p (hmm_ini m) /\
  says_states p (hmm_n m) (fun _ => None) (fun s i =>
    (exists s' x, entry (hmm_mat m) s s' x /\ is_shown x /\ i = Move s s' (show x)) \/
    (exists j o x, nth_error (hmm_alph m) j = Some o /\ entry (hmm_out m) s j x /\ is_shown x /\ i = Obs s o (show x))).
Proof.
  intros K TK NK RK m HT ON OO ND LO LR.
  pose (c := fun s => map (fun jx => Move s (fst jx) (show (snd jx))) (filter (fun jx => visible (snd jx)) (indexed (nth s (hmm_mat m) [])))).
  pose (d := fun s => map (fun jx => Obs s (lab (hmm_alph m) (fst jx)) (show (snd jx))) (filter (fun jx => visible (snd jx)) (indexed (nth s (hmm_out m) [])))).
  assert (OC : forall j, one_line (lab (hmm_alph m) j) /\ ~ In ":" (s2t (lab (hmm_alph m) j))).
  { intros j. unfold lab. destruct (nth_in_or_default j (hmm_alph m) EmptyString) as [I|E]; [apply OO, I|rewrite E; split; intros []]. }
  apply (model_says HT _ _ _ _ _ (fun s => None) (fun s => c s ++ d s)); [exact ON| | |].
  - intros s. unfold hmm_state_str. destruct (page_hmm_state HT (hmm_mat m) s) as [E1 E2].
    match goal with |- context[base_hmm_state_str _ _ ++ ?r] => assert (H : page r = d s /\ ends r) end.
    { apply (page_lines (fun jx => visible (snd jx)) (fun jx => s2t "s" ++ show_nat s ++ s2t " => " ++ s2t (lab (hmm_alph m) (fst jx)) ++ s2t " : " ++ s2t (show (snd jx)))).
      intros [j x] _. cbn [fst snd]. split; [rewrite <- !app_assoc; reflexivity|]. split; [|apply read_Obs, OC]. repeat apply clean_app; try (apply clean_lit; reflexivity); try (apply clean_nat; reflexivity); [apply OC|apply (texts_ok HT)]. }
    destruct H as [H1 H2]. split; [|apply ends_app; assumption]. rewrite page_app by exact E2. rewrite E1, H1. reflexivity.
  - intros s i I. apply in_app_or in I as [I|I]; apply in_map_iff in I as (? & <- & _); exact Logic.I.
  - intros s Ls. split; [reflexivity|]. destruct (row_ok (hmm_mat m) (fun x => x) s Ls) as [N1 C1]. cbv beta in N1, C1. fold (c s) in N1, C1.
    assert (Ls' : s < length (hmm_out m)) by lia.
    assert (JL : forall j x, In (j, x) (indexed (nth s (hmm_out m) [])) -> j < length (hmm_alph m)).
    { intros j x I. apply indexed_in in I. rewrite <- (LR (nth s (hmm_out m) [])) by (apply nth_In, Ls'). apply nth_error_Some. congruence. }
    split.
    + apply NoDup_app_intro; [exact N1| |].
      * unfold d. revert JL. generalize (indexed_nodup (nth s (hmm_out m) [])). generalize (indexed (nth s (hmm_out m) [])). induction l as [|[j x] l IH]; intros N J; [constructor|]. cbn in N. inversion N as [|? ? N2 N3]; subst.
        cbn. destruct (visible x); [|apply IH; [exact N3|intros; eapply J; right; eassumption]]. cbn. constructor; [|apply IH; [exact N3|intros; eapply J; right; eassumption]]. intros I. apply in_map_iff in I as ((j' & x') & E & I). injection E as El _. apply filter_In in I as [I _]. cbn [fst] in El.
        assert (j' = j). { apply (proj1 (NoDup_nth _ EmptyString) ND); [eapply J; right; exact I|eapply J; left; reflexivity|exact El]. } subst. apply N2, in_map_iff. exists (j, x'). auto.
      * intros i I I'. apply in_map_iff in I as (? & <- & _). apply in_map_iff in I' as (? & E & _). discriminate.
    + intros i. rewrite in_app_iff, C1. split; (intros [H|H]; [left; exact H|right]).
      * apply in_map_iff in H as ((j & x) & <- & I). apply filter_In in I as [I V]. exists j, (lab (hmm_alph m) j), x. cbn [fst snd]. split; [symmetry; apply label_nth; eapply JL, I|]. apply indexed_in in I. split; [exists (nth s (hmm_out m) []); split; [apply nth_error_nth', Ls'|exact I]|]. split; [apply visible_shown, V|reflexivity].
      * destruct H as (j & o & x & Eo & (row & Er & Ex) & V & ->). apply in_map_iff. exists (j, x). cbn [fst snd]. split; [unfold lab; rewrite (nth_error_nth _ _ _ Eo); reflexivity|]. apply filter_In. split; [|apply visible_shown, V]. apply indexed_in. rewrite (nth_error_nth _ _ _ Er). exact Ex.
Qed.
Print Assumptions C138_hmm_print.

(** GoHMM: the parameters of the normal distributions of each state. *)
Theorem C138_gohmm_print : forall K (TK : Text K) (NK : Num K) (RK : Round K) (m : gohmm K), number_texts K TK ->
  one_line (go_name m) -> length (go_out m) = go_n m ->
  let p := page (go_str m) in
  says_name p (go_name m) /\ says_start p (go_ini m) /\
  says_states p (go_n m) (fun _ => None) (fun s i =>
    (exists s' x, entry (go_mat m) s s' x /\ is_shown x /\ i = Move s s' (show x)) \/
    (exists k mu sd, entry (go_out m) s k (mu, sd) /\ (i = Mean (S k) (show (nround 4 mu)) \/ i = Std (S k) (show (nround 4 sd))))).
Proof.
  intros K TK NK RK m HT ON LO.
  pose (c := fun s => map (fun jx => Move s (fst jx) (show (snd jx))) (filter (fun jx => visible (snd jx)) (indexed (nth s (go_mat m) [])))).
  pose (g := fun np : nat * (K * K) => [Mean (S (fst np)) (show (nround 4 (fst (snd np)))); Std (S (fst np)) (show (nround 4 (snd (snd np))))]).
  pose (d := fun s => flat_map g (indexed (nth s (go_out m) []))).
  apply (model_says HT _ _ _ _ _ (fun s => None) (fun s => c s ++ d s)); [exact ON| | |].
  - intros s. unfold go_state_str. destruct (page_hmm_state HT (go_mat m) s) as [E1 E2].
    assert (H : forall np : nat * (K * K), let t := s2t "mean " ++ show_nat (S (fst np)) ++ s2t ": " ++ s2t (show (nround 4 (fst (snd np)))) ++ [NL] ++ s2t "std " ++ show_nat (S (fst np)) ++ s2t ": " ++ s2t (show (nround 4 (snd (snd np)))) ++ [NL] in
      page t = g np /\ ends t).
    { intros [n [mu sd]] t. unfold t. cbn [fst snd]. clear t.
      assert (E : s2t "mean " ++ show_nat (S n) ++ s2t ": " ++ s2t (show (nround 4 mu)) ++ [NL] ++ s2t "std " ++ show_nat (S n) ++ s2t ": " ++ s2t (show (nround 4 sd)) ++ [NL] =
        ((s2t "mean " ++ show_nat (S n) ++ s2t ": " ++ s2t (show (nround 4 mu))) ++ [NL]) ++ ((s2t "std " ++ show_nat (S n) ++ s2t ": " ++ s2t (show (nround 4 sd))) ++ [NL])) by (rewrite <- !app_assoc; reflexivity).
      rewrite E. split; [|apply ends_app; apply ends_nl]. rewrite page_app by apply ends_nl.
      rewrite !page_line by (repeat apply clean_app; try (apply clean_lit; reflexivity); try (apply clean_nat; reflexivity); apply (texts_ok HT)). rewrite read_Mean, read_Std. reflexivity. }
    assert (H2 : ends (flat_map (fun np : nat * (K * K) => s2t "mean " ++ show_nat (S (fst np)) ++ s2t ": " ++ s2t (show (nround 4 (fst (snd np)))) ++ [NL] ++ s2t "std " ++ show_nat (S (fst np)) ++ s2t ": " ++ s2t (show (nround 4 (snd (snd np)))) ++ [NL]) (indexed (nth s (go_out m) [])))) by (apply ends_flat; intros; apply H).
    split; [|apply ends_app; assumption]. rewrite page_app by exact E2. rewrite E1. rewrite page_flat by (intros; apply H). unfold c, d. cbn [app]. f_equal. f_equal. apply flat_map_ext. intros np. apply H.
  - intros s i I. apply in_app_or in I as [I|I]; [apply in_map_iff in I as (? & <- & _); exact Logic.I|]. apply in_flat_map in I as (np & _ & [<-|[<-|[]]]); exact Logic.I.
  - intros s Ls. split; [reflexivity|]. destruct (row_ok (go_mat m) (fun x => x) s Ls) as [N1 C1]. cbv beta in N1, C1. fold (c s) in N1, C1.
    split.
    + apply NoDup_app_intro; [exact N1| |].
      * unfold d. apply NoDup_flat_map; [apply (NoDup_map_inv fst), indexed_nodup| |].
        -- intros np _. unfold g. constructor; [intros [E|[]]; discriminate|]. constructor; [intros []|constructor].
        -- intros [n x] [n' x'] z I I' J J'. apply indexed_in in I, I'. assert (n = n'). { destruct J as [<-|[<-|[]]]; destruct J' as [E|[E|[]]]; try discriminate; injection E; auto. } subst. congruence.
      * intros i I I'. apply in_map_iff in I as (? & <- & _). apply in_flat_map in I' as (np & _ & [E|[E|[]]]); discriminate.
    + intros i. rewrite in_app_iff, C1. split; (intros [H|H]; [left; exact H|right]).
      * apply in_flat_map in H as ((k & mu & sd) & I & J). apply indexed_in in I. exists k, mu, sd. split; [exists (nth s (go_out m) []); split; [apply nth_error_nth'; lia|exact I]|]. destruct J as [<-|[<-|[]]]; auto.
      * destruct H as (k & mu & sd & (row & Er & Ex) & J). apply in_flat_map. exists (k, (mu, sd)). split; [apply indexed_in; rewrite (nth_error_nth _ _ _ Er); exact Ex|]. unfold g. cbn [fst snd In]. destruct J as [->| ->]; auto.
Qed.
Print Assumptions C138_gohmm_print.

(** Two chains which are printed alike have the same name, labels and states,
    and the same transitions up to those of at most 0.0001 and rounding. *)
Theorem C138_mc_same_text : forall K (TK : Text K) (NK : Num K) (RK : Round K) (m m' : mc K), number_texts K TK ->
  one_line (mc_name m) -> (forall l, In l (mc_lab m) -> one_line l) -> length (mc_lab m) = mc_n m ->
  one_line (mc_name m') -> (forall l, In l (mc_lab m') -> one_line l) -> length (mc_lab m') = mc_n m' ->
  mc_str m = mc_str m' ->
  mc_name m = mc_name m' /\ mc_lab m = mc_lab m' /\
  forall s s' x, entry (mc_mat m) s s' x -> is_shown x -> exists x', entry (mc_mat m') s s' x' /\ is_shown x' /\ show (nround 5 x) = show (nround 5 x').
Proof.
  intros K TK NK RK m m' HT A1 A2 A3 B1 B2 B3 E.
  destruct (C138_mc_print K TK NK RK m HT A1 A2 A3) as (P1 & _ & P2). destruct (C138_mc_print K TK NK RK m' HT B1 B2 B3) as (Q1 & _ & Q2). rewrite E in P1, P2.
  destruct P2 as [P2 P3], Q2 as [Q2 Q3]. assert (N : mc_n m = mc_n m') by congruence.
  split; [destruct P1 as [P1 _], Q1 as [Q1 _]; congruence|]. split.
  - apply (nth_ext _ _ EmptyString EmptyString); [congruence|]. intros s L. rewrite A3 in L. destruct (P3 s L) as (b & P & _). rewrite N in L. destruct (Q3 s L) as (b' & Q & _). rewrite P in Q. injection Q as Q _.
    rewrite !nth_error_nth' with (d := EmptyString) in Q by lia. congruence.
  - intros s s' x X V. assert (L : s < mc_n m). { destruct X as (row & X & _). apply nth_error_Some. congruence. }
    destruct (P3 s L) as (b & P & _ & C). rewrite N in L. destruct (Q3 s L) as (b' & Q & _ & C'). rewrite P in Q. injection Q as _ <-.
    assert (I : In (Move s s' (show (nround 5 x))) b) by (apply C; eauto). apply C' in I as (s2 & x' & X' & V' & I). injection I as <- I. exists x'. auto.
Qed.
Print Assumptions C138_mc_same_text.

(** ** Examples *)
#[local] Instance QText : Text Q := {| show := fun x => t2s (show_int (Qnum x) ++ "/" :: show_int (Zpos (Qden x))); read := fun _ => None |}.
#[local] Instance QRound : Round Q := {| nround := fun d x => Qred (Qmake (Qround.Qfloor (Qplus (Qmult x (inject_Z (10 ^ Z.of_nat d))) (1 # 2))) (Z.to_pos (10 ^ Z.of_nat d))) |}.
Lemma Q_texts : number_texts Q QText.
Proof.
  intros x c. unfold show, QText. rewrite LText.s2t_t2s, in_app_iff. intros [I|[<-|I]]; [|repeat split; discriminate|]; apply show_int_chars in I; repeat split; intros ->; discriminate.
Qed.
Definition print_example : mc Q := mkMC [[0; 1 # 3; 2 # 3]; [1; 0; 0]; [0; 1 # 20000; 19999 # 20000]]%Q ["init"; "a"; "b"]%string [1; 0; 0]%Q "example"%string.
Example C138_mc_instance : says_states (page (mc_str print_example)) 3 (nth_error ["init"; "a"; "b"]%string)
  (fun s i => exists s' x, entry (mc_mat print_example) s s' x /\ is_shown x /\ i = Move s s' (show (nround 5 x))) /\
  page (mc_str print_example) =
    [Title "example"; Start [(0, None)];
     State 0 (Some "init"%string); Move 0 1 "33333/100000"; Move 0 2 "66667/100000";
     State 1 (Some "a"%string); Move 1 0 "1/1";
     State 2 (Some "b"%string); Move 2 2 "19999/20000"]%string.
Proof.
  split; [|vm_compute; reflexivity].
  apply (C138_mc_print Q QText QNum QRound print_example Q_texts); [intros I; vm_compute in I; intuition discriminate| |reflexivity].
  intros l [<-|[<-|[<-|[]]]] I; vm_compute in I; intuition discriminate.
Qed.
(** A transition of probability 1/20000 can be taken, and is not shown: these
    two accepted chains print the same text. *)
Theorem C138_small_refuted : exists matrix matrix' labels name (m m' : mc Q),
  MC_new matrix labels name = Ok m /\ MC_new matrix' labels name = Ok m' /\ mc_str m = mc_str m' /\
  (mget (mc_mat m) 0 0 == 1 # 20000)%Q /\ (mget (mc_mat m') 0 0 == 0)%Q.
Proof.
  exists [[1 # 20000; 19999 # 20000; 0]; [0; 1; 0]; [0; 0; 1]]%Q, [[0; 19999 # 20000; 1 # 20000]; [0; 1; 0]; [0; 0; 1]]%Q, ["init"; "a"; "b"]%string, "m"%string.
  do 2 eexists. split; [vm_compute; reflexivity|]. split; [vm_compute; reflexivity|]. split; vm_compute; [reflexivity|split; reflexivity].
Qed.
Print Assumptions C138_small_refuted.
(** A label with an end of line: a transition is shown which does not exist. *)
Theorem C138_label_refuted : exists matrix labels name (m : mc Q),
  MC_new matrix labels name = Ok m /\ In (Move 0 1 "1/1") (page (mc_str m)) /\ (mget (mc_mat m) 0 1 == 0)%Q.
Proof.
  exists [[1; 0]; [0; 1]]%Q, ["init"%string; t2s (s2t "a" ++ NL :: s2t "s0 -> s1 : 1/1" ++ [NL])], "m"%string.
  eexists. split; [vm_compute; reflexivity|]. split; [vm_compute; tauto|vm_compute; reflexivity].
Qed.
Print Assumptions C138_label_refuted.
(** The hypotheses of the other theorems. *)
Definition print_hmm : hmm Q := mkHMM [[1 # 2; 1 # 2]; [0; 1]]%Q [[1; 0]; [1 # 4; 3 # 4]]%Q ["x"; "y"]%string [1 # 2; 1 # 2]%Q "h"%string.
Definition print_mdp : mdp Q := mkMDP [[[1 # 2; 1 # 2]; [0; 1]]; [[1; 0]; [0; 0]]]%Q ["init"; "a"]%string ["l"; "r"]%string [1; 0]%Q "m"%string.
Definition print_ctmc : ctmc Q := mkCTMC [[0; 2; 1]; [0; 0; 0]; [1; 0; 0]]%Q ["init"; "a"; "b"]%string [1; 0; 0]%Q "c"%string.
Definition print_gohmm : gohmm Q := mkGO [[1 # 2; 1 # 2]; [0; 1]]%Q [[(1, 2)]; [(3, 1 # 2)]]%Q [1; 0]%Q "g"%string.
Example C138_instances :
  page (hmm_str print_hmm) = [Title "h"; Start [(0, Some "1/2"); (1, Some "1/2")]; State 0 None; Move 0 0 "1/2"; Move 0 1 "1/2"; Obs 0 "x" "1/1"; State 1 None; Move 1 1 "1/1"; Obs 1 "x" "1/4"; Obs 1 "y" "3/4"]%string /\
  page (mdp_str print_mdp) = [Title "m"; Start [(0, None)]; State 0 (Some "init"); Act 0 "l" 0 "1/2"; Act 0 "l" 1 "1/2"; Act 0 "r" 1 "1/1"; State 1 (Some "a"); Act 1 "l" 0 "1/1"]%string /\
  page (ctmc_str print_ctmc) = [Title "c"; Start [(0, None)]; State 0 (Some "init"); Wait "1/3"; Rate 0 1 "2/1"; Rate 0 2 "1/1"; State 1 (Some "a"); Wait "inf"; State 2 (Some "b"); Wait "1/1"; Rate 2 0 "1/1"]%string /\
  page (go_str print_gohmm) = [Title "g"; Start [(0, None)]; State 0 None; Move 0 0 "1/2"; Move 0 1 "1/2"; Mean 1 "1/1"; Std 1 "2/1"; State 1 None; Move 1 1 "1/1"; Mean 1 "3/1"; Std 1 "1/2"]%string.
Proof. vm_compute. repeat split. Qed.

(** What print shows of parametric CTMCs: C141. *)
From Coq Require Import String Ascii ZArith QArith Reals Bool List Lia Lra.
From Verif Require Import Num Py MTools MSet MModels MCtor MText MPrism MPctmc MPText MPrint MPPrint SPrism SPrint LText LSet LPrism LPrint PPrism PPrint.
Import ListNotations.
Local Open Scope char_scope.
Local Close Scope Q_scope.
Local Close Scope R_scope.
Local Open Scope nat_scope.

(** ** Specification *)
(** Names of parameters: no space, colon, dash or end of line. *)
Definition word (x : string) : Prop := forall c, In c (s2t x) -> c <> NL /\ c <> " " /\ c <> ":" /\ c <> "-".
(** The expression of a transition, and whether all its parameters have a value. *)
Definition expr_of {K} `{Num K} (m : pctmc K) (s s' : nat) : expr K := nth (nth s' (nth s (pc_mat m) []) 0) (pc_expr m) (EConst n0).
Definition has_values {K} (d : dict K) (e : expr K) : Prop := forall x, In x (symbols e) -> exists v, dget d x = Some v.
(** The text shown for a rate: the expression, followed by its value when it has
    parameters and all have values. *)
Definition rate_says {K} `{Num K} `{Sym K} (sym_text : K -> string) (d : dict K) (e : expr K) (t : string) : Prop :=
  (symbols e <> [] /\ exists v, eval d e = Some v /\ t = (show_expr e ++ " (=" ++ sym_text v ++ ")")%string) \/
  ((symbols e = [] \/ ~ has_values d e) /\ t = show_expr e).

(** ** Proofs *)
Lemma strip_word a p b r u : clean " " a -> clean " " p -> strip (a ++ " " :: b) (p ++ " " :: r) = Some u -> a = p /\ strip b r = Some u.
Proof.
  revert p. induction a as [|c a IH]; intros p Ca Cp.
  - destruct p as [|d p]; [cbn; auto|]. cbn [app strip]. rewrite ceq_neq; [discriminate|]. intros <-. apply Cp. left. reflexivity.
  - destruct p as [|d p]; cbn [app strip].
    + rewrite ceq_neq; [discriminate|]. intros ->. apply Ca. left. reflexivity.
    + unfold ceq. destruct (Ascii.eqb_spec c d) as [->|]; [|discriminate]. intros E. apply IH in E as [-> E]; [auto|intros I; apply Ca; right; exact I|intros I; apply Cp; right; exact I].
Qed.
Lemma span_word p r : clean " " p -> exists d p', span digit (p ++ " " :: r) = (d, p' ++ " " :: r) /\ clean " " p'.
Proof.
  induction p as [|c p IH]; intros C; [exists [], []; split; [reflexivity|exact C]|]. cbn [app span]. destruct (digit c).
  - destruct IH as (d & p' & E & C'); [intros I; apply C; right; exact I|]. rewrite E. eauto.
  - exists [], (c :: p). split; [reflexivity|exact C].
Qed.
Lemma read_Param x v : word x -> read_line (s2t x ++ s2t " = " ++ s2t v) = Some (Param x v).
Proof.
  intros W. assert (C : clean " " (s2t x)) by (intros I; apply W in I; tauto).
  change (s2t " = " ++ s2t v) with (" " :: s2t "= " ++ s2t v). set (p := s2t x) in *. set (r := s2t "= " ++ s2t v).
  assert (R : read_param (p ++ " " :: r) = Some (Param x v)).
  { unfold read_param. rewrite upto_ok by (auto; exact eq_refl). change (" " :: r) with (s2t " = " ++ s2t v). rewrite strip_app. unfold p. rewrite !t2s_s2t. reflexivity. }
  unfold read_line. rewrite R.
  assert (A1 : read_title (p ++ " " :: r) = None).
  { unfold read_title. destruct (strip _ _) eqn:E; [|reflexivity]. exfalso. apply (strip_word (s2t "Name:") p []) in E as [E _]; [|apply clean_lit; reflexivity|exact C].
    assert (I : In ":" p) by (rewrite <- E; cbn; tauto). apply W in I. tauto. }
  assert (A2 : read_start (p ++ " " :: r) = None).
  { unfold read_start. destruct (strip _ _) eqn:E; [|reflexivity]. exfalso. apply (strip_word (s2t "Initial") p (s2t "state: ")) in E as [_ E]; [discriminate E|apply clean_lit; reflexivity|exact C]. }
  assert (A3 : read_state (p ++ " " :: r) = None).
  { unfold read_state. destruct (strip (s2t "----STATE ") _) eqn:E; [|reflexivity]. exfalso. apply (strip_word (s2t "----STATE") p []) in E as [E _]; [|apply clean_lit; reflexivity|exact C].
    assert (I : In "-" p) by (rewrite <- E; cbn; tauto). apply W in I. tauto. }
  assert (A4 : read_wait (p ++ " " :: r) = None).
  { unfold read_wait. destruct (strip _ _) eqn:E; [|reflexivity]. exfalso. apply (strip_word (s2t "Exepected") p (s2t "waiting time: ")) in E as [_ E]; [discriminate E|apply clean_lit; reflexivity|exact C]. }
  assert (A5 : read_arrow (p ++ " " :: r) = None).
  { unfold read_arrow. clearbody p. clear W R A1 A2 A3 A4. destruct p as [|c p]; [reflexivity|]. cbn [app]. destruct (ceq "s" c) eqn:E; [|cbn [strip]; rewrite E; reflexivity]. cbn [strip]. rewrite E.
    unfold number_at. destruct (span_word p r) as (d & p' & -> & C'); [intros I; apply C; right; exact I|]. destruct (read_int d); [|reflexivity].
    destruct p' as [|c' p']; [reflexivity|]. assert (N : ceq " " c' = false) by (apply ceq_neq; intros <-; apply C'; left; reflexivity).
    change (s2t " -> s") with (" " :: s2t "-> s"). change (s2t " - (") with (" " :: s2t "- ("). change (s2t " => ") with (" " :: s2t "=> "). cbn [app strip]. rewrite N. reflexivity. }
  assert (A6 : read_gauss (p ++ " " :: r) = None).
  { unfold read_gauss. destruct (strip (s2t "mean ") _) eqn:E.
    - apply (strip_word (s2t "mean") p []) in E as [_ E]; [|apply clean_lit; reflexivity|exact C]. injection E as <-. reflexivity.
    - clear E. destruct (strip _ _) eqn:E; [|reflexivity]. apply (strip_word (s2t "std") p []) in E as [_ E]; [|apply clean_lit; reflexivity|exact C]. injection E as <-. reflexivity. }
  rewrite A1, A2, A3, A4, A5, A6. reflexivity.
Qed.

Lemma firstn_pre {A} (a b : list A) k : k <= length b -> firstn (length (a ++ b) - k) (a ++ b) = a ++ firstn (length b - k) b.
Proof. intros L. rewrite app_length. replace (length a + length b - k) with (length a + (length b - k)) by lia. rewrite firstn_app_2. reflexivity. Qed.
Section Factor.
  Context {K : Type} {TK : Text K} {NK : Num K} {RK : Round K}.
  Definition param_lines (values : dict K) : text := flat_map (fun pv => s2t (fst pv) ++ s2t " = " ++ s2t (show (nround 5 (snd pv))) ++ [NL]) values.
  Lemma factor name values (ini : list K) n f : exists rest,
    model_str name ini n f = ((s2t "Name: " ++ s2t name) ++ [NL]) ++ rest /\
    parametric_str name values ini n f = ((s2t "Name: " ++ s2t name) ++ [NL]) ++ param_lines values ++ [NL] ++ rest.
  Proof.
    unfold model_str, parametric_str. fold (param_lines values). cbv zeta. destruct (first_one 0 ini) as [i|e].
    - eexists. split; rewrite <- !app_assoc; reflexivity.
    - assert (G : forall T F : text, firstn (length ((T ++ s2t "Initial state: ") ++ F) - 2) ((T ++ s2t "Initial state: ") ++ F) = T ++ firstn (length (s2t "Initial state: " ++ F) - 2) (s2t "Initial state: " ++ F)).
      { intros T F. rewrite <- app_assoc. apply firstn_pre. rewrite app_length. cbn. lia. }
      rewrite !G.
      eexists. split; rewrite <- !app_assoc; reflexivity.
  Qed.
End Factor.

Lemma sections_params (h : list (string * string)) r : sections (map (fun pv => Param (fst pv) (snd pv)) h ++ r) = sections r.
Proof. apply sections_skip. intros i I. apply in_map_iff in I as (? & <- & _). discriminate. Qed.

Section Rates.
  Context {K : Type} {NK : Num K} {TK : Text K} {RK : Round K} {SK : Sym K}.
  Lemma values_app (d : dict K) a b : (forall x, In x (a ++ b) -> exists v, dget d x = Some v) <-> (forall x, In x a -> exists v, dget d x = Some v) /\ (forall x, In x b -> exists v, dget d x = Some v).
  Proof. split; [intros E; split; intros x I; apply E, in_or_app; auto|]. intros [E F] x I. apply in_app_or in I as [I|I]; auto. Qed.
  Lemma eval_values (d : dict K) e : (exists v, eval d e = Some v) <-> has_values d e.
  Proof.
    assert (T : forall (f : K -> K -> K) (x y : option K), (exists v, match x, y with Some x, Some y => Some (f x y) | _, _ => None end = Some v) <-> (exists v, x = Some v) /\ exists v : K, y = Some v).
    { intros f [x|] [y|]; (split; [intros [v E]; try discriminate; split; eexists; reflexivity|intros [[v E] [w F]]; try discriminate; eexists; reflexivity]). }
    unfold has_values. induction e; cbn [eval symbols].
    - split; [intros _ y []|eauto].
    - split; [intros E y [<-|[]]; exact E|intros E; apply E; left; reflexivity].
    - rewrite values_app, <- IHe1, <- IHe2. apply T.
    - rewrite values_app, <- IHe1, <- IHe2. apply T.
    - rewrite values_app, <- IHe1, <- IHe2. apply T.
    - rewrite <- IHe. destruct (eval d e); split; intros [v E]; try discriminate; eauto.
  Qed.
  Lemma inst_all (m : pctmc K) l : forallb (inst_param m) (dedup String.eqb l) = true <-> forall x, In x l -> exists v, dget (pc_val m) x = Some v.
  Proof.
    destruct (LSet.dedup_exact String.eqb String.eqb_eq l) as [_ D]. rewrite forallb_forall. unfold inst_param. split; intros E x I.
    - specialize (E x (proj2 (D x) I)). destruct (dget (pc_val m) x); [eauto|discriminate].
    - apply D, E in I as [v ->]. reflexivity.
  Qed.
  Lemma dedup_nil l : dedup String.eqb l = [] <-> l = [].
  Proof.
    destruct (LSet.dedup_exact String.eqb String.eqb_eq l) as [_ D]. split; [|intros ->; reflexivity]. intros E. destruct l as [|x l]; [reflexivity|]. exfalso. specialize (D x). rewrite E in D. apply D. left. reflexivity.
  Qed.
  Lemma rate_ok st (m : pctmc K) s j : s < pc_n m -> rate_says st (pc_val m) (expr_of m s j) (pc_rate_str st m s j).
  Proof.
    intros L. unfold rate_says, pc_rate_str, inst_state, involvedParameters, transitionValue, transitionExpression. fold (expr_of m s j). cbn [flat_map]. rewrite app_nil_r.
    apply Nat.ltb_lt in L. rewrite L. pose proof (inst_all m (symbols (expr_of m s j))) as A. pose proof (dedup_nil (symbols (expr_of m s j))) as N. fold (has_values (pc_val m) (expr_of m s j)) in A. pose proof (eval_values (pc_val m) (expr_of m s j)) as V.
    destruct (forallb _ _) eqn:F.
    - apply proj1 in A. specialize (A eq_refl). apply V in A as V'. destruct V' as [v Ev]. rewrite Ev.
      destruct (dedup String.eqb _) eqn:D; [right; split; [left; apply N; reflexivity|reflexivity]|]. left. split; [intros Z; apply N in Z; discriminate|]. exists v. auto.
    - right. split; [|reflexivity]. right. intros H. pose proof (proj2 A H). discriminate.
  Qed.
  (** The waiting time *)
  Definition exit_of (m : pctmc K) (s : nat) : K := nsum (map (fun s' => match eval (pc_val m) (expr_of m s s') with Some v => v | None => n0 end) (seq 0 (pc_n m))).
  Definition wait_says (m : pctmc K) (s : nat) (i : info) : Prop :=
    (forall s', s' < pc_n m -> has_values (pc_val m) (expr_of m s s')) /\
    i = Wait (if neqb (exit_of m s) n0 then "inf" else show (nround 5 (ndiv n1 (exit_of m s)))).
  Definition waits (m : pctmc K) (s : nat) : list info :=
    match inst_state m s None, pc_expected_time m s with
    | Ok true, Ok (Fin x) => [Wait (show (nround 5 x))]
    | Ok true, Ok Inf => [Wait "inf"]
    | _, _ => []
    end.
  Lemma waits_ok (m : pctmc K) s i : s < pc_n m -> In i (waits m s) <-> wait_says m s i.
  Proof.
    intros L. unfold waits, pc_expected_time, pc_e, wait_says, inst_state, involvedParameters. apply Nat.ltb_lt in L. rewrite L.
    pose proof (inst_all m (flat_map (fun jj => symbols (transitionExpression m s jj)) (seq 0 (pc_n m)))) as A.
    assert (B : (forall x, In x (flat_map (fun jj => symbols (transitionExpression m s jj)) (seq 0 (pc_n m))) -> exists v, dget (pc_val m) x = Some v) <-> forall s', s' < pc_n m -> has_values (pc_val m) (expr_of m s s')).
    { split.
      - intros E s' Ls x I. apply E, in_flat_map. exists s'. split; [apply in_seq; lia|exact I].
      - intros E x I. apply in_flat_map in I as (s' & J & I). apply in_seq in J. eapply E; [|exact I]. lia. }
    destruct (forallb _ _) eqn:F; cbn [bind].
    - change (nsum (map (pc_eval m s) (seq 0 (pc_n m)))) with (exit_of m s). destruct (neqb (exit_of m s) n0); cbn [In]; (split; [intros [<-|[]]; split; [apply B, A; reflexivity|reflexivity]|intros [_ ->]; auto]).
    - cbn [In]. split; [intros []|]. intros [E _]. pose proof (proj2 A (proj2 B E)). discriminate.
  Qed.
End Rates.

(** ** C141 *)
Theorem C141_pctmc_print : forall K (TK : Text K) (NK : Num K) (RK : Round K) (SK : Sym K) (sym_text : K -> string) (m : pctmc K), number_texts K TK ->
  (forall x c, In c (s2t (sym_text x)) -> c <> NL) -> (forall e, In e (pc_expr m) -> one_line (show_expr e)) -> one_line (show_expr (EConst n0)) ->
  one_line (pc_name m) -> (forall l, In l (pc_lab m) -> one_line l) -> length (pc_lab m) = pc_n m -> (forall x v, In (x, v) (pc_val m) -> word x) ->
  let p := page (pc_str sym_text m) in
  says_name p (pc_name m) /\ says_start p (pc_ini m) /\
  (forall x t, In (Param x t) p <-> exists v, In (x, v) (pc_val m) /\ t = show (nround 5 v)) /\
  says_states p (pc_n m) (nth_error (pc_lab m)) (fun s i => wait_says m s i \/
    exists s' k t, entry (pc_mat m) s s' k /\ k <> 0 /\ rate_says sym_text (pc_val m) (expr_of m s s') t /\ i = Rate s s' t).
Proof.
  intros K TK NK RK SK st m HT HS HE HE0 ON OL L HW p.
  pose (row := fun s => indexed (nth s (pc_mat m) [])).
  pose (b := fun s => waits m s ++ map (fun jk => Rate s (fst jk) (pc_rate_str st m s (fst jk))) (filter (fun jk => negb (snd jk =? 0)) (row s))).
  assert (CR : forall s j, clean NL (s2t (pc_rate_str st m s j))).
  { intros s j. assert (Ce : clean NL (s2t (show_expr (transitionExpression m s j)))).
    { unfold transitionExpression. destruct (nth_in_or_default (nth j (nth s (pc_mat m) []) 0) (pc_expr m) (EConst n0)) as [I|E]; [apply HE, I|rewrite E; exact HE0]. }
    unfold pc_rate_str. cbv zeta. destruct (inst_state m s (Some j)) as [[|]|]; try exact Ce. destruct (involvedParameters _ _ _); [exact Ce|]. destruct (transitionValue m s j) as [v|]; [|exact Ce].
    assert (SA : forall a b, s2t (a ++ b)%string = s2t a ++ s2t b) by (induction a; intros; cbn; [reflexivity|f_equal; auto]).
    rewrite !SA. repeat apply clean_app; try (apply clean_lit; reflexivity); [exact Ce|]. intros I. apply HS in I. congruence. }
  assert (F : forall s, page (pc_state_str st m s) = State s (Some (lab (pc_lab m) s)) :: b s /\ ends (pc_state_str st m s)).
  { intros s. unfold pc_state_str. destruct (page_title (pc_lab m) s (label_line _ s OL)) as [E1 E2].
    match goal with |- context[state_title _ _ ++ ?w ++ ?r] => assert (W : page w = waits m s /\ ends w); [|assert (R : page r = map (fun jk => Rate s (fst jk) (pc_rate_str st m s (fst jk))) (filter (fun jk => negb (snd jk =? 0)) (row s)) /\ ends r)] end.
    - unfold waits. destruct (inst_state m s None) as [[|]|]; try (split; [reflexivity|apply ends_nil]).
      destruct (pc_expected_time m s) as [[x| |]|]; try (split; [reflexivity|apply ends_nil]); rewrite app_assoc; (split; [|apply ends_nl]); rewrite page_line, read_Wait by (apply clean_app; [apply clean_lit; reflexivity|first [apply (texts_ok HT)|apply clean_lit; reflexivity]]); reflexivity.
    - rewrite (flat_map_ext _ (fun jk => if negb (snd jk =? 0) then s2t "s" ++ show_nat s ++ s2t " -> s" ++ show_nat (fst jk) ++ s2t " : lambda = " ++ s2t (pc_rate_str st m s (fst jk)) ++ [NL] else [])) by (intros [j k]; cbn [snd]; destruct (k =? 0); reflexivity).
      apply (page_lines (fun jk => negb (snd jk =? 0)) (fun jk => s2t "s" ++ show_nat s ++ s2t " -> s" ++ show_nat (fst jk) ++ s2t " : lambda = " ++ s2t (pc_rate_str st m s (fst jk)))).
      intros [j k] _. cbn [fst snd]. split; [rewrite <- !app_assoc; reflexivity|]. split; [|apply read_Rate]. repeat apply clean_app; try (apply clean_lit; reflexivity); try (apply clean_nat; reflexivity). apply CR.
    - destruct W as [W1 W2], R as [R1 R2]. split; [|apply ends_app; [exact E2|apply ends_app; assumption]]. rewrite page_app by exact E2. rewrite page_app by exact W2. rewrite E1, W1, R1. reflexivity. }
  assert (D : forall s i, In i (b s) -> detail i /\ forall x v, i <> Param x v).
  { intros s i I. apply in_app_or in I as [I|I].
    - unfold waits in I. destruct (inst_state m s None) as [[|]|]; try (destruct I; fail). destruct (pc_expected_time m s) as [[x| |]|]; try (destruct I; fail); destruct I as [<-|[]]; split; [exact Logic.I|discriminate|exact Logic.I|discriminate].
    - apply in_map_iff in I as (? & <- & _). split; [exact Logic.I|discriminate]. }
  assert (C : forall s, s < pc_n m -> Some (lab (pc_lab m) s) = nth_error (pc_lab m) s /\ NoDup (b s) /\ forall i, In i (b s) <-> wait_says m s i \/
    exists s' k t, entry (pc_mat m) s s' k /\ k <> 0 /\ rate_says st (pc_val m) (expr_of m s s') t /\ i = Rate s s' t).
  { intros s Ls. split; [apply label_nth; lia|]. split.
    - apply NoDup_app_intro.
      + unfold waits. destruct (inst_state m s None) as [[|]|]; try constructor. destruct (pc_expected_time m s) as [[x| |]|]; repeat constructor; intros [].
      + unfold row. generalize (indexed_nodup (nth s (pc_mat m) [])). generalize (indexed (nth s (pc_mat m) [])). induction l as [|[j k] l IH]; intros N; [constructor|]. cbn in N. inversion N as [|? ? N1 N2]; subst.
        cbn. destruct (k =? 0); cbn [negb]; [apply IH, N2|]. cbn. constructor; [|apply IH, N2]. intros I. apply in_map_iff in I as ((j' & k') & E & I). cbn [fst] in E. injection E as -> _. apply filter_In in I as [I _]. apply N1, in_map_iff. exists (j, k'). auto.
      + intros i I J. apply in_map_iff in J as (? & <- & _). apply (waits_ok m s _ Ls) in I as [_ I]. discriminate.
    - intros i. unfold b. rewrite in_app_iff, (waits_ok m s i Ls). split; (intros [H|H]; [left; exact H|right]).
      + apply in_map_iff in H as ((j & k) & <- & I). apply filter_In in I as [I Z]. apply indexed_in in I. cbn [fst snd] in *. exists j, k, (pc_rate_str st m s j).
        split; [exists (nth s (pc_mat m) []); split; [apply nth_error_nth'; exact Ls|exact I]|]. split; [apply Nat.eqb_neq; destruct (k =? 0); [discriminate|reflexivity]|]. split; [apply rate_ok, Ls|reflexivity].
      + destruct H as (j & k & t & (r & Er & Ex) & Z & T & ->). apply in_map_iff. exists (j, k). cbn [fst]. split.
        * f_equal. pose proof (rate_ok st m s j Ls) as T'. destruct T as [(N & v & Ev & ->)|[N ->]], T' as [(N' & v' & Ev' & ->)|[N' ->]]; try reflexivity.
          -- rewrite Ev in Ev'. injection Ev' as ->. reflexivity.
          -- exfalso. destruct N' as [N'|N']; [congruence|]. apply N', eval_values. eauto.
          -- exfalso. destruct N as [N|N]; [congruence|]. apply N, eval_values. eauto.
        * apply filter_In. split; [apply indexed_in; rewrite (nth_error_nth _ _ _ Er); exact Ex|]. cbn [snd]. apply Nat.eqb_neq in Z. rewrite Z. reflexivity. }
  set (P := map (fun xv => Param (fst xv) (show (nround 5 (snd xv)))) (pc_val m)).
  destruct (factor (pc_name m) (pc_val m) (pc_ini m) (pc_n m) (pc_state_str st m)) as (rest & M1 & M2).
  assert (PL : page (param_lines (pc_val m)) = P /\ ends (param_lines (pc_val m))).
  { unfold param_lines, P. assert (G : forall l, (forall x v, In (x, v) l -> word x) -> page (flat_map (fun pv : string * K => s2t (fst pv) ++ s2t " = " ++ s2t (show (nround 5 (snd pv))) ++ [NL]) l) = map (fun xv => Param (fst xv) (show (nround 5 (snd xv)))) l /\ ends (flat_map (fun pv : string * K => s2t (fst pv) ++ s2t " = " ++ s2t (show (nround 5 (snd pv))) ++ [NL]) l)).
    { induction l as [|[x v] l IH]; intros HWl; [split; [reflexivity|apply ends_nil]|]. destruct IH as [I1 I2]; [intros; eapply HWl; right; eassumption|]. cbn [flat_map map fst snd].
      replace (s2t x ++ s2t " = " ++ s2t (show (nround 5 v)) ++ [NL]) with ((s2t x ++ s2t " = " ++ s2t (show (nround 5 v))) ++ [NL]) by (rewrite <- !app_assoc; reflexivity).
      assert (Wx : word x) by (eapply HWl; left; reflexivity).
      split; [|apply ends_app; [apply ends_nl|exact I2]]. rewrite page_app by apply ends_nl. rewrite I1, page_line, read_Param; [reflexivity|exact Wx|].
      repeat apply clean_app; [intros I; apply Wx in I; tauto|apply clean_lit; reflexivity|apply (texts_ok HT)]. }
    apply G, HW. }
  assert (T1 : page ((s2t "Name: " ++ s2t (pc_name m)) ++ [NL]) = [Title (pc_name m)]).
  { rewrite page_line by (apply clean_app; [apply clean_lit; reflexivity|exact ON]). rewrite read_Title. reflexivity. }
  assert (PM : page (model_str (pc_name m) (pc_ini m) (pc_n m) (pc_state_str st m)) = Title (pc_name m) :: page rest).
  { rewrite M1, page_app by apply ends_nl. rewrite T1. reflexivity. }
  assert (PP : p = Title (pc_name m) :: P ++ page rest).
  { unfold p, pc_str. rewrite M2, page_app by apply ends_nl. rewrite T1. change ([Title (pc_name m)] ++ ?r) with (Title (pc_name m) :: r). apply f_equal. rewrite page_app by apply PL. rewrite (proj1 PL). apply f_equal. rewrite (page_app [NL]) by (right; exists []; reflexivity). reflexivity. }
  assert (PR : page rest = start_infos (pc_ini m) ++ flat_map (fun s => State s (Some (lab (pc_lab m) s)) :: b s) (seq 0 (pc_n m))).
  { pose proof PM as E. rewrite page_model in E; [|apply texts_ok, HT|exact ON|intros s; apply F]. injection E as <-. f_equal. apply flat_map_ext. intros s. apply F. }
  destruct (model_says HT (pc_name m) (pc_ini m) (pc_n m) (pc_state_str st m) (nth_error (pc_lab m)) (fun s => Some (lab (pc_lab m) s)) b _ ON F (fun s i I => proj1 (D s i I)) C) as (S1 & S2 & S3). rewrite PM in S1, S2, S3.
  assert (NP : forall i, In i P -> exists x v, i = Param x v) by (intros i I; apply in_map_iff in I as ([x v] & <- & _); eauto).
  rewrite PP. split; [|split; [|split]].
  - split; [reflexivity|]. intros x [E|I]; [congruence|]. apply in_app_or in I as [I|I]; [apply NP in I as (? & ? & ?); discriminate|]. apply S1. right. exact I.
  - assert (Q : forall l, In (Start l) (Title (pc_name m) :: P ++ page rest) <-> In (Start l) (Title (pc_name m) :: page rest)).
    { intros l. cbn [In]. rewrite in_app_iff. split; [intros [E|[I|I]]; [discriminate|apply NP in I as (? & ? & ?); discriminate|right; exact I]|intros [E|I]; [discriminate|right; right; exact I]]. }
    destruct S2 as (A1 & A2 & A3). split; [|split].
    + intros i I. apply Q, A1, I.
    + intros A i x E. rewrite <- (A2 A i x E). split; intros (l & I & J); exists l; (split; [apply Q, I|exact J]).
    + intros l l' I I'. apply A3; apply Q; assumption.
  - intros x t. split.
    + intros [E|I]; [discriminate|]. apply in_app_or in I as [I|I].
      * apply in_map_iff in I as ([y v] & E & I). cbn in E. injection E as <- <-. eauto.
      * exfalso. rewrite PR in I. apply in_app_or in I as [I|I].
        -- unfold start_infos in I. destruct (first_one 0 (pc_ini m)); [destruct I as [I|[]]; discriminate|]. destruct (likely (pc_ini m)); [destruct I|destruct I as [I|[]]; discriminate].
        -- apply in_flat_map in I as (s & _ & [I|I]); [discriminate|]. apply D in I as [_ I]. eapply I. reflexivity.
    + intros (v & I & ->). right. apply in_or_app. left. apply in_map_iff. exists (x, v). auto.
  - assert (Q : sections (Title (pc_name m) :: P ++ page rest) = sections (Title (pc_name m) :: page rest)).
    { cbn [sections]. apply sections_skip. intros i I. apply NP in I as (? & ? & ->). discriminate. }
    unfold says_states in *. rewrite Q. exact S3.
Qed.
Print Assumptions C141_pctmc_print.

(** ** Example: states with and without values, an absorbing state. *)
#[local] Instance QText : Text Q := {| show := fun x => t2s (show_int (Qnum x) ++ "/" :: show_int (Zpos (Qden x))); read := fun _ => None |}.
#[local] Instance QRound : Round Q := {| nround := fun d x => Qred (Qmake (Qround.Qfloor (Qplus (Qmult x (inject_Z (10 ^ Z.of_nat d))) (1 # 2))) (Z.to_pos (10 ^ Z.of_nat d))) |}.
Fixpoint Q_expr (e : expr Q) : string :=
  match e with
  | EConst c => show c
  | EVar x => x
  | EAdd a b => Q_expr a ++ " + " ++ Q_expr b
  | ESub a b => Q_expr a ++ " - " ++ Q_expr b
  | EMul a b => Q_expr a ++ "*" ++ Q_expr b
  | EPow a n => Q_expr a ++ "**" ++ t2s (show_nat n)
  end%string.
#[local] Instance QSym : Sym Q := {| show_expr := Q_expr; read_expr := fun _ => None |}.
Definition print_pctmc : pctmc Q :=
  mkPC [[0; 1; 2]; [3; 0; 1]; [0; 0; 0]] ["init"; "a"; "b"]%string
       [EConst 0%Q; EConst 2%Q; EMul (EConst 3%Q) (EVar "x"); EVar "y"] [("x"%string, 1 # 3)]%Q [[(0, 2)%Z]; [(1, 0)%Z]] ["x"; "y"]%string [1; 0; 0]%Q "p"%string.
Example C141_instance :
  (let p := page (pc_str show print_pctmc) in
   says_name p "p" /\ says_states p 3 (nth_error ["init"; "a"; "b"]%string) (fun s i => wait_says print_pctmc s i \/
     exists s' k t, entry (pc_mat print_pctmc) s s' k /\ k <> 0 /\ rate_says show (pc_val print_pctmc) (expr_of print_pctmc s s') t /\ i = Rate s s' t)) /\
  page (pc_str show print_pctmc) =
    [Title "p"; Param "x" "33333/100000"; Start [(0, None)];
     State 0 (Some "init"); Wait "33333/100000"; Rate 0 1 "2/1"; Rate 0 2 "3/1*x (=1/1)";
     State 1 (Some "a"); Rate 1 0 "y"; Rate 1 2 "2/1";
     State 2 (Some "b"); Wait "inf"]%string.
Proof.
  split; [|vm_compute; reflexivity]. cbv zeta.
  assert (H : number_texts Q QText).
  { intros x c. unfold show, QText. rewrite LText.s2t_t2s, in_app_iff. intros [I|[<-|I]]; [|repeat split; discriminate|]; apply show_int_chars in I; repeat split; intros ->; discriminate. }
  destruct (C141_pctmc_print Q QText QNum QRound QSym show print_pctmc H) as (A & _ & _ & B).
  - intros x c I. apply H in I. tauto.
  - intros e [<-|[<-|[<-|[<-|[]]]]] I; vm_compute in I; intuition discriminate.
  - intros I; vm_compute in I; intuition discriminate.
  - intros I; vm_compute in I; intuition discriminate.
  - intros l [<-|[<-|[<-|[]]]] I; vm_compute in I; intuition discriminate.
  - reflexivity.
  - intros x v [E|[]] c I. injection E as <- _. destruct I as [<-|[]]. repeat split; discriminate.
  - split; [exact A|exact B].
Qed.

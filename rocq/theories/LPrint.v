(** Reading what print shows. *)
From Coq Require Import String Ascii ZArith Bool List Lia.
From Verif Require Import Num Py MTools MSet MModels MCtor MText MPrism MPrint SPrism SPrint LText LPrism.
Import ListNotations.
Local Open Scope char_scope.

Definition clean (c : ascii) (t : text) : Prop := ~ In c t.
Definition ends (u : text) : Prop := u = [] \/ exists v, u = v ++ [NL].

Lemma ends_nil : ends [].
Proof. left. reflexivity. Qed.
Lemma ends_nl v : ends (v ++ [NL]).
Proof. right. exists v. reflexivity. Qed.
Lemma ends_app u v : ends u -> ends v -> ends (u ++ v).
Proof. intros E [->|[v' ->]]; [rewrite app_nil_r; exact E|right; exists (u ++ v'); apply app_assoc]. Qed.
Lemma ends_flat {A} (f : A -> text) l : (forall x, In x l -> ends (f x)) -> ends (flat_map f l).
Proof. induction l as [|x l IH]; intros E; [apply ends_nil|]. cbn. apply ends_app; [apply E; left; reflexivity|apply IH; intros y I; apply E; right; exact I]. Qed.

Lemma ceq_refl c : ceq c c = true.
Proof. apply Ascii.eqb_refl. Qed.
Lemma ceq_neq a b : a <> b -> ceq a b = false.
Proof. intros N. apply Ascii.eqb_neq, N. Qed.

Lemma lines_app u t : lines ((u ++ [NL]) ++ t) = lines (u ++ [NL]) ++ lines t.
Proof.
  induction u as [|c u IH]; [reflexivity|]. cbn [app lines]. destruct (ceq c NL); [cbn; rewrite IH; reflexivity|]. rewrite IH.
  destruct (lines (u ++ [NL])) as [|l ls] eqn:E; [|reflexivity]. exfalso. destruct u as [|d u]; cbn in E; [discriminate|]. destruct (ceq d NL); [discriminate|]. destruct (lines (u ++ [NL])); discriminate.
Qed.
Lemma lines_line x t : clean NL x -> lines ((x ++ [NL]) ++ t) = x :: lines t.
Proof.
  intros C. rewrite lines_app. change (x :: lines t) with ([x] ++ lines t). f_equal. induction x as [|c x IH]; [reflexivity|].
  cbn [app lines]. rewrite ceq_neq by (intros ->; apply C; left; reflexivity). rewrite IH by (intros I; apply C; right; exact I). reflexivity.
Qed.
Definition infos (o : option info) : list info := match o with Some i => [i] | None => [] end.
Lemma page_app u t : ends u -> page (u ++ t) = page u ++ page t.
Proof. intros [->|[v ->]]; [reflexivity|]. unfold page. rewrite lines_app, flat_map_app. reflexivity. Qed.
Lemma page_line x : clean NL x -> page (x ++ [NL]) = infos (read_line x).
Proof. intros C. unfold page. rewrite <- (app_nil_r (x ++ [NL])), lines_line by exact C. cbn. unfold infos. apply app_nil_r. Qed.
Lemma page_flat {A} (f : A -> text) l : (forall x, In x l -> ends (f x)) -> page (flat_map f l) = flat_map (fun x => page (f x)) l.
Proof.
  induction l as [|x l IH]; intros E; [reflexivity|]. cbn [flat_map]. rewrite page_app by (apply E; left; reflexivity). rewrite IH by (intros y I; apply E; right; exact I). reflexivity.
Qed.

Lemma strip_app p t : strip p (p ++ t) = Some t.
Proof. induction p as [|c p IH]; [destruct t; reflexivity|]. cbn. rewrite ceq_refl. exact IH. Qed.
Lemma strip_some p t u : strip p t = Some u -> t = p ++ u.
Proof.
  revert t. induction p as [|c p IH]; intros [|d t] E; cbn in *; try discriminate; try congruence.
  unfold ceq in E. destruct (Ascii.eqb_spec c d) as [->|]; [|discriminate]. f_equal. apply IH, E.
Qed.
Lemma strip_none p t c : In c p -> clean c t -> strip p t = None.
Proof. intros I C. destruct (strip p t) as [u|] eqn:E; [|reflexivity]. exfalso. apply C. rewrite (strip_some _ _ _ E). apply in_or_app. left. exact I. Qed.
Definition no_digit (t : text) : Prop := match t with c :: _ => digit c = false | [] => True end.
Lemma number_at_ok n r : no_digit r -> number_at (show_nat n ++ r) = Some (n, r).
Proof.
  intros N. unfold number_at. rewrite span_app; [|apply show_nat_digits|exact N]. unfold show_nat. rewrite read_show_int, Nat2Z.id. reflexivity.
Qed.
Lemma upto_ok c a r : clean c a -> match r with x :: _ => x = c | [] => True end -> upto c (a ++ r) = (a, r).
Proof.
  intros C N. unfold upto. apply span_app; [intros x I; rewrite ceq_neq; [reflexivity|intros ->; apply C, I]|]. destruct r; [exact I|]. subst. rewrite ceq_refl. reflexivity.
Qed.
Lemma clean_nat c n : digit c = false -> clean c (show_nat n).
Proof. intros D I. apply show_nat_digits in I. congruence. Qed.
Lemma clean_app c a b : clean c a -> clean c b -> clean c (a ++ b).
Proof. intros A B I. apply in_app_or in I. destruct I; [apply A|apply B]; assumption. Qed.
Lemma clean_lit c s : existsb (ceq c) (s2t s) = false -> clean c (s2t s).
Proof. intros E I. apply eq_true_false_abs with (2 := E). apply existsb_exists. exists c. split; [exact I|apply ceq_refl]. Qed.

(** ** One line each *)
Lemma read_Title name : read_line (s2t "Name: " ++ s2t name) = Some (Title name).
Proof. unfold read_line, read_title. rewrite strip_app, t2s_s2t. reflexivity. Qed.
Lemma strip_s_nat s r : strip ["s"] (show_nat s ++ r) = None.
Proof.
  pose proof (show_nat_nonempty s) as N. pose proof (show_nat_digits s) as D. destruct (show_nat s) as [|c t]; [congruence|]. cbn [strip app]. destruct (ceq "s" c) eqn:E; [|reflexivity].
  apply Ascii.eqb_eq in E. subst. specialize (D "s" (or_introl eq_refl)). discriminate.
Qed.
Lemma read_State s l : read_line (s2t "----STATE " ++ show_nat s ++ s2t "--" ++ s2t l ++ s2t "----") = Some (State s (Some l)).
Proof.
  unfold read_line. unfold or_else at 1. change (read_title _) with (@None info). cbv iota. unfold or_else at 1. change (read_start _) with (@None info). cbv iota.
  unfold read_state. rewrite strip_app, strip_s_nat, number_at_ok by exact eq_refl. rewrite strip_app. rewrite app_length. cbn [s2t length list_ascii_of_string].
  replace (length (s2t l) + 4 - 4)%nat with (length (s2t l)) by lia. rewrite firstn_app, firstn_all, Nat.sub_diag. cbn [firstn]. rewrite app_nil_r, t2s_s2t. reflexivity.
Qed.
Lemma read_HState s : read_line (s2t "----STATE s" ++ show_nat s ++ s2t "----") = Some (State s None).
Proof.
  unfold read_line. unfold or_else at 1. change (read_title _) with (@None info). cbv iota. unfold or_else at 1. change (read_start _) with (@None info). cbv iota.
  unfold read_state. change (s2t "----STATE s" ++ ?t) with (s2t "----STATE " ++ ["s"] ++ t). rewrite strip_app, strip_app, number_at_ok by exact eq_refl. reflexivity.
Qed.
Lemma read_Wait v : read_line (s2t "Exepected waiting time: " ++ s2t v) = Some (Wait v).
Proof. unfold read_line, read_wait. rewrite strip_app, t2s_s2t. reflexivity. Qed.
Lemma read_stars : read_line (s2t "************") = None.
Proof. reflexivity. Qed.
Lemma to_arrow t : read_line (s2t "s" ++ t) = or_else (read_arrow (s2t "s" ++ t)) (or_else (read_gauss (s2t "s" ++ t)) (read_param (s2t "s" ++ t))).
Proof. reflexivity. Qed.
Lemma read_Move s s' v : clean " " (s2t v) -> read_line (s2t "s" ++ show_nat s ++ s2t " -> s" ++ show_nat s' ++ s2t " : " ++ s2t v) = Some (Move s s' v).
Proof.
  intros C. rewrite to_arrow. unfold read_arrow. change (s2t "s") with ["s"]. rewrite strip_app, number_at_ok by exact eq_refl. rewrite strip_app, number_at_ok by exact eq_refl. rewrite strip_app.
  rewrite (strip_none _ _ " ") by (auto; cbn; tauto). rewrite t2s_s2t. reflexivity.
Qed.
Lemma read_Rate s s' v : read_line (s2t "s" ++ show_nat s ++ s2t " -> s" ++ show_nat s' ++ s2t " : lambda = " ++ s2t v) = Some (Rate s s' v).
Proof.
  rewrite to_arrow. unfold read_arrow. change (s2t "s") with ["s"]. rewrite strip_app, number_at_ok by exact eq_refl. rewrite strip_app, number_at_ok by exact eq_refl.
  change (s2t " : lambda = " ++ ?t) with (s2t " : " ++ s2t "lambda = " ++ t). rewrite !strip_app, t2s_s2t. reflexivity.
Qed.
Lemma read_Act s a s' v : clean ")" (s2t a) -> read_line (s2t "s" ++ show_nat s ++ s2t " - (" ++ s2t a ++ s2t ") -> s" ++ show_nat s' ++ s2t " : " ++ s2t v) = Some (Act s a s' v).
Proof.
  intros C. rewrite to_arrow. unfold read_arrow. change (s2t "s") with ["s"]. rewrite strip_app, number_at_ok by exact eq_refl.
  change (strip (s2t " -> s") (s2t " - (" ++ ?t)) with (@None text). cbv iota. rewrite strip_app, upto_ok by (auto; exact eq_refl). rewrite strip_app, number_at_ok by exact eq_refl. rewrite strip_app, !t2s_s2t. reflexivity.
Qed.
Lemma read_Obs s o v : clean ":" (s2t o) -> read_line (s2t "s" ++ show_nat s ++ s2t " => " ++ s2t o ++ s2t " : " ++ s2t v) = Some (Obs s o v).
Proof.
  intros C. rewrite to_arrow. unfold read_arrow. change (s2t "s") with ["s"]. rewrite strip_app, number_at_ok by exact eq_refl.
  change (strip (s2t " -> s") (s2t " => " ++ ?t)) with (@None text). cbv iota. change (strip (s2t " - (") (s2t " => " ++ ?t)) with (@None text). cbv iota. rewrite strip_app.
  change (s2t o ++ s2t " : " ++ s2t v) with (s2t o ++ [" "] ++ s2t ": " ++ s2t v). rewrite (app_assoc (s2t o)). rewrite upto_ok; [|apply clean_app; [exact C|intros [E|[]]; discriminate]|exact eq_refl].
  rewrite strip_app, removelast_last, !t2s_s2t. reflexivity.
Qed.
Lemma read_Mean n v : read_line (s2t "mean " ++ show_nat n ++ s2t ": " ++ s2t v) = Some (Mean n v).
Proof.
  unfold read_line. unfold or_else at 1. change (read_title _) with (@None info). cbv iota. unfold or_else at 1. change (read_start _) with (@None info). cbv iota.
  unfold or_else at 1. change (read_state _) with (@None info). cbv iota. unfold or_else at 1. change (read_wait _) with (@None info). cbv iota. unfold or_else at 1. change (read_arrow _) with (@None info). cbv iota.
  unfold read_gauss. rewrite strip_app, number_at_ok by exact eq_refl. rewrite strip_app, t2s_s2t. reflexivity.
Qed.
Lemma read_Std n v : read_line (s2t "std " ++ show_nat n ++ s2t ": " ++ s2t v) = Some (Std n v).
Proof.
  unfold read_line. unfold or_else at 1. change (read_title _) with (@None info). cbv iota. unfold or_else at 1. change (read_start _) with (@None info). cbv iota.
  unfold or_else at 1. change (read_state _) with (@None info). cbv iota. unfold or_else at 1. change (read_wait _) with (@None info). cbv iota. unfold or_else at 1. change (read_arrow _) with (@None info). cbv iota.
  unfold read_gauss. change (strip (s2t "mean ") _) with (@None text). cbv iota. rewrite strip_app, number_at_ok by exact eq_refl. rewrite strip_app, t2s_s2t. reflexivity.
Qed.

(** ** The initial states *)
Lemma starts_one i n : starts (S n) (s2t "s" ++ show_nat i) = [(i, None)].
Proof. cbn [starts]. change (s2t "s") with ["s"]. rewrite strip_app. rewrite <- (app_nil_r (show_nat i)), number_at_ok by exact I. reflexivity. Qed.
Definition start_item (iv : nat * string) : text := s2t "s" ++ show_nat (fst iv) ++ s2t ": " ++ s2t (snd iv).
Lemma starts_join : forall l fuel, (length l <= fuel)%nat -> (forall iv, In iv l -> clean "," (s2t (snd iv))) ->
  starts fuel (join (s2t ", ") (map start_item l)) = map (fun iv => (fst iv, Some (snd iv))) l.
Proof.
  induction l as [|[i v] l IH]; intros fuel F C; [destruct fuel; reflexivity|]. destruct fuel as [|fuel]; [cbn in F; lia|].
  assert (Cv : clean "," (s2t v)) by (apply (C (i, v)); left; reflexivity).
  assert (E : exists r, join (s2t ", ") (map start_item ((i, v) :: l)) = start_item (i, v) ++ r /\ match r with x :: _ => x = "," | [] => True end /\
    match strip (s2t ", ") r with Some t => starts fuel t | None => [] end = map (fun iv => (fst iv, Some (snd iv))) l).
  { destruct l as [|q l]; [exists []; split; [cbn; rewrite app_nil_r; reflexivity|split; [exact I|reflexivity]]|].
    exists (s2t ", " ++ join (s2t ", ") (map start_item (q :: l))). split; [reflexivity|]. split; [reflexivity|]. rewrite strip_app. apply IH; [cbn in *; lia|]. intros iv J. apply C. right. exact J. }
  destruct E as (r & -> & Hr & Hs). cbn [map fst snd]. rewrite <- Hs. unfold start_item. cbn [starts fst snd]. change (s2t "s") with ["s"]. rewrite <- !app_assoc, strip_app, number_at_ok by exact eq_refl. rewrite strip_app, upto_ok by auto. rewrite t2s_s2t. reflexivity.
Qed.
Lemma join_sep l x : flat_map (fun i => i ++ s2t ", ") (x :: l) = join (s2t ", ") (x :: l) ++ s2t ", ".
Proof. revert x. induction l as [|y l IH]; intros x; [cbn; rewrite app_nil_r; reflexivity|]. change (flat_map _ (x :: y :: l)) with ((x ++ s2t ", ") ++ flat_map (fun i => i ++ s2t ", ") (y :: l)). rewrite IH. cbn [join]. rewrite <- !app_assoc. reflexivity. Qed.
Lemma join_length l : (length l <= length (join (s2t ", ") (map start_item l)))%nat.
Proof.
  induction l as [|iv l IH]; [cbn; lia|]. destruct l as [|q l]; [cbn; lia|]. change (join _ (map start_item (iv :: q :: l))) with (start_item iv ++ s2t ", " ++ join (s2t ", ") (map start_item (q :: l))).
  rewrite !app_length. cbn [length] in *. change (length (s2t ", ")) with 2%nat. lia.
Qed.

Section Pages.
  Context {K : Type} {TK : Text K} {NK : Num K} {RK : Round K}.
  Hypothesis texts : forall x : K, clean NL (s2t (show x)) /\ clean " " (s2t (show x)) /\ clean "," (s2t (show x)).

  Definition likely (ini : list K) : list (nat * K) := filter (fun ix => nleb (ndiv (nofZ 1) (nofZ 1000)) (snd ix)) (indexed ini).
  Definition start_infos (ini : list K) : list info :=
    match first_one 0 ini with
    | Ok i => [Start [(i, None)]]
    | Err _ => match likely ini with [] => [] | l => [Start (map (fun ix => (fst ix, Some (show (nround 3 (snd ix))))) l)] end
    end.
  Lemma flat_if {A} (p : A -> bool) (f : A -> text) l : flat_map (fun x => if p x then f x else []) l = flat_map f (filter p l).
  Proof. induction l as [|x l IH]; [reflexivity|]. cbn. destruct (p x); [cbn; rewrite IH; reflexivity|exact IH]. Qed.
  Lemma firstn_less {A} (a b : list A) : firstn (length (a ++ b) - length b) (a ++ b) = a.
  Proof. rewrite app_length. replace (length a + length b - length b)%nat with (length a) by lia. rewrite firstn_app, firstn_all, Nat.sub_diag. apply app_nil_r. Qed.
  Lemma read_none : read_line (s2t "Initial state") = None.
  Proof. reflexivity. Qed.

  Lemma page_model name ini n f : clean NL (s2t name) -> (forall s, ends (f s)) ->
    page (model_str name ini n f) = Title name :: start_infos ini ++ flat_map (fun s => page (f s)) (seq 0 n).
  Proof.
    intros C E. unfold model_str, start_infos.
    assert (T : page ((s2t "Name: " ++ s2t name) ++ [NL]) = [Title name]).
    { rewrite page_line by (apply clean_app; [apply clean_lit; reflexivity|exact C]). rewrite read_Title. reflexivity. }
    assert (B : page (flat_map (fun s => f s ++ [NL]) (seq 0 n) ++ [NL]) = flat_map (fun s => page (f s)) (seq 0 n)).
    { rewrite page_app by (apply ends_flat; intros; apply ends_nl). change (page [NL]) with (@nil info). rewrite app_nil_r, page_flat by (intros; apply ends_nl).
      apply flat_map_ext. intros s. rewrite page_app by apply E. change (page [NL]) with (@nil info). apply app_nil_r. }
    assert (P : forall u, ends u -> page (((s2t "Name: " ++ s2t name ++ [NL]) ++ u) ++ flat_map (fun s => f s ++ [NL]) (seq 0 n) ++ [NL]) = Title name :: page u ++ flat_map (fun s => page (f s)) (seq 0 n)).
    { intros u Eu. rewrite <- app_assoc. rewrite (app_assoc (s2t "Name: ")). rewrite page_app by apply ends_nl. rewrite T. rewrite page_app by exact Eu. rewrite B. reflexivity. }
    destruct (first_one 0 ini) as [i|e].
    - replace (s2t "Initial state: s" ++ show_nat i ++ [NL]) with ((s2t "Initial state: " ++ s2t "s" ++ show_nat i) ++ [NL]) by (rewrite <- !app_assoc; reflexivity).
      rewrite P by apply ends_nl. f_equal. f_equal. rewrite page_line by (repeat apply clean_app; try (apply clean_lit; reflexivity); apply clean_nat; reflexivity).
      change (read_line _) with (read_start (s2t "Initial state: " ++ s2t "s" ++ show_nat i)). unfold read_start. rewrite strip_app. rewrite app_length. change (length (s2t "s") + ?k)%nat with (S k). rewrite starts_one. reflexivity.
    - assert (F : flat_map (fun ix : nat * K => if nleb (ndiv (nofZ 1) (nofZ 1000)) (snd ix) then s2t "s" ++ show_nat (fst ix) ++ s2t ": " ++ s2t (show (nround 3 (snd ix))) ++ s2t ", " else []) (indexed ini)
        = flat_map (fun i => i ++ s2t ", ") (map start_item (map (fun ix => (fst ix, show (nround 3 (snd ix)))) (likely ini)))).
      { rewrite flat_if. fold (likely ini). rewrite map_map, (flat_map_concat_map (fun i => i ++ s2t ", ")), map_map, <- flat_map_concat_map. apply flat_map_ext. intros [i x]. unfold start_item. cbn [fst snd]. rewrite <- !app_assoc. reflexivity. }
      rewrite F. clear F. set (its := map (fun ix => (fst ix, show (nround 3 (snd ix)))) (likely ini)).
      assert (CI : forall iv, In iv its -> clean NL (s2t (snd iv)) /\ clean "," (s2t (snd iv))).
      { intros iv I. apply in_map_iff in I as ((j & x) & <- & _). cbn. split; apply texts. }
      destruct its as [|iv its'] eqn:EI.
      + assert (L : likely ini = []) by (subst its; destruct (likely ini); [reflexivity|discriminate]). rewrite L. cbn [map flat_map]. rewrite app_nil_r.
        replace ((s2t "Name: " ++ s2t name ++ [NL]) ++ s2t "Initial state: ") with (((s2t "Name: " ++ s2t name ++ [NL]) ++ s2t "Initial state") ++ s2t ": ") by (rewrite <- app_assoc; reflexivity).
        change 2%nat with (length (s2t ": ")). rewrite firstn_less. rewrite <- (app_assoc (s2t "Name: " ++ _)). rewrite P by apply ends_nl. rewrite page_line by (apply clean_lit; reflexivity). rewrite read_none. reflexivity.
      + assert (L : exists y l, likely ini = y :: l) by (subst its; destruct (likely ini); [discriminate|eauto]). destruct L as (y & l & L).
        change (map start_item (iv :: its')) with (start_item iv :: map start_item its'). rewrite join_sep. change (start_item iv :: map start_item its') with (map start_item (iv :: its')). rewrite <- EI in *.
        replace (((s2t "Name: " ++ s2t name ++ [NL]) ++ s2t "Initial state: ") ++ join (s2t ", ") (map start_item its) ++ s2t ", ")
          with (((s2t "Name: " ++ s2t name ++ [NL]) ++ s2t "Initial state: " ++ join (s2t ", ") (map start_item its)) ++ s2t ", ") by (rewrite <- !app_assoc; reflexivity).
        change 2%nat with (length (s2t ", ")). rewrite firstn_less. rewrite <- (app_assoc (s2t "Name: " ++ _)). rewrite P by apply ends_nl. f_equal. f_equal.
        rewrite page_line.
        * change (read_line _) with (read_start (s2t "Initial state: " ++ join (s2t ", ") (map start_item its))). unfold read_start. rewrite strip_app.
          rewrite starts_join; [|apply join_length|intros q I; apply CI, I]. rewrite L. cbn [infos]. f_equal. f_equal. subst its. rewrite map_map, L. reflexivity.
        * apply clean_app; [apply clean_lit; reflexivity|]. clear -CI. induction its as [|q l IH]; [intros []|].
          assert (Q : clean NL (start_item q)). { unfold start_item. repeat apply clean_app; try (apply clean_lit; reflexivity); [apply clean_nat; reflexivity|apply CI; left; reflexivity]. }
          destruct l as [|r l]; [exact Q|]. change (join _ (map start_item (q :: r :: l))) with (start_item q ++ s2t ", " ++ join (s2t ", ") (map start_item (r :: l))).
          apply clean_app; [exact Q|]. apply clean_app; [apply clean_lit; reflexivity|apply IH; intros; apply CI; right; assumption].
  Qed.
End Pages.

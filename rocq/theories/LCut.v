(** Beginnings of a literal and of a file. *)
From Coq Require Import String Ascii ZArith Bool List Lia.
From Verif Require Import Num Py MText SText LText MModels.
Import ListNotations.
Local Open Scope char_scope.

Section Parse.
  Context {K : Type} `{Text K}.
  Lemma span_split f t : t = fst (span f t) ++ snd (span f t) /\ (forall c, In c (fst (span f t)) -> f c = true) /\ match snd (span f t) with [] => True | c :: _ => f c = false end.
  Proof.
    induction t as [|c t (IH1 & IH2 & IH3)]; [split; [reflexivity|split; [intros c []|exact I]]|]. cbn [span]. destruct (f c) eqn:F; [|split; [reflexivity|split; [intros x []|exact F]]].
    destruct (span f t) as [a b]. cbn [fst snd] in *. split; [cbn; congruence|]. split; [intros x [<-|J]; auto|exact IH3].
  Qed.
  Lemma skip_more t s : skip t <> [] -> skip (t ++ s) = skip t ++ s.
  Proof.
    unfold skip. intros N. destruct (span_split (ceq " ") t) as (A & B & C). rewrite A at 1. rewrite <- app_assoc. rewrite span_app; [reflexivity|exact B|].
    destruct (snd (span (ceq " ") t)); [congruence|exact C].
  Qed.
  Lemma parse_str_more q : forall t s u r, parse_str q t = Some (s, u) -> parse_str q (t ++ r) = Some (s, u ++ r).
  Proof.
    intros t. remember (length t) as n eqn:En. assert (L : length t <= n) by lia. clear En. revert t L. induction n as [|n IH]; intros t L s u r E; [destruct t; [discriminate|cbn in L; lia]|].
    destruct t as [|c t]; [discriminate|]. cbn [length] in L. cbn [app parse_str] in *. destruct (ceq c q); [injection E as <- <-; reflexivity|]. destruct (ceq c NL); [discriminate|].
    destruct (ceq c "\").
    - destruct t as [|e t]; [discriminate|]. cbn [app length] in *.
      assert (P : forall (g : text -> text) t0, length t0 <= n -> match parse_str q t0 with Some (s0, u0) => Some (g s0, u0) | None => None end = Some (s, u) ->
                  match parse_str q (t0 ++ r) with Some (s0, u0) => Some (g s0, u0) | None => None end = Some (s, u ++ r)).
      { intros g t0 L0 X. destruct (parse_str q t0) as [[s0 u0]|] eqn:E0; [|discriminate]. rewrite (IH t0 L0 s0 u0 r E0). injection X as <- <-. reflexivity. }
      destruct (ceq e "\"); [apply (P (cons _)); [lia|exact E]|]. destruct (ceq e QUOTE); [apply (P (cons _)); [lia|exact E]|]. destruct (ceq e DQUOTE); [apply (P (cons _)); [lia|exact E]|].
      destruct (ceq e "n"); [apply (P (cons _)); [lia|exact E]|]. destruct (ceq e "r"); [apply (P (cons _)); [lia|exact E]|]. destruct (ceq e "t"); [apply (P (cons _)); [lia|exact E]|].
      destruct (ceq e "x").
      + destruct t as [|a [|b t]]; try discriminate. cbn [app length] in *. destruct (unhex a); [|discriminate]. destruct (unhex b); [|discriminate]. apply (P (cons _)); [lia|exact E].
      + destruct (parse_str q t) as [[s0 u0]|] eqn:E0; [|discriminate]. rewrite (IH t ltac:(lia) s0 u0 r E0). injection E as <- <-. reflexivity.
    - destruct (parse_str q t) as [[s0 u0]|] eqn:E0; [|discriminate]. rewrite (IH t ltac:(lia) s0 u0 r E0). injection E as <- <-. reflexivity.
  Qed.
  Lemma skip_nil t : skip t <> [] -> t <> [].
  Proof. intros N ->. apply N. reflexivity. Qed.
  (** What was read does not depend on what follows, except for a number at the
      end of the text. *)
  Definition closed (t : text) : Prop := match t with c :: _ => numchar c = false | [] => False end.
  Lemma parse_more : forall fuel,
    (forall t v r s, parse (K := K) fuel t = Some (v, r) -> closed t \/ r <> [] -> parse (K := K) fuel (t ++ s) = Some (v, r ++ s)) /\
    (forall t l r s, parse_items (K := K) fuel t = Some (l, r) -> parse_items (K := K) fuel (t ++ s) = Some (l, r ++ s)).
  Proof.
    induction fuel as [|fuel [IH1 IH2]]; [split; discriminate|]. split.
    - intros t v r s E CL. cbn [parse] in E |- *. fold (parse_items (K := K)) in E |- *. fold (parse (K := K)) in E |- *. destruct t as [|c t]; [discriminate|]. cbn [app]. destruct (ceq c "[").
      + assert (NS : skip t <> []) by (intros X; rewrite X in E; discriminate). rewrite (skip_more t s NS). destruct (skip t) as [|c' r']; [discriminate|]. cbn [app].
        destruct (ceq c' "]"); [injection E as <- <-; reflexivity|]. destruct (parse_items fuel (c' :: r')) as [[l u]|] eqn:Ei; [|discriminate].
        pose proof (IH2 _ _ _ s Ei) as M. cbn [app] in M. rewrite M. injection E as <- <-. reflexivity.
      + destruct (ceq c QUOTE || ceq c DQUOTE).
        { destruct (parse_str c t) as [[s0 u0]|] eqn:Es; [|discriminate]. rewrite (parse_str_more _ _ _ _ s Es). injection E as <- <-. reflexivity. }
        destruct (numchar c) eqn:F.
        * unfold parse_num in *. destruct (span_split numchar (c :: t)) as (A & B & D).
          assert (X : span numchar (c :: t ++ s) = (fst (span numchar (c :: t)), snd (span numchar (c :: t)) ++ s) \/ r = []).
          { destruct (snd (span numchar (c :: t))) as [|d w] eqn:Ew.
            - right. destruct (span numchar (c :: t)) as [tok rr]. cbn [snd] in Ew. subst rr. destruct (read_int tok); [congruence|]. destruct (read (t2s tok)); congruence.
            - left. change (c :: t ++ s) with ((c :: t) ++ s). rewrite A at 1. rewrite <- app_assoc. apply span_app; [exact B|exact D]. }
          destruct X as [X|X]; [|destruct CL as [CL|CL]; [unfold closed in CL; congruence|contradiction]].
          rewrite X. destruct (span numchar (c :: t)) as [tok rr]. cbn [fst snd]. destruct (read_int tok); [injection E as <- <-; reflexivity|].
          destruct (read (t2s tok)); [injection E as <- <-; reflexivity|discriminate].
        * destruct c as [[] [] [] [] [] [] [] []]; try discriminate E.
          destruct t as [|c1 t]; [discriminate|]. destruct c1 as [[] [] [] [] [] [] [] []]; try discriminate E.
          destruct t as [|c2 t]; [discriminate|]. destruct c2 as [[] [] [] [] [] [] [] []]; try discriminate E.
          destruct t as [|c3 t]; [discriminate|]. destruct c3 as [[] [] [] [] [] [] [] []]; try discriminate E.
          injection E as <- <-. reflexivity.
    - intros t l r s E. cbn [parse_items] in E |- *. fold (parse_items (K := K)) in E |- *. fold (parse (K := K)) in E |- *. destruct (parse fuel t) as [[v r1]|] eqn:E1; [|discriminate].
      assert (NS : skip r1 <> []) by (intros X; rewrite X in E; discriminate).
      rewrite (IH1 _ _ _ s E1 (or_intror (skip_nil _ NS))). rewrite (skip_more r1 s NS). destruct (skip r1) as [|c w]; [congruence|]. cbn [app].
      assert (CC : c = "]" /\ Some ([v], w) = Some (l, r) \/ c = "," /\ match parse_items fuel (skip w) with Some (l', w') => Some (v :: l', w') | None => None end = Some (l, r)).
      { destruct c as [[] [] [] [] [] [] [] []]; try discriminate E; [left|right]; auto. }
      clear E. destruct CC as [[-> E]|[-> E]]; [injection E as <- <-; reflexivity|].
      destruct (parse_items fuel (skip w)) as [[l' w']|] eqn:E2; [|discriminate].
      assert (NW : skip w <> []). { intros X. rewrite X in E2. destruct fuel as [|[|f]]; discriminate. }
      rewrite (skip_more w s NW). rewrite (IH2 _ _ _ s E2). injection E as <- <-. reflexivity.
  Qed.
  Lemma parse_fuel : forall fuel, (forall t x, parse (K := K) fuel t = Some x -> parse (K := K) (S fuel) t = Some x) /\
    (forall t x, parse_items (K := K) fuel t = Some x -> parse_items (K := K) (S fuel) t = Some x).
  Proof.
    induction fuel as [|fuel [IH1 IH2]]; [split; discriminate|]. split.
    - intros t x E. remember (S fuel) as f1. cbn [parse]. fold (parse_items (K := K)). fold (parse (K := K)). subst f1. cbn [parse] in E. fold (parse_items (K := K)) in E. fold (parse (K := K)) in E.
      destruct t as [|c t]; [discriminate|]. destruct (ceq c "["); [|exact E]. destruct (skip t) as [|c' r']; [discriminate|]. destruct (ceq c' "]"); [exact E|].
      destruct (parse_items fuel (c' :: r')) as [p|] eqn:Ei; [|discriminate]. rewrite (IH2 _ _ Ei). exact E.
    - intros t x E. remember (S fuel) as f1. cbn [parse_items]. fold (parse_items (K := K)). fold (parse (K := K)). subst f1. cbn [parse_items] in E. fold (parse_items (K := K)) in E. fold (parse (K := K)) in E.
      destruct (parse fuel t) as [[v r1]|] eqn:E1; [|discriminate]. rewrite (IH1 _ _ E1). destruct (skip r1) as [|c w]; [discriminate|].
      assert (CC : c = "]" \/ c = ","). { destruct c as [[] [] [] [] [] [] [] []]; try discriminate E; auto. }
      destruct CC as [-> | ->]; [exact E|]. destruct (parse_items fuel (skip w)) as [p|] eqn:E2; [|discriminate]. rewrite (IH2 _ _ E2). exact E.
  Qed.
  Lemma parse_fuel_le f g t x : f <= g -> parse (K := K) f t = Some x -> parse (K := K) g t = Some x.
  Proof. intros L E. induction L as [|g L IH]; [exact E|]. apply (proj1 (parse_fuel g)), IH. Qed.

  (** A proper beginning of a written list is not a literal. *)
  Lemma literal_cut (l : list (pyv K)) p s : writable_val (PList l) -> repr (PList l) = p ++ s -> s <> [] -> literal_eval (K := K) p = Err ValueError.
  Proof.
    intros W E NS. pose proof (literal_eval_repr (PList l) W) as LE. unfold literal_eval in *.
    destruct (parse (S (length p)) p) as [[v r]|] eqn:Ep; [|reflexivity]. destruct (skip r) eqn:Er; [exfalso|reflexivity].
    assert (CL : closed p). { destruct p as [|c p]; [discriminate|]. cbn [repr] in E. injection E as <- _. reflexivity. }
    pose proof (proj1 (parse_more _) _ _ _ s Ep (or_introl CL)) as M.
    pose proof (parse_spec (PList l) W (S (length (repr (PList l)))) [] ltac:(pose proof (size_length (PList l) W); lia) I) as F. rewrite app_nil_r in F.
    rewrite E in F. apply (parse_fuel_le _ (S (length (p ++ s)))) in M; [|rewrite app_length; lia]. rewrite M in F. injection F as _ F.
    apply app_eq_nil in F as [_ F]. exact (NS F).
  Qed.

  (** ** Lines *)
  Fixpoint nth_line (n : nat) (t : text) : text := match n with O => fst (nextline t) | S n => nth_line n (snd (nextline t)) end.
  Lemma newlines_id t : ~ In CR t -> newlines t = t.
  Proof. intros N. rewrite <- (app_nil_r t) at 1. rewrite newlines_app by (intros c I ->; exact (N I)). apply app_nil_r. Qed.
  Lemma readline_open t : ~ In NL t -> readline t = (t, []).
  Proof.
    induction t as [|c t IH]; intros N; [reflexivity|]. cbn [readline]. destruct (ceq_spec c NL) as [->|]; [exfalso; apply N; left; reflexivity|].
    rewrite IH; [reflexivity|]. intros I; apply N; right; exact I.
  Qed.
  Lemma nth_line_nil n : nth_line n [] = [].
  Proof. induction n; [reflexivity|exact IHn]. Qed.
  Lemma removelast_prefix {A} (l : list A) : l = [] \/ exists x, l = removelast l ++ [x].
  Proof. destruct l as [|x l]; [auto|right]. destruct (exists_last (l := x :: l)) as (l' & y & E); [discriminate|]. exists y. rewrite E, removelast_last. reflexivity. Qed.
  (** The last line of a file that was cut. *)
  Lemma cut_last : forall ls last k, (forall l, In l (ls ++ [last]) -> plain l) -> last <> [] -> k < length (flat_map line (ls ++ [last])) ->
    exists s, s <> [] /\ last = nth_line (length ls) (firstn k (flat_map line (ls ++ [last]))) ++ s.
  Proof.
    assert (OPEN : forall l r k, plain l -> k <= length l -> nextline (firstn k (line l ++ r)) = (removelast (firstn k l), [])).
    { intros l r k P L. assert (firstn k (line l ++ r) = firstn k l) as ->.
      { unfold line. rewrite <- app_assoc, firstn_app. replace (k - length l) with 0 by lia. rewrite firstn_O, app_nil_r. reflexivity. }
      unfold nextline. rewrite readline_open; [reflexivity|]. intros I. assert (J : In NL l) by (rewrite <- (firstn_skipn k l); apply in_or_app; auto). apply P in J. destruct J as [J _]. exact (J eq_refl). }
    induction ls as [|l ls IH]; intros last k P NE L.
    - cbn [app flat_map length nth_line] in *. rewrite app_nil_r in *. unfold line in L. rewrite app_length in L. cbn [length] in L.
      pose proof (OPEN last [] k (P last (or_introl eq_refl)) ltac:(lia)) as O. rewrite app_nil_r in O. rewrite O. cbn [fst].
      destruct (removelast_prefix (firstn k last)) as [E|[x E]].
      + rewrite E. exists last. split; [exact NE|reflexivity].
      + exists ([x] ++ skipn k last). split; [discriminate|]. rewrite app_assoc, <- E. symmetry. apply firstn_skipn.
    - cbn [app flat_map length nth_line] in *. destruct (Nat.le_gt_cases k (length l)) as [Lk|Lk].
      + rewrite OPEN by (auto; apply P; left; reflexivity). cbn [snd]. rewrite nth_line_nil. exists last. split; [exact NE|reflexivity].
      + assert (firstn k (line l ++ flat_map line (ls ++ [last])) = line l ++ firstn (k - length (line l)) (flat_map line (ls ++ [last]))) as ->.
        { rewrite firstn_app. f_equal. apply firstn_all2. unfold line. rewrite app_length. cbn. lia. }
        rewrite nextline_line by (apply P; left; reflexivity). cbn [snd]. apply IH; [intros x I; apply P; right; exact I|exact NE|].
        rewrite app_length in L. unfold line in *. rewrite app_length in *. cbn [length] in *. lia.
  Qed.
  Lemma cut_newlines (ls : list text) k : (forall l, In l ls -> plain l) -> newlines (firstn k (flat_map line ls)) = firstn k (flat_map line ls).
  Proof.
    intros P. apply newlines_id. intros I. assert (J : In CR (flat_map line ls)) by (rewrite <- (firstn_skipn k); apply in_or_app; auto).
    apply in_flat_map in J as (l & Il & J). unfold line in J. apply in_app_or in J as [J|[J|[]]]; [apply (P l Il) in J; tauto|discriminate].
  Qed.
End Parse.

(** Lemmas about texts. *)
From Coq Require Import String Ascii ZArith Bool DecimalString DecimalFacts DecimalZ DecimalPos Decimal Lia List.
From Verif Require Import Num Py MTools MSet MModels MCtor MText SText LCtor.
Import ListNotations.
Local Open Scope char_scope.

Lemma ceq_eq a b : ceq a b = true <-> a = b.
Proof. apply Ascii.eqb_eq. Qed.
Lemma ceq_neq a b : ceq a b = false <-> a <> b.
Proof. apply Ascii.eqb_neq. Qed.
Lemma ceq_spec a b : reflect (a = b) (ceq a b).
Proof. apply Ascii.eqb_spec. Qed.
Lemma t2s_s2t s : t2s (s2t s) = s.
Proof. apply string_of_list_ascii_of_string. Qed.
Lemma s2t_t2s t : s2t (t2s t) = t.
Proof. apply list_ascii_of_string_of_list_ascii. Qed.

Lemma span_app f t rest : (forall c, In c t -> f c = true) -> (match rest with [] => True | c :: _ => f c = false end) -> span f (t ++ rest) = (t, rest).
Proof.
  intros A B. induction t as [|c t IH]; cbn [app span].
  - destruct rest as [|c r]; [reflexivity|]. cbn. rewrite B. reflexivity.
  - rewrite (A c) by (left; reflexivity). rewrite IH by (intros; apply A; right; assumption). reflexivity.
Qed.

(** ** Integers *)
Definition isdigit (c : ascii) : bool := existsb (ceq c) (s2t "0123456789").
Lemma uint_digits u c : In c (s2t (NilEmpty.string_of_uint u)) -> isdigit c = true.
Proof. induction u; cbn; [intros []| | | | | | | | | |]; (intros [<-|I]; [reflexivity|auto]). Qed.
Lemma uintz_digits u c : In c (s2t (NilZero.string_of_uint u)) -> isdigit c = true.
Proof. destruct u; [cbn; intros [<-|[]]; reflexivity| | | | | | | | | |]; apply (uint_digits (_ u)). Qed.
Lemma uintz_nonempty u : s2t (NilZero.string_of_uint u) <> [].
Proof. destruct u; discriminate. Qed.
Lemma digit_num c : isdigit c = true -> numchar c = true.
Proof.
  intros D. apply existsb_exists in D as (x & I & E). apply ceq_eq in E. subst x. unfold numchar. apply existsb_exists. exists c. split; [|apply ceq_eq; reflexivity].
  change (s2t "0123456789.e+-") with (s2t "0123456789" ++ s2t ".e+-"). apply in_or_app. left; exact I.
Qed.
Lemma show_int_chars z c : In c (show_int z) -> numchar c = true.
Proof.
  unfold show_int. destruct (Z.to_int z) as [u|u]; cbn [NilZero.string_of_int]; [intros I; apply digit_num, (uintz_digits u), I|].
  cbn [s2t list_ascii_of_string]. intros [<-|I]; [reflexivity|]. apply digit_num, (uintz_digits u), I.
Qed.
Lemma show_int_nonempty z : show_int z <> [].
Proof. unfold show_int. destruct (Z.to_int z) as [u|u]; cbn [NilZero.string_of_int]; [apply uintz_nonempty|discriminate]. Qed.
Lemma read_show_int z : read_int (show_int z) = Some z.
Proof.
  unfold read_int, show_int. rewrite t2s_s2t. rewrite NilZero.isi.
  - rewrite DecimalZ.of_to. reflexivity.
  - destruct z as [|p|p]; cbn; try discriminate. intros [= E]. apply (DecimalPos.Unsigned.to_uint_nonnil p), E.
  - destruct z as [|p|p]; cbn; try discriminate. intros [= E]. apply (DecimalPos.Unsigned.to_uint_nonnil p), E.
Qed.

(** ** Strings *)
Definition is_quote (q : ascii) : Prop := q = QUOTE \/ q = DQUOTE.
Lemma unhex_hexdigit n : (n < 16)%nat -> unhex (hexdigit n) = Some n.
Proof. intros L. do 16 (destruct n as [|n]; [reflexivity|]). lia. Qed.
Lemma hexdigit_ok n : (n < 16)%nat -> hexdigit n <> NL /\ hexdigit n <> CR.
Proof. intros L. do 16 (destruct n as [|n]; [split; discriminate|]). lia. Qed.
Lemma code_lt c : (nat_of_ascii c < 256)%nat.
Proof. apply nat_ascii_bounded. Qed.
Lemma code_split c : ascii_of_nat (16 * (nat_of_ascii c / 16) + nat_of_ascii c mod 16) = c.
Proof. rewrite <- Nat.div_mod by lia. apply ascii_nat_embedding. Qed.
Lemma code_div c : (nat_of_ascii c / 16 < 16)%nat.
Proof. apply Nat.div_lt_upper_bound; [lia|]. pose proof (code_lt c). lia. Qed.
Lemma code_mod c : (nat_of_ascii c mod 16 < 16)%nat.
Proof. apply Nat.mod_upper_bound. lia. Qed.

Lemma parse_str_esc q c r : is_quote q ->
  parse_str q (esc q c ++ r) = match parse_str q r with Some (s, u) => Some (c :: s, u) | None => None end.
Proof.
  intros Q. unfold esc. destruct (ceq_spec c "\") as [->|N1]; [destruct Q as [->| ->]; reflexivity|].
  destruct (ceq_spec c q) as [->|N2]; [destruct Q as [->| ->]; reflexivity|].
  destruct (ceq_spec c NL) as [->|N3]; [destruct Q as [->| ->]; reflexivity|].
  destruct (ceq_spec c CR) as [->|N4]; [destruct Q as [->| ->]; reflexivity|].
  destruct (ceq_spec c TAB) as [->|N5]; [destruct Q as [->| ->]; reflexivity|].
  destruct (printable c).
  - cbn [app parse_str]. apply ceq_neq in N1, N2, N3. rewrite N1, N2, N3. reflexivity.
  - cbn [app]. set (a := hexdigit _). set (b := hexdigit _). cbn [parse_str].
    assert (ceq "\" q = false) as -> by (destruct Q as [->| ->]; reflexivity). cbn [ceq Ascii.eqb Bool.eqb].
    unfold a, b. rewrite !unhex_hexdigit by (apply code_div || apply code_mod). rewrite code_split. reflexivity.
Qed.
Lemma parse_str_spec q t r : is_quote q -> parse_str q (flat_map (esc q) t ++ q :: r) = Some (t, r).
Proof.
  intros Q. induction t as [|c t IH]; cbn [flat_map app].
  - cbn [parse_str]. assert (ceq q q = true) as -> by (apply ceq_eq; reflexivity). reflexivity.
  - rewrite <- app_assoc, parse_str_esc by exact Q. rewrite IH. reflexivity.
Qed.
Lemma quote_of_quote t : is_quote (quote_of t).
Proof. unfold quote_of. destruct (_ && _); [right|left]; reflexivity. Qed.
Lemma esc_ok q c x : is_quote q -> In x (esc q c) -> x <> NL /\ x <> CR.
Proof.
  intros Q. unfold esc. destruct (ceq_spec c "\") as [->|N1]; [intros [<-|[<-|[]]]; split; discriminate|].
  destruct (ceq_spec c q) as [->|N2]; [intros [<-|[<-|[]]]; [|destruct Q as [->| ->]]; split; discriminate|].
  destruct (ceq_spec c NL) as [->|N3]; [intros [<-|[<-|[]]]; split; discriminate|].
  destruct (ceq_spec c CR) as [->|N4]; [intros [<-|[<-|[]]]; split; discriminate|].
  destruct (ceq_spec c TAB) as [->|N5]; [intros [<-|[<-|[]]]; split; discriminate|].
  destruct (printable c); [intros [<-|[]]; auto|]. intros [<-|[<-|[<-|[<-|[]]]]]; try (split; discriminate).
  - apply hexdigit_ok, code_div.
  - apply hexdigit_ok, code_mod.
Qed.

(** ** Values *)
Section Values.
  Context {K : Type} `{TK : Text K}.
  Local Open Scope nat_scope.

  Section Ind.
    Variable P : pyv K -> Prop.
    Hypotheses (HN : P PNone) (HS : forall s, P (PStr s)) (HI : forall z, P (PInt z)) (HF : forall x, P (PFlt x))
      (HL : forall l, Forall P l -> P (PList l)).
    Fixpoint pyv_ind2 (v : pyv K) : P v :=
      match v with
      | PNone => HN | PStr s => HS s | PInt z => HI z | PFlt x => HF x
      | PList l => HL l ((fix go l : Forall P l := match l with [] => Forall_nil _ | v :: l' => Forall_cons v (pyv_ind2 v) (go l') end) l)
      end.
  End Ind.

  Fixpoint size (v : pyv K) : nat :=
    match v with PList l => 1 + fold_right (fun v a => 1 + size v + a) 0 l | _ => 1 end.
  Definition sizes (l : list (pyv K)) : nat := fold_right (fun v a => 1 + size v + a) 0 l.

  Lemma writable_list l : writable_val (PList l) <-> forall v, In v l -> writable_val v.
  Proof.
    cbn [writable_val]. induction l as [|v l IH]; cbn; [split; [intros _ x []|constructor]|]. rewrite IH. split.
    - intros (A & B) x [<-|I]; auto.
    - intros A. split; [apply A; auto|]. intros x I. apply A. auto.
  Qed.

  Lemma show_chars x : writable x -> forall c, In c (s2t (show x)) -> numchar c = true.
  Proof. intros (_ & A & _) c I. unfold numchar. apply existsb_exists. exists c. split; [apply A, I|apply ceq_eq; reflexivity]. Qed.
  Lemma show_nonempty x : writable x -> s2t (show x) <> [].
  Proof. intros (A & _) E. apply A. rewrite <- (t2s_s2t (show x)), E. reflexivity. Qed.

  Lemma numchar_ok c : numchar c = true -> c <> NL /\ c <> CR /\ c <> " " /\ c <> "]" /\ c <> "[" /\ c <> QUOTE /\ c <> DQUOTE.
  Proof. intros N. repeat split; intros ->; discriminate. Qed.

  (** First character. *)
  Lemma repr_head v : writable_val v -> exists c t, repr v = c :: t /\ c <> " " /\ c <> "]".
  Proof.
    destruct v as [|s|z|x|l]; cbn [writable_val repr]; intros W.
    - exists "N", (s2t "one"). split; [reflexivity|]. split; discriminate.
    - unfold repr_str. eexists _, _. split; [reflexivity|]. destruct (quote_of_quote (s2t s)) as [->| ->]; split; discriminate.
    - pose proof (show_int_nonempty z) as N. destruct (show_int z) as [|c t] eqn:E; [congruence|]. exists c, t. split; [reflexivity|].
      assert (C : numchar c = true) by (apply (show_int_chars z); rewrite E; left; reflexivity). split; apply (numchar_ok c C).
    - pose proof (show_nonempty x W) as N. destruct (s2t (show x)) as [|c t] eqn:E; [congruence|]. exists c, t. split; [reflexivity|].
      assert (C : numchar c = true) by (apply (show_chars x W); rewrite E; left; reflexivity). split; apply (numchar_ok c C).
    - eexists _, _. split; [reflexivity|]. split; discriminate.
  Qed.

  Lemma skip_other c r : c <> " " -> skip (c :: r) = c :: r.
  Proof. intros N. unfold skip. cbn [span]. assert (ceq " " c = false) as -> by (apply ceq_neq; congruence). reflexivity. Qed.
  Lemma skip_space t : skip (" " :: t) = skip t.
  Proof. unfold skip. cbn [span ceq Ascii.eqb Bool.eqb]. destruct (span (ceq " ") t) as [a b]. reflexivity. Qed.
  Lemma skip_repr v r : writable_val v -> skip (repr v ++ r) = repr v ++ r.
  Proof. intros W. destruct (repr_head v W) as (c & t & -> & N & _). apply skip_other, N. Qed.

  Definition stop (r : text) : Prop := match r with [] => True | c :: _ => c = "," \/ c = "]" end.
  Lemma stop_num r : stop r -> match r with [] => True | c :: _ => numchar c = false end.
  Proof. destruct r as [|c r]; [auto|]. intros [->| ->]; reflexivity. Qed.

  Lemma parse_num_int z r : stop r -> parse_num (show_int z ++ r) = Some (PInt z, r).
  Proof. intros S. unfold parse_num. rewrite span_app; [|apply show_int_chars|apply stop_num, S]. rewrite read_show_int. reflexivity. Qed.
  Lemma parse_num_flt x r : writable x -> stop r -> parse_num (s2t (show x) ++ r) = Some (PFlt x, r).
  Proof.
    intros W S. unfold parse_num. rewrite span_app; [|apply show_chars, W|apply stop_num, S]. destruct W as (_ & _ & -> & E). rewrite t2s_s2t, E. reflexivity.
  Qed.

  Lemma parse_number fuel t r v : t <> [] -> (forall c, In c t -> numchar c = true) -> parse_num (t ++ r) = Some (v, r) -> 1 <= fuel -> parse fuel (t ++ r) = Some (v, r).
  Proof.
    intros N C E L. destruct fuel as [|f]; [lia|]. destruct t as [|c t]; [congruence|]. cbn [app] in *. cbn [parse].
    assert (Nc : numchar c = true) by (apply C; left; reflexivity). destruct (numchar_ok c Nc) as (_ & _ & _ & _ & A & B & D).
    apply ceq_neq in A, B, D. rewrite A, B, D, Nc. exact E.
  Qed.

  Lemma join_cons x l : join [","; " "] (x :: l) = match l with [] => x | _ => x ++ "," :: " " :: join [","; " "] l end.
  Proof. destruct l; reflexivity. Qed.

  Lemma parse_items_spec : forall l, l <> [] -> (forall v, In v l -> writable_val v) ->
    (forall v, In v l -> forall fuel r, size v <= fuel -> stop r -> parse fuel (repr v ++ r) = Some (v, r)) ->
    forall fuel r, sizes l <= fuel -> parse_items fuel (join [","; " "] (map repr l) ++ "]" :: r) = Some (l, r).
  Proof.
    induction l as [|v l IH]; intros NE W P fuel r L; [congruence|]. cbn [sizes fold_right] in L. fold (sizes l) in L.
    destruct fuel as [|f]; [lia|]. cbn [map]. rewrite join_cons. destruct l as [|v2 l].
    - cbn [map parse_items]. rewrite (P v) by (cbn; auto; lia). rewrite skip_other by discriminate. reflexivity.
    - set (tl := v2 :: l) in *. assert (E : map repr tl = repr v2 :: map repr l) by reflexivity. rewrite E. rewrite <- E.
      rewrite <- app_assoc. cbn [app parse_items]. rewrite (P v); [|left; reflexivity|lia|left; reflexivity].
      rewrite skip_other by discriminate. rewrite skip_space.
      assert (SK : skip (join [","; " "] (map repr tl) ++ "]" :: r) = join [","; " "] (map repr tl) ++ "]" :: r).
      { destruct (repr_head v2) as (c & t & Ev & N & _); [apply W; right; left; reflexivity|]. unfold tl. cbn [map]. rewrite join_cons, Ev.
        destruct (map repr l); apply skip_other, N. }
      rewrite SK. rewrite IH; [reflexivity|discriminate|intros; apply W; right; assumption|intros; apply P; [right|..]; assumption|lia].
  Qed.

  Lemma parse_spec : forall v, writable_val v -> forall fuel r, size v <= fuel -> stop r -> parse fuel (repr v ++ r) = Some (v, r).
  Proof.
    induction v as [|s|z|x|l F] using pyv_ind2; intros W fuel r L S; cbn [size] in L.
    - destruct fuel; [lia|]. reflexivity.
    - destruct fuel as [|f]; [lia|]. cbn [repr]. unfold repr_str. set (q := quote_of (s2t s)). assert (Q : is_quote q) by apply quote_of_quote. clearbody q.
      cbn [app]. rewrite <- app_assoc. cbn [app parse]. assert (ceq q "[" = false) as -> by (destruct Q as [->| ->]; reflexivity).
      assert (ceq q QUOTE || ceq q DQUOTE = true) as -> by (destruct Q as [->| ->]; reflexivity).
      rewrite parse_str_spec by exact Q. rewrite t2s_s2t. reflexivity.
    - cbn [repr]. apply parse_number; [apply show_int_nonempty|apply show_int_chars|apply parse_num_int, S|lia].
    - cbn [repr]. cbn in W. apply parse_number; [apply show_nonempty, W|apply show_chars, W|apply parse_num_flt; assumption|lia].
    - fold (sizes l) in L. rewrite writable_list in W. destruct fuel as [|f]; [lia|]. cbn [repr app]. rewrite <- app_assoc. cbn [app parse ceq Ascii.eqb Bool.eqb].
      destruct l as [|v l].
      + cbn [map join app]. rewrite skip_other by discriminate. reflexivity.
      + destruct (repr_head v) as (c & t & Ev & N & N'); [apply W; left; reflexivity|].
        assert (E : exists t', join [","; " "] (map repr (v :: l)) ++ "]" :: r = c :: t').
        { cbn [map]. rewrite join_cons, Ev. destruct (map repr l); eexists; reflexivity. }
        destruct E as (t' & E). pose proof (parse_items_spec (v :: l)) as PI. rewrite E. rewrite skip_other by exact N.
        apply ceq_neq in N'. rewrite N'. rewrite <- E. rewrite PI; [reflexivity|discriminate|exact W| |lia].
        rewrite Forall_forall in F. intros u I. apply F; [exact I|apply W, I].
  Qed.

  Lemma size_length v : writable_val v -> size v <= length (repr v).
  Proof.
    induction v as [|s|z|x|l F] using pyv_ind2; intros W; cbn [size].
    - cbn. lia.
    - cbn. lia.
    - cbn [repr]. pose proof (show_int_nonempty z). destruct (show_int z); [congruence|cbn; lia].
    - cbn [repr]. pose proof (show_nonempty x W). destruct (s2t (show x)); [congruence|cbn; lia].
    - fold (sizes l). rewrite writable_list in W. cbn [repr length]. rewrite app_length. cbn [length].
      assert (G : forall l, Forall (fun v => writable_val v -> size v <= length (repr v)) l -> (forall v, In v l -> writable_val v) -> sizes l <= length (join [","; " "] (map repr l)) + 1).
      { clear. induction l as [|v l IH]; intros F W; [cbn; lia|]. apply Forall_cons_iff in F as (Fv & F). specialize (IH F (fun u I => W u (or_intror I))).
        specialize (Fv (W v (or_introl eq_refl))). cbn [map]. rewrite join_cons. cbn [sizes fold_right]. fold (sizes l). destruct l as [|u l]; [cbn; lia|].
        change (map repr (u :: l)) with (repr u :: map repr l). cbv iota. change (repr u :: map repr l) with (map repr (u :: l)).
        rewrite app_length. cbn [length]. lia. }
      specialize (G l F W). lia.
  Qed.

  Lemma literal_eval_repr v : writable_val v -> literal_eval (repr v) = Ok v.
  Proof.
    intros W. unfold literal_eval. pose proof (size_length v W). rewrite <- (app_nil_r (repr v)) at 2. rewrite parse_spec by (auto; cbn; try lia; exact I). reflexivity.
  Qed.

  Lemma repr_chars v : writable_val v -> forall c, In c (repr v) -> c <> NL /\ c <> CR.
  Proof.
    induction v as [|s|z|x|l F] using pyv_ind2; intros W c; cbn [repr].
    - cbn. intros J. repeat (destruct J as [<-|J]; [split; discriminate|]). destruct J.
    - unfold repr_str. pose proof (quote_of_quote (s2t s)) as Q. intros [<-|J]; [destruct Q as [->| ->]; split; discriminate|].
      apply in_app_or in J as [J|[<-|[]]]; [|destruct Q as [->| ->]; split; discriminate]. apply in_flat_map in J as (d & _ & J). apply (esc_ok _ d c Q J).
    - intros J. apply show_int_chars in J. apply numchar_ok in J. tauto.
    - intros J. apply (show_chars x W) in J. apply numchar_ok in J. tauto.
    - rewrite writable_list in W. rewrite Forall_forall in F. intros [<-|J]; [split; discriminate|]. apply in_app_or in J as [J|[<-|[]]]; [|split; discriminate].
      assert (G : forall ts, In c (join [","; " "] ts) -> c = "," \/ c = " " \/ exists t, In t ts /\ In c t).
      { clear. induction ts as [|t ts IH]; intros J; [destruct J|]. rewrite join_cons in J. destruct ts as [|t2 ts]; [right; right; exists t; split; [left; reflexivity|exact J]|].
        apply in_app_or in J as [J|[J|[J|J]]]; auto. { right; right. exists t. split; [left; reflexivity|exact J]. }
        apply IH in J as [J|[J|(u & I & J)]]; auto. right; right. exists u. split; [right; exact I|exact J]. }
      apply G in J as [->|[->|(t & I & J)]]; [split; discriminate|split; discriminate|]. apply in_map_iff in I as (v & <- & I). apply (F v I (W v I) c J).
  Qed.

  (** ** Lines *)
  Lemma readline_line t r : (forall c, In c t -> c <> NL) -> readline (t ++ NL :: r) = (t ++ [NL], r).
  Proof.
    induction t as [|c t IH]; intros A; [reflexivity|]. cbn [app readline]. assert (ceq c NL = false) as -> by (apply ceq_neq, A; left; reflexivity).
    rewrite IH by (intros; apply A; right; assumption). reflexivity.
  Qed.
  Lemma nextline_line t r : plain t -> nextline (line t ++ r) = (t, r).
  Proof.
    intros P. unfold nextline, line. rewrite <- app_assoc. cbn [app]. rewrite readline_line by (intros c I; apply P, I). unfold chop. rewrite removelast_last. reflexivity.
  Qed.
  Lemma newlines_app t r : (forall c, In c t -> c <> CR) -> newlines (t ++ r) = t ++ newlines r.
  Proof.
    induction t as [|c t IH]; intros A; [reflexivity|]. cbn [app newlines]. assert (ceq c CR = false) as -> by (apply ceq_neq, A; left; reflexivity).
    rewrite IH by (intros; apply A; right; assumption). reflexivity.
  Qed.
  Lemma newlines_line t r : plain t -> newlines (line t ++ r) = line t ++ newlines r.
  Proof. intros P. apply newlines_app. intros c I. apply in_app_or in I as [I|[<-|[]]]; [apply P, I|discriminate]. Qed.
  Lemma plain_repr v : writable_val v -> plain (repr v).
  Proof. intros W c I. apply (repr_chars v W c I). Qed.
  Lemma plain_int z : plain (show_int z).
  Proof. intros c I. apply show_int_chars, numchar_ok in I. tauto. Qed.
End Values.

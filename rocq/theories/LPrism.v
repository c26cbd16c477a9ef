(** Lemmas for savePrism and the reader of SPrism.v. *)
From Coq Require Import String Ascii ZArith Bool DecimalString DecimalZ DecimalFacts Lia List.
From Verif Require Import Num Py MTools MSet MModels MCtor MText SText LText MPrism SPrism.
Import ListNotations.
Local Open Scope char_scope.

(** ** Words of a concatenation *)
Definition sep (c : ascii) : bool := negb (alnum c) && negb (existsb (ceq c) [".";"+";"-"]).

Lemma span_app_stop (p : ascii -> bool) t c r : p c = false -> forall a b, span p t = (a, b) -> span p (t ++ c :: r) = (a, b ++ c :: r).
Proof.
  intros P. induction t as [|d t IH]; intros a b; cbn [span app].
  - intros [= <- <-]. rewrite P. reflexivity.
  - destruct (p d); [|intros [= <- <-]; reflexivity]. destruct (span p t) as [u v]. intros [= <- <-]. rewrite (IH u v eq_refl). reflexivity.
Qed.
Lemma sep_facts c : sep c = true -> alnum c = false /\ digit c = false /\ alpha c = false /\ ceq c "." = false /\ ceq c "+" = false /\ ceq c "-" = false.
Proof.
  unfold sep. intros H. apply andb_true_iff in H as (A & B). apply negb_true_iff in A, B. cbn [existsb] in B. apply orb_false_iff in B as (B1 & B). apply orb_false_iff in B as (B2 & B). apply orb_false_iff in B as (B3 & _).
  split; [exact A|]. unfold alnum in A. apply orb_false_iff in A as (A1 & A2). auto.
Qed.
Lemma fraction_eq t : fraction t = match t with c :: d :: r => if ceq c "." then if digit d then let (a, b) := span digit (d :: r) in (c :: a, b) else ([], t) else ([], t) | _ => ([], t) end.
Proof.
  destruct t as [|c [|d r]]; try reflexivity; unfold fraction.
  - destruct c as [[] [] [] [] [] [] [] []]; reflexivity.
  - destruct (ceq c ".") eqn:E; [apply ceq_eq in E; subst; reflexivity|]. destruct c as [[] [] [] [] [] [] [] []]; try reflexivity; discriminate.
Qed.
Lemma fraction_app t c r : sep c = true -> forall a b, fraction t = (a, b) -> fraction (t ++ c :: r) = (a, b ++ c :: r).
Proof.
  intros S a b. apply sep_facts in S as (S0 & S1 & S2 & S3 & _). rewrite !fraction_eq. destruct t as [|x [|y t]]; cbn [app].
  - intros [= <- <-]. rewrite S3. destruct r; reflexivity.
  - intros [= <- <-]. rewrite S1. destruct (ceq x "."); reflexivity.
  - destruct (ceq x "."); [|intros [= <- <-]; reflexivity]. destruct (digit y); [|intros [= <- <-]; reflexivity].
    destruct (span digit (y :: t)) as [u v] eqn:E. intros [= <- <-]. pose proof (span_app_stop digit (y :: t) c r S1 u v E) as F. cbn [app] in F. rewrite F. reflexivity.
Qed.
Lemma exponent_app t c r : sep c = true -> forall a b, exponent t = (a, b) -> exponent (t ++ c :: r) = (a, b ++ c :: r).
Proof.
  intros S a b. apply sep_facts in S as (S0 & S1 & S2 & S3 & S4 & S5). unfold exponent.
  assert (Se : ceq c "e" || ceq c "E" = false).
  { apply orb_false_iff. split; apply ceq_neq; intros ->; discriminate. }
  destruct t as [|x [|y t]]; cbn [app].
  - intros [= <- <-]. rewrite Se. reflexivity.
  - destruct (ceq x "e" || ceq x "E"); [|intros [= <- <-]; reflexivity]. intros [= <- <-]. rewrite S1, S4, S5. reflexivity.
  - destruct (ceq x "e" || ceq x "E"); [|intros [= <- <-]; reflexivity]. destruct (digit y).
    + destruct (span digit (y :: t)) as [u v] eqn:E. intros [= <- <-]. pose proof (span_app_stop digit (y :: t) c r S1 u v E) as F. cbn [app] in F. rewrite F. reflexivity.
    + destruct t as [|z t]; cbn [app].
      * rewrite andb_false_r. intros [= <- <-]. rewrite S1, andb_false_r. reflexivity.
      * destruct ((ceq y "+" || ceq y "-") && digit z); [|intros [= <- <-]; reflexivity].
        destruct (span digit (z :: t)) as [u v] eqn:E. intros [= <- <-]. pose proof (span_app_stop digit (z :: t) c r S1 u v E) as F. cbn [app] in F. rewrite F. reflexivity.
Qed.
Lemma number_app t c r : sep c = true -> forall a b, number t = (a, b) -> number (t ++ c :: r) = (a, b ++ c :: r).
Proof.
  intros S a b. unfold number. destruct (span digit t) as [x t1] eqn:E1. destruct (fraction t1) as [y t2] eqn:E2. destruct (exponent t2) as [z t3] eqn:E3. intros [= <- <-].
  rewrite (span_app_stop digit t c r) with (a := x) (b := t1); [|apply sep_facts, S|exact E1]. rewrite (fraction_app _ _ _ S _ _ E2), (exponent_app _ _ _ S _ _ E3). reflexivity.
Qed.

Lemma span_eq (p : ascii -> bool) t a b : span p t = (a, b) -> t = a ++ b.
Proof.
  revert a b. induction t as [|c t IH]; intros a b; cbn [span]; [intros [= <- <-]; reflexivity|]. destruct (p c); [|intros [= <- <-]; reflexivity].
  destruct (span p t) as [u v]. intros [= <- <-]. cbn. f_equal. apply IH. reflexivity.
Qed.
Lemma fraction_length t a b : fraction t = (a, b) -> t = a ++ b.
Proof.
  rewrite fraction_eq. destruct t as [|x [|y t]]; try (intros [= <- <-]; reflexivity). destruct (ceq x "."); [|intros [= <- <-]; reflexivity]. destruct (digit y); [|intros [= <- <-]; reflexivity].
  destruct (span digit (y :: t)) as [u v] eqn:E. intros [= <- <-]. apply span_eq in E. cbn. f_equal. exact E.
Qed.
Lemma exponent_length t a b : exponent t = (a, b) -> t = a ++ b.
Proof.
  unfold exponent. destruct t as [|x [|y t]]; try (intros [= <- <-]; reflexivity); destruct (ceq x "e" || ceq x "E"); try (intros [= <- <-]; reflexivity). destruct (digit y).
  - destruct (span digit (y :: t)) as [u v] eqn:E. intros [= <- <-]. apply span_eq in E. cbn. f_equal. exact E.
  - destruct ((ceq y "+" || ceq y "-") && _); [|intros [= <- <-]; reflexivity]. destruct (span digit t) as [u v] eqn:E. intros [= <- <-]. apply span_eq in E. cbn. do 2 f_equal. exact E.
Qed.
Lemma number_eq t a b : number t = (a, b) -> t = a ++ b.
Proof.
  unfold number. destruct (span digit t) as [x t1] eqn:E1. destruct (fraction t1) as [y t2] eqn:E2. destruct (exponent t2) as [z t3] eqn:E3. intros [= <- <-].
  apply span_eq in E1. apply fraction_length in E2. apply exponent_length in E3. subst. rewrite !app_assoc. reflexivity.
Qed.
Lemma number_shorter c r w b : digit c = true -> number (c :: r) = (w, b) -> length b <= length r.
Proof.
  intros D E. pose proof (number_eq _ _ _ E) as Q. destruct w as [|x w].
  - exfalso. unfold number in E. cbn [span] in E. rewrite D in E. destruct (span digit r). destruct (fraction _). destruct (exponent _). discriminate.
  - injection Q as -> Q. rewrite Q, app_length. lia.
Qed.
Lemma span_shorter p c r w b : p c = true -> span p (c :: r) = (w, b) -> length b <= length r.
Proof.
  intros D E. pose proof (span_eq _ _ _ _ E) as Q. destruct w as [|x w].
  - exfalso. cbn [span] in E. rewrite D in E. destruct (span p r). discriminate.
  - injection Q as -> Q. rewrite Q, app_length. lia.
Qed.
Lemma alpha_alnum c : alpha c = true -> alnum c = true.
Proof. intros A. unfold alnum. rewrite A. apply orb_true_r. Qed.

Lemma lex_fuel : forall f t, length t <= f -> lex f t = words t.
Proof.
  assert (G : forall f t f', length t <= f -> length t <= f' -> lex f t = lex f' t).
  { induction f as [|f IH]; intros t f' L L'; [destruct t; [|cbn in L; lia]; destruct f'; reflexivity|]. destruct t as [|c r]; [destruct f'; reflexivity|]. destruct f' as [|f']; [cbn in L'; lia|].
    cbn [length] in L, L'. cbn [lex]. destruct (blank c); [apply IH; lia|]. destruct (digit c) eqn:D.
    - destruct (number (c :: r)) as [w b] eqn:E. pose proof (number_shorter _ _ _ _ D E). f_equal. apply IH; lia.
    - destruct (alpha c) eqn:A; [|f_equal; apply IH; lia]. destruct (span alnum (c :: r)) as [w b] eqn:E. pose proof (span_shorter _ _ _ _ _ (alpha_alnum _ A) E). f_equal. apply IH; lia. }
  intros f t L. apply G; [exact L|reflexivity].
Qed.
Lemma words_cons c r : words (c :: r) =
  if blank c then words r else if digit c then let (w, b) := number (c :: r) in TNum (t2s w) :: words b
  else if alpha c then let (w, b) := span alnum (c :: r) in TId (t2s w) :: words b else TSym c :: words r.
Proof.
  unfold words at 1. cbn [length lex]. destruct (blank c); [reflexivity|]. destruct (digit c) eqn:D.
  - destruct (number (c :: r)) as [w b] eqn:E. pose proof (number_shorter _ _ _ _ D E). rewrite lex_fuel by assumption. reflexivity.
  - destruct (alpha c) eqn:A; [|reflexivity]. destruct (span alnum (c :: r)) as [w b] eqn:E. pose proof (span_shorter _ _ _ _ _ (alpha_alnum _ A) E). rewrite lex_fuel by assumption. reflexivity.
Qed.

Lemma words_app t c r : sep c = true -> words (t ++ c :: r) = words t ++ words (c :: r).
Proof.
  intros S. assert (G : forall n t, length t <= n -> words (t ++ c :: r) = words t ++ words (c :: r)); [|apply (G (length t)); reflexivity].
  clear t. induction n as [|n IH]; intros t L; (destruct t as [|d t]; [reflexivity|]); cbn [length] in L; [lia|]. cbn [app]. rewrite (words_cons d (t ++ c :: r)), (words_cons d t).
  destruct (blank d); [apply IH; lia|]. destruct (digit d) eqn:D.
  - destruct (number (d :: t)) as [w b] eqn:E. pose proof (number_app _ c r S _ _ E) as F. cbn [app] in F. rewrite F. pose proof (number_shorter _ _ _ _ D E). cbn [app]. f_equal. apply IH. lia.
  - destruct (alpha d) eqn:A; [|cbn [app]; f_equal; apply IH; lia]. destruct (span alnum (d :: t)) as [w b] eqn:E.
    pose proof (span_app_stop alnum (d :: t) c r (proj1 (sep_facts c S)) _ _ E) as F. cbn [app] in F. rewrite F. pose proof (span_shorter _ _ _ _ _ (alpha_alnum _ A) E). cbn [app]. f_equal. apply IH. lia.
Qed.
(** A text followed by a separator, and a text that ends with one. *)
Lemma words_before t u : match u with c :: _ => sep c = true | [] => True end -> words (t ++ u) = words t ++ words u.
Proof. destruct u as [|c u]; [intros _; rewrite !app_nil_r; reflexivity|]. apply words_app. Qed.
Lemma words_sep c r : sep c = true -> words (c :: r) = words [c] ++ words r.
Proof. intros S. apply sep_facts in S as (_ & D & A & _). rewrite !words_cons, D, A. destruct (blank c); reflexivity. Qed.
Lemma words_after t c u : sep c = true -> words ((t ++ [c]) ++ u) = words (t ++ [c]) ++ words u.
Proof. intros S. rewrite <- app_assoc. cbn [app]. rewrite !words_app by exact S. rewrite (words_sep c u S). rewrite app_assoc. reflexivity. Qed.
Lemma words_lit (s : string) u : sep (last (s2t s) "a") = true -> words (s2t s ++ u) = words (s2t s) ++ words u.
Proof.
  intros S. destruct (s2t s) as [|a t] eqn:E; [discriminate|]. rewrite (app_removelast_last "a" (l := a :: t)) by discriminate. apply words_after, S.
Qed.

(** ** Words of a number and of a name *)
Lemma t2s_app a b : t2s (a ++ b) = (t2s a ++ t2s b)%string.
Proof. induction a as [|c a IH]; [reflexivity|]. cbn. f_equal. exact IH. Qed.
Lemma s2t_t2s t : s2t (t2s t) = t.
Proof. apply list_ascii_of_string_of_list_ascii. Qed.
Lemma uint_digits d : forall c, In c (s2t (NilZero.string_of_uint d)) -> digit c = true.
Proof.
  assert (G : forall d c, In c (s2t (NilEmpty.string_of_uint d)) -> digit c = true).
  { clear. induction d; intros c I; [destruct I|..]; (destruct I as [<-|I]; [reflexivity|apply IHd, I]). }
  intros c. unfold NilZero.string_of_uint. destruct d; try apply G. cbn. intros [<-|[]]. reflexivity.
Qed.
Lemma uint_nonempty d : s2t (NilZero.string_of_uint d) <> [].
Proof. destruct d; discriminate. Qed.
Lemma show_nat_digits n : forall c, In c (show_nat n) -> digit c = true.
Proof.
  unfold show_nat, show_int. destruct (Z.of_nat n) eqn:E; [| |lia]; cbn [Z.to_int]; unfold NilZero.string_of_int; apply uint_digits.
Qed.
Lemma show_nat_nonempty n : show_nat n <> [].
Proof. unfold show_nat, show_int. destruct (Z.of_nat n) eqn:E; [| |lia]; cbn [Z.to_int]; unfold NilZero.string_of_int; apply uint_nonempty. Qed.
Lemma span_all (p : ascii -> bool) t : (forall c, In c t -> p c = true) -> span p t = (t, []).
Proof. induction t as [|c t IH]; intros A; [reflexivity|]. cbn [span]. rewrite A by (left; reflexivity). rewrite IH by (intros; apply A; right; assumption). reflexivity. Qed.
Lemma number_digits t : (forall c, In c t -> digit c = true) -> number t = (t, []).
Proof. intros A. unfold number. rewrite (span_all _ _ A). cbn. rewrite app_nil_r. reflexivity. Qed.
Lemma digit_not_blank c : digit c = true -> blank c = false.
Proof. intros D. unfold blank. cbn [existsb]. repeat (apply orb_false_iff; split); try reflexivity; apply ceq_neq; intros ->; discriminate. Qed.
Lemma alpha_not c : alpha c = true -> blank c = false /\ digit c = false.
Proof.
  intros A. split.
  - unfold blank. cbn [existsb]. repeat (apply orb_false_iff; split); try reflexivity; apply ceq_neq; intros ->; discriminate.
  - destruct (digit c) eqn:D; [|reflexivity]. unfold digit in D. cbn in D. repeat (apply orb_true_iff in D as [D|D]; [apply ceq_eq in D; subst; discriminate|]). discriminate.
Qed.
Lemma words_nat n : words (show_nat n) = [TNum (t2s (show_nat n))].
Proof.
  pose proof (show_nat_digits n) as D. pose proof (show_nat_nonempty n) as N. destruct (show_nat n) as [|c t] eqn:E; [congruence|]. rewrite words_cons. pose proof (D c (or_introl eq_refl)) as Dc.
  rewrite (digit_not_blank _ Dc), Dc, number_digits by exact D. reflexivity.
Qed.
Lemma words_num {K} `{Text K} (x : K) : number_ok x -> words (s2t (show x)) = [TNum (show x)].
Proof.
  intros (c & r & E & D & N & _). rewrite E in *. rewrite words_cons, (digit_not_blank _ D), D, N. rewrite <- E. rewrite t2s_s2t. reflexivity.
Qed.
Lemma words_name s : name_ok s -> words (s2t s) = [TId s].
Proof.
  intros (c & r & E & A & B & _). rewrite E, words_cons. destruct (alpha_not _ A) as (-> & ->). rewrite A, span_all.
  - rewrite <- E, t2s_s2t. reflexivity.
  - intros d [<-|I]; [apply alpha_alnum, A|apply B, I].
Qed.
Lemma get_nat_ok n r : get_nat (TNum (t2s (show_nat n)) :: r) = Some (n, r).
Proof. cbn [get_nat]. rewrite s2t_t2s. unfold show_nat. rewrite read_show_int. rewrite Nat2Z.id. reflexivity. Qed.
Lemma get_id_ok s r : name_ok s -> get_id (TId s :: r) = Some (s, r).
Proof. intros (_ & _ & _ & _ & _ & I). cbn [get_id]. rewrite I. reflexivity. Qed.

(** ** The text without its last characters *)
Lemma chop_end {A} (u v : list A) k : length v = k -> firstn (length (u ++ v) - k) (u ++ v) = u.
Proof. intros <-. rewrite app_length, Nat.add_sub, firstn_app, Nat.sub_diag. cbn [firstn]. rewrite app_nil_r. apply firstn_all. Qed.

(** Concatenation with a separator between the elements. *)
Fixpoint sepmap {A B} (f : A -> list B) (s : list B) (x : A) (l : list A) : list B :=
  match l with [] => f x | y :: l => f x ++ s ++ sepmap f s y l end.
Lemma flat_map_sep {A B} (f : A -> list B) s x l : flat_map (fun a => f a ++ s) (x :: l) = sepmap f s x l ++ s.
Proof.
  revert x. induction l as [|y l IH]; intros x; [cbn; rewrite app_nil_r; reflexivity|]. specialize (IH y). cbn [flat_map sepmap] in *. rewrite IH. rewrite <- !app_assoc. reflexivity.
Qed.

Section Lines.
  Context {K : Type} `{TK : Text K} `{NK : Num K}.

  Definition branch (sx : nat * K) : text := s2t " " ++ s2t (show (snd sx)) ++ s2t ":(s'=" ++ show_nat (fst sx) ++ s2t ")".
  Definition branch_toks (sx : nat * K) : list tok :=
    [TNum (show (snd sx)); TSym ":"; TSym "("; TId "s"; TSym "'"; TSym "="; TNum (t2s (show_nat (fst sx))); TSym ")"].
  Lemma words_branch sx u : number_ok (snd sx) -> words (branch sx ++ u) = branch_toks sx ++ words u.
  Proof.
    intros N. unfold branch. rewrite <- !app_assoc. rewrite words_lit by reflexivity. rewrite words_before by reflexivity. rewrite (words_num _ N). rewrite words_lit by reflexivity.
    rewrite words_before by reflexivity. rewrite words_nat. rewrite words_lit by reflexivity. reflexivity.
  Qed.
  Lemma words_plus X : words (s2t " +" ++ X) = TSym "+" :: words X.
  Proof. change (words (" " :: "+" :: X) = TSym "+" :: words X). rewrite words_cons. change (words ("+" :: X) = TSym "+" :: words X). rewrite words_cons. reflexivity. Qed.
  Lemma words_branches : forall l x u, (forall y, In y (x :: l) -> number_ok (snd y)) ->
    words (sepmap branch (s2t " +") x l ++ u) = sepmap branch_toks [TSym "+"] x l ++ words u.
  Proof.
    induction l as [|y l IH]; intros x u N; cbn [sepmap].
    - apply words_branch, N. left. reflexivity.
    - rewrite <- !app_assoc. rewrite words_branch by (apply N; left; reflexivity).
      rewrite words_plus.
      rewrite IH by (intros z I; apply N; right; exact I). reflexivity.
  Qed.
  Lemma get_branches_ok : forall l x f r, (forall y, In y (x :: l) -> number_ok (snd y)) -> length l < f ->
    get_branches f (sepmap branch_toks [TSym "+"] x l ++ TSym ";" :: r) = Some (x :: l, r).
  Proof.
    induction l as [|y l IH]; intros [s x] f r N L; (destruct f as [|f]; [lia|]).
    - cbn [sepmap]. cbn [branch_toks fst snd app get_branches get_num]. destruct (N (s, x) (or_introl eq_refl)) as (_ & _ & _ & _ & _ & R). cbn [snd] in R. rewrite R.
      cbn [expect tok_eqb ceq Ascii.eqb Bool.eqb String.eqb]. rewrite get_nat_ok. reflexivity.
    - cbn [sepmap]. rewrite <- !app_assoc. cbn [branch_toks fst snd app get_branches get_num]. destruct (N (s, x) (or_introl eq_refl)) as (_ & _ & _ & _ & _ & R). cbn [snd] in R. rewrite R.
      cbn [expect tok_eqb ceq Ascii.eqb Bool.eqb String.eqb]. rewrite get_nat_ok.
      cbn [expect tok_eqb ceq Ascii.eqb Bool.eqb]. rewrite IH; [reflexivity|intros z I; apply N; right; exact I|cbn [length] in L; lia].
  Qed.

  (** One command. *)
  Definition act_ok (a : string) : Prop := a = EmptyString \/ name_ok a.
  Definition cmd_toks (c : string * nat * list (nat * K)) : list tok :=
    let '(a, s, b) := c in
    [TSym "["] ++ words (s2t a) ++ [TSym "]"; TId "s"; TSym "="; TNum (t2s (show_nat s)); TSym "-"; TSym ">"] ++
    match b with [] => [] | x :: l => sepmap branch_toks [TSym "+"] x l end ++ [TSym ";"].
  Definition cmd_of (a : string) (s : nat) (row : list K) : list (string * nat * list (nat * K)) :=
    match support 0 row with [] => [] | b => [(a, s, b)] end.
  Lemma support_empty i row : support i row = [] <-> existsb nonzero row = false.
  Proof. revert i. induction row as [|x r IH]; intros i; cbn [support existsb]; [tauto|]. destruct (nonzero x); cbn [orb]; [split; discriminate|apply IH]. Qed.
  Lemma words_command a s row u : act_ok a -> (forall x, In x row -> nonzero x = true -> number_ok x) ->
    words (command a s row ++ u) = flat_map cmd_toks (cmd_of a s row) ++ words u.
  Proof.
    intros A N. unfold command, cmd_of. destruct (existsb nonzero row) eqn:E.
    - destruct (support 0 row) as [|x l] eqn:S; [apply support_empty in S; congruence|].
      assert (Nb : forall y, In y (x :: l) -> number_ok (snd y)).
      { rewrite <- S. clear -N. generalize O. induction row as [|z r IH]; intros i y I; [destruct I|]. cbn [support] in I. destruct (nonzero z) eqn:Z; [destruct I as [<-|I]; [apply N; [left; reflexivity|exact Z]|]|];
        (eapply IH; [intros w J; apply N; right; exact J|exact I]). }
      set (pre := s2t "	[" ++ s2t a ++ s2t "] s=" ++ show_nat s ++ s2t " ->").
      match goal with |- context [firstn ?n ?t] => replace t with (pre ++ sepmap branch (s2t " +") x l ++ s2t " +") end.
      2: { unfold pre. rewrite <- flat_map_sep. rewrite <- !app_assoc. do 5 f_equal. apply flat_map_ext. intros y. unfold branch. rewrite <- !app_assoc. reflexivity. }
      rewrite (app_assoc pre). cbn zeta. rewrite (chop_end (pre ++ sepmap branch (s2t " +") x l) (s2t " +") 2) by reflexivity. unfold pre. rewrite <- !app_assoc.
      rewrite words_lit by reflexivity. rewrite words_before by reflexivity. rewrite words_lit by reflexivity. rewrite words_before by reflexivity. rewrite words_nat. rewrite words_lit by reflexivity.
      rewrite words_branches by exact Nb. rewrite words_lit by reflexivity. cbn [app]. rewrite (words_sep NL) by reflexivity. cbn [flat_map cmd_toks]. rewrite <- !app_assoc. reflexivity.
    - assert (support 0 row = []) as -> by (apply support_empty, E). reflexivity.
  Qed.
  Lemma get_commands_ok : forall l f r, (forall a s b, In (a, s, b) l -> act_ok a /\ b <> [] /\ forall y, In y b -> number_ok (snd y)) -> length l < f ->
    get_commands f (flat_map cmd_toks l ++ TId "endmodule" :: r) = Some (l, r).
  Proof.
    induction l as [|[[a s] b] l IH]; intros f r N L; (destruct f as [|f]; [cbn in L; lia|]); [reflexivity|].
    destruct (N a s b (or_introl eq_refl)) as (A & B & Nb). destruct b as [|x b]; [congruence|]. cbn [flat_map cmd_toks]. rewrite <- !app_assoc. cbn [app get_commands].
    set (rest := flat_map cmd_toks l ++ TId "endmodule" :: r) in *.
    assert (G : get_action (words (s2t a) ++ TSym "]" :: TId "s" :: TSym "=" :: TNum (t2s (show_nat s)) :: TSym "-" :: TSym ">" :: sepmap branch_toks [TSym "+"] x b ++ TSym ";" :: rest)
      = Some (a, TId "s" :: TSym "=" :: TNum (t2s (show_nat s)) :: TSym "-" :: TSym ">" :: sepmap branch_toks [TSym "+"] x b ++ TSym ";" :: rest)).
    { destruct A as [->|A]; [reflexivity|]. rewrite (words_name _ A). cbn [app]. unfold get_action. rewrite get_id_ok by exact A. reflexivity. }
    cbn [app] in G. rewrite G. cbn [expect tok_eqb ceq Ascii.eqb Bool.eqb String.eqb]. rewrite get_nat_ok. cbn [expect tok_eqb ceq Ascii.eqb Bool.eqb].
    rewrite get_branches_ok; [|exact Nb|].
    - unfold rest. rewrite IH; [reflexivity|intros; apply (N a0 s0 b0); right; assumption|cbn [length] in L; lia].
    - rewrite app_length. clear. revert x. induction b as [|y b IH]; intros x; cbn [sepmap length branch_toks]; [lia|]. rewrite app_length. cbn [length app branch_toks]. specialize (IH y). cbn [length] in IH. lia.
  Qed.

  (** Labels. *)
  Definition state_eq (s : nat) : text := s2t " s=" ++ show_nat s ++ s2t " ".
  Definition state_toks (s : nat) : list tok := [TId "s"; TSym "="; TNum (t2s (show_nat s))].
  Lemma words_state s u : words (state_eq s ++ u) = state_toks s ++ words u.
  Proof. unfold state_eq. rewrite <- !app_assoc. rewrite words_lit by reflexivity. rewrite words_before by reflexivity. rewrite words_nat, words_lit by reflexivity. reflexivity. Qed.
  Lemma words_states : forall l x u, words (sepmap state_eq (s2t "|") x l ++ u) = sepmap state_toks [TSym "|"] x l ++ words u.
  Proof.
    induction l as [|y l IH]; intros x u; cbn [sepmap]; [apply words_state|]. rewrite <- !app_assoc. rewrite words_state. rewrite (words_lit "|") by reflexivity. rewrite IH. reflexivity.
  Qed.
  Lemma get_states_ok : forall l x f r, length l < f -> get_states f (sepmap state_toks [TSym "|"] x l ++ TSym ";" :: r) = Some (x :: l, r).
  Proof.
    induction l as [|y l IH]; intros x f r L; (destruct f as [|f]; [lia|]); cbn [sepmap]; rewrite <- ?app_assoc; cbn [state_toks app get_states expect tok_eqb ceq Ascii.eqb Bool.eqb String.eqb]; rewrite get_nat_ok; [reflexivity|].
    rewrite IH by (cbn [length] in L; lia). reflexivity.
  Qed.
  Definition label_toks (q : string * list nat) : list tok :=
    [TId "label"; TSym DQUOTE; TId (fst q); TSym DQUOTE; TSym "="] ++ match snd q with [] => [] | x :: l => sepmap state_toks [TSym "|"] x l end ++ [TSym ";"].
  Lemma words_label q u : name_ok (fst q) -> snd q <> [] -> words (label_line q ++ u) = label_toks q ++ words u.
  Proof.
    intros N E. destruct q as [l [|x r]]; cbn [fst snd] in *; [congruence|]. unfold label_line, label_toks. cbn [fst snd].
    set (pre := s2t "label """ ++ s2t l ++ s2t """ =").
    match goal with |- context [firstn ?n ?t] => replace t with (pre ++ sepmap state_eq (s2t "|") x r ++ s2t "|") end.
    2: { unfold pre. rewrite <- flat_map_sep. rewrite <- !app_assoc. do 3 f_equal. apply flat_map_ext. intros y. unfold state_eq. rewrite <- !app_assoc. reflexivity. }
    rewrite (app_assoc pre). cbn zeta. rewrite (chop_end (pre ++ sepmap state_eq (s2t "|") x r) (s2t "|") 1) by reflexivity. unfold pre. rewrite <- !app_assoc.
    rewrite words_lit by reflexivity. rewrite words_before by reflexivity. rewrite (words_name _ N). rewrite words_lit by reflexivity. rewrite words_states.
    rewrite words_lit by reflexivity. cbn [app]. rewrite (words_sep NL) by reflexivity. reflexivity.
  Qed.
  Lemma words_labels : forall l, (forall q, In q l -> name_ok (fst q) /\ snd q <> []) -> words (flat_map label_line l) = flat_map label_toks l.
  Proof.
    induction l as [|q l IH]; intros N; [reflexivity|]. cbn [flat_map]. destruct (N q (or_introl eq_refl)). rewrite words_label by assumption. rewrite IH by (intros; apply N; right; assumption). reflexivity.
  Qed.
  Lemma get_labels_ok : forall l f, (forall q, In q l -> name_ok (fst q) /\ snd q <> []) -> length l < f -> get_labels f (flat_map label_toks l) = Some l.
  Proof.
    induction l as [|[k q] l IH]; intros f N L; (destruct f as [|f]; [cbn in L; lia|]); [reflexivity|].
    destruct (N _ (or_introl eq_refl)) as (A & B). cbn [fst snd] in A, B. destruct q as [|x q]; [congruence|].
    cbn [flat_map]. unfold label_toks at 1. cbn [fst snd]. rewrite <- !app_assoc. cbn [app get_labels expect tok_eqb ceq Ascii.eqb Bool.eqb String.eqb DQUOTE]. rewrite (get_id_ok k _ A).
    cbn [expect tok_eqb ceq Ascii.eqb Bool.eqb DQUOTE]. rewrite get_states_ok.
    - rewrite IH; [reflexivity|intros; apply N; right; assumption|cbn [length] in L; lia].
    - rewrite app_length. clear. revert x. induction q as [|y q IH]; intros x; cbn [sepmap length state_toks]; [lia|]. rewrite app_length. cbn [length app state_toks]. specialize (IH y). cbn [length] in IH. lia.
  Qed.
End Lines.

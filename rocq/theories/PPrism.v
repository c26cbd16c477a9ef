(** Prism files: C66, C67. *)
From Coq Require Import String Ascii ZArith QArith Qround Reals Lra Bool DecimalString Lia List.
From Verif Require Import Num Py MTools MSet MModels MCtor MText MPrism SNum SCtor SText SPrism LSum LTools LCtor LText LPrism PCtor.
Import ListNotations.
Local Open Scope nat_scope.

Lemma NoDup_app_intro_single {A} (l : list A) x : NoDup l -> ~ In x l -> NoDup (l ++ [x]).
Proof.
  induction l as [|a l IH]; intros N I; cbn [app]; [repeat constructor; intros []|]. inversion N as [|? ? N1 N2]. subst. constructor.
  - intros J. apply in_app_or in J as [J|[<-|[]]]; [auto|apply I; left; reflexivity].
  - apply IH; [exact N2|intros J; apply I; right; exact J].
Qed.
Lemma NoDup_app_intro {A} (l1 l2 : list A) : NoDup l1 -> NoDup l2 -> (forall x, In x l1 -> ~ In x l2) -> NoDup (l1 ++ l2).
Proof.
  induction l1 as [|a l IH]; intros N M D; cbn [app]; [exact M|]. inversion N as [|? ? N1 N2]. subst. constructor.
  - intros J. apply in_app_or in J as [J|J]; [auto|apply (D a); [left; reflexivity|exact J]].
  - apply IH; [exact N2|exact M|intros x J; apply D; right; exact J].
Qed.
Lemma NoDup_flat_map {A B} (g : A -> list B) l : NoDup l -> (forall x, In x l -> NoDup (g x)) ->
  (forall x y z, In x l -> In y l -> In z (g x) -> In z (g y) -> x = y) -> NoDup (flat_map g l).
Proof.
  induction l as [|a l IH]; intros N G D; cbn [flat_map]; [constructor|]. inversion N as [|? ? N1 N2]. subst. apply NoDup_app_intro.
  - apply G. left. reflexivity.
  - apply IH; [exact N2|intros x I; apply G; right; exact I|intros x y z I J; apply D; right; assumption].
  - intros z I J. apply in_flat_map in J as (y & J & I'). assert (a = y) by (apply (D a y z); [left; reflexivity|right; exact J|exact I|exact I']). subst. contradiction.
Qed.
Lemma map_flat_map {A B C} (h : B -> C) (g : A -> list B) l : map h (flat_map g l) = flat_map (fun x => map h (g x)) l.
Proof. induction l as [|a l IH]; [reflexivity|]. cbn [flat_map]. rewrite map_app, IH. reflexivity. Qed.

Lemma flat_map_length_ge {A B} (g : A -> list B) l : (forall x, In x l -> 1 <= length (g x)) -> length l <= length (flat_map g l).
Proof. induction l as [|a l IH]; intros H; [reflexivity|]. cbn [flat_map length]. rewrite app_length. pose proof (H a (or_introl eq_refl)). specialize (IH (fun x I => H x (or_intror I))). lia. Qed.

Lemma nth_error_Some_lt {A} (l : list A) i x : nth_error l i = Some x -> i < length l.
Proof. intros E. apply nth_error_Some. congruence. Qed.

(** ** The table of labels *)
Lemma add_label_keys l s d k : In k (map fst (add_label l s d)) <-> In k (map fst d) \/ k = l.
Proof.
  induction d as [|[a v] d IH]; cbn [add_label map fst].
  - cbn. intuition.
  - destruct (String.eqb_spec a l) as [->|N]; cbn [map fst In]; [intuition|]. rewrite IH. intuition.
Qed.
Lemma add_label_nodup l s d : NoDup (map fst d) -> NoDup (map fst (add_label l s d)).
Proof.
  induction d as [|[a v] d IH]; intros N; cbn [add_label map fst]; [repeat constructor; intros []|]. cbn [map fst] in N. inversion N as [|? ? N1 N2]. subst.
  destruct (String.eqb_spec a l) as [->|D]; cbn [map fst]; constructor; auto. rewrite add_label_keys. intros [I|E]; [auto|congruence].
Qed.
Lemma add_label_in l s d k x : NoDup (map fst d) ->
  ((exists q, In (k, q) (add_label l s d) /\ In x q) <-> (exists q, In (k, q) d /\ In x q) \/ (k = l /\ x = s)).
Proof.
  induction d as [|[a v] d IH]; intros N; cbn [add_label].
  - split.
    + intros (q & [[= <- <-]|[]] & [<-|[]]). right. split; reflexivity.
    + intros [(q & [] & _)|(-> & ->)]. exists [s]. split; left; reflexivity.
  - cbn [map fst] in N. inversion N as [|? ? N1 N2]. subst. destruct (String.eqb_spec a l) as [->|D].
    + split.
      * intros (q & [[= <- <-]|I] & J).
        -- apply in_app_or in J as [J|[<-|[]]]; [left; exists v; split; [left; reflexivity|exact J]|right; split; reflexivity].
        -- left. exists q. split; [right; exact I|exact J].
      * intros [(q & [[= <- <-]|I] & J)|(-> & ->)].
        -- exists (v ++ [s]). split; [left; reflexivity|apply in_or_app; left; exact J].
        -- exists q. split; [right; exact I|exact J].
        -- exists (v ++ [s]). split; [left; reflexivity|apply in_or_app; right; left; reflexivity].
    + specialize (IH N2). split.
      * intros (q & [[= <- <-]|I] & J); [left; exists v; split; [left; reflexivity|exact J]|].
        destruct (proj1 IH (ex_intro _ q (conj I J))) as [(q' & I' & J')|E]; [left; exists q'; split; [right; exact I'|exact J']|right; exact E].
      * intros [(q & [[= <- <-]|I] & J)|E].
        -- exists v. split; [left; reflexivity|exact J].
        -- destruct (proj2 IH (or_introl (ex_intro _ q (conj I J)))) as (q' & I' & J'). exists q'. split; [right; exact I'|exact J'].
        -- destruct (proj2 IH (or_intror E)) as (q' & I' & J'). exists q'. split; [right; exact I'|exact J'].
Qed.
Lemma add_label_values l s d k q : In (k, q) (add_label l s d) -> In (k, q) d \/ (k = l /\ ((q = [s] \/ exists v, In (k, v) d /\ q = v ++ [s]))).
Proof.
  induction d as [|[a v] d IH]; cbn [add_label].
  - intros [[= <- <-]|[]]. right. auto.
  - destruct (String.eqb_spec a l) as [->|D].
    + intros [[= <- <-]|I]; [right; split; [reflexivity|right; exists v; split; [left; reflexivity|reflexivity]]|left; right; exact I].
    + intros [[= <- <-]|I]; [left; left; reflexivity|]. apply IH in I as [I|(-> & [->|(w & I & ->)])]; [left; right; exact I|right; auto|right]. split; [reflexivity|]. right. exists w. split; [right; exact I|reflexivity].
Qed.

Definition table_inv (d : list (string * list nat)) (done : list (nat * string)) : Prop :=
  NoDup (map fst d) /\ (forall k q, In (k, q) d -> q <> [] /\ NoDup q) /\
  forall l s, (exists q, In (l, q) d /\ In s q) <-> In (s, l) done /\ l <> "init"%string.
Lemma table_fold : forall todo d done, table_inv d done -> NoDup (map fst (done ++ todo)) ->
  table_inv (fold_left (fun d sl => if String.eqb (snd sl) "init" then d else add_label (snd sl) (fst sl) d) todo d) (done ++ todo).
Proof.
  induction todo as [|[s l] todo IH]; intros d done V N; [rewrite app_nil_r; exact V|]. cbn [fold_left fst snd].
  replace (done ++ (s, l) :: todo) with ((done ++ [(s, l)]) ++ todo) in * by (rewrite <- app_assoc; reflexivity). apply IH; [|exact N].
  assert (Ns : ~ In s (map fst done)).
  { rewrite <- app_assoc, map_app in N. cbn [map fst app] in N. apply NoDup_remove_2 in N. intros I. apply N, in_or_app. left. exact I. }
  destruct V as (V1 & V2 & V3). destruct (String.eqb_spec l "init") as [->|D].
  - split; [exact V1|]. split; [exact V2|]. intros k x. rewrite V3. rewrite in_app_iff. cbn [In]. split; [tauto|]. intros ([I|[[= <- <-]|[]]] & E); [auto|congruence].
  - split; [apply add_label_nodup, V1|]. split.
    + intros k q I. apply add_label_values in I as [I|(-> & [->|(v & I & ->)])].
      * apply (V2 k q I).
      * split; [discriminate|]. repeat constructor. intros [].
      * destruct (V2 l v I) as (_ & Nv). split; [destruct v; discriminate|]. apply NoDup_app_intro_single; [exact Nv|].
        intros J. destruct (proj1 (V3 l s) (ex_intro _ v (conj I J))) as (J' & _). apply Ns. apply in_map_iff. exists (s, l). auto.
    + intros k x. rewrite add_label_in by exact V1. rewrite V3, in_app_iff. cbn [In]. split.
      * intros [(I & E)|(-> & ->)]; auto.
      * intros ([I|[[= -> ->]|[]]] & E); auto.
Qed.
Lemma in_indexed {A} (l : list A) i s x : In (s, x) (combine (seq i (length l)) l) <-> i <= s /\ nth_error l (s - i) = Some x.
Proof.
  revert i. induction l as [|a l IH]; intros i; cbn [length seq combine].
  - split; [intros []|]. intros (_ & E). destruct (s - i); discriminate.
  - cbn [In]. rewrite IH. split.
    + intros [[= <- <-]|(L & E)]; [rewrite Nat.sub_diag; auto|]. split; [lia|]. replace (s - i) with (S (s - S i)) by lia. exact E.
    + intros (L & E). destruct (Nat.eq_dec s i) as [->|N]; [rewrite Nat.sub_diag in E; injection E as ->; left; reflexivity|]. right. split; [lia|]. replace (s - i) with (S (s - S i)) in E by lia. exact E.
Qed.
Lemma map_fst_combine {A B} (l : list A) (m : list B) : length l = length m -> map fst (combine l m) = l.
Proof. revert m. induction l as [|a l IH]; intros [|b m] L; cbn in *; try discriminate; [reflexivity|]. f_equal. apply IH. congruence. Qed.
Lemma label_table_spec labels : table_inv (label_table labels) (combine (seq 0 (length labels)) labels).
Proof.
  unfold label_table. rewrite <- (app_nil_l (combine _ labels)) at 2. apply table_fold.
  - split; [constructor|]. split; [intros k q []|]. intros l s. split; [intros (q & [] & _)|intros ([] & _)].
  - cbn [app]. rewrite map_fst_combine by apply seq_length. apply seq_NoDup.
Qed.

Section Rows.
  Context {K : Type} `{TK : Text K} `{NK : Num K}.
  Lemma support_in (row : list K) i j x : In (j, x) (support i row) <-> i <= j /\ nth_error row (j - i) = Some x /\ neqb x n0 = false.
  Proof.
    revert i. induction row as [|a r IH]; intros i; cbn [support].
    - split; [intros []|]. intros (_ & E & _). destruct (j - i); discriminate.
    - assert (G : i < j -> (In (j, x) (support (S i) r) <-> i <= j /\ nth_error (a :: r) (j - i) = Some x /\ neqb x n0 = false)).
      { intros L. rewrite IH. replace (j - i) with (S (j - S i)) by lia. cbn [nth_error]. intuition lia. }
      destruct (Nat.lt_trichotomy j i) as [L|[->|L]].
      + split; [|lia]. destruct (nonzero a); [intros [[= <- <-]|I]|intros I]; try lia; apply IH in I; lia.
      + rewrite Nat.sub_diag. cbn [nth_error]. unfold nonzero. split.
        * destruct (neqb a n0) eqn:E; cbn [negb]; [intros I; apply IH in I; lia|]. intros [[= <-]|I]; [auto|apply IH in I; lia].
        * intros (_ & [= ->] & E). rewrite E. left. reflexivity.
      + rewrite <- (G L). destruct (nonzero a); [|reflexivity]. split; [intros [[= <- <-]|I]; [lia|exact I]|intros I; right; exact I].
  Qed.
  Lemma support_nodup (row : list K) i : NoDup (map fst (support i row)).
  Proof.
    revert i. induction row as [|a r IH]; intros i; cbn [support]; [constructor|]. destruct (nonzero a); [|apply IH]. cbn [map fst]. constructor; [|apply IH].
    intros I. apply in_map_iff in I as ([j x] & E & I). cbn in E. subst. apply support_in in I. lia.
  Qed.
  Lemma cmd_of_in a s (row : list K) c : In c (cmd_of a s row) <-> c = (a, s, support 0 row) /\ support 0 row <> [].
  Proof.
    unfold cmd_of. destruct (support 0 row) as [|x l] eqn:E.
    - split; [intros []|]. intros (_ & H). congruence.
    - cbn [In]. split; [intros [<-|[]]; split; [reflexivity|discriminate]|]. intros (-> & _). left. reflexivity.
  Qed.

  Lemma words_nl r : words (NL :: r) = words r.
  Proof. apply words_cons. Qed.
  Lemma words_range r : words (s2t "	s: [0.." ++ r) = [TId "s"; TSym ":"; TSym "["; TNum "0"; TSym "."; TSym "."] ++ words r.
  Proof.
    change (words (s2t "	s: [" ++ "0"%char :: "."%char :: "."%char :: r) = [TId "s"; TSym ":"; TSym "["; TNum "0"; TSym "."; TSym "."] ++ words r).
    rewrite words_lit by reflexivity. rewrite words_cons. change (words (s2t "	s: [") ++ TNum "0" :: words ("."%char :: "."%char :: r) = [TId "s"; TSym ":"; TSym "["; TNum "0"; TSym "."; TSym "."] ++ words r).
    rewrite !(words_cons "."). reflexivity.
  Qed.
  Lemma first_one_ok (ini : list K) i j : first_one i ini = Ok j <-> i <= j /\ (exists x, nth_error ini (j - i) = Some x /\ neqb x n1 = true) /\ forall k x, k < j - i -> nth_error ini k = Some x -> neqb x n1 = false.
  Proof.
    revert i. induction ini as [|a r IH]; intros i; cbn [first_one].
    - split; [discriminate|]. intros (_ & (x & E & _) & _). destruct (j - i); discriminate.
    - destruct (neqb a n1) eqn:E.
      + split.
        * intros [= <-]. rewrite Nat.sub_diag. split; [lia|]. split; [exists a; auto|]. intros k x L. lia.
        * intros (L & (x & Ex & Nx) & F). destruct (j - i) as [|d] eqn:D; [f_equal; lia|]. rewrite (F 0 a) in E; [discriminate|lia|reflexivity].
      + rewrite IH. split.
        * intros (L & (x & Ex & Nx) & F). split; [lia|]. replace (j - i) with (S (j - S i)) by lia. split; [exists x; auto|]. intros [|k] y Lk Ey; [injection Ey as <-; exact E|]. apply (F k); [lia|exact Ey].
        * intros (L & (x & Ex & Nx) & F). destruct (Nat.eq_dec i j) as [->|N]; [rewrite Nat.sub_diag in Ex; injection Ex as ->; congruence|]. split; [lia|].
          replace (j - i) with (S (j - S i)) in * by lia. split; [exists x; auto|]. intros k y Lk Ey. apply (F (S k)); [lia|exact Ey].
  Qed.
  Lemma words_rows {T} (f : T -> text) (g : T -> list (string * nat * list (nat * K))) l u :
    (forall x u, In x l -> words (f x ++ u) = flat_map cmd_toks (g x) ++ words u) -> words (flat_map f l ++ u) = flat_map cmd_toks (flat_map g l) ++ words u.
  Proof.
    induction l as [|x l IH]; intros H; [reflexivity|]. cbn [flat_map]. rewrite <- app_assoc, H by (left; reflexivity). rewrite IH by (intros; apply H; right; assumption).
    rewrite flat_map_app, app_assoc. reflexivity.
  Qed.

  Lemma read_base kind name labels (ini : list K) rows cmds i :
    words (s2t kind) = [TId kind] -> existsb (String.eqb kind) ["dtmc"; "mdp"; "ctmc"]%string = true -> name_ok name -> labels <> [] ->
    (forall l, In l labels -> l <> "init"%string -> name_ok l) -> first_one 0 ini = Ok i ->
    (forall u, words (rows ++ u) = flat_map cmd_toks cmds ++ words u) ->
    (forall a s b, In (a, s, b) cmds -> act_ok a /\ b <> [] /\ forall y, In y b -> number_ok (snd y)) ->
    exists t, base_prism kind name labels ini rows = Ok t /\ read_prism t = Some (mkPrism kind name (length labels - 1) i cmds (label_table labels)).
  Proof.
    intros W KD N NE LB I R C. unfold base_prism. rewrite I. cbn [bind]. eexists. split; [reflexivity|]. unfold read_prism.
    destruct (label_table_spec labels) as (T1 & T2 & T3).
    assert (TL : forall q, In q (label_table labels) -> name_ok (fst q) /\ snd q <> []).
    { intros [l q] J. destruct (T2 l q J) as (E & _). cbn [fst snd]. split; [|exact E]. destruct q as [|s q]; [congruence|].
      destruct (proj1 (T3 l s) (ex_intro _ _ (conj J (or_introl eq_refl)))) as (I1 & I2). apply LB; [|exact I2]. apply in_combine_r in I1. exact I1. }
    replace (Z.of_nat (length labels) - 1)%Z with (Z.of_nat (length labels - 1)) by (destruct labels; [congruence|cbn [length]; lia]). fold (show_nat (length labels - 1)).
    rewrite words_before by reflexivity. rewrite W. cbn [app]. rewrite !words_nl.
    rewrite KD. cbn [negb].
    rewrite (words_lit "module ") by reflexivity. change (words (s2t "module ")) with [TId "module"]. rewrite words_before by reflexivity. rewrite (words_name _ N). cbn [app]. rewrite !words_nl.
    rewrite words_range. rewrite words_before by reflexivity. rewrite words_nat. rewrite (words_lit "] init ") by reflexivity. change (words (s2t "] init ")) with [TSym "]"; TId "init"]. rewrite words_before by reflexivity. rewrite words_nat.
    rewrite (words_lit ";") by reflexivity. change (words (s2t ";")) with [TSym ";"]. cbn [app]. rewrite !words_nl.
    rewrite R. rewrite words_before by reflexivity. change (words (s2t "endmodule")) with [TId "endmodule"]. cbn [app]. rewrite !words_nl.
    rewrite words_labels by exact TL.
    cbn [expect tok_eqb String.eqb Ascii.eqb Bool.eqb]. rewrite (get_id_ok _ _ N). cbn [expect tok_eqb ceq String.eqb Ascii.eqb Bool.eqb]. rewrite get_nat_ok. cbn [expect tok_eqb ceq String.eqb Ascii.eqb Bool.eqb]. rewrite get_nat_ok.
    cbn [expect tok_eqb ceq Ascii.eqb Bool.eqb]. rewrite get_commands_ok; [|exact C|].
    - rewrite get_labels_ok; [reflexivity|exact TL|]. enough (length (label_table labels) <= length (flat_map label_toks (label_table labels))) by lia. apply flat_map_length_ge. intros q _. unfold label_toks. cbn. lia.
    - rewrite app_length. cbn [length]. enough (length cmds <= length (flat_map cmd_toks cmds)) by lia. apply flat_map_length_ge. intros [[a s] b] _. cbn. lia.
  Qed.
End Rows.

Lemma labels_listed {K} (p : prism K) labels : p_labels p = label_table labels -> lists_labels p labels.
Proof.
  intros E. destruct (label_table_spec labels) as (T1 & T2 & T3). unfold lists_labels. rewrite E. split; [exact T1|]. split; [intros l q I; apply (T2 l q I)|].
  intros l s. rewrite T3, in_indexed, Nat.sub_0_r. intuition lia.
Qed.

(** What it takes for a model to have a Prism file: names Prism accepts, and
    numbers written the way Prism reads them. *)
Definition names_ok (name : string) (labels : list string) : Prop :=
  name_ok name /\ forall l, In l labels -> l <> "init"%string -> name_ok l.
Definition numbers_ok {K} `{Text K} `{Num K} (mat : list (list K)) : Prop :=
  forall s s' x, entry mat s s' x -> number_ok x.
(** State [i] is the first one with initial probability 1. *)
Definition starts_at {K} `{Num K} (ini : list K) (i : nat) : Prop :=
  (exists x, nth_error ini i = Some x /\ neqb x n1 = true) /\ forall k x, k < i -> nth_error ini k = Some x -> neqb x n1 = false.

Lemma rows_spec {K} {TK : Text K} {NK : Num K} (mat : list (list K)) n : length mat = n -> numbers_ok mat ->
  let cmds := flat_map (fun s => cmd_of EmptyString s (nth s mat [])) (seq 0 n) in
  (forall u, words (prism_rows n mat ++ u) = flat_map cmd_toks cmds ++ words u) /\
  (forall a s b, In (a, s, b) cmds -> act_ok a /\ b <> [] /\ forall y, In y b -> number_ok (snd y)) /\
  NoDup (map fst cmds) /\ (forall c b, In (c, b) cmds -> NoDup (map fst b)) /\
  forall a s s' x, (exists b, In (a, s, b) cmds /\ In (s', x) b) <-> a = EmptyString /\ entry mat s s' x.
Proof.
  intros L N cmds.
  assert (C : forall a s b, In (a, s, b) cmds <-> a = EmptyString /\ s < n /\ b = support 0 (nth s mat []) /\ b <> []).
  { intros a s b. unfold cmds. rewrite in_flat_map. split.
    - intros (t & I & J). apply in_seq in I. apply cmd_of_in in J as ([= -> -> ->] & E). repeat split; [lia|exact E].
    - intros (-> & I & -> & E). exists s. split; [apply in_seq; lia|]. apply cmd_of_in. split; [reflexivity|exact E]. }
  assert (En : forall s s' x, s < n -> (In (s', x) (support 0 (nth s mat [])) <-> entry mat s s' x)).
  { intros s s' x I. rewrite support_in, Nat.sub_0_r. unfold entry. split.
    - intros (_ & E & F). exists (nth s mat []). split; [apply nth_error_nth'; lia|]. auto.
    - intros (row & E & F & G). apply nth_error_nth with (d := []) in E. rewrite E. split; [lia|]. auto. }
  split; [|split; [|split; [|split]]].
  - intros u. apply words_rows. intros s v I. apply in_seq in I. apply words_command; [left; reflexivity|]. intros x J Z. apply In_nth_error in J as (j & J). apply (N s j).
    apply En; [lia|]. apply support_in. rewrite Nat.sub_0_r. split; [lia|]. split; [exact J|]. apply negb_true_iff, Z.
  - intros a s b I. apply C in I as (-> & I & -> & E). split; [left; reflexivity|]. split; [exact E|]. intros [s' x] J. apply (N s s'). apply En; assumption.
  - unfold cmds. rewrite map_flat_map. apply NoDup_flat_map; [apply seq_NoDup| |].
    + intros s _. unfold cmd_of. destruct (support 0 _); cbn [map]; repeat constructor. intros [].
    + intros s t z _ _ I J. apply in_map_iff in I as (c & <- & I). apply in_map_iff in J as (d & E & J). apply cmd_of_in in I as (-> & _). apply cmd_of_in in J as (-> & _). cbn in E. congruence.
  - intros [a s] b I. apply C in I as (_ & _ & -> & _). apply support_nodup.
  - intros a s s' x. split.
    + intros (b & I & J). apply C in I as (-> & I & -> & _). split; [reflexivity|]. apply En; assumption.
    + intros (-> & E). assert (I : s < n). { destruct E as (row & E & _). apply nth_error_Some_lt in E. lia. }
      apply En in E; [|exact I]. exists (support 0 (nth s mat [])). split; [|exact E]. apply C. repeat split; [exact I|]. intros Z. rewrite Z in E. exact E.
Qed.

(** ** C66 *)
Theorem C66_MC_prism : forall K (TK : Text K) (NK : Num K) (m : mc K) i,
  length (mc_mat m) = length (mc_lab m) -> names_ok (mc_name m) (mc_lab m) -> numbers_ok (mc_mat m) -> starts_at (mc_ini m) i ->
  mc_lab m <> [] ->
  exists t p, mc_savePrism m = Ok t /\ read_prism t = Some p /\
    p_kind p = "dtmc"%string /\ p_name p = mc_name m /\ p_max p = length (mc_lab m) - 1 /\ p_init p = i /\
    lists_transitions p (fun a s s' x => a = EmptyString /\ entry (mc_mat m) s s' x) /\ lists_labels p (mc_lab m).
Proof.
  intros K TK NK m i L (Nn & Nl) N S NE. destruct (rows_spec (mc_mat m) (length (mc_lab m)) L N) as (R1 & R2 & R3 & R4 & R5).
  assert (F : first_one 0 (mc_ini m) = Ok i) by (apply first_one_ok; rewrite Nat.sub_0_r; split; [lia|exact S]).
  destruct (read_base "dtmc" (mc_name m) (mc_lab m) (mc_ini m) (prism_rows (length (mc_lab m)) (mc_mat m)) _ i eq_refl eq_refl Nn NE Nl F R1 R2) as (t & E1 & E2).
  exists t. eexists. split; [exact E1|]. split; [exact E2|]. do 4 (split; [reflexivity|]). split; [split; [exact R3|split; [exact R4|exact R5]]|apply labels_listed; reflexivity].
Qed.
Print Assumptions C66_MC_prism.

Theorem C66_CTMC_prism : forall K (TK : Text K) (NK : Num K) (m : ctmc K) i,
  length (ct_mat m) = length (ct_lab m) -> names_ok (ct_name m) (ct_lab m) -> numbers_ok (ct_mat m) -> starts_at (ct_ini m) i ->
  ct_lab m <> [] ->
  exists t p, ctmc_savePrism m = Ok t /\ read_prism t = Some p /\
    p_kind p = "ctmc"%string /\ p_name p = ct_name m /\ p_max p = length (ct_lab m) - 1 /\ p_init p = i /\
    lists_transitions p (fun a s s' x => a = EmptyString /\ entry (ct_mat m) s s' x) /\ lists_labels p (ct_lab m).
Proof.
  intros K TK NK m i L (Nn & Nl) N S NE. destruct (rows_spec (ct_mat m) (length (ct_lab m)) L N) as (R1 & R2 & R3 & R4 & R5).
  assert (F : first_one 0 (ct_ini m) = Ok i) by (apply first_one_ok; rewrite Nat.sub_0_r; split; [lia|exact S]).
  destruct (read_base "ctmc" (ct_name m) (ct_lab m) (ct_ini m) (prism_rows (length (ct_lab m)) (ct_mat m)) _ i eq_refl eq_refl Nn NE Nl F R1 R2) as (t & E1 & E2).
  exists t. eexists. split; [exact E1|]. split; [exact E2|]. do 4 (split; [reflexivity|]). split; [split; [exact R3|split; [exact R4|exact R5]]|apply labels_listed; reflexivity].
Qed.
Print Assumptions C66_CTMC_prism.

(** Transitions of an MDP: action, state, next state, value. *)
Definition act_entry {K} `{Num K} (acts : list string) (mat : list (list (list K))) (a : string) (s s' : nat) (x : K) : Prop :=
  exists i rows, nth_error acts i = Some a /\ nth_error mat s = Some rows /\ entry rows i s' x.

Lemma mdp_rows_spec {K} {TK : Text K} {NK : Num K} (acts : list string) (mat : list (list (list K))) n : length mat = n ->
  (forall rows, In rows mat -> length rows = length acts) -> NoDup acts -> (forall a, In a acts -> name_ok a) ->
  (forall a s s' x, act_entry acts mat a s s' x -> number_ok x) ->
  let cmds := flat_map (fun s => flat_map (fun ia => cmd_of (snd ia) s (nth (fst ia) (nth s mat []) [])) (combine (seq 0 (length acts)) acts)) (seq 0 n) in
  (forall u, words (prism_rows_mdp n acts mat ++ u) = flat_map cmd_toks cmds ++ words u) /\
  (forall a s b, In (a, s, b) cmds -> act_ok a /\ b <> [] /\ forall y, In y b -> number_ok (snd y)) /\
  NoDup (map fst cmds) /\ (forall c b, In (c, b) cmds -> NoDup (map fst b)) /\
  forall a s s' x, (exists b, In (a, s, b) cmds /\ In (s', x) b) <-> act_entry acts mat a s s' x.
Proof.
  intros L LR ND NA N cmds.
  assert (C : forall a s b, In (a, s, b) cmds <-> s < n /\ exists i, nth_error acts i = Some a /\ b = support 0 (nth i (nth s mat []) []) /\ b <> []).
  { intros a s b. unfold cmds. rewrite in_flat_map. split.
    - intros (t & I & J). apply in_seq in I. apply in_flat_map in J as ([i c] & J1 & J2). apply in_indexed in J1 as (_ & J1). rewrite Nat.sub_0_r in J1. cbn [fst snd] in J2. apply cmd_of_in in J2 as ([= -> -> ->] & E). split; [lia|]. exists i. auto.
    - intros (I & i & E1 & -> & E). exists s. split; [apply in_seq; lia|]. apply in_flat_map. exists (i, a). split; [apply in_indexed; rewrite Nat.sub_0_r; split; [lia|exact E1]|]. cbn [fst snd]. apply cmd_of_in. auto. }
  assert (En : forall a i s s' x, s < n -> nth_error acts i = Some a -> (In (s', x) (support 0 (nth i (nth s mat []) [])) <-> act_entry acts mat a s s' x)).
  { intros a i s s' x I Ea. assert (Li : i < length acts) by (apply nth_error_Some; congruence). assert (Ls : length (nth s mat []) = length acts) by (apply LR, nth_In; lia).
    rewrite support_in, Nat.sub_0_r. unfold act_entry, entry. split.
    - intros (_ & E & F). exists i, (nth s mat []). split; [exact Ea|]. split; [apply nth_error_nth'; lia|]. eexists. split; [apply nth_error_nth'; lia|]. split; eassumption.
    - intros (j & rows & Ej & Er & row & E & F & G). assert (i = j) by (apply (NoDup_nth_error acts); [exact ND|exact Li|congruence]). subst j.
      apply nth_error_nth with (d := []) in Er. rewrite Er. apply nth_error_nth with (d := []) in E. rewrite E. split; [lia|]. auto. }
  split; [|split; [|split; [|split]]].
  - intros u. apply words_rows. intros s v I. apply in_seq in I. apply words_rows. intros [i a] w J. apply in_indexed in J as (_ & J). rewrite Nat.sub_0_r in J. cbn [fst snd]. apply words_command.
    + right. apply NA. eapply nth_error_In, J.
    + intros x Ix Z. apply In_nth_error in Ix as (j & Ix). apply (N a s j). apply (En a i); [lia|exact J|]. apply support_in. rewrite Nat.sub_0_r. split; [lia|]. split; [exact Ix|]. apply negb_true_iff, Z.
  - intros a s b I. apply C in I as (I & i & Ea & -> & E). split; [right; apply NA; eapply nth_error_In, Ea|]. split; [exact E|]. intros [s' x] J. apply (N a s s'). apply (En a i); assumption.
  - unfold cmds. rewrite map_flat_map. apply NoDup_flat_map; [apply seq_NoDup| |].
    + intros s _. rewrite map_flat_map. apply NoDup_flat_map.
      * apply (NoDup_map_inv fst). rewrite map_fst_combine by apply seq_length. apply seq_NoDup.
      * intros ia _. unfold cmd_of. destruct (support 0 _); cbn [map]; repeat constructor. intros [].
      * intros [i a] [j b] z I J I' J'. apply in_indexed in I as (_ & I), J as (_ & J). rewrite Nat.sub_0_r in I, J. cbn [fst snd] in *.
        apply in_map_iff in I' as (c & <- & I'). apply in_map_iff in J' as (d & E & J'). apply cmd_of_in in I' as (-> & _). apply cmd_of_in in J' as (-> & _). cbn in E. injection E as ->.
        assert (i = j) by (apply (NoDup_nth_error acts); [exact ND|apply nth_error_Some; congruence|congruence]). congruence.
    + intros s t z _ _ I J. apply in_map_iff in I as (c & <- & I). apply in_map_iff in J as (d & E & J). apply in_flat_map in I as (ia & _ & I). apply in_flat_map in J as (ib & _ & J).
      apply cmd_of_in in I as (-> & _). apply cmd_of_in in J as (-> & _). cbn in E. congruence.
  - intros [a s] b I. apply C in I as (_ & i & _ & -> & _). apply support_nodup.
  - intros a s s' x. split.
    + intros (b & I & J). apply C in I as (I & i & Ea & -> & _). apply (En a i); assumption.
    + intros A. pose proof A as (i & rows & Ea & Er & _). assert (I : s < n) by (apply nth_error_Some_lt in Er; lia).
      apply (En a i) in A; [|exact I|exact Ea]. exists (support 0 (nth i (nth s mat []) [])). split; [|exact A]. apply C. split; [exact I|]. exists i. repeat split; [exact Ea|]. intros Z. rewrite Z in A. exact A.
Qed.

Theorem C66_MDP_prism : forall K (TK : Text K) (NK : Num K) (m : mdp K) i,
  length (mdp_mat m) = length (mdp_lab m) -> (forall rows, In rows (mdp_mat m) -> length rows = length (mdp_act m)) ->
  NoDup (mdp_act m) -> (forall a, In a (mdp_act m) -> name_ok a) ->
  names_ok (mdp_name m) (mdp_lab m) -> (forall a s s' x, act_entry (mdp_act m) (mdp_mat m) a s s' x -> number_ok x) -> starts_at (mdp_ini m) i ->
  mdp_lab m <> [] ->
  exists t p, mdp_savePrism m = Ok t /\ read_prism t = Some p /\
    p_kind p = "mdp"%string /\ p_name p = mdp_name m /\ p_max p = length (mdp_lab m) - 1 /\ p_init p = i /\
    lists_transitions p (act_entry (mdp_act m) (mdp_mat m)) /\ lists_labels p (mdp_lab m).
Proof.
  intros K TK NK m i L LR ND NA (Nn & Nl) N S NE. destruct (mdp_rows_spec (mdp_act m) (mdp_mat m) (length (mdp_lab m)) L LR ND NA N) as (R1 & R2 & R3 & R4 & R5).
  assert (F : first_one 0 (mdp_ini m) = Ok i) by (apply first_one_ok; rewrite Nat.sub_0_r; split; [lia|exact S]).
  destruct (read_base "mdp" (mdp_name m) (mdp_lab m) (mdp_ini m) (prism_rows_mdp (length (mdp_lab m)) (mdp_act m) (mdp_mat m)) _ i eq_refl eq_refl Nn NE Nl F R1 R2) as (t & E1 & E2).
  exists t. eexists. split; [exact E1|]. split; [exact E2|]. do 4 (split; [reflexivity|]). split; [split; [exact R3|split; [exact R4|exact R5]]|apply labels_listed; reflexivity].
Qed.
Print Assumptions C66_MDP_prism.

(** ** C67 *)
Lemma first_one_init labels (ini : list R) : uniform_on_init labels ini -> In "init"%string labels ->
  (label_count "init" labels = 1 -> exists i, nth_error labels i = Some "init"%string /\ first_one 0 ini = Ok i) /\
  (label_count "init" labels <> 1 -> first_one 0 ini = Err IndexError).
Proof.
  intros (L & _ & U) I.
  assert (V : forall s x, nth_error ini s = Some x -> x = if String.eqb (nth s labels EmptyString) "init" then (1 / INR (label_count "init" labels))%R else 0%R).
  { intros s x E. pose proof (nth_error_Some_lt _ _ _ E). rewrite <- U by lia. apply nth_error_nth with (d := 0%R) in E. symmetry. exact E. }
  split.
  - intros C. rewrite C in V. apply In_nth_error in I as (i & I).
    assert (Ei : exists x, nth_error ini i = Some x) by (destruct (nth_error ini i) eqn:Z; [eauto|apply nth_error_None in Z; apply nth_error_Some_lt in I; lia]).
    destruct (first_one 0 ini) as [j|e] eqn:F.
    + exists j. split; [|reflexivity]. apply first_one_ok in F as (_ & (x & E & O) & _). rewrite Nat.sub_0_r in E. pose proof (V j x E) as Vx.
      destruct (String.eqb_spec (nth j labels EmptyString) "init") as [Q|Q].
      * rewrite <- Q. apply nth_error_nth'. apply nth_error_Some_lt in E. lia.
      * exfalso. subst x. cbn in O. unfold Reqb in O. destruct (Req_EM_T 0 1); [lra|discriminate].
    + exfalso. destruct Ei as (x & Ei). pose proof (V i x Ei) as Vx. apply nth_error_nth with (d := EmptyString) in I. rewrite I in Vx. cbn in Vx.
      assert (G : forall (l : list R) k i x, nth_error l i = Some x -> neqb x n1 = true -> exists j, first_one k l = Ok j).
      { clear. induction l as [|a l IH]; intros k [|i] x E O; cbn [nth_error] in E; try discriminate; cbn [first_one].
        - injection E as ->. rewrite O. eauto.
        - destruct (neqb a n1); [eauto|]. eapply IH; eassumption. }
      destruct (G ini 0 i x Ei) as (j & G'); [|congruence]. subst x. cbn. unfold Reqb. destruct (Req_EM_T _ _); [reflexivity|]. lra.
  - intros C. assert (G : forall x, In x ini -> neqb x n1 = false).
    { intros x J. apply In_nth_error in J as (s & J). rewrite (V s x J). cbn. unfold Reqb. destruct (Req_EM_T _ _) as [Q|Q]; [|reflexivity]. exfalso. revert Q.
      destruct (String.eqb _ _); [|lra]. pose proof (label_count_pos _ I) as P. intros Q. apply C. apply INR_eq. apply lt_INR in P. cbn [INR] in *. apply (f_equal (fun y => y * INR (label_count "init" labels))%R) in Q. unfold Rdiv in Q. rewrite Rmult_assoc, Rinv_l in Q by lra. lra. }
    clear -G. generalize 0. induction ini as [|a l IH]; intros k; [reflexivity|]. cbn [first_one]. rewrite G by (left; reflexivity). apply IH. intros x J. apply G. right. exact J.
Qed.

Lemma count_one_unique l (labels : list string) i j : label_count l labels = 1 -> nth_error labels i = Some l -> nth_error labels j = Some l -> i = j.
Proof.
  assert (Z : forall (m : list string) k, nth_error m k = Some l -> length (filter (String.eqb l) m) <> 0).
  { intros m k E F. apply nth_error_In in E. assert (In l (filter (String.eqb l) m)) by (apply filter_In; split; [exact E|apply String.eqb_refl]). destruct (filter _ m); [contradiction|discriminate]. }
  unfold label_count. revert i j. induction labels as [|a r IH]; intros [|i] [|j] C Ei Ej; try discriminate; [reflexivity|..]; cbn [nth_error filter] in *.
  - injection Ei as ->. rewrite String.eqb_refl in C. cbn [length] in C. exfalso. apply (Z r j Ej). lia.
  - injection Ej as ->. rewrite String.eqb_refl in C. cbn [length] in C. exfalso. apply (Z r i Ei). lia.
  - f_equal. apply IH; [|exact Ei|exact Ej]. destruct (String.eqb l a); [|exact C]. cbn [length] in C. exfalso. apply (Z r i Ei). lia.
Qed.
Lemma base_prism_cases (TK : Text R) kind name labels (ini : list R) rows : uniform_on_init labels ini -> In "init"%string labels ->
  ((exists t, base_prism kind name labels ini rows = Ok t) <-> label_count "init" labels = 1) /\ (forall e, base_prism kind name labels ini rows = Err e -> e = IndexError) /\
  (forall i, nth_error labels i = Some "init"%string -> label_count "init" labels = 1 -> starts_at ini i).
Proof.
  intros U I. destruct (first_one_init labels ini U I) as (F1 & F2). unfold base_prism.
  destruct (Nat.eq_dec (label_count "init" labels) 1) as [C|C].
  - destruct (F1 C) as (i & Ei & F). rewrite F. cbn [bind]. split; [split; [auto|eauto]|]. split; [discriminate|]. intros j Ej _.
    rewrite (count_one_unique "init" labels j i C Ej Ei). apply first_one_ok in F. rewrite Nat.sub_0_r in F. apply F.
  - rewrite (F2 C). cbn [bind]. split; [split; [intros (t & T); discriminate|intros; contradiction]|]. split; [intros e [= <-]; reflexivity|intros; contradiction].
Qed.

(** A model accepted by the constructor has a Prism file exactly when one state
    only is labelled init; that state is then the initial one. *)
Theorem C67_MC_savePrism : forall (TK : Text R) matrix labels name (m : mc R), MC_new matrix labels name = Ok m ->
  ((exists t, mc_savePrism m = Ok t) <-> label_count "init" labels = 1) /\ (forall e, mc_savePrism m = Err e -> e = IndexError) /\
  (forall i, nth_error labels i = Some "init"%string -> label_count "init" labels = 1 -> starts_at (mc_ini m) i).
Proof.
  intros TK matrix labels name m E. destruct (C16_MC_constructor matrix labels name) as (A & B & _). destruct (B m E) as (Em & El & En & U). destruct (proj1 A (ex_intro _ m E)) as (I & _).
  unfold mc_savePrism. rewrite El. apply base_prism_cases; assumption.
Qed.
Print Assumptions C67_MC_savePrism.
Theorem C67_CTMC_savePrism : forall (TK : Text R) matrix labels name (m : ctmc R), CTMC_new matrix labels name = Ok m ->
  ((exists t, ctmc_savePrism m = Ok t) <-> label_count "init" labels = 1) /\ (forall e, ctmc_savePrism m = Err e -> e = IndexError) /\
  (forall i, nth_error labels i = Some "init"%string -> label_count "init" labels = 1 -> starts_at (ct_ini m) i).
Proof.
  intros TK matrix labels name m E. destruct (C16_CTMC_constructor matrix labels name) as (A & B & _). destruct (B m E) as (Em & El & En & U). destruct (proj1 A (ex_intro _ m E)) as (I & _).
  unfold ctmc_savePrism. rewrite El. apply base_prism_cases; assumption.
Qed.
Print Assumptions C67_CTMC_savePrism.
Theorem C67_MDP_savePrism : forall (TK : Text R) matrix labels actions name (m : mdp R), MDP_new matrix labels actions name = Ok m ->
  ((exists t, mdp_savePrism m = Ok t) <-> label_count "init" labels = 1) /\ (forall e, mdp_savePrism m = Err e -> e = IndexError) /\
  (forall i, nth_error labels i = Some "init"%string -> label_count "init" labels = 1 -> starts_at (mdp_ini m) i).
Proof.
  intros TK matrix labels actions name m E. destruct (C16_MDP_constructor matrix labels actions name) as (A & B & _). destruct (B m E) as (Em & El & Ea & En & U). destruct (proj1 A (ex_intro _ m E)) as (I & _).
  unfold mdp_savePrism. rewrite El. apply base_prism_cases; assumption.
Qed.
Print Assumptions C67_MDP_savePrism.

(** ** Examples *)
#[local] Instance QText : Text Q := {
  show := fun q => (NilZero.string_of_int (Z.to_int (Qfloor (q * 1000))) ++ "e-3")%string;
  read := fun s => let t := s2t s in match read_int (firstn (length t - 3) t) with Some z => Some (Qred (z # 1000)) | None => None end }.
Definition three_states : mc Q := mkMC [[0; 1; 0]; [1 # 2; 0; 1 # 2]; [0; 0; 1]]%Q ["init"; "b_1"; "b_1"]%string [1; 0; 0]%Q "chain".
Ltac name c r := exists c, (s2t r); split; [reflexivity|]; split; [reflexivity|]; split; [apply forallb_forall; reflexivity|reflexivity].
Example C66_instance : exists t p, mc_savePrism three_states = Ok t /\ read_prism t = Some p /\ p_init p = 0 /\ p_max p = 2 /\
  lists_transitions p (fun a s s' x => a = EmptyString /\ entry (mc_mat three_states) s s' x) /\ lists_labels p (mc_lab three_states).
Proof.
  destruct (C66_MC_prism Q QText QNum three_states 0) as (t & p & E1 & E2 & _ & _ & E3 & E4 & E5 & E6).
  - reflexivity.
  - split; [name "c"%char "hain"%string|]. intros l [<-|[<-|[<-|[]]]] D; [congruence|name "b"%char "_1"%string|name "b"%char "_1"%string].
  - assert (N1 : number_ok 1%Q) by (exists "1"%char, (s2t "000e-3"); repeat split).
    assert (N2 : number_ok (1 # 2)%Q) by (exists "5"%char, (s2t "00e-3"); repeat split).
    intros s s' x (row & A & B & C). destruct s as [|[|[|s]]]; cbn in A; try (destruct s; discriminate); injection A as <-;
      (destruct s' as [|[|[|s']]]; cbn in B; try (destruct s'; discriminate); injection B as <-; try assumption; discriminate).
  - split; [exists 1%Q; split; reflexivity|]. intros k x L. lia.
  - discriminate.
  - exists t, p. exact (conj E1 (conj E2 (conj E4 (conj E3 (conj E5 E6))))).
Qed.
Example C66_file : exists t, mc_savePrism three_states = Ok t /\ t = s2t "dtmc

module chain
	s: [0..2] init 0;

	[] s=0 -> 1000e-3:(s'=1);
	[] s=1 -> 500e-3:(s'=0) + 500e-3:(s'=2);
	[] s=2 -> 1000e-3:(s'=2);
endmodule

label ""b_1"" = s=1 | s=2 ;
"%string.
Proof. eexists. split; vm_compute; reflexivity. Qed.
Example C66_instance_mdp : let m := mkMDP [[[0; 1]; [1 # 2; 1 # 2]]; [[1; 0]; [0; 0]]]%Q ["init"; "b"]%string ["u"; "v"]%string [1; 0]%Q "c" in
  exists t p, mdp_savePrism m = Ok t /\ read_prism t = Some p /\ lists_transitions p (act_entry (mdp_act m) (mdp_mat m)) /\ lists_labels p (mdp_lab m).
Proof.
  intros m. destruct (C66_MDP_prism Q QText QNum m 0) as (t & p & E1 & E2 & _ & _ & E3 & E4 & E5 & E6).
  - reflexivity.
  - intros r [<-|[<-|[]]]; reflexivity.
  - cbn. repeat constructor; cbn; intuition discriminate.
  - intros a [<-|[<-|[]]]; [name "u"%char ""%string|name "v"%char ""%string].
  - split; [name "c"%char ""%string|]. intros l [<-|[<-|[]]] D; [congruence|name "b"%char ""%string].
  - assert (N1 : number_ok 1%Q) by (exists "1"%char, (s2t "000e-3"); repeat split).
    assert (N2 : number_ok (1 # 2)%Q) by (exists "5"%char, (s2t "00e-3"); repeat split).
    intros a s s' x (i & rows & _ & Es & row & A & B & C). destruct s as [|[|s]]; cbn in Es; try (destruct s; discriminate); injection Es as <-;
      (destruct i as [|[|i]]; cbn in A; try (destruct i; discriminate); injection A as <-; (destruct s' as [|[|s']]; cbn in B; try (destruct s'; discriminate); injection B as <-; try assumption; discriminate)).
  - split; [exists 1%Q; split; reflexivity|]. intros k x L. lia.
  - discriminate.
  - exists t, p. exact (conj E1 (conj E2 (conj E5 E6))).
Qed.

(** Two initial states: accepted by the constructor, not by savePrism. *)
Theorem C67_several_initial_refuted : exists matrix labels name (m : mc Q), MC_new matrix labels name = Ok m /\ mc_savePrism m = Err IndexError.
Proof. exists [[0; 1]; [1; 0]]%Q, ["init"; "init"]%string, EmptyString. eexists. split; vm_compute; reflexivity. Qed.
Print Assumptions C67_several_initial_refuted.
(** A label that is not an identifier is written as it is: the file cannot be
    read as a Prism model. *)
Theorem C66_label_refuted : exists matrix labels name (m : mc Q) t, MC_new matrix labels name = Ok m /\ mc_savePrism m = Ok t /\ read_prism (K := Q) t = None.
Proof. exists [[0; 1]; [1; 0]]%Q, ["init"; "two words"]%string, "m"%string. eexists; eexists. repeat split; vm_compute; reflexivity. Qed.
Print Assumptions C66_label_refuted.

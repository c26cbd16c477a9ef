(** C168: the order in which a set of integers is listed has no effect on a
    composition. *)
From Coq Require Import String ZArith QArith Bool Arith List Lia Permutation.
From Verif Require Import Num Py MPctmc MCompose MPCompose MPOrder LCtor LCompose.
Import ListNotations.
Local Open Scope nat_scope.

Section Order.
Context {K : Type} `{Num K}.
Implicit Types (te : list (expr K)) (mat : list (list nat)) (l : list nat).

Lemma loop_rest t : forall pos l te mat, t = (length l - pos)%nat -> (pos <= length l)%nat ->
  unused_loop t pos l te mat = remove_unused t (skipn pos l) te mat.
Proof.
  induction t as [|t IH]; intros pos l te mat E L; [reflexivity|].
  assert (LP : (pos < length l)%nat) by lia.
  assert (SK : skipn pos l = nth pos l O :: skipn (S pos) l).
  { clear -LP. revert l LP. induction pos as [|p IH]; intros [|x l] LP; cbn in LP; try lia; [reflexivity|]. cbn [skipn nth]. rewrite IH by lia. reflexivity. }
  rewrite SK. cbn [unused_loop remove_unused]. rewrite IH by (rewrite map_length; lia). f_equal. apply skipn_map.
Qed.

Definition removable l te mat := NoDup l /\ (forall k, In k l -> (k < length te)%nat) /\ (forall k, In k l -> ~ In k (concat mat)).

Lemma dec_ne i a b : a <> i -> b <> i -> dec i a = dec i b -> a = b.
Proof. unfold dec. destruct (Nat.ltb_spec i a), (Nat.ltb_spec i b); lia. Qed.

Lemma removable_dec i l te mat : removable (i :: l) te mat -> removable (map (dec i) l) (del i te) (map (map (dec i)) mat).
Proof.
  intros (ND & LT & NI). apply NoDup_cons_iff in ND as (N & ND). split; [|split].
  - clear LT NI. induction l as [|a l IH]; [constructor|]. cbn. apply NoDup_cons_iff in ND as (A & ND). constructor.
    + intros I. apply in_map_iff in I as (b & E & I). apply dec_ne in E; [subst; contradiction| |]; intros ->; apply N; [right; exact I|left; reflexivity].
    + apply IH; [|exact ND]. intros I. apply N. right. exact I.
  - intros k I. apply in_map_iff in I as (a & <- & I). assert (a <> i) by (intros ->; contradiction). pose proof (LT i (or_introl eq_refl)). pose proof (LT a (or_intror I)).
    rewrite del_length by assumption. unfold dec. destruct (Nat.ltb_spec i a); lia.
  - intros k I J. apply in_map_iff in I as (a & <- & I). rewrite <- concat_map in J. apply in_map_iff in J as (b & E & J).
    apply dec_ne in E; [subst; apply (NI a (or_intror I)); exact J| |]; intros ->; [apply (NI i (or_introl eq_refl)); exact J|contradiction].
Qed.

Lemma dec_dec i j k : i <> j -> k <> i -> k <> j -> dec (dec i j) (dec i k) = dec (dec j i) (dec j k).
Proof. intros. unfold dec. destruct (Nat.ltb_spec i j), (Nat.ltb_spec j i), (Nat.ltb_spec i k), (Nat.ltb_spec j k); try lia; repeat match goal with |- context [(?a <? ?b)%nat] => destruct (Nat.ltb_spec a b) end; lia. Qed.

Lemma del_del {A} i j (x : list A) : (i < j)%nat -> (j < length x)%nat -> del (dec i j) (del i x) = del (dec j i) (del j x).
Proof.
  intros L1 L2. destruct x as [|d x]; [cbn in L2; lia|]. apply (nth_ext _ _ d d).
  - rewrite !del_length; unfold dec; repeat match goal with |- context [(?a <? ?b)%nat] => destruct (Nat.ltb_spec a b) end; rewrite ?del_length; cbn [length] in *; lia.
  - intros n _. assert (L3 : (i < length (d :: x))%nat) by lia. assert (E1 : dec i j = (j - 1)%nat) by (unfold dec; destruct (Nat.ltb_spec i j); lia).
    assert (E2 : dec j i = i) by (unfold dec; destruct (Nat.ltb_spec j i); lia). rewrite E1, E2, !del_nth by (rewrite ?del_length by assumption; lia).
    f_equal. unfold skip. repeat match goal with |- context [(?a <? ?b)%nat] => destruct (Nat.ltb_spec a b) end; lia.
Qed.

Lemma swap f i j l te mat : removable (i :: j :: l) te mat -> remove_unused (S (S f)) (i :: j :: l) te mat = remove_unused (S (S f)) (j :: i :: l) te mat.
Proof.
  intros (ND & LT & NI). cbn [remove_unused map].
  assert (NE : i <> j) by (intros ->; apply NoDup_cons_iff in ND as (N & _); apply N; left; reflexivity).
  assert (Li : (i < length te)%nat) by (apply LT; left; reflexivity). assert (Lj : (j < length te)%nat) by (apply LT; right; left; reflexivity).
  f_equal.
  - rewrite !map_map. apply map_ext_in. intros k I. apply NoDup_cons_iff in ND as (N1 & ND). apply NoDup_cons_iff in ND as (N2 & _).
    apply dec_dec; [exact NE| |]; intros ->; [apply N1; right; exact I|contradiction].
  - destruct (Nat.lt_total i j) as [L|[L|L]]; [apply del_del; assumption|contradiction|symmetry; apply del_del; assumption].
  - rewrite !map_map. apply map_ext_in. intros r I. rewrite !map_map. apply map_ext_in. intros k J.
    assert (M : In k (concat mat)) by (apply in_concat; eauto).
    apply dec_dec; [exact NE| |]; intros ->; [apply (NI i); [left; reflexivity|exact M]|apply (NI j); [right; left; reflexivity|exact M]].
Qed.

Lemma removable_perm l l' te mat : Permutation l l' -> removable l te mat -> removable l' te mat.
Proof. intros P (A & B & C). split; [apply (Permutation_NoDup P A)|]. split; intros k I; [apply B|apply C]; apply (Permutation_in _ (Permutation_sym P) I). Qed.

Lemma any_order n : forall l l' te mat, length l = n -> Permutation l l' -> removable l te mat -> remove_unused n l te mat = remove_unused n l' te mat.
Proof.
  induction n as [|n IH]; intros l l' te mat E P G; [reflexivity|].
  destruct l as [|i l]; [discriminate|]. cbn in E. injection E as E. destruct l' as [|j l']; [apply Permutation_sym, Permutation_nil in P; discriminate|].
  destruct (Nat.eq_dec i j) as [<-|NE].
  - cbn [remove_unused]. apply IH; [rewrite map_length; exact E|apply Permutation_map, (Permutation_cons_inv P)|apply removable_dec, G].
  - assert (I : In j l) by (assert (I : In j (i :: l)) by (apply (Permutation_in _ (Permutation_sym P)); left; reflexivity); destruct I as [I|I]; [congruence|exact I]).
    apply in_split in I as (a & b & ->). set (r := a ++ b).
    assert (P1 : Permutation (a ++ j :: b) (j :: r)) by (symmetry; apply Permutation_middle).
    assert (P2 : Permutation l' (i :: r)). { apply (Permutation_cons_inv (a := j)). rewrite <- P. rewrite P1. apply perm_swap. }
    assert (E1 : remove_unused (S n) (i :: a ++ j :: b) te mat = remove_unused (S n) (i :: j :: r) te mat).
    { cbn [remove_unused]. apply IH; [rewrite map_length; exact E|apply Permutation_map, P1|apply removable_dec, G]. }
    rewrite E1. assert (G2 : removable (i :: j :: r) te mat) by (apply (removable_perm (i :: a ++ j :: b)); [apply perm_skip, P1|exact G]).
    destruct n as [|n]; [rewrite app_length in E; cbn in E; lia|]. rewrite (swap n i j r te mat G2).
    assert (G3 : removable (j :: i :: r) te mat) by (apply (removable_perm _ _ _ _ (perm_swap _ _ _)), G2).
    change (remove_unused (S n) (map (dec j) (i :: r)) (del j te) (map (map (dec j)) mat) = remove_unused (S n) (map (dec j) l') (del j te) (map (map (dec j)) mat)).
    apply IH; [|apply Permutation_map; symmetry; exact P2|apply removable_dec, G3].
    rewrite map_length. rewrite app_length in E. cbn in *. unfold r. rewrite app_length. lia.
Qed.

Lemma unused_removable te mat : removable (unused te mat) te mat.
Proof.
  unfold unused. split; [apply NoDup_filter, seq_NoDup|]. split; intros k I; apply filter_In in I as (I & M).
  - apply in_seq in I. lia.
  - apply negb_true_iff in M. intros J. apply (LCtor.memb_In Nat.eqb Nat.eqb_eq) in J. congruence.
Qed.

Lemma clean_order order (m : pctmc K) : (forall l, Permutation (order l) l) -> clean_in order m = clean m.
Proof.
  intros P. unfold clean_in, clean. destruct (remove_unreachable16 _ _ _ _ _) as [[[mat lb] pi] ini].
  rewrite (loop_rest (length (order (unused (pc_expr m) mat)))) by lia. cbn [skipn].
  rewrite (Permutation_length (P _)), <- (any_order (length (unused (pc_expr m) mat)) (unused (pc_expr m) mat) (order (unused (pc_expr m) mat))); [reflexivity|reflexivity|symmetry; apply P|apply unused_removable].
Qed.

(** C168: however Python lists the set of the expressions that are not used, the
    composition returns the same model (or the same exception). *)
Theorem C168_set_order : forall order (ms : list (pctmc K * option (list (nat * string * nat * K)))) dflt pstrs name,
  (forall l, Permutation (order l) l) ->
  compositionPCTMCs_in order ms dflt pstrs name = synchronousCompositionPCTMCs ms dflt pstrs name.
Proof.
  intros order ms dflt pstrs name P. unfold compositionPCTMCs_in, synchronousCompositionPCTMCs.
  destruct ms as [|[m1 o1] [|x ms]]; [reflexivity|reflexivity|].
  destruct (compose_loop _ _ _ _ _ _ _) as [r d]. f_equal. destruct r as [[m st]|e]; [|reflexivity]. cbn [bind].
  destruct (mfold add_sync16 st m) as [m'|e]; [|reflexivity]. cbn [bind]. rewrite (clean_order order m' P). reflexivity.
Qed.
End Order.

(** Two models with one state and a self loop: only the sum of the rates remains,
    two expressions are removed.  They are listed in decreasing order here. *)
Definition loop_model (r : Q) (l : string) : pctmc Q :=
  mkPC [[1; 0]; [2; 0]] [l; "init"%string] [EConst 0%Q; EConst r; EConst 1%Q] [] [] [] [0%Q; 1%Q] "m"%string.
Example C168_instance :
  (forall l : list nat, Permutation (rev l) l) /\
  compositionPCTMCs_in (@rev nat) [(loop_model 2 "a", None); (loop_model 3 "b", None)] [] [[]] "c"%string =
    (Ok (mkPC [[1; 0]; [2; 0]] ["a,b"%string; "init"%string] [EConst 0%Q; EAdd (EConst 2%Q) (EConst 3%Q); EConst 1%Q] [] [] [] [0%Q; 1%Q] "c"%string), []) /\
  (do mt <- fst (compose_loop (loop_model 2 "a") None [] [(loop_model 3 "b", None)] [] [[]] "c"%string);
   Ok (unused (pc_expr (fst mt)) (pc_mat (fst mt)))) = Ok [1; 2].
Proof. split; [intros l; symmetry; apply Permutation_rev|]. split; vm_compute; reflexivity. Qed.

Print Assumptions C168_set_order.

(** Composition of any number of parametric CTMCs (C165). *)
From Coq Require Import String Ascii ZArith QArith Bool Reals Lra Lia Arith List.
From Verif Require Import Num Py MTools MSet MModels MCtor MPctmc MCompose MPCompose SNum SSet SCtor SPctmc SCompose SPCompose SMany LSum LSet LCtor LBW LPctmc LText LAlergia LCompose LPCompose PCtor PPctmc PCompose PPCompose.
Import ListNotations.
Local Open Scope R_scope.

Lemma seq_nth_id {A} (d : A) (l : list A) : map (fun i => nth i l d) (seq 0 (length l)) = l.
Proof.
  induction l as [|x l IH]; [reflexivity|]. cbn [length seq map nth]. f_equal. rewrite <- seq_shift, map_map. exact IH.
Qed.
Lemma flat_map_map {A B C} (f : B -> list C) (g : A -> B) l : flat_map f (map g l) = flat_map (fun x => f (g x)) l.
Proof. induction l as [|x l IH]; [reflexivity|]. cbn. rewrite IH. reflexivity. Qed.
Lemma map_flat_map {A B C} (f : B -> C) (g : A -> list B) l : map f (flat_map g l) = flat_map (fun x => map f (g x)) l.
Proof. induction l as [|x l IH]; [reflexivity|]. cbn. rewrite map_app, IH. reflexivity. Qed.
Lemma flat_map_flat {A B C} (f : B -> list C) (g : A -> list B) l : flat_map f (flat_map g l) = flat_map (fun x => flat_map f (g x)) l.
Proof. induction l as [|x l IH]; [reflexivity|]. cbn. rewrite flat_map_app, IH. reflexivity. Qed.
Lemma prod_flat {A B} (l : list A) (k : list B) : list_prod l k = flat_map (fun x => map (fun y => (x, y)) k) l.
Proof. induction l as [|x l IH]; [reflexivity|]. cbn. rewrite IH. reflexivity. Qed.

Definition snoc (T : list (list nat)) (ab : nat * nat) : list nat := nth (fst ab) T [] ++ [snd ab].
Lemma tuples_snoc ns n : tuples (ns ++ [n]) = map (snoc (tuples ns)) (list_prod (seq 0 (length (tuples ns))) (seq 0 n)).
Proof.
  assert (G : tuples (ns ++ [n]) = flat_map (fun t => map (fun b => t ++ [b]) (seq 0 n)) (tuples ns)).
  { induction ns as [|k ns IH]; cbn [app tuples].
    - cbn [flat_map]. rewrite app_nil_r. induction (seq 0 n) as [|b l IH]; [reflexivity|]. cbn in IH |- *. rewrite IH. reflexivity.
    - rewrite flat_map_flat. apply flat_map_ext. intros a. rewrite IH, map_flat_map, flat_map_map. apply flat_map_ext. intros t. rewrite map_map. reflexivity. }
  rewrite G. rewrite prod_flat, map_flat_map. rewrite <- (seq_nth_id [] (tuples ns)) at 1. rewrite flat_map_map. apply flat_map_ext. intros i. rewrite map_map. reflexivity.
Qed.
Lemma tuples_in ns : forall t, In t (tuples ns) -> length t = length ns.
Proof.
  induction ns as [|n ns IH]; intros t; cbn [tuples].
  - intros [<-|[]]. reflexivity.
  - intros I. apply in_flat_map in I as (a & _ & I). apply in_map_iff in I as (u & <- & I). cbn. rewrite (IH u I). reflexivity.
Qed.
Lemma tuples_NoDup ns : NoDup (tuples ns).
Proof.
  induction ns as [|n ns IH]; cbn [tuples]; [repeat constructor; intros []|].
  generalize (seq_NoDup n 0). induction (seq 0 n) as [|a l IHl]; intros N; [constructor|]. apply NoDup_cons_iff in N as [NI N]. cbn [flat_map]. specialize (IHl N).
  assert (M : NoDup (map (cons a) (tuples ns))). { apply FinFun.Injective_map_NoDup; [|exact IH]. intros x y [= E]. exact E. }
  clear IH N. induction (map (cons a) (tuples ns)) as [|t k IHk] eqn:EK in M |- *; [exact IHl|].
  assert (D : forall k, (forall t, In t k -> exists u, t = a :: u) -> NoDup k -> NoDup (k ++ flat_map (fun a => map (cons a) (tuples ns)) l)).
  { clear -NI IHl. induction k as [|t k IHk]; intros F M; [exact IHl|]. apply NoDup_cons_iff in M as [M1 M2]. cbn. constructor; [|apply IHk; [intros; apply F; right; assumption|exact M2]].
    intros I. apply in_app_or in I as [I|I]; [contradiction|]. destruct (F t (or_introl eq_refl)) as (u & ->). apply in_flat_map in I as (b & Ib & I). apply in_map_iff in I as (v & [= -> _] & _). contradiction. }
  apply D; [|exact M]. intros u I. assert (I' : In u (map (cons a) (tuples ns))) by (rewrite EK; exact I). apply in_map_iff in I' as (v & <- & _). eauto.
Qed.

Lemma labels_snoc ps p : forall t a, length t = length ps -> tuple_labels (ps ++ [p]) (t ++ [a]) = tuple_labels ps t ++ [nth a (p_lab p) EmptyString].
Proof. induction ps as [|q ps IH]; intros [|b t] a L; try discriminate; [reflexivity|]. cbn. rewrite IH by (cbn in L; lia). reflexivity. Qed.
Lemma concat_snoc x : forall l, l <> [] -> String.concat "," (l ++ [x]) = (String.concat "," l ++ "," ++ x)%string.
Proof.
  assert (A : forall a b c : string, ((a ++ b) ++ c = a ++ (b ++ c))%string) by (induction a as [|h a IH]; intros; cbn; [reflexivity|rewrite IH; reflexivity]).
  induction l as [|y l IH]; intros N; [contradiction|]. destruct l as [|z l]; [reflexivity|]. cbn [app]. change (String.concat "," (y :: z :: l ++ [x])) with (y ++ "," ++ String.concat "," ((z :: l) ++ [x]))%string. rewrite IH by discriminate. change (String.concat "," (y :: z :: l)) with (y ++ "," ++ String.concat "," (z :: l))%string. rewrite !A. reflexivity.
Qed.
Lemma tuple_label_snoc ps p t a : ps <> [] -> length t = length ps -> tuple_label (ps ++ [p]) (t ++ [a]) = (tuple_label ps t ++ "," ++ nth a (p_lab p) EmptyString)%string.
Proof.
  intros N L. unfold tuple_label. rewrite labels_snoc by exact L. apply concat_snoc. destruct ps; [contradiction|]. destruct t; [discriminate|]. discriminate.
Qed.
Lemma tuple_start_snoc ps p : forall t a, length t = length ps -> tuple_start (ps ++ [p]) (t ++ [a]) = tuple_start ps t * p_start p a.
Proof. induction ps as [|q ps IH]; intros [|b t] a L; try discriminate; cbn [app tuple_start]; [lra|]. rewrite IH by (cbn in L; lia). lra. Qed.
Lemma tuple_rate_snoc rho ps p : forall t u a b, length t = length ps -> length u = length ps ->
  tuple_rate rho (ps ++ [p]) (t ++ [a]) (u ++ [b]) = (if Nat.eqb a b then tuple_rate rho ps t u else 0) + (if list_eq_dec Nat.eq_dec t u then denote rho (transition (p_m p) a b) else 0).
Proof.
  induction ps as [|q ps IH]; intros [|x t] [|y u] a b L L'; try discriminate; cbn [app tuple_rate].
  - destruct (list_eq_dec Nat.eq_dec [] []); [|contradiction]. destruct (Nat.eqb a b); lra.
  - rewrite IH by (cbn in *; lia). destruct (list_eq_dec Nat.eq_dec (t ++ [a]) (u ++ [b])) as [E|E].
    + apply app_inj_tail in E as [-> ->]. rewrite Nat.eqb_refl. destruct (list_eq_dec Nat.eq_dec u u); [|contradiction]. destruct (Nat.eqb_spec x y) as [->|NE]; destruct (list_eq_dec Nat.eq_dec _ _) as [F|F]; try lra; try (exfalso; congruence).
    + destruct (Nat.eqb_spec a b) as [->|NE].
      * assert (N : t <> u) by (intros ->; apply E; reflexivity). destruct (list_eq_dec Nat.eq_dec t u); [contradiction|]. destruct (list_eq_dec Nat.eq_dec (x :: t) (y :: u)) as [F|F]; [exfalso; congruence|]. destruct (Nat.eqb x y); lra.
      * destruct (list_eq_dec Nat.eq_dec t u) as [->|N].
        -- destruct (Nat.eqb_spec x y) as [->|NE']; destruct (list_eq_dec Nat.eq_dec _ _) as [F|F]; try lra; exfalso; congruence.
        -- destruct (list_eq_dec Nat.eq_dec (x :: t) (y :: u)) as [F|F]; [exfalso; congruence|]. destruct (Nat.eqb x y); lra.
Qed.

(** M is the product of the parts [ps], with a state for every tuple. *)
Definition product_of (ps : list part) (M : pctmc R) : Prop :=
  let T := tuples (map p_n ps) in
  pcomponent (length T) (map (tuple_label ps) T) (fun x => tuple_start ps (nth x T [])) M /\
  (forall a, (a < length T)%nat -> nth a (nth a (pc_mat M) []) O = O) /\
  (forall rho x y, (x < length T)%nat -> (y < length T)%nat -> denote rho (transition M x y) = tuple_rate rho ps (nth x T []) (nth y T [])).

Lemma singletons n : tuples [n] = map (fun a => [a]) (seq 0 n).
Proof. cbn [tuples]. induction (seq 0 n) as [|a l IH]; [reflexivity|]. cbn in IH |- *. rewrite IH. reflexivity. Qed.
Lemma product_one p : good_part p -> product_of [p] (p_m p).
Proof.
  intros ((LL & NI & LB & Z & ST & D) & P & NL). unfold product_of. cbn [map]. rewrite singletons, map_length, seq_length.
  assert (N : forall x, (x < p_n p)%nat -> nth x (map (fun a : nat => [a]) (seq 0 (p_n p))) [] = [x]). { intros x L. rewrite (nth_indep _ [] ((fun a : nat => [a]) O)) by (rewrite map_length, seq_length; exact L). rewrite (map_nth (fun a : nat => [a])), seq_nth by exact L. reflexivity. }
  assert (EL : map (tuple_label [p]) (map (fun a : nat => [a]) (seq 0 (p_n p))) = p_lab p). { rewrite map_map, <- LL. apply seq_nth_id. }
  split; [|split; [exact NL|]].
  - unfold pcomponent. rewrite EL. repeat (split; [assumption|]). split; [|exact D]. intros s L. rewrite N by exact L. cbn [tuple_start]. rewrite Rmult_1_r. apply ST, L.
  - intros rho x y Lx Ly. rewrite !N by assumption. cbn [tuple_rate]. destruct (list_eq_dec Nat.eq_dec [] []); [|contradiction]. destruct (Nat.eqb x y); lra.
Qed.

Lemma snoc_nth ns n x : (0 < n)%nat -> (x < length (tuples ns) * n)%nat -> nth x (tuples (ns ++ [n])) [] = nth (x / n) (tuples ns) [] ++ [x mod n].
Proof.
  intros P L. rewrite tuples_snoc, <- (prod_seq (length (tuples ns)) n P), map_map.
  rewrite (nth_indep _ [] ((fun x => snoc (tuples ns) (dm n x)) O)) by (rewrite map_length, seq_length; exact L). rewrite (map_nth (fun x => snoc (tuples ns) (dm n x))), seq_nth by exact L. reflexivity.
Qed.
Lemma snoc_length ns n : length (tuples (ns ++ [n])) = (length (tuples ns) * n)%nat.
Proof. rewrite tuples_snoc, map_length, prod_length, !seq_length. reflexivity. Qed.
Lemma no_sync n : sync_in n [].
Proof. intros t []. Qed.
Lemma no_plain m1 m2 : sync_plain m1 m2 [] [].
Proof. intros t u k []. Qed.
Lemma nth_len ns x : (x < length (tuples ns))%nat -> length (nth x (tuples ns) []) = length ns.
Proof. intros L. apply tuples_in, nth_In, L. Qed.
Lemma nth_tuple_eq ns x y : (x < length (tuples ns))%nat -> (y < length (tuples ns))%nat -> (if list_eq_dec Nat.eq_dec (nth x (tuples ns) []) (nth y (tuples ns) []) then true else false) = Nat.eqb x y.
Proof.
  intros Lx Ly. destruct (list_eq_dec _ _ _) as [E|E]; symmetry; [apply Nat.eqb_eq|apply Nat.eqb_neq; congruence]. apply (proj1 (NoDup_nth (tuples ns) []) (tuples_NoDup ns)); assumption.
Qed.
Lemma if_dec {A} (P : Prop) (d : {P} + {~ P}) (a b : A) : (if d then a else b) = if (if d then true else false) then a else b.
Proof. destruct d; reflexivity. Qed.

Lemma product_step ps p M pstr name : ps <> [] -> product_of ps M -> good_part p ->
  (p_n p <= length (tuples (map p_n ps)) + 1)%nat -> NoDup pstr -> (forall q, In q pstr <-> In q (pc_par M) \/ In q (pc_par (p_m p))) ->
  (length (tuples (map p_n (ps ++ [p]))) <= 254)%nat -> (0 < length (tuples (map p_n ps)))%nat ->
  exists M', synchronousComposition2PCTMCs M (p_m p) [] [] pstr name = Ok (M', []) /\ product_of (ps ++ [p]) M' /\ pc_par M' = pstr /\ pc_val M' = pc_val M.
Proof.
  intros NE (C1 & NL1 & RT1) (C2 & P & NL2) LE ND PE B0 PT. rewrite map_app in B0. cbn [map] in B0. rewrite snoc_length in B0.
  set (T := tuples (map p_n ps)) in *. set (N := length T) in *. set (n := p_n p) in *.
  assert (BD : (Z.of_nat ((N + n) * (N + n) + length (@nil sync) * length (@nil sync)) < 65536)%Z) by (cbn [length]; assert (N + n <= 255)%nat by nia; nia).
  destruct (compose2_ok N n _ _ _ _ M (p_m p) [] [] pstr C1 C2 P LE (no_sync _) (no_sync _) ND PE BD name) as (M' & pi & E & _ & PV & LB & _ & PA & VA & _).
  cbn [list_prod flat_map] in E. exists M'. split; [exact E|]. split; [|auto].
  destruct PV as (ML & MR & EN & _ & _ & _ & Z0 & LT & NZ). cbn [bof b_mat b_te b_pi] in *.
  assert (TR : forall x y, (x < S (N * n))%nat -> (y < S (N * n))%nat -> transition M' x y = X4 N n (fun x => tuple_start ps (nth x T [])) (p_start p) M (p_m p) x y).
  { intros x y Lx Ly. unfold transition. apply EN; assumption. }
  assert (RF : forall x y, (x < S (N * n))%nat -> (y < S (N * n))%nat -> transition M' x y = EConst 0 -> nth y (nth x (pc_mat M') []) O = O).
  { intros x y Lx Ly F. unfold transition in F. destruct (EN x y Lx Ly) as [A _]. destruct (Nat.eq_dec (nth y (nth x (pc_mat M') []) O) 0) as [G|G]; [exact G|]. exfalso. apply (NZ (nth y (nth x (pc_mat M') []) O)); [lia|exact F]. }
  assert (Z1 : forall a, (a < N)%nat -> transition M a a = EConst 0). { intros a L. apply ref0; [apply C1|apply NL1, L]. }
  assert (Z2 : forall a, (a < n)%nat -> transition (p_m p) a a = EConst 0). { intros a L. apply ref0; [apply C2|apply NL2, L]. }
  assert (NL : forall a b, (a < N)%nat -> (b < n)%nat -> transition M a a = EConst 0 \/ transition (p_m p) b b <> EConst 0) by (intros a b La _; left; apply Z1, La).
  assert (DV : forall x, (x < N * n)%nat -> (x / n < N)%nat /\ (x mod n < n)%nat). { intros x L. split; [exact (own_lt N n P true x L)|exact (own_lt N n P false x L)]. }
  assert (LN : length (tuples (map p_n (ps ++ [p]))) = (N * n)%nat) by (rewrite map_app; apply snoc_length).
  assert (NT : forall x, (x < N * n)%nat -> nth x (tuples (map p_n (ps ++ [p]))) [] = nth (x / n) T [] ++ [x mod n]) by (intros x L; rewrite map_app; apply snoc_nth; assumption).
  assert (LT' : forall x, (x < N)%nat -> length (nth x T []) = length ps) by (intros x L; unfold T; rewrite nth_len by exact L; apply map_length).
  unfold product_of. rewrite LN. split; [split; [|split; [|split; [|split; [|split]]]]|split].
  - rewrite map_length. exact LN.
  - intros I. apply in_map_iff in I as (t & ET & I). destruct (In_nth _ _ [] I) as (x & Lx & <-). rewrite LN in Lx. destruct (DV x Lx) as [D1 D2]. rewrite NT in ET by exact Lx. rewrite tuple_label_snoc in ET by (assumption || apply LT', D1). exact (comma_not_init _ _ ET).
  - rewrite LB. f_equal. rewrite map_app. cbn [map]. rewrite tuples_snoc. fold T N n. rewrite map_map. apply map_ext_in. intros [a b] I. apply in_prod_iff in I as [Ia Ib]. apply in_seq in Ia, Ib. unfold lab12, snoc. cbn [fst snd]. rewrite tuple_label_snoc by (assumption || apply LT'; lia).
    f_equal. rewrite (nth_indep _ EmptyString (tuple_label ps [])) by (rewrite map_length; fold N; lia). apply map_nth.
  - exact Z0.
  - intros s L. apply const_rate. rewrite TR by lia. rewrite (X4_start N n _ _ _ _ [] [] P LE BD) by exact L. f_equal. rewrite NT by exact L. rewrite tuple_start_snoc by (apply LT', DV, L). reflexivity.
  - intros x y k Lx Ly O. rewrite TR in O by lia. rewrite (X4_in N n _ _ _ _ [] [] P LE BD) in O by assumption. apply (X3_spec N n _ _ _ _ _ _ [] [] C1 C2 P LE NL BD x y Lx Ly) in O. rewrite PA. apply (PP_lt N n _ _ _ _ _ _ pstr C1 C2 P PE k (x, y)); assumption.
  - intros x Lx. destruct (DV x Lx) as [D1 D2]. apply RF; [lia|lia|]. rewrite TR by lia. rewrite (X4_in N n _ _ _ _ [] [] P LE BD) by assumption. unfold X3, Wl, both, dm. cbn [fst snd]. unfold ref. rewrite (NL1 _ D1). cbn [Nat.eqb orb negb]. rewrite andb_false_r. unfold Wq. cbn [own oth]. destruct (_ && _)%bool; [apply Z2, D2|]. destruct (_ && _)%bool; [apply Z1, D1|reflexivity].
  - intros rho x y Lx Ly. destruct (DV x Lx) as [D1 D2]. destruct (DV y Ly) as [D3 D4]. rewrite TR by lia. rewrite (X4_in N n _ _ _ _ [] [] P LE BD) by assumption. rewrite (proj1 (X3_spec N n _ _ _ _ _ _ [] [] C1 C2 P LE NL BD x y Lx Ly)).
    rewrite !NT by assumption. rewrite tuple_rate_snoc by (apply LT'; assumption). rewrite RT1 by assumption. f_equal. rewrite if_dec. unfold T. rewrite nth_tuple_eq by assumption. reflexivity.
Qed.

Lemma tuples_app_length a b : length (tuples (a ++ b)) = (length (tuples a) * length (tuples b))%nat.
Proof.
  induction a as [|n a IH]; [cbn; lia|]. cbn [app tuples]. assert (G : forall (T : list (list nat)) l, length (flat_map (fun a => map (cons a) T) l) = (length l * length T)%nat).
  { intros T l. induction l as [|x l IHl]; [reflexivity|]. cbn [flat_map]. rewrite app_length, map_length, IHl. cbn. lia. }
  rewrite !G, IH, seq_length. lia.
Qed.
Lemma tuples_pos ns : (forall n, In n ns -> (0 < n)%nat) -> (0 < length (tuples ns))%nat.
Proof.
  induction ns as [|n ns IH]; intros P; [cbn; lia|]. change (n :: ns) with ([n] ++ ns). rewrite tuples_app_length, singletons, map_length, seq_length. specialize (P n (or_introl eq_refl)) as P1. assert (0 < length (tuples ns))%nat by (apply IH; intros; apply P; right; assumption). nia.
Qed.
Lemma nth_In_dec (A : Type) (d : A) (eqd : forall x y : A, {x = y} + {x <> y}) (f : nat * nat -> A) keep l :
  (forall c e, In c l -> In e l -> f c = f e -> c = e) -> filter (fun t => existsb (fun c => (if eqd (f c) t then true else false) && keep c) l) (map f l) = map f (filter keep l).
Proof.
  intros INJ. assert (G : forall k, incl k l -> filter (fun t => existsb (fun c => (if eqd (f c) t then true else false) && keep c) l) (map f k) = map f (filter keep k)); [|apply G, incl_refl].
  induction k as [|c k IH]; intros I; [reflexivity|]. cbn [map filter]. rewrite IH by (intros z Z; apply I; right; exact Z). assert (Ic : In c l) by (apply I; left; reflexivity).
  assert (E : existsb (fun c' => (if eqd (f c') (f c) then true else false) && keep c') l = keep c).
  { destruct (keep c) eqn:KC.
    - apply existsb_exists. exists c. split; [exact Ic|]. destruct (eqd (f c) (f c)); [exact KC|contradiction].
    - destruct (existsb _ l) eqn:EX; [|reflexivity]. apply existsb_exists in EX as (e & Ie & EE). destruct (eqd (f e) (f c)) as [F|F]; [|discriminate]. apply (INJ e c Ie Ic) in F. subst e. cbn in EE. congruence. }
  rewrite E. destruct (keep c); reflexivity.
Qed.
Lemma snoc_inj ns c e : (fst c < length (tuples ns))%nat -> (fst e < length (tuples ns))%nat -> snoc (tuples ns) c = snoc (tuples ns) e -> c = e.
Proof.
  destruct c as [a b], e as [a' b']. unfold snoc. cbn [fst snd]. intros L L' E. apply app_inj_tail in E as [E ->]. f_equal. apply (proj1 (NoDup_nth (tuples ns) []) (tuples_NoDup ns)); assumption.
Qed.

(** What is claimed of the result m, for the parts [ps] and the states [kept]. *)
Definition composed (ps : list part) (kept : list (list nat)) (m : pctmc R) : Prop :=
  (* states: tuples in order, then the initial state *)
  pc_lab m = map (tuple_label ps) kept ++ ["init"%string] /\
  wf_pctmc m /\ uniform_on_init (pc_lab m) (pc_ini m) /\
  (* rates, for all values of the parameters *)
  (forall rho x y, (x < length kept)%nat -> (y < length kept)%nat -> denote rho (transition m x y) = tuple_rate rho ps (nth x kept []) (nth y kept [])) /\
  (forall y, (y < length kept)%nat -> transition m (length kept) y = EConst (tuple_start ps (nth y kept []))) /\
  (forall x, (x <= length kept)%nat -> transition m x (length kept) = EConst 0) /\
  (forall x, (x < length kept)%nat -> nth x (nth x (pc_mat m) []) O = O) /\
  (* no reachable tuple is missing, no tuple without incoming transition is left *)
  (forall t, treach ps t -> In t kept) /\
  (forall y, (y < length kept)%nat -> exists x, (x <= length kept)%nat /\ transition m x y <> EConst 0) /\
  (* the declared positions of each parameter *)
  (forall p x y, In (Z.of_nat x, Z.of_nat y) (parameterIndexes m p) <-> (x < pc_n m)%nat /\ (y < pc_n m)%nat /\ occurs p (transition m x y)).

Lemma last_step ps p M pstr name : ps <> [] -> product_of ps M -> good_part p ->
  (p_n p <= length (tuples (map p_n ps)) + 1)%nat -> NoDup pstr -> (forall q, In q pstr <-> In q (pc_par M) \/ In q (pc_par (p_m p))) ->
  (length (tuples (map p_n (ps ++ [p]))) <= 254)%nat -> (0 < length (tuples (map p_n ps)))%nat ->
  exists m0 keep, let m := clean m0 in
    synchronousComposition2PCTMCs M (p_m p) [] [] pstr name = Ok (m0, []) /\ pc_name m = name /\ pc_par m = pstr /\ (forall q, current m q = current M q) /\
    composed (ps ++ [p]) (filter keep (tuples (map p_n (ps ++ [p])))) m.
Proof.
  intros NE (C1 & NL1 & RT1) (C2 & P & NL2) LE ND PE B0 PT. rewrite map_app in B0. cbn [map] in B0. rewrite snoc_length in B0.
  set (T := tuples (map p_n ps)) in *. set (N := length T) in *. set (n := p_n p) in *.
  assert (BD : (Z.of_nat ((N + n) * (N + n) + length (@nil sync) * length (@nil sync)) < 65536)%Z) by (cbn [length]; assert (N + n <= 255)%nat by nia; nia).
  assert (Z1 : forall a, (a < N)%nat -> transition M a a = EConst 0). { intros a L. apply ref0; [apply C1|apply NL1, L]. }
  assert (NL : forall a b, (a < N)%nat -> (b < n)%nat -> transition M a a = EConst 0 \/ transition (p_m p) b b <> EConst 0) by (intros a b La _; left; apply Z1, La).
  destruct (pcompose_ok N n _ _ _ _ M (p_m p) [] [] pstr C1 C2 P LE NL (no_sync _) (no_sync _) (no_plain _ _) ND PE BD name) as (m0 & m & keep & E & CL & SL & NM & PA & VA & LB & WF & UN & RT & ST & IN & RE & INC & PI).
  cbn [list_prod flat_map mfold bind] in E, CL. injection CL as CL. set (kept := filter keep (list_prod (seq 0 N) (seq 0 n))) in *.
  assert (LN : tuples (map p_n (ps ++ [p])) = map (snoc T) (list_prod (seq 0 N) (seq 0 n))) by (rewrite map_app; apply tuples_snoc).
  assert (LT' : forall x, (x < N)%nat -> length (nth x T []) = length ps) by (intros x L; unfold T; rewrite nth_len by exact L; apply map_length).
  exists m0, (fun t => existsb (fun c => (if list_eq_dec Nat.eq_dec (snoc T c) t then true else false) && keep c) (list_prod (seq 0 N) (seq 0 n))). cbv zeta. rewrite CL.
  split; [exact E|]. split; [exact NM|]. split; [exact PA|]. split; [exact VA|]. rewrite LN.
  rewrite (nth_In_dec (list nat) [] (list_eq_dec Nat.eq_dec) (snoc T) keep (list_prod (seq 0 N) (seq 0 n))).
  2:{ intros [a b] [a' b'] I I'. apply in_prod_iff in I as [I _], I' as [I' _]. apply in_seq in I, I'. apply snoc_inj; cbn [fst]; fold T N; lia. }
  fold kept. assert (KI : forall x, (x < length kept)%nat -> (fst (nth x kept (O, O)) < N)%nat /\ (snd (nth x kept (O, O)) < n)%nat).
  { intros x L. assert (I : In (nth x kept (O, O)) kept) by (apply nth_In, L). apply filter_In in I as [I _]. destruct (nth x kept (O, O)) as [a b]. apply in_prod_iff in I as [A B]. apply in_seq in A, B. cbn. lia. }
  assert (NK : forall x, (x < length kept)%nat -> nth x (map (snoc T) kept) [] = snoc T (nth x kept (O, O))).
  { intros x L. rewrite (nth_indep _ [] (snoc T (O, O))) by (rewrite map_length; exact L). apply map_nth. }
  assert (PR : forall rho ab cd, (fst ab < N)%nat -> (fst cd < N)%nat -> pprod rho M (p_m p) [] [] ab cd = tuple_rate rho (ps ++ [p]) (snoc T ab) (snoc T cd)).
  { intros rho ab cd L1 L2. unfold pprod, snoc. rewrite tuple_rate_snoc by (apply LT'; assumption). rewrite RT1 by assumption. rewrite if_dec. unfold T. rewrite nth_tuple_eq by assumption. unfold sumL. cbn. rewrite Rplus_0_r. reflexivity. }
  assert (PS : forall ab, (fst ab < N)%nat -> tuple_start (ps ++ [p]) (snoc T ab) = tuple_start ps (nth (fst ab) T []) * p_start p (snd ab)) by (intros ab L; apply tuple_start_snoc, LT', L).
  unfold composed. rewrite map_length. split; [|split; [exact WF|split; [exact UN|split; [|split; [|split; [exact IN|split; [apply SL; [reflexivity|exact NL1|exact NL2]|split; [|split; [exact INC|exact PI]]]]]]]]].
  - rewrite LB, map_map. f_equal. apply map_ext_in. intros [a b] I. apply filter_In in I as [I _]. apply in_prod_iff in I as [Ia Ib]. apply in_seq in Ia, Ib. unfold lab12, snoc. cbn [fst snd]. rewrite tuple_label_snoc by (assumption || apply LT'; lia).
    f_equal. rewrite (nth_indep _ EmptyString (tuple_label ps [])) by (rewrite map_length; fold N; lia). apply map_nth.
  - intros rho x y Lx Ly. rewrite !NK by assumption. rewrite RT by assumption. apply PR; apply KI; assumption.
  - intros y Ly. rewrite NK by assumption. rewrite ST by assumption. rewrite PS by (apply KI; assumption). reflexivity.
  - assert (TI : forall t, In t (tuples (map p_n (ps ++ [p]))) -> exists ab, t = snoc T ab /\ (fst ab < N)%nat /\ (snd ab < n)%nat).
    { intros t I. rewrite LN in I. apply in_map_iff in I as ([a b] & <- & I). apply in_prod_iff in I as [A B]. apply in_seq in A, B. exists (a, b). cbn [fst snd]. split; [reflexivity|lia]. }
    intros t H. assert (G : exists ab, t = snoc T ab /\ preach M (p_m p) N n (fun x => tuple_start ps (nth x T [])) (p_start p) [] [] ab).
    { induction H as [t I S|t u rho H IH I S].
      - destruct (TI t I) as (ab & -> & A & B). exists ab. split; [reflexivity|]. apply preach_start; [exact A|exact B|]. rewrite PS in S by exact A. exact S.
      - destruct IH as (ab & -> & PH). destruct (TI u I) as (cd & -> & A & B). exists cd. split; [reflexivity|]. apply (preach_step _ _ _ _ _ _ _ _ ab cd rho PH A B). rewrite PR; [exact S| |exact A]. apply RE, filter_In in PH as [PH _]. destruct ab as [a b]. apply in_prod_iff in PH as [PH _]. apply in_seq in PH. cbn. lia. }
    destruct G as (ab & -> & G). apply in_map, RE, G.
Qed.

Lemma many_loop name : forall rest owns done M own pstrs,
  rest <> [] -> done <> [] -> product_of done M -> (forall p, In p done -> (0 < p_n p)%nat) -> (forall p, In p rest -> good_part p /\ (p_n p <= length (tuples (map p_n done)) + 1)%nat) ->
  length owns = length rest -> (own = None \/ own = Some []) -> (forall o, In o owns -> o = None \/ o = Some []) ->
  (forall i, (i < length rest)%nat -> NoDup (nth i pstrs []) /\ forall q, In q (nth i pstrs []) <-> In q (pc_par M) \/ exists p, In p (firstn (S i) rest) /\ In q (pc_par (p_m p))) ->
  (length (tuples (map p_n (done ++ rest))) <= 254)%nat ->
  exists m0 keep, let m := clean m0 in
    compose_loop M own [] (combine (map p_m rest) owns) [] pstrs name = (Ok (m0, []), []) /\ pc_name m = name /\ pc_par m = nth (length rest - 1) pstrs [] /\ (forall q, current m q = current M q) /\
    composed (done ++ rest) (filter keep (tuples (map p_n (done ++ rest)))) m.
Proof.
  induction rest as [|p rest IH]; intros owns done M own pstrs NR NE PM PD GR LO HO HOs HP B; [contradiction|].
  destruct owns as [|o owns]; [discriminate|]. cbn [map combine compose_loop].
  assert (PT : (0 < length (tuples (map p_n done)))%nat) by (apply tuples_pos; intros n I; apply in_map_iff in I as (q & <- & I); apply PD, I).
  destruct (GR p (or_introl eq_refl)) as [GP LE]. assert (PP : (0 < p_n p)%nat) by apply GP.
  assert (ED : done ++ p :: rest = (done ++ [p]) ++ rest) by (rewrite <- app_assoc; reflexivity).
  assert (PR : forall q, In q (p :: rest) -> (0 < p_n q)%nat) by (intros q I; apply GR, I).
  assert (B1 : (length (tuples (map p_n (done ++ [p]))) <= 254)%nat).
  { rewrite ED, map_app, tuples_app_length in B. assert (0 < length (tuples (map p_n rest)))%nat by (apply tuples_pos; intros n I; apply in_map_iff in I as (q & <- & I); apply PR; right; exact I). nia. }
  assert (HH : hd [] pstrs = nth 0 pstrs []) by (destruct pstrs; reflexivity).
  destruct (HP O) as [ND PE]; [cbn; lia|]. rewrite <- HH in ND, PE. assert (PE' : forall q, In q (hd [] pstrs) <-> In q (pc_par M) \/ In q (pc_par (p_m p))).
  { intros q. rewrite PE. cbn [firstn]. split; intros [A|A]; auto; right; [destruct A as (r & [<-|[]] & A); exact A|exists p; split; [left; reflexivity|exact A]]. }
  assert (EO : forall o : option (list sync), o = None \/ o = Some [] -> match o with Some l => l | None => [] end = []) by (intros ? [-> | ->]; reflexivity).
  assert (HO' : match own with Some l => Some (l ++ []) | None => None end = own) by (destruct HO as [-> | ->]; reflexivity). rewrite HO'.
  assert (DF : match own with Some _ => [] | None => @nil sync ++ [] end = []) by (destruct own; reflexivity). rewrite DF. rewrite (EO own HO), (EO o (HOs o (or_introl eq_refl))).
  destruct rest as [|p' rest].
  - destruct (last_step done p M (hd [] pstrs) name NE PM GP LE ND PE' B1 PT) as (m0 & keep & E & NM & PA & VA & CO). cbv zeta in *. rewrite E. cbn [map combine compose_loop].
    exists m0, keep. split; [destruct owns; reflexivity|]. split; [exact NM|]. split; [rewrite PA; exact HH|]. split; [exact VA|]. exact CO.
  - destruct (product_step done p M (hd [] pstrs) name NE PM GP LE ND PE' B1 PT) as (M' & E & PM' & PA & VA). rewrite E.
    destruct (IH owns (done ++ [p]) M' None (tl pstrs)) as (m0 & keep & E' & NM & PA' & VA' & CO).
    + discriminate.
    + destruct done; discriminate.
    + exact PM'.
    + intros q I. apply in_app_or in I as [I|[<-|[]]]; [apply PD, I|exact PP].
    + intros q I. destruct (GR q (or_intror I)) as [GQ LQ]. split; [exact GQ|]. rewrite map_app. cbn [map]. rewrite snoc_length. nia.
    + cbn in LO. cbn. lia.
    + left. reflexivity.
    + intros o' I. apply HOs. right. exact I.
    + intros i Li. destruct (HP (S i)) as [N1 N2]; [cbn in *; lia|]. assert (HT : nth i (tl pstrs) [] = nth (S i) pstrs []) by (destruct pstrs; [destruct i|]; reflexivity). rewrite HT. split; [exact N1|]. intros q. rewrite N2, PA, PE'. cbn [firstn In]. split.
      * intros [A|(r & [<-|I] & A)]; [tauto|tauto|]. right. exists r. split; [exact I|exact A].
      * intros [[A|A]|(r & I & A)]; [tauto| |]; right; [exists p; auto|exists r; auto].
    + rewrite <- ED. exact B.
    + cbv zeta in *. exists m0, keep. rewrite ED. split; [exact E'|]. split; [exact NM|]. split; [|split; [|exact CO]].
      * rewrite PA'. cbn [length]. destruct pstrs as [|a pstrs]; [|cbn [tl]; replace (S (S (length rest)) - 1)%nat with (S (S (length rest) - 1)) by lia; reflexivity]. cbn [tl]. rewrite !Nat.sub_succ, Nat.sub_0_r. destruct (length rest); reflexivity.
      * intros q. rewrite VA'. unfold current, parameterValue. rewrite VA. reflexivity.
Qed.

(** ** C165: composition of any number of PCTMCs without synchronous transition.
    [owns]: each model has an empty list of its own, or the shared default list,
    which is empty.  [pstrs]: the order of the names in each of the sets built.
    The guards: no part has more than one state more than the first one; at most
    254 tuples (the references are 16-bit); no transition from a state to itself
    (C92). *)
Theorem C165_many_models : forall (p0 : part) (rest : list part) (owns : list (option (list sync))) pstrs name, let ps := p0 :: rest in
  rest <> [] -> (forall p, In p ps -> good_part p) -> (forall p, In p rest -> (p_n p <= p_n p0 + 1)%nat) ->
  length owns = length ps -> (forall o, In o owns -> o = None \/ o = Some []) ->
  (forall i, (i < length rest)%nat -> NoDup (nth i pstrs []) /\ forall q, In q (nth i pstrs []) <-> exists p, In p (firstn (i + 2) ps) /\ In q (pc_par (p_m p))) ->
  (length (tuples (map p_n ps)) <= 254)%nat ->
  exists m keep, synchronousCompositionPCTMCs (combine (map p_m ps) owns) [] pstrs name = (Ok m, []) /\ pc_name m = name /\
    (forall q, In q (pc_par m) <-> exists p, In p ps /\ In q (pc_par (p_m p))) /\
    (* the values are those of the first model *)
    (forall q, current m q = current (p_m p0) q) /\
    composed ps (filter keep (tuples (map p_n ps))) m.
Proof.
  intros p0 rest owns pstrs name ps NR GP LE LO HO HP B. destruct owns as [|o0 owns]; [discriminate|].
  destruct (many_loop name rest owns [p0] (p_m p0) o0 pstrs) as (m0 & keep & E & NM & PA & VA & CO).
  - exact NR.
  - discriminate.
  - apply product_one, GP. left. reflexivity.
  - intros p [<-|[]]. apply GP. left. reflexivity.
  - intros p I. split; [apply GP; right; exact I|]. cbn [map]. rewrite singletons, map_length, seq_length. apply LE, I.
  - cbn in LO. lia.
  - apply HO. left. reflexivity.
  - intros o I. apply HO. right. exact I.
  - intros i Li. destruct (HP i Li) as [ND PE]. split; [exact ND|]. intros q. rewrite PE. replace (i + 2)%nat with (S (S i)) by lia. cbn [firstn ps In]. split.
    + intros (p & [<-|I] & A); [left; exact A|right; exists p; auto].
    + intros [A|(p & I & A)]; [exists p0; auto|exists p; auto].
  - exact B.
  - cbv zeta in *. exists (clean m0), keep. destruct rest as [|p1 rest]; [contradiction|]. destruct owns as [|o1 owns]; [discriminate|]. split.
    + unfold synchronousCompositionPCTMCs. cbn [map combine ps]. cbn [map combine] in E. rewrite E. reflexivity.
    + split; [exact NM|]. split; [|split; [exact VA|exact CO]]. intros q. rewrite PA. destruct (HP (length (p1 :: rest) - 1)%nat) as [_ PE]; [cbn; lia|]. rewrite PE. rewrite firstn_all2 by (cbn; lia). reflexivity.
Qed.
Print Assumptions C165_many_models.

(** The rates of the product: exactly one part moves, at the rate it has alone,
    whatever the states of the others. *)
Theorem C165_one_part_moves : forall rho (ps : list part) (t u : list nat), length t = length ps -> length u = length ps ->
  (forall i p, nth_error ps i = Some p -> (forall j, j <> i -> nth j t O = nth j u O) -> nth i t O <> nth i u O ->
     tuple_rate rho ps t u = denote rho (transition (p_m p) (nth i t O) (nth i u O))) /\
  (forall i j, i <> j -> nth i t O <> nth i u O -> nth j t O <> nth j u O -> tuple_rate rho ps t u = 0).
Proof.
  intros rho. induction ps as [|p ps IH]; intros [|a t] [|b u] L L'; try discriminate.
  - split; [intros [|i] p E; discriminate|reflexivity].
  - cbn in L, L'. destruct (IH t u ltac:(lia) ltac:(lia)) as [IH1 IH2]. cbn [tuple_rate]. split.
    + intros [|i] q E AG DF.
      * injection E as <-. cbn in DF. rewrite (proj2 (Nat.eqb_neq a b)) by exact DF. cbn [nth]. assert (ET : t = u). { apply (nth_ext _ _ O O); [lia|]. intros j _. exact (AG (S j) ltac:(discriminate)). }
        destruct (list_eq_dec Nat.eq_dec t u); [lra|contradiction].
      * cbn [nth] in DF |- *. cbn in E. pose proof (AG O ltac:(discriminate)) as A. cbn in A. subst b. rewrite Nat.eqb_refl. destruct (list_eq_dec Nat.eq_dec t u) as [->|_]; [contradiction|]. rewrite Rplus_0_l. apply IH1; [exact E| |exact DF]. intros j NJ. apply (AG (S j)). congruence.
    + assert (G : forall i j, (i < j)%nat -> nth i (a :: t) O <> nth i (b :: u) O -> nth j (a :: t) O <> nth j (b :: u) O ->
        (if list_eq_dec Nat.eq_dec t u then denote rho (transition (p_m p) a b) else 0) + (if (a =? b)%nat then tuple_rate rho ps t u else 0) = 0).
      { intros i [|j] NE DI DJ; [lia|]. cbn [nth] in DJ. destruct (list_eq_dec Nat.eq_dec t u) as [->|_]; [contradiction|]. destruct (Nat.eqb_spec a b) as [->|NAB]; [|lra]. destruct i as [|i]; [cbn in DI; contradiction|]. cbn [nth] in DI. rewrite (IH2 i j) by (lia || assumption). lra. }
      intros i j NE DI DJ. destruct (Nat.lt_ge_cases i j); [apply (G i j)|apply (G j i)]; auto; lia.
Qed.
Print Assumptions C165_one_part_moves.

(** The exit rate of a tuple is the sum of the exit rates of its states. *)
Definition exit_rate (rho : string -> R) (p : part) (a : nat) : R := sumL (seq 0 (p_n p)) (fun b => denote rho (transition (p_m p) a b)).
Theorem C165_exit_rates : forall rho (ps : list part) (t : list nat), In t (tuples (map p_n ps)) ->
  sumL (tuples (map p_n ps)) (tuple_rate rho ps t) = sumL (combine ps t) (fun pa => exit_rate rho (fst pa) (snd pa)).
Proof.
  intros rho. induction ps as [|p ps IH]; intros t I.
  - destruct I as [<-|[]]. unfold sumL. cbn. lra.
  - cbn [map tuples] in I. apply in_flat_map in I as (a & Ia & I). apply in_map_iff in I as (t' & <- & I). cbn [map tuples combine].
    set (T := tuples (map p_n ps)) in *.
    assert (S1 : forall l, sumL (flat_map (fun b => map (cons b) T) l) (tuple_rate rho (p :: ps) (a :: t')) = sumL l (fun b => denote rho (transition (p_m p) a b) + (if Nat.eqb a b then sumL T (tuple_rate rho ps t') else 0))).
    { induction l as [|b l IHl]; [reflexivity|]. cbn [flat_map]. rewrite sumL_app, IHl, sumL_cons. f_equal.
      rewrite sumL_map. cbn [tuple_rate]. rewrite sumL_plus. f_equal.
      - assert (NT := tuples_NoDup (map p_n ps)). fold T in NT. clear -NT I. induction T as [|x T IHT]; [contradiction|]. rewrite sumL_cons. apply NoDup_cons_iff in NT as [NI NT]. destruct (list_eq_dec Nat.eq_dec t' x) as [->|NE].
        + rewrite sumL_zero_ext; [lra|]. intros y Iy. destruct (list_eq_dec Nat.eq_dec x y) as [->|]; [contradiction|reflexivity].
        + destruct I as [->|I]; [contradiction|]. rewrite IHT by assumption. lra.
      - destruct (Nat.eqb a b); [reflexivity|]. apply sumL_zero_ext. reflexivity. }
    rewrite S1, sumL_plus, sumL_cons. cbn [fst snd]. f_equal. rewrite <- (IH t' I). fold T.
    generalize (sumL T (tuple_rate rho ps t')). intros SS. generalize (seq_NoDup (p_n p) 0). clear -Ia. induction (seq 0 (p_n p)) as [|x l IHl]; [contradiction|]. intros N. apply NoDup_cons_iff in N as [NI N]. rewrite sumL_cons. destruct (Nat.eqb_spec a x) as [->|NE].
    + rewrite sumL_zero_ext; [lra|]. intros y Iy. destruct (Nat.eqb_spec x y) as [->|]; [contradiction|reflexivity].
    + destruct Ia as [->|Ia]; [contradiction|]. rewrite IHl by assumption. lra.
Qed.
Print Assumptions C165_exit_rates.

(** Three machines: the first one with a parameter; two of them may start anywhere.
    All 8 combinations are reachable. *)
Definition mach (x : string) (e f : expr R) (vals : dict R) (pars : list string) (l : list string) : pctmc R :=
  mkPC [[0; 1; 0]; [2; 0; 0]; [3; 0; 0]]%nat (l ++ ["init"%string]) [EConst 0; e; f; EConst 1] vals (map (fun _ => []) pars) pars [0; 0; 1] x.
Definition stM (s : nat) : R := match s with O => 1 | _ => 0 end.
Definition partM x e f vals pars l : part := mkPart 2 l stM (mach x e f vals pars l).
Definition m3 : list part :=
  [partM "A" (EVar "x") (EConst 2) [("x"%string, 5)] ["x"%string] ["a"; "b"]%string;
   partM "B" (EMul (EConst 3) (EVar "x")) (EVar "y") [] ["x"; "y"]%string ["c"; "d"]%string;
   partM "C" (EConst 4) (EVar "y") [] ["y"%string] ["e"; "f"]%string].
Lemma partM_ok x e f vals pars a b : a <> "init"%string -> b <> "init"%string -> (forall k, occurs k e \/ occurs k f -> In k pars) -> good_part (partM x e f vals pars [a; b]).
Proof.
  intros NA NB OC. split; [|split; [cbn; lia|intros [|[|s]] L; cbn in L; try lia; reflexivity]].
  cbn [partM p_n p_lab p_start p_m]. split; [reflexivity|]. split; [intros [E|[E|[]]]; congruence|]. split; [reflexivity|]. split; [reflexivity|]. split.
  - intros [|[|s]] L; try lia; apply const_rate; reflexivity.
  - intros [|[|x']] [|[|y]] k Lx Ly; try lia; unfold transition; cbn; intros O; try contradiction; apply OC; auto.
Qed.
Example C165_instance :
  (exists m keep, synchronousCompositionPCTMCs (combine (map p_m m3) [None; Some []; None]) [] [["x"; "y"]; ["y"; "x"]]%string "ABC" = (Ok m, []) /\ composed m3 (filter keep (tuples [2; 2; 2]%nat)) m) /\
  length (tuples [2; 2; 2]%nat) = 8%nat /\ tuple_label m3 [0; 1; 0]%nat = "a,d,e"%string /\
  (forall rho, tuple_rate rho m3 [0; 1; 0]%nat [0; 0; 0]%nat = rho "y"%string) /\ (forall rho, tuple_rate rho m3 [0; 1; 0]%nat [1; 0; 0]%nat = 0) /\
  treach m3 [1; 1; 1]%nat.
Proof.
  split.
  - destruct (C165_many_models (partM "A" (EVar "x") (EConst 2) [("x"%string, 5)] ["x"%string] ["a"; "b"]%string) (tl m3) [None; Some []; None] [["x"; "y"]; ["y"; "x"]]%string "ABC") as (m & keep & E & _ & _ & _ & CO).
    + discriminate.
    + intros p I. cbn in I. destruct I as [<-|[<-|[<-|[]]]]; apply partM_ok; try discriminate; intros k; cbn; intuition (subst; auto).
    + intros p [<-|[<-|[]]]; cbn; lia.
    + reflexivity.
    + intros o [<-|[<-|[<-|[]]]]; auto.
    + intros [|[|i]] L; cbn in L; try lia; (split; [repeat constructor; cbn; intros I; repeat (destruct I as [I|I]; [discriminate|]); exact I|]); intros q; cbn; (split; [intros [<-|[<-|[]]]|intros (p & I & J)]).
      * exists (partM "A" (EVar "x") (EConst 2) [("x"%string, 5)] ["x"%string] ["a"; "b"]%string). cbn. auto.
      * exists (partM "B" (EMul (EConst 3) (EVar "x")) (EVar "y") [] ["x"; "y"]%string ["c"; "d"]%string). cbn. auto.
      * destruct I as [<-|[<-|[]]]; cbn in J; tauto.
      * exists (partM "B" (EMul (EConst 3) (EVar "x")) (EVar "y") [] ["x"; "y"]%string ["c"; "d"]%string). cbn. auto.
      * exists (partM "A" (EVar "x") (EConst 2) [("x"%string, 5)] ["x"%string] ["a"; "b"]%string). cbn. auto.
      * destruct I as [<-|[<-|[<-|[]]]]; cbn in J; tauto.
    + cbn. lia.
    + exists m, keep. split; [exact E|exact CO].
  - split; [reflexivity|]. split; [reflexivity|]. split; [intros rho; cbn; unfold transition; cbn; lra|]. split; [intros rho; cbn; lra|].
    apply (treach_step m3 [0; 1; 1]%nat [1; 1; 1]%nat (fun _ => 1)); [|cbn; tauto|cbn; unfold transition; cbn; lra].
    apply (treach_step m3 [0; 0; 1]%nat [0; 1; 1]%nat (fun _ => 1)); [|cbn; tauto|cbn; unfold transition; cbn; lra].
    apply (treach_step m3 [0; 0; 0]%nat [0; 0; 1]%nat (fun _ => 1)); [|cbn; tauto|cbn; unfold transition; cbn; lra].
    apply treach_start; [cbn; tauto|cbn; lra].
Qed.

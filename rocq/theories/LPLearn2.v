(** Learning of parametric CTMCs: the shape of the rates and the sorting of the
    parameters. *)
From Coq Require Import String ZArith Bool Reals List Lia Lra Permutation.
From Verif Require Import Num Py SNum LSum MSet MModels MCtor MPctmc SPctmc LPctmc LCtor MPLearn SPLearn LMM LBW.
Import ListNotations.
Local Open Scope R_scope.

Lemma mmap_forall2 {A B} (f : A -> res B) l : forall r, mmap f l = Ok r -> Forall2 (fun a b => f a = Ok b) l r.
Proof.
  induction l as [|a l IH]; intros r E; cbn [mmap] in E; [injection E as <-; constructor|].
  destruct (f a) as [b|] eqn:Ea; [|discriminate]. cbn [bind] in E. destruct (mmap f l) as [bs|] eqn:Eb; [|discriminate]. cbn [bind] in E. injection E as <-.
  constructor; auto.
Qed.
Lemma Forall2_In_l {A B} (P : A -> B -> Prop) l r a : Forall2 P l r -> In a l -> exists b, In b r /\ P a b.
Proof. induction 1 as [|x y l r Hxy F IH]; intros I; [destruct I|]. destruct I as [->|I]; [exists y; split; [left; reflexivity|exact Hxy]|]. destruct (IH I) as (b & Ib & Pb). exists b. split; [right; exact Ib|exact Pb]. Qed.
Lemma Forall2_In_r {A B} (P : A -> B -> Prop) l r b : Forall2 P l r -> In b r -> exists a, In a l /\ P a b.
Proof. induction 1 as [|x y l r Hxy F IH]; intros I; [destruct I|]. destruct I as [->|I]; [exists x; split; [left; reflexivity|exact Hxy]|]. destruct (IH I) as (a & Ia & Pa). exists a. split; [right; exact Ia|exact Pa]. Qed.
Lemma Forall2_len {A B} (P : A -> B -> Prop) l r : Forall2 P l r -> length r = length l.
Proof. induction 1; cbn; congruence. Qed.
Lemma Forall2_nth_error {A B} (P : A -> B -> Prop) l r : Forall2 P l r -> forall k a, nth_error l k = Some a -> exists b, nth_error r k = Some b /\ P a b.
Proof. induction 1 as [|x y l r Hxy F IH]; intros [|k] a E; try discriminate; cbn in E; [injection E as <-; exists y; auto|apply IH; exact E]. Qed.
Lemma map_ext_F2 {A B C} (f : A -> res B) (g : A -> C) (h : B -> C) l r : Forall2 (fun a b => f a = Ok b) l r -> (forall a b, In a l -> f a = Ok b -> h b = g a) -> map h r = map g l.
Proof. induction 1 as [|x y l r Hxy F IH]; intros H; [reflexivity|]. cbn. f_equal; [apply H; [left; reflexivity|exact Hxy]|]. apply IH. intros; apply H; [right; assumption|assumption]. Qed.

Lemma has_sym_occurs p (e : expr R) : has_sym p e = true <-> occurs p e.
Proof. unfold has_sym. rewrite (memb_In _ String.eqb_eq). apply symbols_occurs. Qed.
Lemma has_sym_not p (e : expr R) : has_sym p e = false <-> ~ occurs p e.
Proof. rewrite <- has_sym_occurs. destruct (has_sym p e); split; congruence. Qed.

(** ** Degrees *)
Lemma degree_not p (e : expr R) : ~ occurs p e -> degree p e = 0%nat.
Proof.
  induction e; cbn [occurs degree]; intros H; auto.
  - destruct (String.eqb_spec p x); congruence.
  - rewrite IHe1, IHe2 by tauto. reflexivity.
  - rewrite IHe by assumption. lia.
Qed.
Lemma degree_pos p (e : expr R) : is_monomial e -> occurs p e -> (1 <= degree p e)%nat.
Proof.
  induction e; cbn [is_monomial occurs degree]; try tauto.
  - intros _ ->. rewrite String.eqb_refl. lia.
  - intros (A & B & _) [O|O]; [specialize (IHe1 A O)|specialize (IHe2 B O)]; lia.
  - destruct e; try tauto. cbn [occurs degree]. intros A ->. rewrite String.eqb_refl. lia.
Qed.
Lemma a_pi_ok p (e : expr R) : is_monomial e -> occurs p e -> a_pi p e = Ok (degree p e).
Proof.
  induction e; cbn [is_monomial occurs degree a_pi]; try tauto.
  - intros _ ->. rewrite String.eqb_refl. reflexivity.
  - intros (A & B & D) O. destruct (has_sym p e1) eqn:S1.
    + apply has_sym_occurs in S1. rewrite IHe1 by assumption. rewrite (degree_not p e2) by (apply D; exact S1). f_equal. lia.
    + apply has_sym_not in S1. destruct O as [O|O]; [contradiction|]. rewrite (proj2 (has_sym_occurs p e2) O), IHe2 by assumption.
      rewrite (degree_not p e1) by exact S1. f_equal.
  - destruct e; try tauto. cbn [occurs degree]. intros A ->. rewrite String.eqb_refl. f_equal. lia.
Qed.
Lemma prodL_pick (ps : list string) (y : string -> R) x : NoDup ps ->
  prodL ps (fun p => y p ^ (if String.eqb p x then 1 else 0)) = if in_dec string_dec x ps then y x else 1.
Proof.
  induction 1 as [|p ps N ND IH]; [reflexivity|]. rewrite prodL_cons, IH. destruct (String.eqb_spec p x) as [->|D].
  - destruct (in_dec _ x ps) as [I|_]; [contradiction|]. destruct (in_dec _ x (x :: ps)) as [|I]; [ring|]. exfalso. apply I. left. reflexivity.
  - destruct (in_dec _ x ps) as [I|I], (in_dec _ x (p :: ps)) as [J|J]; cbn; try ring; exfalso; [apply J; right; exact I|destruct J as [J|J]; contradiction].
Qed.
Lemma prodL_pow {A} (l : list A) (f : A -> R) k : prodL l f ^ k = prodL l (fun a => f a ^ k).
Proof. induction l as [|a l IH]; [apply pow1|]. rewrite !prodL_cons, Rpow_mult_distr, IH. reflexivity. Qed.

(** Scaling the parameters scales a product. *)
Lemma denote_scale (ps : list string) (rho rho' y : string -> R) (e : expr R) : NoDup ps ->
  is_monomial e \/ (forall p, In p ps -> ~ occurs p e) ->
  (forall x, occurs x e -> rho' x = if in_dec string_dec x ps then rho x * y x else rho x) ->
  denote rho' e = denote rho e * prodL ps (fun p => y p ^ degree p e).
Proof.
  intros ND [M|F] E.
  - induction e; cbn [is_monomial occurs degree denote] in *; try tauto.
    + rewrite prodL_one by (intros; reflexivity). ring.
    + rewrite prodL_pick by exact ND. rewrite (E x eq_refl). destruct (in_dec _ x ps); ring.
    + destruct M as (A & B & _). rewrite IHe1, IHe2 by auto.
      rewrite (prodL_ext ps (fun p => y p ^ (degree p e1 + degree p e2)) (fun p => y p ^ degree p e1 * y p ^ degree p e2)) by (intros; apply pow_add).
      rewrite prodL_mult. ring.
    + destruct e; try tauto. cbn [degree denote occurs] in *. rewrite (E x eq_refl).
      rewrite (prodL_ext ps _ (fun p => (y p ^ (if String.eqb p x then 1 else 0)) ^ n)) by (intros; rewrite <- pow_mult; f_equal; lia).
      rewrite <- prodL_pow, prodL_pick by exact ND. rewrite <- Rpow_mult_distr. f_equal. destruct (in_dec _ x ps); ring.
  - rewrite prodL_one by (intros p I; rewrite degree_not by (apply F; exact I); reflexivity). rewrite Rmult_1_r. apply denote_ext.
    intros x O. rewrite (E x O). destruct (in_dec _ x ps) as [I|]; [exfalso; exact (F x I O)|reflexivity].
Qed.

(** ** The coefficient of a parameter *)
Definition other (rho : string -> R) (p : string) (a : expr R) : R := match a with EVar x => if String.eqb x p then 1 else rho x | _ => denote rho a end.
Lemma coef_spec vals p rho (l : list (expr R)) : (forall a x, In a l -> occurs x a -> dget vals x = Some (rho x)) ->
  forall r c, mfold (fun r a => match a with
                      | EVar x => Ok (if String.eqb x p then r else r * match dget vals x with Some v => v | None => 0 end)
                      | _ => match symbols a, eval vals a with [], Some v => Ok (r * v) | _, _ => Err TypeError end
                      end) l r = Ok c -> c = r * prodL l (other rho p).
Proof.
  induction l as [|a l IH]; intros Hv r c E; [cbn in E; injection E as <-; cbn; ring|]. rewrite prodL_cons.
  cbn [mfold] in E.
  assert (Hl : forall a0 x, In a0 l -> occurs x a0 -> dget vals x = Some (rho x)) by (intros; eapply Hv; [right|]; eassumption).
  assert (Q : forall r', bind (match symbols a, eval vals a with [], Some v => Ok (r * v) | _, _ => Err TypeError end)
                (fun s' => mfold (fun r a => match a with
                      | EVar x => Ok (if String.eqb x p then r else r * match dget vals x with Some v => v | None => 0 end)
                      | _ => match symbols a, eval vals a with [], Some v => Ok (r * v) | _, _ => Err TypeError end
                      end) l s') = Ok c -> r' = r * denote rho a -> c = r' * prodL l (other rho p)).
  { intros r' Q ->. destruct (symbols a) as [|s0 sl] eqn:Es; [|discriminate]. destruct (eval vals a) as [v|] eqn:Ev; [|discriminate]. cbn [bind] in Q.
    apply IH in Q; [|exact Hl]. apply eval_denote in Ev as [_ ->]. rewrite Q. f_equal. f_equal. apply denote_ext. intros x O. apply symbols_occurs in O. rewrite Es in O. destruct O. }
  destruct a; try (rewrite <- Rmult_assoc; apply (Q _ E); reflexivity).
  cbn [bind] in E. apply IH in E; [|exact Hl]. rewrite E. cbn [other]. rewrite (Hv (EVar x) x (or_introl eq_refl) eq_refl). destruct (String.eqb x p); ring.
Qed.
Definition nvar (p : string) (l : list (expr R)) : nat := length (filter (fun a => match a with EVar x => String.eqb x p | _ => false end) l).
Lemma nvar_app p l1 l2 : nvar p (l1 ++ l2) = (nvar p l1 + nvar p l2)%nat.
Proof. unfold nvar. rewrite filter_app, app_length. reflexivity. Qed.
Lemma prodL_app {A} (l1 l2 : list A) f : prodL (l1 ++ l2) f = prodL l1 f * prodL l2 f.
Proof. induction l1 as [|a l IH]; [unfold prodL at 2; cbn [app map fold_right]; ring|]. cbn [app]. rewrite !prodL_cons, IH. ring. Qed.
Lemma factors_other rho p (e : expr R) : denote rho e = prodL (factors e) (other rho p) * rho p ^ nvar p (factors e).
Proof.
  induction e; try (unfold prodL, nvar; cbn [factors map fold_right filter length other pow]; ring).
  - unfold prodL, nvar; cbn [factors map fold_right filter length other pow denote]. destruct (String.eqb_spec x p) as [->|]; cbn [length pow]; ring.
  - cbn [factors denote]. rewrite prodL_app, nvar_app, IHe1, IHe2, pow_add. ring.
Qed.
Lemma nvar_degree p (e : expr R) : is_monomial e -> degree p e = 1%nat -> nvar p (factors e) = 1%nat.
Proof.
  assert (Z : forall e, degree p e = 0%nat -> nvar p (factors e) = 0%nat).
  { induction e0; cbn [degree factors]; intros H; try reflexivity.
    - cbn. rewrite String.eqb_sym. destruct (String.eqb p x); [discriminate|reflexivity].
    - rewrite nvar_app, IHe0_1, IHe0_2 by lia. reflexivity. }
  induction e; cbn [is_monomial degree factors]; try tauto; try discriminate.
  - intros _ H. cbn. rewrite String.eqb_sym. destruct (String.eqb p x); [reflexivity|discriminate].
  - intros (A & B & _) H. rewrite nvar_app. destruct (degree p e1) eqn:D1; [rewrite Z by assumption; rewrite IHe2 by (auto; lia); reflexivity|].
    rewrite IHe1, Z by (auto; lia). reflexivity.
  - destruct e; try tauto. cbn [degree]. destruct (String.eqb p x); nia.
Qed.
Lemma factors_occurs (e a : expr R) x : In a (factors e) -> occurs x a -> occurs x e.
Proof.
  induction e; cbn [factors]; intros I O; try (destruct I as [<-|[]]; exact O).
  cbn [occurs]. apply in_app_or in I. destruct I; auto.
Qed.
Lemma c_pi_spec vals p rho (e : expr R) c : is_monomial e -> degree p e = 1%nat -> (forall x, occurs x e -> dget vals x = Some (rho x)) ->
  c_pi vals p e = Ok c -> c * rho p = denote rho e.
Proof.
  intros M D V E. destruct e; cbn [is_monomial] in M; try tauto; cbn [c_pi degree] in *; try discriminate.
  - injection E as <-. cbn. destruct (String.eqb_spec p x) as [->|]; [nR; ring|discriminate].
  - unfold coef in E. apply (coef_spec vals p rho) in E.
    + rewrite (factors_other rho p (EMul e1 e2)), (nvar_degree p (EMul e1 e2)) by assumption. rewrite E. cbn [factors]. nR. ring.
    + intros a x I O. apply V. apply (factors_occurs (EMul e1 e2) a x); [exact I|exact O].
  - destruct e; try tauto. cbn [degree] in D. destruct (String.eqb p x); nia.
Qed.

(** ** Tables *)
Lemma peqb_eq x y : peqb x y = true <-> x = y.
Proof.
  destruct x as [a b], y as [c d]. unfold peqb. cbn [fst snd]. rewrite andb_true_iff, !Nat.eqb_eq. split; [intros [-> ->]; reflexivity|intros [= -> ->]; auto].
Qed.
Lemma table_get_in {V} (d : V) t x v : (forall w, In (x, w) t -> w = v) -> In x (map fst t) -> table_get d t x = v.
Proof.
  intros H I. unfold table_get. destruct (find _ (rev t)) as [[y w]|] eqn:F.
  - apply find_some in F. destruct F as [F E]. apply peqb_eq in E. cbn [fst snd] in *. subst y. apply H. apply in_rev. exact F.
  - exfalso. apply in_map_iff in I. destruct I as ([y w] & E & I). cbn in E. subst y. apply in_rev in I. apply (find_none _ _ F) in I.
    cbn [fst] in I. rewrite (proj2 (peqb_eq x x) eq_refl) in I. discriminate.
Qed.
Lemma table_get_out {V} (d : V) t x : ~ In x (map fst t) -> table_get d t x = d.
Proof.
  intros N. unfold table_get. destruct (find _ (rev t)) as [[y w]|] eqn:F; [|reflexivity].
  apply find_some in F. destruct F as [F E]. apply peqb_eq in E. cbn [fst] in E. subst y. exfalso. apply N. apply in_rev in F. apply in_map with (f := fst) in F. exact F.
Qed.

Definition nsumL {A} (l : list A) (f : A -> nat) : nat := fold_right (fun a k => (f a + k)%nat) 0%nat l.
Lemma nsumL_filter {A} (l : list A) f : nsumL l f = nsumL (filter (fun a => negb (f a =? 0)%nat) l) f.
Proof. induction l as [|a l IH]; [reflexivity|]. cbn [filter]. change (nsumL (a :: l) f) with (f a + nsumL l f)%nat. destruct (Nat.eqb_spec (f a) 0) as [E|E]; cbn [negb]; [rewrite E; exact IH|]. change (nsumL (a :: filter (fun a => negb (f a =? 0)%nat) l) f) with (f a + nsumL (filter (fun a => negb (f a =? 0)%nat) l) f)%nat. rewrite <- IH. reflexivity. Qed.
Lemma nsumL_perm {A} (l l' : list A) f : Permutation l l' -> nsumL l f = nsumL l' f.
Proof. unfold nsumL. induction 1; cbn [fold_right]; lia. Qed.
Lemma nsumL_ext {A} (l : list A) f g : (forall a, In a l -> f a = g a) -> nsumL l f = nsumL l g.
Proof. induction l as [|a l IH]; intros H; [reflexivity|]. cbn. rewrite H by (left; reflexivity). f_equal. apply IH. intros; apply H; right; assumption. Qed.
Lemma nsumL_same {A} (l l' : list A) f : NoDup l -> NoDup l' -> (forall a, f a <> 0%nat -> (In a l <-> In a l')) -> nsumL l f = nsumL l' f.
Proof.
  intros N N' H. rewrite nsumL_filter, (nsumL_filter l'). apply nsumL_perm. apply NoDup_Permutation; [apply NoDup_filter, N|apply NoDup_filter, N'|].
  intros a. rewrite !filter_In. destruct (Nat.eqb_spec (f a) 0) as [E|E]; cbn [negb]; [split; intros [_ X]; discriminate|]. rewrite (H a E). tauto.
Qed.

(** ** The plan *)
Section Plan.
  Variables (m : pctmc R) (fixed : list string).
  Hypothesis Hidx : indexed m.
  Hypothesis Hlearn : learnable fixed m.
  Notation Ps := (free_params fixed m).
  Definition inrange (x : nat * nat) : Prop := (fst x < pc_n m)%nat /\ (snd x < pc_n m)%nat.

  Lemma free_In p : In p Ps <-> In p (pc_par m) /\ ~ In p fixed.
  Proof. unfold free_params. rewrite filter_In. destruct (in_dec string_dec p fixed); intuition congruence. Qed.
  Lemma free_NoDup : NoDup Ps.
  Proof. apply NoDup_filter. apply Hidx. Qed.
  Lemma free_eq : filter (fun p => negb (memb String.eqb p fixed)) (pc_par m) = Ps.
  Proof.
    unfold free_params. apply filter_ext. intros p. destruct (in_dec string_dec p fixed) as [I|I].
    - rewrite (proj2 (memb_In _ String.eqb_eq p fixed) I). reflexivity.
    - destruct (memb String.eqb p fixed) eqn:E; [|reflexivity]. apply (memb_In _ String.eqb_eq) in E. contradiction.
  Qed.

  Lemma places_spec p : In p (pc_par m) -> NoDup (places m p) /\ forall x, In x (places m p) <-> inrange x /\ occurs p (expr_at m x).
  Proof.
    intros Ip. destruct Hidx as (_ & _ & Hi). destruct (Hi p Ip) as [N E]. unfold places. split.
    - assert (G : forall l, NoDup l -> (forall z, In z l -> (0 <= fst z)%Z /\ (0 <= snd z)%Z) -> NoDup (map pair_of l)).
      { induction 1 as [|z l NI ND IH]; intros Hz; [constructor|]. cbn [map]. constructor; [|apply IH; intros; apply Hz; right; assumption].
        intros I. apply in_map_iff in I. destruct I as (w & Ew & Iw). apply NI. replace z with w; [exact Iw|].
        destruct (Hz z (or_introl eq_refl)) as [Z1 Z2]. destruct (Hz w (or_intror Iw)) as [W1 W2]. destruct z, w. unfold pair_of in Ew. cbn [fst snd] in *. injection Ew as E1 E2. f_equal; lia. }
      apply G; [exact N|]. intros [i j] I. apply E in I. cbn [fst snd]. lia.
    - intros [s s']. rewrite in_map_iff. unfold inrange, expr_at. cbn [fst snd]. split.
      + intros ([i j] & Ex & I). unfold pair_of in Ex. cbn [fst snd] in Ex. injection Ex as <- <-. apply E in I. destruct I as (I1 & I2 & O). split; [lia|exact O].
      + intros ((I1 & I2) & O). exists (Z.of_nat s, Z.of_nat s'). unfold pair_of. cbn [fst snd]. rewrite !Nat2Z.id. split; [reflexivity|]. apply E. rewrite !Nat2Z.id. split; [lia|]. split; [lia|exact O].
  Qed.
  Lemma mono_at p x : In p Ps -> inrange x -> occurs p (expr_at m x) -> is_monomial (expr_at m x).
  Proof.
    intros Ip [R1 R2] O. destruct (Hlearn (fst x) (snd x) R1 R2) as [M|F]; [exact M|]. exfalso. apply free_In in Ip. apply Ip. apply F. exact O.
  Qed.
  Lemma learn_at x : inrange x -> is_monomial (expr_at m x) \/ (forall p, In p Ps -> ~ occurs p (expr_at m x)).
  Proof.
    intros [R1 R2]. destruct (Hlearn (fst x) (snd x) R1 R2) as [M|F]; [left; exact M|right]. intros p Ip O. apply free_In in Ip. apply Ip, F. exact O.
  Qed.

  (** degree of a free parameter, 0 for the others *)
  Definition adeg (p : string) (x : nat * nat) : nat := if in_dec string_dec p Ps then degree p (expr_at m x) else 0%nat.
  Lemma adeg_free p x : In p Ps -> adeg p x = degree p (expr_at m x).
  Proof. intros I. unfold adeg. destruct (in_dec _ p Ps); [reflexivity|contradiction]. Qed.
  Lemma adeg_place p x : In p Ps -> In x (places m p) -> (1 <= adeg p x)%nat.
  Proof.
    intros I J. rewrite adeg_free by exact I. destruct (places_spec p) as [_ S]; [apply free_In; exact I|]. apply S in J. destruct J as [Rg O].
    apply degree_pos; [apply (mono_at p x); assumption|exact O].
  Qed.
  Lemma adeg_out p x : inrange x -> In p Ps -> ~ In x (places m p) -> adeg p x = 0%nat.
  Proof.
    intros Rg I J. rewrite adeg_free by exact I. apply degree_not. intros O. apply J. apply places_spec; [apply free_In; exact I|]. split; assumption.
  Qed.

  Variable a : list (list ((nat * nat) * nat)).
  Hypothesis Ha : sort_a m fixed = Ok a.
  Lemma a_get_spec p x : inrange x -> a_get m a p x = adeg p x.
  Proof.
    intros Rg. unfold a_get. destruct (index_of String.eqb p (pc_par m)) as [k|] eqn:E.
    - apply (index_of_Some _ String.eqb_eq) in E. assert (Ip : In p (pc_par m)) by (apply nth_error_In in E; exact E).
      destruct (Forall2_nth_error _ _ _ (mmap_forall2 _ _ _ Ha) k p E) as (t & Et & Eq).
      rewrite (nth_error_nth a k [] Et). destruct (memb String.eqb p fixed) eqn:F.
      + injection Eq as <-. apply (memb_In _ String.eqb_eq) in F. unfold adeg. destruct (in_dec _ p Ps) as [I|]; [apply free_In in I; tauto|reflexivity].
      + assert (If : In p Ps). { apply free_In. split; [exact Ip|]. intros J. apply (memb_In _ String.eqb_eq) in J. congruence. }
        pose proof (mmap_forall2 _ _ _ Eq) as F2.
        assert (Hk : map fst t = places m p).
        { rewrite <- (map_id (places m p)). apply (map_ext_F2 _ _ _ _ _ F2). intros y b _ Eb. destruct (a_pi p (expr_at m y)); [|discriminate]. injection Eb as <-. reflexivity. }
        destruct (in_dec (fun u v : nat * nat => match bool_dec (peqb u v) true with left h => left (proj1 (peqb_eq u v) h) | right h => right (fun k => h (proj2 (peqb_eq u v) k)) end) x (places m p)) as [J|J].
        * apply table_get_in; [|rewrite Hk; exact J]. intros w Iw. destruct (Forall2_In_r _ _ _ _ F2 Iw) as (y & Iy & Ey).
          destruct (places_spec p Ip) as [_ S]. apply S in Iy. destruct Iy as [Ry O]. rewrite a_pi_ok in Ey by (auto; apply (mono_at p y); assumption). injection Ey as -> <-. symmetry. apply adeg_free. exact If.
        * rewrite table_get_out by (rewrite Hk; exact J). symmetry. apply adeg_out; assumption.
    - unfold adeg. destruct (in_dec _ p Ps) as [I|]; [|reflexivity]. exfalso. apply free_In in I. destruct I as [I _]. apply (index_of_In _ String.eqb_eq) in I. destruct I as [i I]. congruence.
  Qed.
  Definition tdeg (x : nat * nat) : nat := nsumL Ps (fun p => adeg p x).
  Lemma C_of_spec x : inrange x -> C_of m a x = Ok (tdeg x).
  Proof.
    intros Rg. unfold C_of.
    assert (G : forall l k, (forall p, In p l -> In p (pc_par m)) -> mfold (fun r p => do _ <- index_err String.eqb p (pc_par m); Ok (r + a_get m a p x)%nat) l k = Ok (k + nsumL l (fun p => adeg p x))%nat).
    { induction l as [|p l IH]; intros k H; cbn [mfold nsumL fold_right]; [f_equal; lia|]. destruct (index_of_In _ String.eqb_eq p (pc_par m) (H p (or_introl eq_refl))) as [i Ei].
      unfold index_err. rewrite Ei. cbn [bind]. rewrite IH by (intros; apply H; right; assumption). fold (nsumL l (fun p => adeg p x)). rewrite a_get_spec by exact Rg. f_equal. lia. }
    destruct Hidx as (NDp & Hs & _). destruct (dedup_spec String.eqb String.leb String.eqb_eq (symbols (expr_at m x))) as [ND HI]. fold (free_symbols (expr_at m x)) in *.
    rewrite G.
    - f_equal. cbn [Nat.add]. unfold tdeg. apply nsumL_same; [exact ND|apply free_NoDup|]. intros p Np. split; intros I.
      + unfold adeg in Np. destruct (in_dec _ p Ps); [assumption|congruence].
      + apply HI. apply symbols_occurs. destruct (in_dec string_dec p (symbols (expr_at m x))) as [J|J]; [apply symbols_occurs; exact J|].
        exfalso. apply Np. rewrite adeg_free by exact I. apply degree_not. intros O. apply J, symbols_occurs. exact O.
    - intros p I. apply HI in I. apply symbols_occurs in I. apply (Hs (fst x) (snd x)); [apply Rg|apply Rg|exact I].
  Qed.
  Lemma tdeg_ge p x : In p Ps -> (adeg p x <= tdeg x)%nat.
  Proof. intros I. unfold tdeg. induction Ps as [|q l IH]; [destruct I|]. cbn. destruct I as [->|I]; [lia|]. specialize (IH I). unfold nsumL in IH. lia. Qed.
  (** two parameters at a place of degree 1 *)
  Lemma tdeg_1 p q x : In p Ps -> In q Ps -> tdeg x = 1%nat -> (1 <= adeg p x)%nat -> (1 <= adeg q x)%nat -> p = q.
  Proof.
    intros Ip Iq T A B. destruct (string_dec p q) as [E|E]; [exact E|exfalso]. unfold tdeg in T.
    assert (G : forall l, NoDup l -> In p l -> In q l -> (2 <= nsumL l (fun p => adeg p x))%nat).
    { induction 1 as [|z l NI ND IH]; intros Jp Jq; [destruct Jp|]. cbn [nsumL fold_right]. fold (nsumL l (fun p => adeg p x)).
      assert (S1 : forall u, In u l -> (adeg u x <= nsumL l (fun p => adeg p x))%nat).
      { clear. intros u I. induction l as [|w l IH]; [destruct I|]. cbn. destruct I as [->|I]; [lia|]. specialize (IH I). unfold nsumL in IH. lia. }
      destruct Jp as [->|Jp], Jq as [->|Jq]; [congruence| | |specialize (IH Jp Jq); lia].
      - specialize (S1 q Jq). lia.
      - specialize (S1 p Jp). lia. }
    specialize (G Ps free_NoDup Ip Iq). lia.
  Qed.
End Plan.

(** What is used of the result of the sorting. *)
Record plan_ok (fixed : list string) (m : pctmc R) (pl : plan R) : Prop := {
  po_a : forall p x, inrange m x -> a_get m (pl_a pl) p x = adeg m fixed p x;
  po_C : forall x, inrange m x -> C_of m (pl_a pl) x = Ok (tdeg m fixed x);
  po_cats : Permutation (pl_cat1 pl ++ pl_cat2 pl ++ pl_cat3 pl) (free_params fixed m);
  po_1 : forall q x, In q (pl_cat1 pl) -> In x (places m q) -> adeg m fixed q x = 1%nat /\ tdeg m fixed x = 1%nat /\
           forall v r, current m q = Some v -> has_rate m (current m) (fst x) (snd x) r -> table_get 0 (pl_c pl) x * v = r;
  po_2 : forall q, In q (pl_cat2 pl) -> exists c, (0 < c)%nat /\ (forall x, In x (places m q) -> tdeg m fixed x = c);
  po_ne : forall q, In q (free_params fixed m) -> places m q <> [] }.

Lemma is_cat_refl c p : is_cat c (p, c) = true. Proof. destruct c; reflexivity. Qed.
Lemma cat_filter c (l : list (string * category)) p : In p (map fst (filter (is_cat c) l)) <-> In (p, c) l.
Proof.
  rewrite in_map_iff. split.
  - intros ([q d] & <- & I). apply filter_In in I. destruct I as [I E]. cbn [fst]. destruct c, d; try discriminate; exact I.
  - intros I. exists (p, c). split; [reflexivity|]. apply filter_In. split; [exact I|apply is_cat_refl].
Qed.
Lemma cats_perm (l : list (string * category)) :
  Permutation (map fst (filter (is_cat Cat1) l) ++ map fst (filter (is_cat Cat2) l) ++ map fst (filter (is_cat Cat3) l)) (map fst l).
Proof.
  induction l as [|[p c] l IH]; [reflexivity|]. destruct c; cbn [filter is_cat snd map fst].
  - cbn [app]. constructor. exact IH.
  - cbn [app]. rewrite <- Permutation_middle. constructor. exact IH.
  - rewrite app_assoc. rewrite <- Permutation_middle. constructor. rewrite <- app_assoc. exact IH.
Qed.

Lemma valued_sym (m : pctmc R) x y : indexed m -> valued m -> inrange m x -> occurs y (expr_at m x) -> dget (pc_val m) y = Some (total (pc_val m) y).
Proof.
  intros (_ & Hs & _) [V _] [R1 R2] O. destruct (V y (Hs _ _ y R1 R2 O)) as (v & E & _). unfold current, parameterValue in E. unfold total. rewrite E. reflexivity.
Qed.
Lemma rate_denote (m : pctmc R) x r : indexed m -> valued m -> inrange m x ->
  (has_rate m (current m) (fst x) (snd x) r <-> r = denote (total (pc_val m)) (expr_at m x)).
Proof.
  intros Hi Hv Rg. rewrite <- evaluate_rate. unfold evaluateTransition. rewrite eval_denote. unfold expr_at. split; [intros [_ E]; exact E|].
  intros ->. split; [|reflexivity]. intros y O. rewrite (valued_sym m x y Hi Hv Rg O). discriminate.
Qed.

Lemma sort_plan (fixed : list string) (m : pctmc R) pl : indexed m -> learnable fixed m -> valued m -> sortParameters m fixed = Ok pl -> plan_ok fixed m pl.
Proof.
  intros Hi Hl Hv E. unfold sortParameters in E. destruct (sort_a m fixed) as [a|] eqn:Ea; [|discriminate]. cbn [bind] in E.
  rewrite (free_eq m fixed) in E. destruct (mmap _ (free_params fixed m)) as [cats|] eqn:Ec; [|discriminate]. cbn [bind] in E.
  destruct (mmap _ (map fst (filter (is_cat Cat1) cats))) as [cs|] eqn:Es; [|discriminate]. cbn [bind] in E. injection E as <-.
  pose proof (mmap_forall2 _ _ _ Ec) as F. pose proof (mmap_forall2 _ _ _ Es) as F1.
  assert (Hc : forall q c, In (q, c) cats -> In q (free_params fixed m) /\ category_of m a q = Ok c).
  { intros q c I. destruct (Forall2_In_r _ _ _ _ F I) as (p & Ip & Ep). destruct (category_of m a p) as [c'|] eqn:Q; [|discriminate]. injection Ep as -> ->. auto. }
  assert (HC : forall q x, In q (free_params fixed m) -> In x (places m q) -> inrange m x).
  { intros q x I J. destruct (places_spec m Hi q) as [_ S]; [apply (free_In m fixed); exact I|]. apply S. exact J. }
  (* the tests of a category *)
  assert (HM : forall q, In q (free_params fixed m) -> mmap (C_of m a) (places m q) = Ok (map (tdeg m fixed) (places m q))).
  { intros q I. apply (LBW.mmap_ok (C_of m a)). intros x J. apply (C_of_spec m fixed Hi Hl a Ea). apply (HC q x I J). }
  assert (HA : forall q, In q (free_params fixed m) -> map (a_get m a q) (places m q) = map (adeg m fixed q) (places m q)).
  { intros q I. apply map_ext_in. intros x J. apply (a_get_spec m fixed Hi Hl a Ea). apply (HC q x I J). }
  assert (AE : forall (k : nat) l f (x : nat * nat), all_eq k (map f l) = true -> In x l -> f x = k).
  { intros k l f x B I. unfold all_eq in B. rewrite forallb_forall in B. symmetry. apply Nat.eqb_eq. apply B. apply in_map_iff. eauto. }
  assert (H1 : forall q x, In (q, Cat1) cats -> In x (places m q) -> adeg m fixed q x = 1%nat /\ tdeg m fixed x = 1%nat).
  { intros q x I J. destruct (Hc _ _ I) as [If Q]. unfold category_of in Q. rewrite (HM q If), (HA q If) in Q. cbn [bind] in Q.
    destruct (map (tdeg m fixed) (places m q)) as [|c0 cl] eqn:El; [discriminate|].
    destruct (all_eq 1 (map (adeg m fixed q) (places m q)) && all_eq 1 (c0 :: cl)) eqn:B; [|destruct (all_eq c0 (c0 :: cl)); discriminate].
    rewrite <- El in B. apply andb_true_iff in B. destruct B as [B1 B2]. split; [exact (AE _ _ _ _ B1 J)|exact (AE _ _ _ _ B2 J)]. }
  constructor; cbn [pl_a pl_cat1 pl_cat2 pl_cat3 pl_c].
  - apply (a_get_spec m fixed Hi Hl a Ea).
  - apply (C_of_spec m fixed Hi Hl a Ea).
  - rewrite cats_perm. replace (map fst cats) with (free_params fixed m); [reflexivity|]. symmetry. rewrite <- (map_id (free_params fixed m)). apply (map_ext_F2 _ _ _ _ _ F).
    intros q b _ Eb. destruct (category_of m a q); [|discriminate]. injection Eb as <-. reflexivity.
  - intros q x I J. apply cat_filter in I. destruct (H1 q x I J) as [A1 A2]. split; [exact A1|]. split; [exact A2|]. intros v r Cv Hr.
    destruct (Hc _ _ I) as [If Q]. pose proof (HC q x If J) as Rg.
    assert (Ix : occurs q (expr_at m x)). { destruct (places_spec m Hi q) as [_ S]; [apply (free_In m fixed); exact If|]. apply S. exact J. }
    apply (rate_denote m x r Hi Hv Rg) in Hr. subst r. unfold current, parameterValue in Cv. replace v with (total (pc_val m) q) by (unfold total; rewrite Cv; reflexivity).
    assert (K : exists w, In (x, w) (concat cs)).
    { destruct (Forall2_In_l _ _ _ q F1) as (t & It & Et); [apply cat_filter; exact I|]. apply mmap_forall2 in Et. destruct (Forall2_In_l _ _ _ x Et J) as ([y w] & Iw & Ew).
      destruct (c_pi _ _ _) as [w'|]; [|discriminate]. injection Ew as <- <-. exists w'. apply in_concat. eauto. }
    assert (W : forall w, In (x, w) (concat cs) -> w * total (pc_val m) q = denote (total (pc_val m)) (expr_at m x)).
    { intros w Iw. apply in_concat in Iw. destruct Iw as (t & It & Iw). destruct (Forall2_In_r _ _ _ _ F1 It) as (q' & Iq' & Et). apply cat_filter in Iq'.
      apply mmap_forall2 in Et. destruct (Forall2_In_r _ _ _ _ Et Iw) as (y & Iy & Ey). destruct (c_pi _ _ _) as [w'|] eqn:Ecp; [|discriminate]. injection Ey as -> ->.
      destruct (H1 q' x Iq' Iy) as [B1 B2]. destruct (Hc _ _ Iq') as [If' _].
      assert (q' = q) by (apply (tdeg_1 m fixed Hi q' q x); auto; lia). subst q'.
      apply (c_pi_spec (pc_val m) q (total (pc_val m))) in Ecp; auto.
      - apply (mono_at m fixed Hl q x); assumption.
      - rewrite (adeg_free m fixed q x If) in A1. exact A1.
      - intros y O. apply (valued_sym m x y Hi Hv Rg O). }
    destruct K as [w Iw]. destruct (in_dec string_dec q (free_params fixed m)) as [_|]; [|contradiction].
    destruct (Req_dec (total (pc_val m) q) 0) as [Z|Z].
    + rewrite <- (W w Iw), Z. ring.
    + rewrite (table_get_in 0 _ x w); [apply W; exact Iw| |apply in_map_iff; exists (x, w); auto].
      intros u Iu. apply W in Iu. apply W in Iw. apply (Rmult_eq_reg_r (total (pc_val m) q)); [congruence|exact Z].
  - intros q I. apply cat_filter in I. destruct (Hc _ _ I) as [If Q]. unfold category_of in Q. rewrite (HM q If) in Q. cbn [bind] in Q.
    destruct (map (tdeg m fixed) (places m q)) as [|c0 cl] eqn:El; [discriminate|]. exists c0. split.
    + destruct (places m q) as [|x l] eqn:Ep; [discriminate|]. injection El as <- _. pose proof (adeg_place m fixed Hi Hl q x If) as G. rewrite Ep in G. specialize (G (or_introl eq_refl)).
      pose proof (tdeg_ge m fixed q x If). lia.
    + intros x J. destruct (_ && _) in Q; [discriminate|]. destruct (all_eq c0 (c0 :: cl)) eqn:B; [|discriminate]. rewrite <- El in B. exact (AE _ _ _ _ B J).
  - intros q If N. assert (I : exists c, In (q, c) cats).
    { destruct (Forall2_In_l _ _ _ q F If) as (b & Ib & Eb). destruct (category_of m a q) as [c|]; [|discriminate]. injection Eb as <-. eauto. }
    destruct I as [c I]. destruct (Hc _ _ I) as [_ Q]. unfold category_of in Q. rewrite N in Q. discriminate.
Qed.

(** The plan stays valid when the values of the free parameters change. *)
Lemma shape_expr m m' : same_shape m m' -> (forall x, expr_at m' x = expr_at m x) /\ (forall p, places m' p = places m p) /\ pc_n m' = pc_n m.
Proof.
  intros (A & B & C & D & E & F & G). repeat split.
  - intros x. unfold expr_at, transitionExpression. rewrite A, C. reflexivity.
  - intros p. unfold places, parameterIndexes. rewrite D, E. reflexivity.
  - unfold pc_n. rewrite A. reflexivity.
Qed.
Lemma shape_free fixed m m' : same_shape m m' -> free_params fixed m' = free_params fixed m.
Proof. intros (_ & _ & _ & _ & E & _). unfold free_params. rewrite E. reflexivity. Qed.
Lemma shape_adeg fixed m m' p x : same_shape m m' -> adeg m' fixed p x = adeg m fixed p x.
Proof. intros S. unfold adeg. rewrite (shape_free fixed m m' S). destruct (shape_expr m m' S) as [-> _]. reflexivity. Qed.
Lemma shape_tdeg fixed m m' x : same_shape m m' -> tdeg m' fixed x = tdeg m fixed x.
Proof. intros S. unfold tdeg. rewrite (shape_free fixed m m' S). apply nsumL_ext. intros p _. apply shape_adeg. exact S. Qed.
Lemma shape_indexed m m' : same_shape m m' -> indexed m -> indexed m'.
Proof.
  intros S (A & B & C). destruct (shape_expr m m' S) as (E1 & E2 & E3). destruct S as (_ & _ & _ & S4 & S5 & _).
  assert (T : forall i j, transition m' i j = transition m i j) by (intros i j; exact (E1 (i, j))).
  assert (Pi : forall p, parameterIndexes m' p = parameterIndexes m p) by (intros p; unfold parameterIndexes; rewrite S4, S5; reflexivity).
  unfold indexed. rewrite S5, E3. split; [exact A|]. split.
  - intros i j x. rewrite T. apply B.
  - intros p I. rewrite Pi. destruct (C p I) as [N H]. split; [exact N|]. intros i j. rewrite T. apply H.
Qed.
Lemma shape_learnable fixed m m' : same_shape m m' -> learnable fixed m -> learnable fixed m'.
Proof.
  intros S L i j. destruct (shape_expr m m' S) as (E1 & _ & E3). rewrite E3. pose proof (E1 (i, j)) as T.
  change (transition m' i j = transition m i j) in T. rewrite T. apply L.
Qed.
Lemma shape_wf m m' : same_shape m m' -> wf_pctmc m -> wf_pctmc m'.
Proof.
  intros S W. destruct (shape_expr m m' S) as (_ & _ & E3). destruct S as (A & B & C & _ & _ & F & _). unfold wf_pctmc in *. rewrite E3, A, B, C, F. exact W.
Qed.

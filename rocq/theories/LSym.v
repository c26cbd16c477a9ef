(** Forward-backward statistics of the same model written differently. *)
From Coq Require Import String ZArith Bool Reals List Lia Lra Psatz Permutation.
From Verif Require Import Num Py SNum SPath LSum MSet MModels MLik MBW LFB LEM SBW LBW LBWSet LBWMC LBWLoop SSym.
Import ListNotations.
Local Open Scope R_scope.

Lemma NoDup_map_on {A B} (f : A -> B) l : NoDup l -> (forall x y, In x l -> In y l -> f x = f y -> x = y) -> NoDup (map f l).
Proof.
  induction 1 as [|x l NI ND IH]; intros H; cbn; constructor.
  - intros I. apply in_map_iff in I. destruct I as [y [E I]]. apply NI. rewrite <- (H y x); [exact I|right; exact I|left; reflexivity|exact E].
  - apply IH. intros; apply H; auto; right; assumption.
Qed.
Lemma renumbering_perm n f : renumbering n f -> Permutation (map f (seq 0 n)) (seq 0 n).
Proof.
  intros [B J]. apply NoDup_Permutation_bis.
  - apply NoDup_map_on; [apply seq_NoDup|]. intros x y Ix Iy. apply in_seq in Ix, Iy. apply J; lia.
  - rewrite map_length. lia.
  - intros x I. apply in_map_iff in I. destruct I as [i [<- I]]. apply in_seq in I. apply in_seq. pose proof (B i). lia.
Qed.
Lemma Sum_renum n f F : renumbering n f -> Sum n (fun i => F (f i)) = Sum n F.
Proof. intros H. unfold Sum. rewrite <- (sumL_map f (seq 0 n) F). apply sumL_perm. apply renumbering_perm. exact H. Qed.
Lemma renumbering_id n : renumbering n (fun i => i).
Proof. split; auto. Qed.

Section FBsym.
  Variables (n : nat) (f : nat -> nat) (k : R).
  Hypothesis Hf : renumbering n f.
  Definition wrel (w2 w : nat -> nat -> R) : Prop := forall i j, (i < n)%nat -> (j < n)%nat -> w2 i j = k * w (f i) (f j).
  Lemma Bk_sym W2 W g2 g : Forall2 wrel W2 W -> (forall i, (i < n)%nat -> g2 i = g (f i)) ->
    forall s, (s < n)%nat -> Bk n W2 g2 s = k ^ length W * Bk n W g (f s).
  Proof.
    intros F Hg. induction F as [|w2 w W2 W Hw F IH]; intros s Hs; cbn [Bk length pow]; [rewrite Hg by exact Hs; ring|].
    rewrite <- (Sum_renum n f (fun s' => w (f s) s' * Bk n W g s') Hf), <- Sum_scal_l. apply Sum_ext. intros i Hi.
    rewrite (Hw s i Hs Hi), IH by exact Hi. ring.
  Qed.
  Lemma step_sym a2 a w2 w q : wrel w2 w -> (forall i, (i < n)%nat -> a2 i = q * a (f i)) ->
    forall s, (s < n)%nat -> step n a2 w2 s = q * k * step n a w (f s).
  Proof.
    intros Hw Ha s Hs. unfold step. rewrite <- (Sum_renum n f (fun ss => a ss * w ss (f s)) Hf), <- Sum_scal_l.
    apply Sum_ext. intros i Hi. rewrite Ha, (Hw i s) by assumption. ring.
  Qed.
  Lemma tot_sym a2 a W2 W g2 g : Forall2 wrel W2 W -> (forall i, (i < n)%nat -> a2 i = a (f i)) -> (forall i, (i < n)%nat -> g2 i = g (f i)) ->
    tot n a2 W2 g2 = k ^ length W * tot n a W g.
  Proof.
    intros F Ha Hg. unfold tot. rewrite <- (Sum_renum n f (fun s => a s * Bk n W g s) Hf), <- Sum_scal_l. apply Sum_ext. intros i Hi.
    rewrite Ha, (Bk_sym W2 W g2 g F Hg) by exact Hi. ring.
  Qed.
  Lemma xi_sym W2 W g2 g s s' : Forall2 wrel W2 W -> (forall i, (i < n)%nat -> g2 i = g (f i)) -> (s < n)%nat -> (s' < n)%nat ->
    forall q a2 a, (forall i, (i < n)%nat -> a2 i = q * a (f i)) ->
    xi n a2 W2 g2 s s' = map (fun x => q * k ^ length W * x) (xi n a W g (f s) (f s')).
  Proof.
    intros F Hg Hs Hs'. induction F as [|w2 w W2 W Hw F IH]; intros q a2 a Ha; cbn [xi map length pow]; [reflexivity|]. f_equal.
    - rewrite Ha, (Hw s s'), (Bk_sym W2 W g2 g F Hg) by assumption. ring.
    - rewrite (IH (q * k) (step n a2 w2) (step n a w)) by (intros i Hi; apply step_sym; assumption).
      apply map_ext. intros x. ring.
  Qed.
  Lemma gam_sym W2 W g2 g s : Forall2 wrel W2 W -> (forall i, (i < n)%nat -> g2 i = g (f i)) -> (s < n)%nat ->
    forall q a2 a, (forall i, (i < n)%nat -> a2 i = q * a (f i)) ->
    gam n a2 W2 g2 s = map (fun x => q * k ^ length W * x) (gam n a W g (f s)).
  Proof.
    intros F Hg Hs. induction F as [|w2 w W2 W Hw F IH]; intros q a2 a Ha; [reflexivity|]. cbn [gam map]. f_equal.
    - rewrite Ha, (Bk_sym (w2 :: W2) (w :: W) g2 g) by (auto; constructor; assumption). ring.
    - rewrite (IH (q * k) (step n a2 w2) (step n a w)) by (intros i Hi; apply step_sym; assumption).
      apply map_ext. intros x. cbn [length pow]. ring.
  Qed.
End FBsym.

Lemma wsum_map_scal_l q l c : wsum (map (fun x => q * x) l) c = q * wsum l c.
Proof.
  unfold wsum. revert c. induction l as [|x l IH]; intros [|y c]; cbn; toR; try ring; try (rewrite !rsum_nil; ring).
  change (rsum (q * x * y :: zipwith Rmult (map (fun x0 => q * x0) l) c) = q * rsum (x * y :: zipwith Rmult l c)).
  rewrite !rsum_cons, IH. ring.
Qed.
Lemma wsum_map_scal_r q l c : wsum l (map (fun x => q * x) c) = q * wsum l c.
Proof.
  unfold wsum. revert c. induction l as [|x l IH]; intros [|y c]; cbn; toR; try ring; try (rewrite !rsum_nil; ring).
  change (rsum (x * (q * y) :: zipwith Rmult l (map (fun x0 => q * x0) c)) = q * rsum (x * y :: zipwith Rmult l c)).
  rewrite !rsum_cons, IH. ring.
Qed.

Section SetSym.
  Context {S S2 : Type}.
  Variables (n : nat) (f : nat -> nat) (k : R) (h : S -> S2) (c : Z) (set : list (S * Z)).
  Variables (a a2 : nat -> R) (W : S -> list (nat -> nat -> R)) (W2 : S2 -> list (nat -> nat -> R)) (g : S -> nat -> R) (g2 : S2 -> nat -> R).
  Hypothesis Hf : renumbering n f.
  Hypothesis Hk : 0 < k.
  Hypothesis Hc : (0 < c)%Z.
  Hypothesis Ha : forall i, (i < n)%nat -> a2 i = a (f i).
  Hypothesis HW : forall x t, In (x, t) set -> Forall2 (wrel n f k) (W2 (h x)) (W x).
  Hypothesis Hg : forall x t, In (x, t) set -> forall i, (i < n)%nat -> g2 (h x) i = g x (f i).
  Notation set2 := (rewritten h c set).
  Notation P := (Pof n a W g).
  Notation P2 := (Pof n a2 W2 g2).

  Lemma P_sym x t : In (x, t) set -> P2 (h x) = k ^ length (W x) * P x.
  Proof. intros I. apply (tot_sym n f k Hf); auto; [apply (HW x t I)|apply (Hg x t I)]. Qed.
  Lemma P_sym_pos x t : In (x, t) set -> (0 < P2 (h x) <-> 0 < P x).
  Proof.
    intros I. rewrite (P_sym x t I). pose proof (pow_lt k (length (W x)) Hk) as Q. split; intros H; [|apply Rmult_lt_0_compat; assumption].
    apply (Rmult_lt_reg_l (k ^ length (W x))); [exact Q|]. rewrite Rmult_0_r. exact H.
  Qed.
  Lemma P_sym_zero x t : In (x, t) set -> (P2 (h x) = 0 <-> P x = 0).
  Proof.
    intros I. rewrite (P_sym x t I). pose proof (pow_lt k (length (W x)) Hk) as Q. split; intros H; [|rewrite H; ring].
    apply Rmult_integral in H. destruct H; [lra|assumption].
  Qed.
  Lemma psum_sym F2 F r : (forall x t, In (x, t) set -> 0 < P x -> F2 (h x) (c * t)%Z = r * F x t) ->
    psum n set2 a2 W2 g2 F2 = r * psum n set a W g F.
  Proof.
    intros E. unfold psum, rewritten. rewrite sumL_map, Rmult_comm, <- sumL_scal_r. apply sumL_ext. intros [x t] I. cbn [fst snd].
    pose proof (P_sym_pos x t I) as Q. destruct (Rlt_dec 0 (P2 (h x))), (Rlt_dec 0 (P x)); try tauto; [rewrite E by assumption|]; ring.
  Qed.
  Lemma fac_sym x t : In (x, t) set -> 0 < P x -> k ^ length (W x) * fac n a2 W2 g2 (h x) (c * t) = IZR c * fac n a W g x t.
  Proof.
    intros I Px. unfold fac. rewrite (P_sym x t I), mult_IZR. pose proof (pow_lt k (length (W x)) Hk). field. split; lra.
  Qed.
  Lemma XI_sym c2 c1 s s' : (forall x t, In (x, t) set -> c2 (h x) = c1 x) -> (s < n)%nat -> (s' < n)%nat ->
    XI n set2 a2 W2 g2 c2 s s' = IZR c * XI n set a W g c1 (f s) (f s').
  Proof.
    intros Ec Hs Hs'. apply psum_sym. intros x t I Px.
    rewrite (xi_sym n f k Hf _ (W x) _ (g x) s s' (HW x t I) (Hg x t I) Hs Hs' 1 a2 a) by (intros; rewrite Ha by assumption; ring).
    rewrite wsum_map_scal_l, (Ec x t I), Rmult_1_l.
    transitivity (wsum (xi n a (W x) (g x) (f s) (f s')) (c1 x) * (k ^ length (W x) * fac n a2 W2 g2 (h x) (c * t))); [ring|].
    rewrite fac_sym by assumption. ring.
  Qed.
  Lemma GA_sym c2 c1 s : (forall x t, In (x, t) set -> c2 (h x) = c1 x) -> (s < n)%nat ->
    GA n set2 a2 W2 g2 c2 s = IZR c * GA n set a W g c1 (f s).
  Proof.
    intros Ec Hs. apply psum_sym. intros x t I Px.
    rewrite (gam_sym n f k Hf _ (W x) _ (g x) s (HW x t I) (Hg x t I) Hs 1 a2 a) by (intros; rewrite Ha by assumption; ring).
    rewrite wsum_map_scal_l, (Ec x t I), Rmult_1_l.
    transitivity (wsum (gam n a (W x) (g x) (f s)) (c1 x) * (k ^ length (W x) * fac n a2 W2 g2 (h x) (c * t))); [ring|].
    rewrite fac_sym by assumption. ring.
  Qed.
  Lemma IN_sym s : (s < n)%nat -> IN n set2 a2 W2 g2 s = IZR c * IN n set a W g (f s).
  Proof.
    intros Hs. apply psum_sym. intros x t I Px.
    rewrite (Bk_sym n f k Hf _ (W x) _ (g x) (HW x t I) (Hg x t I)), Ha by exact Hs.
    transitivity (a (f s) * Bk n (W x) (g x) (f s) * (k ^ length (W x) * fac n a2 W2 g2 (h x) (c * t))); [ring|].
    rewrite fac_sym by assumption. ring.
  Qed.
  Lemma ones_sym x t : In (x, t) set -> ones1 W2 (h x) = ones1 W x.
  Proof.
    intros I. unfold ones1. f_equal. specialize (HW x t I). induction HW; cbn; auto.
  Qed.
  (** total length of the possible traces *)
  Definition jumps : R := psum n set a W g (fun x t => IZR t * INR (length (W x))).
  Lemma set_ll_sym : set_ll P2 set2 = IZR c * set_ll P set + IZR c * ln k * jumps.
  Proof.
    unfold set_ll, jumps, psum, rewritten. rewrite sumL_map. rewrite (Rmult_comm (IZR c) (sumL _ _)), (Rmult_comm (IZR c * ln k) (sumL _ _)).
    rewrite <- !sumL_scal_r, <- sumL_plus. apply sumL_ext. intros [x t] I. cbn [fst snd].
    pose proof (P_sym_pos x t I) as Q. destruct (Rlt_dec 0 (P2 (h x))), (Rlt_dec 0 (P x)); try tauto; [|ring].
    rewrite (P_sym x t I), ln_mult, ln_pow, mult_IZR by (try apply pow_lt; assumption). ring.
  Qed.
  Lemma In_rewritten y u : In (y, u) set2 -> exists x t, y = h x /\ u = (c * t)%Z /\ In (x, t) set.
  Proof. intros I. apply in_map_iff in I. destruct I as [[x t] [E I]]. inversion E. cbn. eauto. Qed.
  Lemma pos_rewritten : pos_times set -> pos_times set2.
  Proof.
    intros H [y u] I. apply In_rewritten in I. destruct I as (x & t & -> & -> & I). cbn. specialize (H _ I). cbn in H. lia.
  Qed.
End SetSym.

(** the workers fail on the same traces *)
Lemma unwrap_sym {S S2 T T2} p (work : S -> Z -> option T) (work2 : S2 -> Z -> option T2) (h : S -> S2) c set :
  (forall x t, In (x, t) set -> (work2 (h x) (c * t)%Z = None <-> work x t = None)) ->
  match unwrap (runProcesses p work set), unwrap (runProcesses p work2 (rewritten h c set)) with
  | Ok l, Ok l2 => l = [] <-> l2 = []
  | Err e, Err e2 => e2 = e
  | _, _ => False
  end.
Proof.
  intros H. destruct (Nat.lt_ge_cases 1 p) as [Hp|Hp].
  - rewrite !unwrap_run_many by exact Hp. unfold goods, rewritten. induction set as [|[x t] set IH]; cbn; [tauto|].
    specialize (IH ltac:(intros; apply H; right; assumption)). specialize (H x t (or_introl eq_refl)).
    destruct (work x t), (work2 (h x) (c * t)%Z); cbn; [| | |exact IH].
    + split; discriminate.
    + destruct H as [H _]. discriminate (H eq_refl).
    + destruct H as [_ H]. discriminate (H eq_refl).
  - unfold runProcesses. replace (1 <? p)%nat with false by (symmetry; apply Nat.ltb_ge; exact Hp). unfold unwrap, rewritten.
    induction set as [|[x t] set IH]; cbn; [tauto|].
    specialize (IH ltac:(intros; apply H; right; assumption)). specialize (H x t (or_introl eq_refl)).
    destruct (work x t), (work2 (h x) (c * t)%Z); cbn.
    + cbn in IH. destruct (mmap _ (map _ set)) as [l|e], (mmap _ (map _ (map _ set))) as [l2|e2]; cbn; try exact IH. split; discriminate.
    + destruct H as [H _]. discriminate (H eq_refl).
    + destruct H as [_ H]. discriminate (H eq_refl).
    + reflexivity.
Qed.

Lemma est_sym q r D D2 N N2 p p2 j j2 : 0 < q -> D2 = q * D -> N2 j2 = r * q * N j -> p2 j2 = r * p j -> est D2 N2 p2 j2 = r * est D N p j.
Proof.
  intros Q -> En Ep. unfold est. rewrite En, Ep. destruct (Req_EM_T (q * D) 0) as [E|E], (Req_EM_T D 0) as [E'|E']; try reflexivity.
  - apply Rmult_integral in E. destruct E; [lra|contradiction].
  - exfalso. apply E. rewrite E'. ring.
  - field. split; [exact E'|lra].
Qed.

(** loops over corresponding rounds *)
Lemma bw_loop_sym {M} (Rel : M -> M -> Prop) (c d : R) (round round2 : M -> res (M * R)) eps : 0 < c ->
  (forall m m2, Rel m m2 -> same_round Rel c d (round m) (round2 m2)) ->
  forall fuel prev count m m2, Rel m m2 ->
  same_fit Rel c d (bw_loop round eps fuel prev count m) (bw_loop round2 (c * eps) fuel (option_map (fun x => c * x + d) prev) count m2).
Proof.
  intros Hc H. induction fuel as [|fuel IH]; intros prev count m m2 Hm; cbn [bw_loop]; [cbn; auto|].
  specialize (H m m2 Hm). destruct (round m) as [[m' ll]|e], (round2 m2) as [[m2' ll2]|e2]; cbn in H |- *; try contradiction; [|exact H].
  destruct H as [Hm' ->]. destruct prev as [q|]; cbn [option_map].
  - assert (E : (nltb (c * ll + d - (c * q + d)) (c * eps)) = nltb (ll - q) eps).
    { rewrite ?Rltb_leb. nR. unfold Rleb. f_equal. destruct (Rle_dec (c * eps) (c * ll + d - (c * q + d))) as [L|L], (Rle_dec eps (ll - q)) as [L'|L']; try reflexivity; exfalso; nra. }
    revert E. nR. intros E. rewrite E. destruct (nltb (ll - q) eps); [cbn; auto|]. apply (IH (Some ll)). exact Hm'.
  - apply (IH (Some ll)). exact Hm'.
Qed.

(** ** Sums over paths *)
Lemma sumL_paths_S n T F : sumL (paths n (S T)) F = Sum n (fun s => sumL (paths n T) (fun x => F (s :: x))).
Proof. cbn [paths]. rewrite sumL_flat_map. unfold Sum. apply sumL_ext. intros s _. apply sumL_map. Qed.
Lemma paths_renum n f : renumbering n f -> forall T F, sumL (paths n T) (fun x => F (map f x)) = sumL (paths n T) F.
Proof.
  intros Hf. induction T as [|T IH]; intros F; [reflexivity|]. rewrite !sumL_paths_S.
  rewrite <- (Sum_renum n f (fun s => sumL (paths n T) (fun x => F (s :: x))) Hf). apply Sum_ext. intros s _. cbn [map].
  apply (IH (fun x => F (f s :: x))).
Qed.
Lemma in_paths n T x : In x (paths n T) -> length x = T /\ Forall (fun s => (s < n)%nat) x.
Proof.
  revert x. induction T as [|T IH]; intros x I; cbn in I.
  - destruct I as [<-|[]]. auto.
  - apply in_flat_map in I. destruct I as [s [Is I]]. apply in_map_iff in I. destruct I as [y [<- I]]. apply in_seq in Is.
    destruct (IH y I). split; cbn; [congruence|]. constructor; [lia|assumption].
Qed.
Lemma path_weight_sym n f k q As2 As Bs2 Bs : Forall2 (fun b2 b => forall i, (i < n)%nat -> b2 i = q * b (f i)) Bs2 Bs ->
  Forall2 (wrel n f k) As2 As -> forall x, Forall (fun s => (s < n)%nat) x ->
  path_weight As2 Bs2 x = k ^ length As * q ^ length Bs * path_weight As Bs (map f x).
Proof.
  intros F. revert As2 As. induction F as [|b2 b Bs2 Bs Hb F IH]; intros As2 As G x Hx; [destruct As2, As; cbn; ring|].
  destruct x as [|s x]; [destruct As2, As; cbn; ring|]. inversion Hx as [|? ? Hs Hx']; subst.
  destruct F as [|c2 c Bs2 Bs Hc F]; destruct G as [|A2 A As2 As HA G]; destruct x as [|s' x]; cbn [path_weight map]; rewrite ?Hb by exact Hs; cbn [length pow]; try ring.
  rewrite (IH As2 As G (s' :: x) Hx'). inversion Hx' as [|? ? Hs' _]; subst. rewrite (HA s s' Hs Hs'). cbn [map length pow]. ring.
Qed.
Lemma trace_prob_sym n f k q pi2 pi As2 As Bs2 Bs : renumbering n f -> Bs <> [] ->
  (forall i, (i < n)%nat -> pi2 i = pi (f i)) ->
  Forall2 (wrel n f k) As2 As -> Forall2 (fun b2 b => forall i, (i < n)%nat -> b2 i = q * b (f i)) Bs2 Bs ->
  trace_prob n pi2 As2 Bs2 = k ^ length As * q ^ length Bs * trace_prob n pi As Bs.
Proof.
  intros Hf NE Hp HA HB. unfold trace_prob. assert (L : length Bs2 = length Bs) by (clear - HB; induction HB; cbn; auto). rewrite L.
  rewrite <- (paths_renum n f Hf (length Bs) (fun x => pi (hd O x) * path_weight As Bs x)).
  rewrite Rmult_comm, <- sumL_scal_r. apply sumL_ext. intros x I. apply in_paths in I. destruct I as [Lx Hx].
  rewrite (path_weight_sym n f k q As2 As Bs2 Bs HB HA x Hx).
  destruct x as [|s x]; [destruct Bs; [congruence|discriminate Lx]|]. cbn [hd map]. inversion Hx; subst. rewrite Hp by assumption. ring.
Qed.
Lemma avg_ll_sym {S S2} (prob : S -> R) (prob2 : S2 -> R) h c set : (0 < c)%Z -> (forall x t, In (x, t) set -> prob2 (h x) = prob x) ->
  SLik.avg_ll prob2 (rewritten h c set) = SLik.avg_ll prob set.
Proof.
  intros Hc E. unfold SLik.avg_ll. replace (zsum (map snd (rewritten h c set))) with (c * zsum (map snd set))%Z.
  - replace (set_ll prob2 (rewritten h c set)) with (set_ll prob set * IZR c).
    + rewrite mult_IZR. apply (IZR_lt 0) in Hc. unfold Rdiv. rewrite Rinv_mult, <- Rmult_assoc, Rmult_assoc with (r3 := / IZR c), Rinv_r by lra. ring.
    + unfold set_ll, rewritten. rewrite sumL_map, <- sumL_scal_r. apply sumL_ext. intros [x t] I. cbn [fst snd]. rewrite (E x t I), mult_IZR.
      destruct (Rlt_dec 0 (prob x)); ring.
  - unfold rewritten. rewrite map_map. cbn [snd]. clear.
    induction set as [|[x t] l IH]; [cbn; lia|]. cbn [map snd zsum]. lia.
Qed.

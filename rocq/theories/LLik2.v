(** Likelihood of sets: both implementations, prefix sharing, invariance. *)
From Coq Require Import String ZArith Bool Reals List Lia Lra FunctionalExtensionality Permutation.
From Verif Require Import Num Py SNum SPath LSum MSet SSet LSet MModels MLik MBW LFB LEM SBW LBW LBWSet SLik LPath LLik.
Import ListNotations.
Local Open Scope R_scope.

(** ** Multi-process version *)

Lemma nsum_not_false {T} (prob : T -> R) (set : list (T * Z)) :
  nsum (not_false (map (fun st => log_times (prob (fst st)) (snd st)) set)) = set_ll prob set.
Proof.
  unfold set_ll, sumL. toR. induction set as [|[x t] set IH]; [reflexivity|]. cbn [map not_false flat_map fst snd].
  rewrite rsum_app. change (flat_map _ (map _ set)) with (not_false (map (fun st => log_times (prob (fst st)) (snd st)) set)).
  rewrite IH. change (rsum ((if Rlt_dec 0 (prob x) then IZR t * ln (prob x) else 0) :: ?r)) with ((if Rlt_dec 0 (prob x) then IZR t * ln (prob x) else 0) + rsum r).
  f_equal. unfold log_times. nR. destruct (Rlt_dec 0 (prob x)) as [P|P].
  - assert (Rleb (prob x) 0 = false) as -> by (apply Rleb_false; exact P). nR.
    destruct (Reqb _ 0) eqn:E; [apply Reqb_true in E; rewrite rsum_nil; rewrite <- E; ring|].
    rewrite rsum_cons, rsum_nil. ring.
  - assert (Rleb (prob x) 0 = true) as -> by (apply Rleb_true; lra). reflexivity.
Qed.

Lemma zsum_combine {A} (l : list A) ts : length ts = length l -> zsum (map snd (combine l ts)) = zsum ts.
Proof. revert ts. induction l as [|x l IH]; intros [|t ts] L; try discriminate; [reflexivity|]. cbn. rewrite IH by (cbn in L; lia). reflexivity. Qed.
Lemma map_fst_combine {A B} (l : list A) (ts : list B) : length ts = length l -> map fst (combine l ts) = l.
Proof. revert ts. induction l as [|x l IH]; intros [|t ts] L; try discriminate; [reflexivity|]. cbn. rewrite IH by (cbn in L; lia). reflexivity. Qed.
Lemma map_snd_combine {A B} (l : list A) (ts : list B) : length ts = length l -> map snd (combine l ts) = ts.
Proof. revert ts. induction l as [|x l IH]; intros [|t ts] L; try discriminate; [reflexivity|]. cbn. rewrite IH by (cbn in L; lia). reflexivity. Qed.

Lemma multiproc_spec {O} n tau b ini (s : tset (list O)) (prob : list O -> R) :
  length (times s) = length (seqs s) ->
  (forall x, In x (seqs s) -> model_prob n tau b ini x = Ok (prob x)) ->
  model_multiproc n tau b ini s = Ok (avg_ll prob (combine (seqs s) (times s))).
Proof.
  intros L E. unfold model_multiproc.
  rewrite (mmap_ok _ (fun st => log_times (prob (fst st)) (snd st))).
  - cbn [bind]. rewrite nsum_not_false. nR. unfold avg_ll. rewrite zsum_combine by exact L.
    destruct (Reqb _ 0) eqn:Z; [|reflexivity]. apply Reqb_true in Z. rewrite Z. unfold Rdiv. f_equal. ring.
  - intros [x t] I. unfold model_computeAlphas. cbn [fst snd]. rewrite E by (apply in_combine_l in I; exact I). reflexivity.
Qed.
Lemma multiproc_empty {O} n tau b ini (s : tset (list O)) : length (times s) = length (seqs s) ->
  In [] (seqs s) -> exists e, @model_multiproc R RNum RTrans O n tau b ini s = Err e.
Proof.
  intros L I. unfold model_multiproc. enough (exists e, mmap (fun st => @model_computeAlphas R RNum RTrans O n tau b ini (fst st) (snd st)) (combine (seqs s) (times s)) = Err e) as [e ->] by (exists e; reflexivity).
  destruct (In_nth _ _ [] I) as [k [Hk Ek]].
  assert (I' : exists t, In ([] : list O, t) (combine (seqs s) (times s))).
  { exists (nth k (times s) 0%Z). rewrite <- Ek at 1. rewrite <- combine_nth by auto. apply nth_In. rewrite combine_length. lia. }
  destruct I' as [t I']. clear - I'. induction (combine (seqs s) (times s)) as [|[x u] l IH]; [destruct I'|]. cbn [mmap fst snd].
  destruct I' as [Ex|I']; [inversion Ex; subst; exists IndexError; reflexivity|].
  destruct (IH I') as [e He]. rewrite He. destruct (model_computeAlphas n tau b ini x u); cbn; eexists; reflexivity.
Qed.

(** ** Forward matrix *)

Lemma bw_alphas_length {K} `{Num K} n (a : list K) ws : length (bw_alphas n a ws) = S (length ws).
Proof. revert a. induction ws; intros; cbn; [reflexivity|]. rewrite IHws. reflexivity. Qed.
Lemma bw_alphas_app {K} `{Num K} n (a : list K) w1 w2 :
  bw_alphas n a (w1 ++ w2) = removelast (bw_alphas n a w1) ++ bw_alphas n (fold_left (fstep n) w1 a) w2.
Proof.
  revert a. induction w1 as [|w w1 IH]; intros a; [reflexivity|].
  cbn [app bw_alphas fold_left removelast]. destruct (bw_alphas n (fstep n a w) w1) eqn:E; [destruct w1; discriminate|].
  rewrite IH, E. reflexivity.
Qed.
Lemma bw_alphas_snoc {K} `{Num K} n (a : list K) ws : bw_alphas n a ws = removelast (bw_alphas n a ws) ++ [fold_left (fstep n) ws a].
Proof. rewrite <- (app_nil_r ws) at 1. rewrite bw_alphas_app. reflexivity. Qed.
Lemma bw_alphas_firstn {K} `{Num K} n (a : list K) ws c : (c <= length ws)%nat -> firstn (S c) (bw_alphas n a ws) = bw_alphas n a (firstn c ws).
Proof.
  revert a c. induction ws as [|w ws IH]; intros a c L.
  - assert (c = O) by (cbn in L; lia). subst. reflexivity.
  - destruct c as [|c]; [reflexivity|]. cbn [bw_alphas firstn]. f_equal. apply IH. cbn in L; lia.
Qed.

Lemma upd_app_r {A} (l m : list A) i x : upd (l ++ m) (length l + i) x = l ++ upd m i x.
Proof. induction l; cbn; [reflexivity|]. f_equal. exact IHl. Qed.

Lemma alpha_loop_spec {K} `{Num K} n ws : forall (pre : list (list K)) (a : list K) junk, length junk = length ws ->
  alpha_loop n ws (length pre) (pre ++ a :: junk) = pre ++ bw_alphas n a ws.
Proof.
  induction ws as [|w ws IH]; intros pre a junk L.
  - destruct junk; [|discriminate]. reflexivity.
  - destruct junk as [|y junk]; [discriminate|]. cbn [alpha_loop bw_alphas].
    rewrite app_nth2, Nat.sub_diag by lia. cbn [nth].
    replace (S (length pre)) with (length pre + 1)%nat at 2 by lia. rewrite upd_app_r. cbn [upd].
    replace (pre ++ a :: fstep n a w :: junk) with ((pre ++ [a]) ++ fstep n a w :: junk) by (rewrite <- app_assoc; reflexivity).
    replace (S (length pre)) with (length (pre ++ [a])) by (rewrite app_length; cbn; lia).
    rewrite IH by (cbn in L; lia). rewrite <- app_assoc. reflexivity.
Qed.

Lemma updateAlpha_spec {K} `{Num K} n (ini : list K) ws c alpha : (c <= length ws)%nat ->
  firstn (S c) alpha = bw_alphas n ini (firstn c ws) -> updateAlphaMatrix n ws c alpha = bw_alphas n ini ws.
Proof.
  intros Hc E. unfold updateAlphaMatrix.
  assert (La : (S c <= length alpha)%nat).
  { apply (f_equal (@length _)) in E. rewrite firstn_length, bw_alphas_length, firstn_length in E. lia. }
  set (alpha1 := if (length alpha <? S (length ws))%nat then _ else _).
  assert (E1 : firstn (S c) alpha1 = bw_alphas n ini (firstn c ws) /\ length alpha1 = S (length ws)).
  { unfold alpha1. destruct (Nat.ltb_spec (length alpha) (S (length ws))).
    - split; [|rewrite app_length, repeat_length; lia]. rewrite firstn_app. replace (S c - length alpha)%nat with O by lia. cbn [firstn]. rewrite app_nil_r. exact E.
    - split; [|rewrite firstn_length; lia]. rewrite firstn_firstn. replace (Nat.min (S c) (S (length ws))) with (S c) by lia. exact E. }
  destruct E1 as [E1 L1]. rewrite <- (firstn_skipn (S c) alpha1), E1, bw_alphas_snoc, <- app_assoc. cbn [app].
  assert (Lp : length (removelast (bw_alphas n ini (firstn c ws))) = c).
  { rewrite removelast_length, bw_alphas_length, firstn_length. lia. }
  rewrite <- Lp at 2. rewrite alpha_loop_spec by (rewrite !skipn_length; lia).
  rewrite <- bw_alphas_app, firstn_skipn. reflexivity.
Qed.

Lemma common_prefix_spec p q : (common_prefix p q <= length p)%nat /\ (common_prefix p q <= length q)%nat /\
  firstn (common_prefix p q) p = firstn (common_prefix p q) q.
Proof.
  revert q. induction p as [|x p IH]; intros [|y q]; cbn [common_prefix]; try (repeat split; cbn; lia).
  destruct (String.eqb_spec x y) as [->|]; [|repeat split; cbn; lia].
  destruct (IH q) as [A [B C]]. cbn. repeat split; try lia. f_equal. exact C.
Qed.

Lemma update_share {K} `{Num K} n (ini : list K) (w : string -> nat -> nat -> K) p q :
  updateAlphaMatrix n (map w q) (common_prefix p q) (bw_alphas n ini (map w p)) = bw_alphas n ini (map w q).
Proof.
  destruct (common_prefix_spec p q) as [A [B C]]. apply updateAlpha_spec; [rewrite map_length; exact B|].
  rewrite bw_alphas_firstn by (rewrite map_length; exact A). rewrite !firstn_map, C. reflexivity.
Qed.
Lemma update_init {K} `{Num K} n (ini : list K) ws k : updateAlphaMatrix n ws 0 (initAlphaMatrix n ini k) = bw_alphas n ini ws.
Proof. apply updateAlpha_spec; [lia|]. reflexivity. Qed.

(** pairs of an alternating sequence *)
Lemma firstn_pairs {E} (p q : list E) : forall c, firstn c p = firstn c q -> (c <= length p)%nat -> (c <= length q)%nat ->
  firstn (Nat.div2 c) (pairs_of p) = firstn (Nat.div2 c) (pairs_of q) /\ (Nat.div2 c <= length (pairs_of p))%nat.
Proof.
  assert (G : forall k (p q : list E) c, (c <= k)%nat -> firstn c p = firstn c q -> (c <= length p)%nat -> (c <= length q)%nat ->
    firstn (Nat.div2 c) (pairs_of p) = firstn (Nat.div2 c) (pairs_of q) /\ (Nat.div2 c <= length (pairs_of p))%nat).
  { clear. induction k as [|k IH]; intros p q c Hk E1 Lp Lq.
    - assert (c = O) by lia. subst. cbn. split; [reflexivity|lia].
    - destruct c as [|[|c]]; [cbn; split; [reflexivity|lia]|cbn; split; [reflexivity|lia]|].
      destruct p as [|x [|y p]]; cbn in Lp; try lia. destruct q as [|x' [|y' q]]; cbn in Lq; try lia.
      cbn in E1. inversion E1; subst. cbn. destruct (IH p q c) as [A B]; try lia; auto. split; [f_equal; exact A|lia]. }
  intros c. apply (G c). lia.
Qed.
Lemma update_share_mdp {K} `{Num K} n (ini : list K) (w : string * string -> nat -> nat -> K) p q :
  updateAlphaMatrix n (map w (pairs_of q)) (Nat.div2 (common_prefix p q)) (bw_alphas n ini (map w (pairs_of p))) = bw_alphas n ini (map w (pairs_of q)).
Proof.
  destruct (common_prefix_spec p q) as [A [B C]]. destruct (firstn_pairs p q _ C A B) as [D E].
  destruct (firstn_pairs q p _ (eq_sym C) B A) as [D' E'].
  apply updateAlpha_spec; [rewrite map_length; exact E'|].
  rewrite bw_alphas_firstn by (rewrite map_length; exact E). rewrite !firstn_map, D. reflexivity.
Qed.

(** ** Single-process version *)

Lemma oneproc_loop_spec n tau (ini : list R) l : length ini = n -> forall prev alpha ll,
  (match prev with None => exists k, alpha = initAlphaMatrix n ini k | Some p => alpha = bw_alphas n ini (map (fun o ss s => tau ss s o) p) end) ->
  oneproc_loop n tau l prev alpha ll = ll + set_ll (fun tr => tot n (vget ini) (map (fun o ss s => tau ss s o) tr) (fun _ => 1)) l.
Proof.
  intros Lini. induction l as [|[sq t] l IH]; intros prev alpha ll HI; [unfold set_ll, sumL; cbn; ring|].
  cbn [oneproc_loop]. 
  assert (E : updateAlphaMatrix n (map (fun o ss s => tau ss s o) sq) (match prev with None => O | Some p => common_prefix p sq end) alpha = bw_alphas n ini (map (fun o ss s => tau ss s o) sq)).
  { destruct prev as [p|]; [rewrite HI; apply (update_share n ini (fun o ss s => tau ss s o))|]. destruct HI as [k ->]. apply update_init. }
  rewrite E. rewrite IH by reflexivity. unfold set_ll. rewrite sumL_cons. cbn [fst snd].
  change (nsum (last (bw_alphas n ini (map (fun o ss s => tau ss s o) sq)) [])) with (proba_of (bw_alphas n ini (map (fun o ss s => tau ss s o) sq))).
  rewrite (proba_model n) by exact Lini.
  set (P := tot n (vget ini) _ _). rewrite ?Rltb_leb. nR. destruct (Rlt_dec 0 P) as [Pp|Pp].
  - assert (Rleb P 0 = false) as -> by (apply Rleb_false; exact Pp). cbn [negb]. nR. ring.
  - assert (Rleb P 0 = true) as -> by (apply Rleb_true; lra). cbn [negb]. ring.
Qed.

Lemma sort_perm (s : tset (list string)) : length (times s) = length (seqs s) ->
  Permutation (combine (seqs s) (times s)) (combine (seqs (sort trace_eqb trace_leb s)) (times (sort trace_eqb trace_leb s))) /\
  length (times (sort trace_eqb trace_leb s)) = length (seqs (sort trace_eqb trace_leb s)).
Proof.
  intros L.
  destruct (sort_spec trace_eqb (lex_eqb_decides String.eqb string_eqb_decides) trace_leb
    (lex_total String.eqb String.leb string_eqb_decides string_leb_total)
    (lex_trans String.eqb String.leb string_eqb_decides string_leb_trans string_leb_antisym)
    (lex_antisym String.eqb String.leb string_eqb_decides string_leb_antisym) s L) as [_ [A [_ [B _]]]]. auto.
Qed.

Lemma set_ll_perm {T} (prob : T -> R) l m : Permutation l m -> set_ll prob l = set_ll prob m.
Proof. intros P. apply sumL_perm. exact P. Qed.
Lemma zsum_perm l m : Permutation l m -> zsum l = zsum m.
Proof. induction 1; cbn; lia. Qed.
Lemma avg_ll_perm {T} (prob : T -> R) l m : Permutation l m -> avg_ll prob l = avg_ll prob m.
Proof.
  intros P. unfold avg_ll. rewrite (set_ll_perm prob l m P). f_equal. f_equal. apply zsum_perm. apply Permutation_map. exact P.
Qed.
Lemma set_ll_ext {T} (p q : T -> R) set : (forall x t, In (x, t) set -> p x = q x) -> set_ll p set = set_ll q set.
Proof. intros E. apply sumL_ext. intros [x t] I. cbn. rewrite (E x t I). reflexivity. Qed.
Lemma avg_ll_ext {T} (p q : T -> R) set : (forall x t, In (x, t) set -> p x = q x) -> avg_ll p set = avg_ll q set.
Proof. intros E. unfold avg_ll. rewrite (set_ll_ext p q set E). reflexivity. Qed.

Lemma oneproc_spec n tau (ini : list R) (s : tset (list string)) : length ini = n -> length (times s) = length (seqs s) -> seqs s <> [] ->
  model_oneproc n tau ini s =
  Ok (avg_ll (fun tr => tot n (vget ini) (map (fun o ss s => tau ss s o) tr) (fun _ => 1)) (combine (seqs s) (times s)), sort trace_eqb trace_leb s).
Proof.
  intros Lini L NE. destruct (sort_perm s L) as [P Ls]. unfold model_oneproc.
  set (s' := sort trace_eqb trace_leb s) in *.
  destruct (seqs s') as [|first rest] eqn:Es.
  { exfalso. apply NE. apply Permutation_map with (f := fst) in P. cbn in P.
    rewrite map_fst_combine in P by exact L. apply Permutation_sym, Permutation_nil in P. exact P. }
  rewrite <- Es. rewrite (oneproc_loop_spec n tau ini) by (auto; exists (length first); reflexivity).
  f_equal. f_equal. rewrite (avg_ll_perm _ _ _ P). unfold avg_ll. rewrite Es, zsum_combine by exact Ls. nR. f_equal. ring.
Qed.

(** MDP *)
Lemma mdp_prob_nonneg_dec (p : R) (t : Z) : 0 <= p -> (if p =? 0 then 0 else nln p * nofZ t)%num = if Rlt_dec 0 p then IZR t * ln p else 0.
Proof.
  intros H. nR. destruct (Reqb p 0) eqn:E.
  - apply Reqb_true in E. destruct (Rlt_dec 0 p); [lra|reflexivity].
  - apply Reqb_false in E. destruct (Rlt_dec 0 p); [ring|lra].
Qed.
Lemma mdp_multiproc_spec (m : mdp R) (s : tset (list string)) (prob : list string -> R) :
  length (times s) = length (seqs s) -> (forall x, In x (seqs s) -> mdp_prob m x = Ok (prob x)) -> (forall x, In x (seqs s) -> 0 <= prob x) ->
  mdp_logLikelihood m s = Ok (avg_ll prob (combine (seqs s) (times s))).
Proof.
  intros L E N. unfold mdp_logLikelihood.
  rewrite (mmap_ok _ (fun st => if Rlt_dec 0 (prob (fst st)) then IZR (snd st) * ln (prob (fst st)) else 0)).
  - cbn [bind]. unfold avg_ll. rewrite zsum_combine by exact L. f_equal. toR. f_equal. unfold set_ll, sumL.
    induction (combine (seqs s) (times s)) as [|st l IH]; [reflexivity|]. cbn [map not_false flat_map]. rewrite rsum_app.
    unfold not_false in IH. rewrite IH, rsum_cons. f_equal. nR. destruct (Reqb _ 0) eqn:Z; [apply Reqb_true in Z; rewrite Z; reflexivity|].
    rewrite rsum_cons, rsum_nil. ring.
  - intros [x t] I. unfold mdp_computeAlphas. cbn [fst snd]. apply in_combine_l in I. rewrite E by exact I. cbn [bind].
    rewrite mdp_prob_nonneg_dec by (apply N; exact I). reflexivity.
Qed.

Lemma index_of_In {X} (eqb : X -> X -> bool) x l : (forall x y, eqb x y = true <-> x = y) -> In x l -> exists i, index_of eqb x l = Some i /\ nth_error l i = Some x.
Proof.
  intros De. induction l as [|y l IH]; intros I; [destruct I|]. cbn. destruct (eqb x y) eqn:E.
  - apply De in E. subst. exists O. auto.
  - destruct I as [->|I]; [rewrite (proj2 (De x x) eq_refl) in E; discriminate|]. destruct (IH I) as [i [A B]]. rewrite A. exists (S i). auto.
Qed.

Lemma mdp_oneproc_loop_spec (m : mdp R) (orig : tset (list string)) l : length (mdp_ini m) = mdp_n m -> NoDup (seqs orig) -> length (times orig) = length (seqs orig) ->
  forall prev alpha ll, incl l (seqs orig) -> ~ In [] l ->
  (match prev with None => exists k, alpha = initAlphaMatrix (mdp_n m) (mdp_ini m) k | Some p => alpha = bw_alphas (mdp_n m) (mdp_ini m) (map (mdp_w m) (pairs_of p)) end) ->
  mdp_oneproc_loop m orig l prev alpha ll = Ok (ll + sumL l (fun tr =>
     let P := tot (mdp_n m) (vget (mdp_ini m)) (map (mdp_w m) (pairs_of tr)) (is_label (mdp_lab m) (last tr EmptyString)) in
     if Rlt_dec 0 P then IZR (wmult trace_eqb tr (combine (seqs orig) (times orig))) * ln P else 0)).
Proof.
  intros Lini ND Lt. induction l as [|sq l IH]; intros prev alpha ll Hin Hne HI; [unfold sumL; cbn; f_equal; ring|].
  cbn [mdp_oneproc_loop].
  destruct (index_of_In trace_eqb sq (seqs orig) (lex_eqb_decides String.eqb string_eqb_decides)) as [i [Ei Ni]]; [apply Hin; left; reflexivity|].
  rewrite Ei. destruct (rev sq) as [|lst r] eqn:Er.
  { exfalso. apply Hne. left. apply (f_equal (@rev string)) in Er. rewrite rev_involutive in Er. exact Er. }
  rewrite (rev_last _ _ _ EmptyString Er).
  assert (E : updateAlphaMatrix (mdp_n m) (map (mdp_w m) (pairs_of sq)) (Nat.div2 (match prev with None => O | Some p => common_prefix p sq end)) alpha = bw_alphas (mdp_n m) (mdp_ini m) (map (mdp_w m) (pairs_of sq))).
  { destruct prev as [p|]; [rewrite HI; apply update_share_mdp|]. destruct HI as [k ->]. apply update_init. }
  rewrite E. rewrite IH; [|intros x I; apply Hin; right; exact I|intros I; apply Hne; right; exact I|reflexivity].
  f_equal. rewrite sumL_cons. cbn zeta.
  pose proof (proba_model_mask (mdp_n m) (mdp_ini m) (lab_mask (mdp_n m) (mdp_lab m) (last sq EmptyString)) (map (mdp_w m) (pairs_of sq)) Lini (lab_mask_length _ _ _)) as EP.
  unfold proba_of, mask_last in EP. rewrite last_last in EP. rewrite EP. clear EP.
  rewrite (tot_ext_f _ _ _ _ (is_label (mdp_lab m) (last sq EmptyString))) by (intros; apply lab_mask_get; assumption).
  set (P := tot _ _ _ _).
  assert (Ew : wmult trace_eqb sq (combine (seqs orig) (times orig)) = nth i (times orig) 0%Z).
  { clear - Ei Ni ND Lt. revert i Ei Ni Lt. generalize (times orig). induction (seqs orig) as [|y ys IHy]; intros ts i Ei Ni Lt; [discriminate|].
    destruct ts as [|t ts]; [discriminate|]. inversion ND; subst. cbn in Ei |- *. destruct (trace_eqb sq y) eqn:E.
    - inversion Ei; subst. cbn. enough (wmult trace_eqb sq (combine ys ts) = 0%Z) by lia.
      apply (lex_eqb_decides String.eqb string_eqb_decides) in E. subst y. clear - H1. revert ts. induction ys as [|z ys IH]; intros [|t ts]; try reflexivity.
      cbn. destruct (trace_eqb sq z) eqn:E; [apply (lex_eqb_decides String.eqb string_eqb_decides) in E; subst; exfalso; apply H1; left; reflexivity|].
      rewrite IH; [reflexivity|]. intros I; apply H1; right; exact I.
    - destruct (index_of trace_eqb sq ys) as [j|] eqn:Ej; [|discriminate]. inversion Ei; subst. cbn in Ni |- *. rewrite (IHy H2 ts j); auto. }
  rewrite ?Rltb_leb. nR. destruct (Rlt_dec 0 P) as [Pp|Pp].
  - assert (Rleb P 0 = false) as -> by (apply Rleb_false; exact Pp). cbn [negb]. nR. rewrite Ew. ring.
  - assert (Rleb P 0 = true) as -> by (apply Rleb_true; lra). cbn [negb]. ring.
Qed.

Lemma sumL_wmult (F : list string -> R) ss : NoDup ss -> forall ts, length ts = length ss ->
  sumL ss (fun x => IZR (wmult trace_eqb x (combine ss ts)) * F x) = sumL (combine ss ts) (fun st => IZR (snd st) * F (fst st)).
Proof.
  intros ND. induction ND as [|x ss NI ND IH]; intros [|t ts] L; try discriminate; [reflexivity|]. cbn [combine]. rewrite !sumL_cons. cbn [fst snd].
  rewrite <- IH by (cbn in L; lia). f_equal.
  - f_equal. f_equal. cbn [wmult].
    assert (trace_eqb x x = true) as -> by (apply (lex_eqb_decides String.eqb string_eqb_decides); reflexivity).
    enough (wmult trace_eqb x (combine ss ts) = 0%Z) by lia.
    clear - NI. revert ts. induction ss as [|z ys IH]; intros [|t ts]; try reflexivity.
    cbn. destruct (trace_eqb x z) eqn:E; [apply (lex_eqb_decides String.eqb string_eqb_decides) in E; subst; exfalso; apply NI; left; reflexivity|].
    rewrite IH; [reflexivity|]. intros I; apply NI; right; exact I.
  - apply sumL_ext. intros y I. cbn. destruct (trace_eqb y x) eqn:E; [|reflexivity].
    apply (lex_eqb_decides String.eqb string_eqb_decides) in E; subst. contradiction.
Qed.

Lemma mdp_oneproc_spec (m : mdp R) (s : tset (list string)) : length (mdp_ini m) = mdp_n m -> wf_set s -> seqs s <> [] -> ~ In [] (seqs s) ->
  mdp_oneproc m s = Ok (avg_ll (fun tr => tot (mdp_n m) (vget (mdp_ini m)) (map (mdp_w m) (pairs_of tr)) (is_label (mdp_lab m) (last tr EmptyString)))
                          (combine (seqs s) (times s))).
Proof.
  intros Lini [L ND] NE NI. unfold mdp_oneproc.
  set (s0 := mkset (seqs s) (map (fun _ => 0%Z) (seqs s)) (ty s)).
  destruct (sort_perm s0) as [P Ls]; [cbn; apply map_length|].
  assert (Pf : Permutation (seqs s) (seqs (sort trace_eqb trace_leb s0))).
  { apply Permutation_map with (f := fst) in P. rewrite !map_fst_combine in P by (auto; cbn; apply map_length). exact P. }
  clear P Ls. destruct (seqs (sort trace_eqb trace_leb s0)) as [|first rest] eqn:Es.
  { apply Permutation_sym, Permutation_nil in Pf. contradiction. }
  rewrite <- Es in *. rewrite mdp_oneproc_loop_spec; auto.
  - cbn [bind]. f_equal. unfold avg_ll. rewrite zsum_combine by exact L. nR. f_equal. rewrite Rplus_0_l.
    rewrite <- (sumL_perm _ _ _ Pf). cbn zeta.
    set (Q := fun tr => tot (mdp_n m) (vget (mdp_ini m)) (map (mdp_w m) (pairs_of tr)) (is_label (mdp_lab m) (last tr EmptyString))).
    unfold set_ll. rewrite (sumL_ext (combine _ _) _ (fun st => IZR (snd st) * (if Rlt_dec 0 (Q (fst st)) then ln (Q (fst st)) else 0))).
    2:{ intros st I. destruct (Rlt_dec 0 (Q (fst st))); ring. }
    rewrite <- (sumL_wmult (fun x => if Rlt_dec 0 (Q x) then ln (Q x) else 0)) by auto. apply sumL_ext. intros x I. fold (Q x).
    destruct (Rlt_dec 0 (Q x)); ring.
  - intros x I. apply (Permutation_in _ (Permutation_sym Pf)). exact I.
  - intros I. apply NI. apply (Permutation_in _ (Permutation_sym Pf)). exact I.
  - exists (Nat.div2 (length first)). reflexivity.
Qed.

(** ** Only multiplicities matter *)
Section Mult.
  Context {A : Type} (eqb : A -> A -> bool) (De : decides_eq eqb).
  Lemma wmult_sum (F : A -> R) (l : list (A * Z)) : forall D, NoDup D -> (forall x t, In (x, t) l -> In x D) ->
    sumL l (fun st => IZR (snd st) * F (fst st)) = sumL D (fun x => IZR (wmult eqb x l) * F x).
  Proof.
    induction l as [|[y t] l IH]; intros D ND H.
    - cbn. symmetry. apply sumL_zero_ext. intros; cbn; ring.
    - rewrite sumL_cons, (IH D) by (auto; intros x u I; apply (H x u); right; exact I). cbn [fst snd].
      assert (Hy : In y D) by (apply (H y t); left; reflexivity).
      rewrite (sumL_ext D (fun x => IZR (wmult eqb x ((y, t) :: l)) * F x) (fun x => (if eqb x y then IZR t * F x else 0) + IZR (wmult eqb x l) * F x)).
      2:{ intros x _. cbn. rewrite plus_IZR. destruct (eqb x y); ring. }
      rewrite sumL_plus. f_equal. clear - De ND Hy. induction ND as [|x D NI ND IH]; [destruct Hy|]. rewrite sumL_cons.
      destruct (eqb x y) eqn:E.
      + apply De in E. subst. rewrite sumL_zero_ext; [ring|]. intros z Iz. destruct (eqb z y) eqn:E; [apply De in E; subst; contradiction|reflexivity].
      + rewrite <- IH; [ring|]. destruct Hy as [->|Hy]; [rewrite (proj2 (De y y) eq_refl) in E; discriminate|exact Hy].
  Qed.
  Lemma all_nodup (l : list A) : exists D, NoDup D /\ forall x, In x l -> In x D.
  Proof.
    induction l as [|x l [D [ND H]]]; [exists []; split; [constructor|intros ? []]|].
    destruct (existsb (eqb x) D) eqn:E.
    - apply existsb_exists in E. destruct E as [y [I E]]. apply De in E. subst. exists D. split; [exact ND|]. intros z [<-|Iz]; auto.
    - exists (x :: D). split.
      + constructor; [|exact ND]. intros I. assert (existsb (eqb x) D = true); [|congruence]. apply existsb_exists. exists x. split; [exact I|]. apply De; reflexivity.
      + intros z [<-|Iz]; [left; reflexivity|right; auto].
  Qed.
  Lemma sum_mult_eq (F : A -> R) l m : (forall x, wmult eqb x l = wmult eqb x m) ->
    sumL l (fun st => IZR (snd st) * F (fst st)) = sumL m (fun st => IZR (snd st) * F (fst st)).
  Proof.
    intros E. destruct (all_nodup (map fst l ++ map fst m)) as [D [ND H]].
    rewrite (wmult_sum F l D), (wmult_sum F m D); auto.
    - apply sumL_ext. intros x _. rewrite E. reflexivity.
    - intros x t I. apply H. rewrite in_app_iff. right. change x with (fst (x, t)). apply in_map; exact I.
    - intros x t I. apply H. rewrite in_app_iff. left. change x with (fst (x, t)). apply in_map; exact I.
  Qed.
  Lemma avg_ll_mult (prob : A -> R) l m : (forall x, wmult eqb x l = wmult eqb x m) -> avg_ll prob l = avg_ll prob m.
  Proof.
    intros E. unfold avg_ll. f_equal.
    - unfold set_ll. rewrite (sumL_ext l _ (fun st => IZR (snd st) * (if Rlt_dec 0 (prob (fst st)) then ln (prob (fst st)) else 0))) by (intros st _; destruct (Rlt_dec 0 (prob (fst st))); ring).
      rewrite (sumL_ext m _ (fun st => IZR (snd st) * (if Rlt_dec 0 (prob (fst st)) then ln (prob (fst st)) else 0))) by (intros st _; destruct (Rlt_dec 0 (prob (fst st))); ring).
      apply (sum_mult_eq (fun x => if Rlt_dec 0 (prob x) then ln (prob x) else 0)). exact E.
    - assert (G : forall k : list (A * Z), IZR (zsum (map snd k)) = sumL k (fun st => IZR (snd st) * 1)).
      { induction k as [|st k IH]; [reflexivity|]. cbn [map zsum]. rewrite plus_IZR, IH, sumL_cons. ring. }
      rewrite !G. apply (sum_mult_eq (fun _ => 1)). exact E.
  Qed.
End Mult.

(** ** All traces of a given length *)
Section Words.
  Context {O : Type} (n : nat) (B : O -> nat -> R).
  Fixpoint hB (As : list (nat -> nat -> R)) (tr : list O) (s : nat) : R :=
    match tr, As with
    | [o], [] => B o s
    | o :: r, A :: As' => B o s * Sum n (fun s' => A s s' * hB As' r s')
    | _, _ => 0
    end.
  Lemma hB_paths As : forall tr s, length tr = S (length As) ->
    sumL (paths n (length As)) (fun y => path_weight As (map B tr) (s :: y)) = hB As tr s.
  Proof.
    induction As as [|A As IH]; intros tr s L.
    - destruct tr as [|o [|]]; try discriminate. unfold sumL. cbn. ring.
    - destruct tr as [|o [|o' r]]; try discriminate. cbn [length] in L.
      cbn [length]. rewrite sumL_paths_S.
      change (hB (A :: As) (o :: o' :: r) s) with (B o s * Sum n (fun s' => A s s' * hB As (o' :: r) s')).
      rewrite <- Sum_scal_l. apply Sum_ext. intros s' Hs'. rewrite <- IH by (cbn; lia). rewrite <- !sumL_scal_l. apply sumL_ext. intros y _.
      change (path_weight (A :: As) (map B (o :: o' :: r)) (s :: s' :: y)) with (B o s * (A s s' * path_weight As (map B (o' :: r)) (s' :: y))). reflexivity.
  Qed.
  Lemma trace_prob_hB pi As tr : length tr = S (length As) -> trace_prob n pi As (map B tr) = Sum n (fun s => pi s * hB As tr s).
  Proof.
    intros L. unfold trace_prob. rewrite map_length, L, sumL_paths_S. apply Sum_ext. intros s Hs. cbn [hd].
    rewrite <- hB_paths by exact L. rewrite <- sumL_scal_l. reflexivity.
  Qed.
  Lemma words_length (alph : list O) T tr : In tr (words alph T) -> length tr = T.
  Proof.
    revert tr. induction T as [|T IH]; intros tr I; cbn in I.
    - destruct I as [<-|[]]; reflexivity.
    - apply in_flat_map in I. destruct I as [o [_ I]]. apply in_map_iff in I. destruct I as [r [<- I]]. cbn. f_equal. apply IH; exact I.
  Qed.
  Lemma words_In (alph : list O) tr : (forall o, In o tr -> In o alph) -> In tr (words alph (length tr)).
  Proof.
    induction tr as [|o tr IH]; intros H; [left; reflexivity|]. cbn. apply in_flat_map. exists o. split; [apply H; left; reflexivity|].
    apply in_map. apply IH. intros; apply H; right; assumption.
  Qed.
  Lemma hB_sum alph c As : (forall s, (s < n)%nat -> sumL alph (fun o => B o s) = 1) -> Forall (fun A => forall s, (s < n)%nat -> Sum n (A s) = c) As -> c = 1 ->
    forall s, (s < n)%nat -> sumL (words alph (S (length As))) (fun tr => hB As tr s) = 1.
  Proof.
    intros HB HA ->. induction HA as [|A As HA1 HA IH]; intros s Hs.
    - cbn [length words]. rewrite sumL_flat_map. rewrite <- (HB s Hs). apply sumL_ext. intros o _. unfold sumL. cbn. ring.
    - cbn [length]. cbn [words]. rewrite sumL_flat_map. rewrite <- (HB s Hs). apply sumL_ext. intros o _. rewrite sumL_map.
      rewrite (sumL_ext _ _ (fun r => B o s * Sum n (fun s' => A s s' * hB As r s'))).
      + rewrite sumL_scal_l. unfold Sum. rewrite sumL_swap.
        rewrite (sumL_ext (seq 0 n) _ (A s)).
        * change (sumL (seq 0 n) (A s)) with (Sum n (A s)). rewrite HA1 by exact Hs. ring.
        * intros s' I. apply in_seq in I. rewrite sumL_scal_l. 
          change (flat_map (fun o0 : O => map (cons o0) (words alph (length As))) alph) with (words alph (S (length As))). rewrite IH by lia. ring.
      + intros r Ir. 
        change (flat_map (fun o0 : O => map (cons o0) (words alph (length As))) alph) with (words alph (S (length As))) in Ir.
        apply words_length in Ir. destruct r; [discriminate|]. reflexivity.
  Qed.
  Lemma words_total alph pi As : (forall s, (s < n)%nat -> sumL alph (fun o => B o s) = 1) -> Forall (fun A => forall s, (s < n)%nat -> Sum n (A s) = 1) As ->
    Sum n pi = 1 -> sumL (words alph (S (length As))) (fun tr => trace_prob n pi As (map B tr)) = 1.
  Proof.
    intros HB HA Hpi. rewrite (sumL_ext _ _ (fun tr => Sum n (fun s => pi s * hB As tr s))).
    - unfold Sum. rewrite sumL_swap. rewrite <- Hpi. unfold Sum. apply sumL_ext. intros s I. apply in_seq in I. rewrite sumL_scal_l.
      rewrite (hB_sum alph 1) by (auto; lia). ring.
    - intros tr I. apply trace_prob_hB. apply words_length in I. exact I.
  Qed.
  Lemma hB_nonneg As : (forall o s, (s < n)%nat -> 0 <= B o s) -> Forall (okw n) As -> forall tr s, (s < n)%nat -> 0 <= hB As tr s.
  Proof.
    intros HB HA. induction HA as [|A As HA1 HA IH]; intros tr s Hs.
    - destruct tr as [|o [|]]; cbn; try lra. auto.
    - destruct tr as [|o r]; [cbn; lra|]. replace (hB (A :: As) (o :: r) s) with (B o s * Sum n (fun s' => A s s' * hB As r s')) by (destruct r; reflexivity).
      apply Rmult_le_pos; [auto|]. apply Sum_nonneg. intros; apply Rmult_le_pos; auto.
  Qed.
  Lemma trace_prob_nonneg pi As tr : (forall o s, (s < n)%nat -> 0 <= B o s) -> Forall (okw n) As -> okf n pi -> length tr = S (length As) ->
    0 <= trace_prob n pi As (map B tr).
  Proof.
    intros HB HA Hpi L. rewrite trace_prob_hB by exact L. apply Sum_nonneg. intros s Hs. apply Rmult_le_pos; [auto|]. apply hB_nonneg; auto.
  Qed.
  Lemma hB_le1 As : (forall o s, (s < n)%nat -> 0 <= B o s <= 1) -> Forall (okw n) As -> Forall (fun A => forall s, (s < n)%nat -> Sum n (A s) <= 1) As -> 
    forall tr s, (s < n)%nat -> hB As tr s <= 1.
  Proof.
    intros HB HA HS. revert HA. induction HS as [|A As HA1 HS IH]; intros HA tr s Hs; inversion HA; subst.
    - destruct tr as [|o [|]]; cbn; try lra. apply HB; exact Hs.
    - destruct tr as [|o r]; [cbn; lra|]. replace (hB (A :: As) (o :: r) s) with (B o s * Sum n (fun s' => A s s' * hB As r s')) by (destruct r; reflexivity).
      assert (0 <= Sum n (fun s' => A s s' * hB As r s')) by (apply Sum_nonneg; intros; apply Rmult_le_pos; [auto|apply hB_nonneg; auto; intros; apply HB; assumption]).
      assert (Sum n (fun s' => A s s' * hB As r s') <= 1).
      { apply Rle_trans with (Sum n (A s)); [|auto]. apply Sum_le. intros i Hi. rewrite <- (Rmult_1_r (A s i)) at 2. apply Rmult_le_compat_l; auto. }
      destruct (HB o s Hs). nra.
  Qed.
  Lemma trace_prob_le1 pi As tr : (forall o s, (s < n)%nat -> 0 <= B o s <= 1) -> Forall (okw n) As -> Forall (fun A => forall s, (s < n)%nat -> Sum n (A s) <= 1) As -> 
    okf n pi -> Sum n pi <= 1 -> length tr = S (length As) -> trace_prob n pi As (map B tr) <= 1.
  Proof.
    intros HB HA HS Hpi H1 L. rewrite trace_prob_hB by exact L. apply Rle_trans with (Sum n pi); [|exact H1]. apply Sum_le. intros s Hs.
    rewrite <- (Rmult_1_r (pi s)) at 2. apply Rmult_le_compat_l; auto. apply hB_le1; auto.
  Qed.
End Words.

Lemma is_label_total labels alph s : NoDup alph -> (s < length labels)%nat -> (forall o, In o labels -> In o alph) ->
  sumL alph (fun o => is_label labels o s) = 1.
Proof.
  intros ND Hs H. assert (I : In (nth s labels EmptyString) alph) by (apply H, nth_In; exact Hs). unfold is_label.
  generalize dependent (nth s labels EmptyString). intros x I. clear - ND I. induction ND as [|y alph NI ND IH]; [destruct I|]. rewrite sumL_cons.
  destruct (String.eqb_spec x y) as [->|N].
  - rewrite sumL_zero_ext; [ring|]. intros z Iz. destruct (String.eqb_spec y z); [subst; contradiction|reflexivity].
  - rewrite IH; [ring|]. destruct I as [->|I]; [congruence|exact I].
Qed.
Lemma is_label_01 labels o s : 0 <= is_label labels o s <= 1.
Proof. unfold is_label. destruct (String.eqb _ _); lra. Qed.

Lemma emit_total (m : hmm R) s : wf_hmm m -> (s < hmm_n m)%nat -> sumL (hmm_alph m) (fun o => emit m o s) = rsum (nth s (hmm_out m) []).
Proof.
  intros W Hs. destruct W as [_ [Lo [Lr [ND _]]]].
  rewrite rsum_nth. rewrite (Lr (nth s (hmm_out m) [])) by (apply nth_In; lia). unfold emit, Sum at 1. rewrite sumL_swap.
  apply sumL_ext. intros i I. apply in_seq in I. unfold matR.
  assert (In (nth i (hmm_alph m) EmptyString) (hmm_alph m)) as Hi by (apply nth_In; lia). generalize dependent (nth i (hmm_alph m) EmptyString).
  clear - ND. intros x Hx. induction ND as [|y alph NI ND IH]; [destruct Hx|]. rewrite sumL_cons.
  destruct (String.eqb_spec x y) as [->|N].
  - rewrite sumL_zero_ext; [ring|]. intros z Iz. destruct (String.eqb_spec y z); [subst; contradiction|reflexivity].
  - rewrite IH; [ring|]. destruct Hx as [->|Hx]; [congruence|exact Hx].
Qed.
Lemma emit_nonneg (m : hmm R) o s : nonneg_mat (hmm_out m) -> 0 <= emit m o s.
Proof.
  intros N. unfold emit. apply Sum_nonneg. intros i Hi. destruct (String.eqb _ _); [|lra]. unfold matR.
  destruct (Nat.lt_ge_cases s (length (hmm_out m))) as [Hs|Hs].
  - destruct (Nat.lt_ge_cases i (length (nth s (hmm_out m) []))) as [Hj|Hj].
    + apply (N (nth s (hmm_out m) [])); apply nth_In; assumption.
    + rewrite nth_overflow by exact Hj. lra.
  - rewrite (nth_overflow (hmm_out m)) by exact Hs. destruct i; cbn; lra.
Qed.

(** Lemmas which hold in any arithmetic, and facts about double precision. *)
From Coq Require Import String ZArith Bool List Lia PrimFloat FloatOps FloatAxioms SpecFloat.
From Verif Require Import Num Py MTools MSet MModels MLik MBW MRun MFloat.
Import ListNotations.

(** ** Zeros: a class of numbers closed under the operations *)
Section Null.
  Context {K : Type} `{NK : Num K}.
  Variable null : K -> Prop.
  Hypotheses (null0 : null n0) (null_add : forall x y, null x -> null y -> null (nadd x y))
    (null_mul_l : forall x y, null x -> null (nmul x y)) (null_mul_r : forall x y, null y -> null (nmul x y))
    (null_div : forall x y, null x -> null (ndiv x y)).

  Lemma null_sum l : (forall x, In x l -> null x) -> null (nsum l).
  Proof. induction l as [|x l IH]; intros A; [exact null0|]. cbn. apply null_add; [apply A; left; reflexivity|]. apply IH. intros y I. apply A. right. exact I. Qed.
  Lemma in_zipwith {A B C} (f : A -> B -> C) l m x : In x (zipwith f l m) -> exists a b, In a l /\ In b m /\ x = f a b.
  Proof.
    revert m. induction l as [|a l IH]; intros [|b m]; cbn [zipwith]; [intros []|intros []|intros []|]. intros [<-|I]; [exists a, b; cbn; auto|].
    destruct (IH m I) as (a' & b' & Ia & Ib & ->). exists a', b'. cbn. auto.
  Qed.
  Lemma null_zip_r l m : (forall x, In x m -> null x) -> forall x, In x (zipwith nmul l m) -> null x.
  Proof. intros A x I. apply in_zipwith in I as (a & b & _ & Ib & ->). apply null_mul_r, A, Ib. Qed.
  Lemma null_zip_l l m : (forall x, In x l -> null x) -> forall x, In x (zipwith nmul l m) -> null x.
  Proof. intros A x I. apply in_zipwith in I as (a & b & Ia & _ & ->). apply null_mul_l, A, Ia. Qed.
  Lemma null_fac l f : (forall x, In x l -> null x) -> forall x, In x (map (fun x => nmul x f) l) -> null x.
  Proof. intros A x I. apply in_map_iff in I as (y & <- & I). apply null_mul_l, A, I. Qed.
  (** entries: out of range they are 0 *)
  Lemma null_vget v s : (forall x, nth_error v s = Some x -> null x) -> null (vget v s).
  Proof.
    intros A. unfold vget. destruct (nth_error v s) as [x|] eqn:E; [rewrite (nth_error_nth _ _ _ E); apply A; reflexivity|].
    apply nth_error_None in E. rewrite nth_overflow by exact E. exact null0.
  Qed.
  Lemma null_build n f s : ((s < n)%nat -> null (f s)) -> null (vget (vbuild n f) s).
  Proof.
    intros A. unfold vget, vbuild. destruct (Nat.lt_ge_cases s n) as [L|L].
    - rewrite (nth_indep _ n0 (f 0%nat)) by (rewrite map_length, seq_length; exact L). rewrite map_nth, seq_nth by exact L. apply A, L.
    - rewrite nth_overflow by (rewrite map_length, seq_length; exact L). exact null0.
  Qed.
  Lemma nth_build {A} n (f : nat -> list A) s : nth s (vbuild n f) [] = [] \/ (s < n)%nat /\ nth s (vbuild n f) [] = f s.
  Proof.
    unfold vbuild. destruct (Nat.lt_ge_cases s n) as [L|L]; [right|left].
    - split; [exact L|]. rewrite (nth_indep _ [] (f 0%nat)) by (rewrite map_length, seq_length; exact L). rewrite map_nth, seq_nth by exact L. reflexivity.
    - rewrite nth_overflow by (rewrite map_length, seq_length; exact L). reflexivity.
  Qed.
  Lemma null_nil s : null (vget [] s).
  Proof. unfold vget. destruct s; exact null0. Qed.
  Lemma null_map {A} (f : A -> K) l j : (forall x, nth_error l j = Some x -> null (f x)) -> null (vget (map f l) j).
  Proof. intros H. apply null_vget. intros x E. rewrite nth_error_map in E. destruct (nth_error l j); [|discriminate]. injection E as <-. apply H. reflexivity. Qed.
  (** sums of the statistics *)
  Lemma null_vadd l m s : null (vget l s) -> null (vget m s) -> null (vget (vadd l m) s).
  Proof.
    unfold vadd, vget. revert m s. induction l as [|x l IH]; intros [|y m] s; cbn [zipwith]; try (intros; destruct s; exact null0).
    destruct s as [|s]; cbn [nth]; [apply null_add|apply IH].
  Qed.
  Lemma null_vsum l s : (forall v, In v l -> null (vget v s)) -> null (vget (vsum_all l) s).
  Proof.
    destruct l as [|v l]; intros A; [apply null_nil|]. cbn [vsum_all]. assert (H : null (vget v s)) by (apply A; left; reflexivity).
    assert (B : forall u, In u l -> null (vget u s)) by (intros u I; apply A; right; exact I). clear A. revert v H. induction l as [|u l IH]; intros v H; [exact H|].
    cbn [fold_left]. apply IH; [intros w I; apply B; right; exact I|]. apply null_vadd; [exact H|apply B; left; reflexivity].
  Qed.
  Lemma null_madd l m s s' : null (mget l s s') -> null (mget m s s') -> null (mget (madd l m) s s').
  Proof.
    unfold madd, mget. revert m s. induction l as [|x l IH]; intros [|y m] s; cbn [zipwith]; try (intros; destruct s; apply null_nil).
    destruct s as [|s]; cbn [nth]; [apply null_vadd|apply IH].
  Qed.
  Lemma null_msum l s s' : (forall v, In v l -> null (mget v s s')) -> null (mget (msum_all l) s s').
  Proof.
    destruct l as [|v l]; intros A; [unfold mget; cbn; destruct s; apply null_nil|]. cbn [msum_all]. assert (H : null (mget v s s')) by (apply A; left; reflexivity).
    assert (B : forall u, In u l -> null (mget u s s')) by (intros u I; apply A; right; exact I). clear A. revert v H. induction l as [|u l IH]; intros v H; [exact H|].
    cbn [fold_left]. apply IH; [intros w I; apply B; right; exact I|]. apply null_madd; [exact H|apply B; left; reflexivity].
  Qed.
  Definition tget (t : list (list (list K))) s a s' : K := mget (nth s t []) a s'.
  Lemma null_tadd l m s a s' : null (tget l s a s') -> null (tget m s a s') -> null (tget (tadd l m) s a s').
  Proof.
    unfold tadd, tget. revert m s. induction l as [|x l IH]; intros [|y m] s; cbn [zipwith]; try (intros; destruct s; unfold mget; cbn; destruct a; apply null_nil).
    destruct s as [|s]; cbn [nth]; [apply null_madd|apply IH].
  Qed.
  Lemma null_tsum l s a s' : (forall v, In v l -> null (tget v s a s')) -> null (tget (tsum_all l) s a s').
  Proof.
    destruct l as [|v l]; intros A; [unfold tget, mget; cbn; destruct s; cbn; destruct a; apply null_nil|]. cbn [tsum_all]. assert (H : null (tget v s a s')) by (apply A; left; reflexivity).
    assert (B : forall u, In u l -> null (tget u s a s')) by (intros u I; apply A; right; exact I). clear A. revert v H. induction l as [|u l IH]; intros v H; [exact H|].
    cbn [fold_left]. apply IH; [intros w I; apply B; right; exact I|]. apply null_tadd; [exact H|apply B; left; reflexivity].
  Qed.
  (** the update *)
  Lemma null_new_row n den num old j : null (vget num j) -> null (vget old j) -> null (vget (new_row n den num old) j).
  Proof. intros A B. unfold new_row. destruct (neqb den n0); apply null_build; intros _; apply null_div; assumption. Qed.
  Lemma null_new_matrix n den num old s s' : null (mget num s s') -> null (mget old s s') -> null (mget (new_matrix n den num old) s s').
  Proof.
    intros A B. unfold new_matrix, mget. destruct (nth_build n (fun s => new_row n (vget den s) (nth s num []) (nth s old [])) s) as [->|[_ ->]]; [apply null_nil|].
    apply null_new_row; assumption.
  Qed.
  Lemma null_stat_num alphas betas p f s ss : (forall x, In x p -> null x) -> null (stat_num alphas betas p f s ss).
  Proof. intros A. apply null_sum, null_fac, null_zip_l, null_zip_r, A. Qed.

  (** the successful results of the workers *)
  Lemma unwrap_In {A} (l : list (option A)) l' x : unwrap l = Ok l' -> In x l' -> In (Some x) l.
  Proof.
    revert l'. induction l as [|[a|] l IH]; intros l' E I; cbn in E.
    - injection E as <-. destruct I.
    - destruct (unwrap l) as [l1|] eqn:E1; unfold unwrap in E1; rewrite E1 in E; cbn in E; [|discriminate]. injection E as <-. destruct I as [<-|I]; [left; reflexivity|right; apply (IH l1 eq_refl I)].
    - discriminate.
  Qed.
  Lemma run_In {S T} p (work : S -> Z -> option T) set x : In (Some x) (runProcesses p work set) -> exists tr t, In (tr, t) set /\ work tr t = Some x.
  Proof.
    unfold runProcesses. intros I. assert (J : In (Some x) (map (fun st => work (fst st) (snd st)) set)) by (destruct (1 <? p)%nat; [apply filter_In in I; apply I|exact I]).
    apply in_map_iff in J as ([tr t] & E & J). eauto.
  Qed.

  Lemma nth_error_zipwith {A B C} (f : A -> B -> C) l m j x : nth_error (zipwith f l m) j = Some x -> exists a b, nth_error l j = Some a /\ nth_error m j = Some b /\ x = f a b.
  Proof.
    revert m j. induction l as [|a l IH]; intros [|b m] [|j]; cbn [zipwith nth_error]; try discriminate; [|apply IH]. intros E. injection E as <-. eauto.
  Qed.
  (** the product of four columns, two of which are read along the trace *)
  Lemma in_zipwith4 {A} (f g : A -> K) l c d x : In x (zipwith nmul (zipwith nmul (zipwith nmul c (map f l)) d) (map g l)) ->
    exists u o v, In o l /\ x = nmul (nmul (nmul u (f o)) v) (g o).
  Proof.
    revert c d. induction l as [|o l IH]; intros [|u c] [|v d]; cbn [map zipwith]; try (intros []; fail).
    intros [<-|I]; [exists u, o, v; split; [left; reflexivity|reflexivity]|]. destruct (IH c d I) as (u' & o' & v' & J & ->). exists u', o', v'. split; [right; exact J|reflexivity].
  Qed.
  Lemma nodup_index (l : list string) j o : NoDup l -> nth_error l j = Some o -> index_of String.eqb o l = Some j.
  Proof.
    intros ND. revert j. induction ND as [|x l NI ND IH]; intros [|j] E; cbn in E; try discriminate.
    - injection E as <-. cbn. rewrite String.eqb_refl. reflexivity.
    - cbn. destruct (String.eqb_spec o x) as [->|_]; [exfalso; apply NI, (nth_error_In _ _ E)|]. rewrite (IH j E). reflexivity.
  Qed.

  Context `{TK : Trans K}.
  Lemma null_round_MC p set (m m' : mc K) ll : round_MC p set m = Ok (m', ll) -> forall s s', null (mget (mc_mat m) s s') -> null (mget (mc_mat m') s s').
  Proof.
    unfold round_MC, update_MC. intros E s s' Z. destruct (unwrap _) as [temp|] eqn:U; cbn [bind] in E; [|discriminate].
    destruct temp as [|t0 temp]; [discriminate|]. injection E as <- _. cbn [mc_mat]. apply null_new_matrix; [|exact Z].
    change (null (mget (msum_all (map sm_num (t0 :: temp))) s s')). apply null_msum. intros v I. apply in_map_iff in I as (st & <- & I).
    apply (unwrap_In _ _ _ U), run_In in I as (tr & t & _ & W). unfold processWork_MC in W. destruct (neqb _ n0); [discriminate|]. injection W as <-. cbn [sm_num]. unfold mget.
    match goal with |- null (vget (nth s (vbuild ?n ?f) []) s') => destruct (nth_build n f s) as [->|[_ ->]]; [apply null_nil|] end.
    apply null_build. intros _. apply null_stat_num. intros x J. apply in_map_iff in J as (o & <- & _). unfold mc_tau.
    destruct (negb _); [exact null0|exact Z].
  Qed.

  Lemma betas_cons n f ws : exists b bs, bw_betas n f ws = b :: bs.
  Proof. destruct ws; cbn; eauto. Qed.
  (** weights of the positions where [obs] is read, when [s] cannot emit it *)
  Lemma null_output (m : hmm K) obs s n f fac seq A x : null (hmm_b m s obs) ->
    In x (zipwith nmul (map (fun x => nmul x fac) (zipwith nmul A (col_init (bw_betas n f (hmm_ws m seq)) s))) (map (fun t => if String.eqb t obs then n1 else n0) seq)) -> null x.
  Proof.
    intros Z. revert A. induction seq as [|o seq IH]; intros A I; [apply in_zipwith in I as (_ & b & _ & [] & _)|].
    unfold col_init in *. cbn [hmm_ws map bw_betas] in I. fold (hmm_ws m seq) in I. destruct (betas_cons n f (hmm_ws m seq)) as (b & bs & E). rewrite E in *. cbn [removelast map] in I.
    destruct A as [|a A]; [destruct I|]. cbn [zipwith map] in I. destruct I as [<-|I]; [|apply (IH A); exact I].
    destruct (String.eqb_spec o obs) as [->|_]; [|apply null_mul_r, null0]. apply null_mul_l, null_mul_l, null_mul_r. apply null_build. intros _.
    apply null_sum, null_zip_r. intros y J. unfold vbuild in J. apply in_map_iff in J as (ss & <- & _). unfold hmm_tau. apply null_mul_r, Z.
  Qed.
  Lemma null_round_HMM p set (m m' : hmm K) ll : NoDup (hmm_alph m) -> round_HMM p set m = Ok (m', ll) ->
    (forall s s', null (mget (hmm_mat m) s s') -> null (mget (hmm_mat m') s s')) /\
    (forall s j, null (mget (hmm_out m) s j) -> null (mget (hmm_out m') s j)) /\
    (forall s, null (vget (hmm_ini m) s) -> null (vget (hmm_ini m') s)) /\ hmm_alph m' = hmm_alph m.
  Proof.
    unfold round_HMM, update_HMM. intros ND E. destruct (unwrap _) as [temp|] eqn:U; cbn [bind] in E; [|discriminate].
    destruct temp as [|t0 temp]; [discriminate|]. remember (t0 :: temp) as l eqn:El. injection E as <- _. cbn [hmm_mat hmm_out hmm_ini hmm_alph].
    assert (W : forall st, In st l -> exists tr t, processWork_HMM m tr t = Some st).
    { intros st I. apply (unwrap_In _ _ _ U), run_In in I as (tr & t & _ & W). eauto. }
    split; [|split; [|split; [|reflexivity]]].
    - intros s s' Z. apply null_new_matrix; [|exact Z]. apply null_msum. intros v I. apply in_map_iff in I as (st & <- & I). destruct (W st I) as (tr & t & Ew).
      unfold processWork_HMM in Ew. destruct (neqb _ n0); [discriminate|]. injection Ew as <-. cbn [sh_num_a]. unfold mget.
      match goal with |- null (vget (nth s (vbuild ?n ?f) []) s') => destruct (nth_build n f s) as [->|[_ ->]]; [apply null_nil|] end.
      apply null_build. intros _. apply null_stat_num. intros x J. apply in_map_iff in J as (o & <- & _). apply null_mul_l, Z.
    - intros s j Z. unfold mget. match goal with |- null (vget (nth s (vbuild ?n ?f) []) j) => destruct (nth_build n f s) as [->|[_ ->]]; [apply null_nil|] end.
      apply null_new_row; [|exact Z]. apply null_msum. intros v I. apply in_map_iff in I as (st & <- & I). destruct (W st I) as (tr & t & Ew).
      unfold processWork_HMM in Ew. destruct (neqb _ n0); [discriminate|]. injection Ew as <-. cbn [sh_num_b]. unfold mget.
      match goal with |- null (vget (nth s (vbuild ?n ?f) []) j) => destruct (nth_build n f s) as [->|[_ ->]]; [apply null_nil|] end.
      apply null_map. intros o Eo. apply null_sum. intros x J. revert J. apply null_output. unfold hmm_b. destruct (_ <=? _)%nat; [exact null0|].
      rewrite (nodup_index _ _ _ ND Eo). exact Z.
    - intros s Z. apply null_build. intros _. apply null_div, null_vsum. intros v I. apply in_map_iff in I as (st & <- & I). destruct (W st I) as (tr & t & Ew).
      unfold processWork_HMM in Ew. destruct (neqb _ n0); [discriminate|]. injection Ew as <-. cbn [sh_init].
      apply null_map. intros x Ex. apply null_mul_l. apply nth_error_zipwith in Ex as (a & b & Ea & _ & ->). apply null_mul_l.
      assert (Eh : hd [] (bw_alphas (hmm_n m) (hmm_ini m) (hmm_ws m tr)) = hmm_ini m) by (destruct tr; reflexivity). rewrite Eh in Ea.
      unfold vget in Z. rewrite (nth_error_nth _ _ _ Ea) in Z. exact Z.
  Qed.

  Lemma null_round_MDP p set (m m' : mdp K) ll : round_MDP p set m = Ok (m', ll) ->
    (NoDup (mdp_act m) -> forall s a s', null (mdp_get (mdp_mat m) s a s') -> null (mdp_get (mdp_mat m') s a s')) /\ mdp_act m' = mdp_act m.
  Proof.
    unfold round_MDP, update_MDP. intros E. destruct (unwrap _) as [temp|] eqn:U; cbn [bind] in E; [|discriminate].
    destruct temp as [|t0 temp]; [discriminate|]. remember (t0 :: temp) as l eqn:El. injection E as <- _. cbn [mdp_mat mdp_act]. split; [|reflexivity].
    assert (W : forall st, In st l -> exists tr t, processWork_MDP m tr t = Some st).
    { intros st I. apply (unwrap_In _ _ _ U), run_In in I as (tr & t & _ & W). eauto. }
    intros ND s a s' Z. unfold mdp_get, mget.
    match goal with |- null (vget (nth a (nth s (vbuild ?n ?f) []) []) s') => destruct (nth_build n f s) as [->|[_ ->]]; [destruct a; apply null_nil|] end.
    match goal with |- null (vget (nth a (vbuild ?n ?f) []) s') => destruct (nth_build n f a) as [->|[_ ->]]; [apply null_nil|] end.
    apply null_new_row; [|exact Z]. apply null_tsum. intros v I. apply in_map_iff in I as (st & <- & I). destruct (W st I) as (tr & t & Ew).
    unfold processWork_MDP in Ew. destruct (neqb _ n0); [discriminate|]. injection Ew as <-. cbn [sd_num]. unfold tget, mget.
    match goal with |- null (vget (nth a (nth s (vbuild ?n ?f) []) []) s') => destruct (nth_build n f s) as [->|[_ ->]]; [destruct a; apply null_nil|] end.
    destruct (nth_error (mdp_act m) a) as [act|] eqn:Ea.
    2:{ apply nth_error_None in Ea. rewrite (nth_overflow (map _ _)) by (rewrite map_length; exact Ea). apply null_nil. }
    match goal with |- null (vget (nth a (map ?f ?l0) []) s') => rewrite (nth_error_nth (map f l0) a (x := f act)) by (rewrite nth_error_map, Ea; reflexivity) end.
    apply null_build. intros _. apply null_sum, null_fac. intros x J. apply in_zipwith4 in J as (a1 & oa & b1 & _ & ->).
    unfold mdp_tau. destruct (String.eqb_spec (snd oa) act) as [->|_]; [|apply null_mul_l, null_mul_l, null_mul_r, null0].
    destruct (negb _); [apply null_mul_r, null0|]. rewrite (nodup_index _ _ _ ND Ea). apply null_mul_r, Z.
  Qed.

  Lemma null_update_CTMC (m m' : ctmc K) fixed temp ll s s' : update_CTMC m fixed temp = Ok (m', ll) ->
    (forall st, In (Some st) temp -> null (mget (sm_num st) s s')) -> null (mget (ct_mat m) s s') -> null (mget (ct_mat m') s s').
  Proof.
    unfold update_CTMC. intros E W Z. destruct (unwrap temp) as [l|] eqn:U; cbn [bind] in E; [|discriminate].
    destruct l as [|t0 l]; [discriminate|]. remember (t0 :: l) as l0 eqn:El. injection E as <- _. cbn [ct_mat]. unfold mget at 1.
    match goal with |- null (vget (nth s (vbuild ?n ?f) []) s') => destruct (nth_build n f s) as [->|[_ ->]]; [apply null_nil|] end.
    apply null_build. intros _. apply null_add; [apply null_mul_l, Z|]. apply null_new_matrix; [|exact Z]. apply null_msum. intros v I. apply in_map_iff in I as (st & <- & I).
    apply W, (unwrap_In _ _ _ U), I.
  Qed.
  Lemma null_ct_l (m : ctmc K) s s' o : null (mget (ct_mat m) s s') -> null (ct_l m s s' o).
  Proof. intros Z. unfold ct_l. destruct (negb _); [exact null0|exact Z]. Qed.
  Lemma null_round_CTMC_timed p fixed set (m m' : ctmc K) ll : round_CTMC_timed p fixed set m = Ok (m', ll) ->
    forall s s', null (mget (ct_mat m) s s') -> null (mget (ct_mat m') s s').
  Proof.
    intros E s s' Z. apply (null_update_CTMC _ _ _ _ _ s s' E); [|exact Z]. intros st I. apply run_In in I as ([obs ts] & t & _ & W).
    unfold processWork_CTMC_timed in W. destruct (neqb _ n0); [discriminate|]. injection W as <-. cbn [sm_num]. unfold mget.
    match goal with |- null (vget (nth s (vbuild ?n ?f) []) s') => destruct (nth_build n f s) as [->|[_ ->]]; [apply null_nil|] end.
    apply null_build. intros _. destruct (fixed_get _ _ _); [exact null0|]. apply null_stat_num. intros x J. apply in_map_iff in J as (ot & <- & _). apply null_mul_l, null_ct_l, Z.
  Qed.
  Lemma null_round_CTMC_untimed p fixed set (m m' : ctmc K) ll : round_CTMC_untimed p fixed set m = Ok (m', ll) ->
    forall s s', null (mget (ct_mat m) s s') -> null (mget (ct_mat m') s s').
  Proof.
    intros E s s' Z. apply (null_update_CTMC _ _ _ _ _ s s' E); [|exact Z]. intros st I. apply run_In in I as (tr & t & _ & W).
    unfold processWork_CTMC_untimed in W. destruct (neqb _ n0); [discriminate|]. injection W as <-. cbn [sm_num]. unfold mget.
    match goal with |- null (vget (nth s (vbuild ?n ?f) []) s') => destruct (nth_build n f s) as [->|[_ ->]]; [apply null_nil|] end.
    apply null_build. intros _. destruct (fixed_get _ _ _); [exact null0|]. apply null_stat_num. intros x J. apply in_map_iff in J as (o & <- & _). apply null_div, null_ct_l, Z.
  Qed.
  Lemma null_round_GoHMM p d set (m m' : gohmm K) ll : round_GoHMM p d set m = Ok (m', ll) ->
    (forall s s', null (mget (go_mat m) s s') -> null (mget (go_mat m') s s')) /\ (forall s, null (vget (go_ini m) s) -> null (vget (go_ini m') s)).
  Proof.
    unfold round_GoHMM, update_GoHMM. intros E. destruct (unwrap _) as [temp|] eqn:U; cbn [bind] in E; [|discriminate].
    destruct temp as [|t0 temp]; [discriminate|]. remember (t0 :: temp) as l eqn:El. injection E as <- _. cbn [go_mat go_ini].
    assert (W : forall st, In st l -> exists tr t, processWork_GoHMM m d tr t = Some st).
    { intros st I. apply (unwrap_In _ _ _ U), run_In in I as (tr & t & _ & W). eauto. }
    split.
    - intros s s' Z. apply null_new_matrix; [|exact Z]. apply null_msum. intros v I. apply in_map_iff in I as (st & <- & I). destruct (W st I) as (tr & t & Ew).
      unfold processWork_GoHMM in Ew. destruct (neqb _ n0); [discriminate|]. injection Ew as <-. cbn [sg_num_a]. unfold mget.
      match goal with |- null (vget (nth s (vbuild ?n ?f) []) s') => destruct (nth_build n f s) as [->|[_ ->]]; [apply null_nil|] end.
      apply null_build. intros _. apply null_stat_num. intros x J. apply in_map_iff in J as (o & <- & _). apply null_mul_l, Z.
    - intros s Z. apply null_build. intros _. apply null_div, null_vsum. intros v I. apply in_map_iff in I as (st & <- & I). destruct (W st I) as (tr & t & Ew).
      unfold processWork_GoHMM in Ew. destruct (neqb _ n0); [discriminate|]. injection Ew as <-. cbn [sg_init].
      apply null_map. intros x Ex. apply null_mul_l. apply nth_error_zipwith in Ex as (a & b & Ea & _ & ->). apply null_mul_l.
      match type of Ea with nth_error (hd [] (bw_alphas ?n ?a0 ?ws)) _ = _ => assert (Eh : hd [] (bw_alphas n a0 ws) = a0) by (destruct tr; reflexivity) end. rewrite Eh in Ea.
      unfold vget in Z. rewrite (nth_error_nth _ _ _ Ea) in Z. exact Z.
  Qed.
End Null.

(** ** Rounds *)
Section Loop.
  Context {K : Type} `{NK : Num K} {M : Type}.
  Lemma loop_inv (round : M -> res (M * K)) eps (I : M -> Prop) : (forall m m' ll, I m -> round m = Ok (m', ll) -> I m') ->
    forall fuel prev c m m' c' ll b, I m -> bw_loop round eps fuel prev c m = Ok (m', c', ll, b) -> I m'.
  Proof.
    intros HI. induction fuel as [|fuel IH]; intros prev c m m' c' ll b Hm E; cbn in E.
    - inversion E; subst; exact Hm.
    - destruct (round m) as [[m1 l1]|] eqn:Er; [|discriminate]. cbn in E.
      destruct (match prev with None => false | Some p => _ end).
      + inversion E; subst. exact (HI _ _ _ Hm Er).
      + exact (IH _ _ _ _ _ _ _ (HI _ _ _ Hm Er) E).
  Qed.
  Lemma loop_sub (r1 r2 : M -> res (M * K)) eps : (forall m x, r1 m = Ok x -> r2 m = Ok x) ->
    forall fuel prev c m x, bw_loop r1 eps fuel prev c m = Ok x -> bw_loop r2 eps fuel prev c m = Ok x.
  Proof.
    intros H. induction fuel as [|fuel IH]; intros prev c m x E; cbn [bw_loop] in *; [exact E|].
    destruct (r1 m) as [[m1 l1]|] eqn:Er; [|discriminate]. rewrite (H m _ Er). cbn [bind] in *.
    destruct (match prev with None => false | Some p => _ end); [exact E|apply IH, E].
  Qed.
End Loop.
Lemma unwrap_all {A} (l : list (option A)) l' : unwrap l = Ok l' -> l = map Some l'.
Proof.
  revert l'. induction l as [|[a|] l IH]; intros l' E; cbn in E; [injection E as <-; reflexivity| |discriminate].
  destruct (unwrap l) as [l1|] eqn:E1; unfold unwrap in E1; rewrite E1 in E; cbn in E; [|discriminate]. injection E as <-. cbn. rewrite <- (IH l1 eq_refl). reflexivity.
Qed.
Lemma filter_some {A} (l : list A) : filter (fun r => match r with Some _ => true | None => false end) (map Some l) = map Some l.
Proof. induction l as [|a l IH]; [reflexivity|]. cbn. rewrite IH. reflexivity. Qed.
(** When one process gets results for all the traces, so do several. *)
Lemma run_one_any {S T} p (work : S -> Z -> option T) set l : unwrap (runProcesses 1 work set) = Ok l -> runProcesses p work set = runProcesses 1 work set.
Proof.
  intros E. apply unwrap_all in E. unfold runProcesses in *. change (1 <? 1)%nat with false in *. cbv iota in *. destruct (1 <? p)%nat; [|reflexivity]. rewrite E. apply filter_some.
Qed.

(** ** Simulation *)
Section Draw.
  Context {K : Type} `{NK : Num K}.
  Hypotheses (add_zero_ltb : forall c x r : K, neqb x n0 = true -> nltb (nadd c x) r = nltb c r)
    (add_zero_eqb : forall c x : K, neqb x n0 = true -> neqb (nadd c x) n0 = neqb c n0).
  Lemma resolve_nonzero_from r (row : list K) : forall acc (c0 : list K) k i,
    (forall j, vget c0 (k + j) = vget (cumsum_from acc row) j) -> neqb acc n0 = true \/ nltb acc r = true ->
    resolve_loop r c0 (nonzero_from k (cumsum_from acc row)) = Ok i -> (k <= i < k + length row)%nat /\ neqb (vget row (i - k)) n0 = false.
  Proof.
    induction row as [|x row IH]; intros acc c0 k i V A E; [discriminate|]. cbn [cumsum_from nonzero_from] in E.
    assert (V' : forall j, vget c0 (S k + j) = vget (cumsum_from (nadd acc x) row) j) by (intros j; replace (S k + j)%nat with (k + S j)%nat by lia; rewrite V; reflexivity).
    assert (Next : resolve_loop r c0 (nonzero_from (S k) (cumsum_from (nadd acc x) row)) = Ok i -> neqb (nadd acc x) n0 = true \/ nltb (nadd acc x) r = true ->
      (k <= i < k + length (x :: row))%nat /\ neqb (vget (x :: row) (i - k)) n0 = false).
    { intros E' A'. destruct (IH _ c0 (S k) i V' A' E') as [B C]. cbn [length]. split; [lia|]. replace (i - k)%nat with (S (i - S k)) by lia. exact C. }
    destruct (neqb (nadd acc x) n0) eqn:Z; [apply Next; [exact E|left; reflexivity]|]. cbn [resolve_loop] in E.
    specialize (V 0%nat). rewrite Nat.add_0_r in V. rewrite V in E. change (vget (cumsum_from acc (x :: row)) 0) with (nadd acc x) in E.
    destruct (nltb (nadd acc x) r) eqn:L; [apply Next; [exact E|right; reflexivity]|]. injection E as <-. cbn [length]. split; [lia|].
    rewrite Nat.sub_diag. change (vget (x :: row) 0) with x. destruct (neqb x n0) eqn:X; [|reflexivity]. exfalso.
    rewrite (add_zero_eqb acc x X) in Z. destruct A as [A|A]; [congruence|]. rewrite (add_zero_ltb acc x r X) in L. congruence.
  Qed.
  Lemma resolve_nonzero row r i : neqb n0 n0 = true -> resolveRandom row r = Ok i -> (i < length row)%nat /\ neqb (vget row i) n0 = false.
  Proof.
    intros Z E. destruct (resolve_nonzero_from r row n0 (cumsum row) 0 i (fun j => eq_refl) (or_introl Z) E) as [A B]. rewrite Nat.sub_0_r in B. split; [lia|exact B].
  Qed.
End Draw.

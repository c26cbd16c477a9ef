(** Baum-Welch on Markov decision processes. *)
From Coq Require Import String ZArith Bool Reals List Lia Lra Psatz.
From Verif Require Import Num Py SNum SPath LSum MSet MModels MLik MBW LFB LEM SBW LBW LBWSet LBWMC SLik LLik LEMGen.
Import ListNotations.
Local Open Scope R_scope.

Definition nn_mdp (m : mdp R) : Prop := forall ra, In ra (mdp_mat m) -> nonneg_mat ra.
Definition tget (t : list (list (list R))) (s j s' : nat) : R := mget (nth s t []) j s'.

Lemma tget_nonneg m s j s' : nn_mdp m -> 0 <= tget (mdp_mat m) s j s'.
Proof.
  intros N. unfold tget. destruct (nth_in_or_default s (mdp_mat m) []) as [I|E]; [apply mget_nonneg; apply N; exact I|].
  rewrite E. unfold mget, vget. nR. destruct j, s'; cbn; lra.
Qed.
Lemma act_letters (m : mdp R) a s s' : act_mat m a s s' = Sum (length (mdp_act m)) (fun j => letter (mdp_act m) j a * tget (mdp_mat m) s j s').
Proof. unfold act_mat, letter. apply Sum_ext. intros j Hj. unfold tget, mget, vget. nR. destruct (String.eqb _ _); ring. Qed.
Lemma act_nth (m : mdp R) j s s' : NoDup (mdp_act m) -> (j < length (mdp_act m))%nat -> act_mat m (nth j (mdp_act m) EmptyString) s s' = tget (mdp_mat m) s j s'.
Proof.
  intros ND Hj. unfold act_mat. rewrite (Sum_ext _ _ (fun i => if Nat.eqb i j then tget (mdp_mat m) s i s' else 0)).
  - apply (Sum_indicator_in _ j (fun i => tget (mdp_mat m) s i s')). exact Hj.
  - intros i Hi. destruct (Nat.eqb_spec i j) as [->|NE]; [rewrite String.eqb_refl; reflexivity|].
    destruct (String.eqb_spec (nth i (mdp_act m) EmptyString) (nth j (mdp_act m) EmptyString)) as [E|]; [|reflexivity].
    exfalso. apply NE. apply (NoDup_nth (mdp_act m) EmptyString); auto.
Qed.
Lemma act_out (m : mdp R) a s s' : ~ In a (mdp_act m) -> act_mat m a s s' = 0.
Proof.
  intros I. unfold act_mat. apply Sum_zero_ext. intros j Hj. destruct (String.eqb_spec (nth j (mdp_act m) EmptyString) a) as [E|]; [|reflexivity].
  exfalso. apply I. rewrite <- E. apply nth_In. exact Hj.
Qed.
Lemma act_nonneg (m : mdp R) a s s' : nn_mdp m -> 0 <= act_mat m a s s'.
Proof. intros N. rewrite act_letters. apply Sum_nonneg. intros j Hj. apply Rmult_le_pos; [unfold letter; destruct (String.eqb _ _); lra|apply tget_nonneg; exact N]. Qed.
Lemma ln_0' : ln 0 = 0.
Proof. unfold ln. destruct (Rlt_dec 0 0) as [r|]; [destruct (Rlt_irrefl _ r)|reflexivity]. Qed.
Lemma is_label_01 l o s : is_label l o s = 0 \/ is_label l o s = 1.
Proof. unfold is_label. destruct (String.eqb _ _); auto. Qed.
Lemma is_label_ln l o s : ln (is_label l o s / is_label l o s) = 0.
Proof.
  destruct (is_label_01 l o s) as [->| ->].
  - unfold Rdiv. rewrite Rmult_0_l. apply ln_0'.
  - replace (1 / 1) with 1 by field. apply ln_1.
Qed.

(** column access after masking the last row *)
Lemma col_init_mask (mask : list R) al s : col_init (mask_last mask al) s = col_init al s.
Proof. unfold col_init, mask_last. rewrite removelast_app by discriminate. cbn [removelast]. rewrite app_nil_r. reflexivity. Qed.

(** sums of 3-dimensional statistics *)
Lemma tadd_nth (l m : list (list (list R))) s : length l = length m -> nth s (tadd l m) [] = madd (nth s l []) (nth s m []).
Proof. revert m s. induction l as [|x l IH]; intros [|y m] [|s] L; try discriminate; cbn; auto. apply IH. cbn in L. lia. Qed.
Lemma tsum_nth (l : list (list (list (list R)))) n s : (forall t, In t l -> length t = n) ->
  nth s (tsum_all l) [] = msum_all (map (fun t => nth s t []) l).
Proof.
  intros H. destruct l as [|x r]; [destruct s; reflexivity|]. cbn [tsum_all msum_all map].
  assert (Lx : length x = n) by (apply H; left; reflexivity). assert (Hr : forall t, In t r -> length t = n) by (intros; apply H; right; assumption).
  clear H. revert x Lx. induction r as [|y r IH]; intros x Lx; [reflexivity|]. cbn [fold_left map]. rewrite IH; [|intros; apply Hr; right; assumption|].
  - rewrite tadd_nth; [reflexivity|]. rewrite Lx, Hr; [reflexivity|left; reflexivity].
  - unfold tadd. rewrite zipwith_length, Lx, Hr by (left; reflexivity). lia.
Qed.
Lemma map_nth_seq {A B} (h : A -> B) d (l : list A) : map h l = vbuild (length l) (fun j => h (nth j l d)).
Proof.
  unfold vbuild. induction l as [|x l IH]; [reflexivity|]. cbn [length seq map nth]. f_equal. rewrite <- seq_shift, map_map. exact IH.
Qed.

Section MDPfit.
  Variable m : mdp R.
  Notation n := (mdp_n m).
  Notation a0 := (vget (mdp_ini m)).
  Notation J := (length (mdp_act m)).
  Definition dA (m : mdp R) (oa : string * string) := act_mat m (snd oa).
  Definition db (m : mdp R) (oa : string * string) := is_label (mdp_lab m) (fst oa).
  Definition dW (m : mdp R) : list string -> list (nat -> nat -> R) := ew pairs_of (dA m) (db m).
  Definition df (m : mdp R) (tr : list string) : nat -> R := is_label (mdp_lab m) (last tr EmptyString).
  Notation W := (dW m).
  Notation fo := (df m).
  Notation P := (Pof n a0 W fo).
  Hypothesis Hwf : wf_mdp m.

  Lemma mdp_ws_eq tr : map (mdp_w m) (pairs_of tr) = W tr.
  Proof. unfold dW, ew. apply map_ext. intros [o a]. rewrite mdp_w_eq by exact Hwf. reflexivity. Qed.
  Lemma mdp_ini_len : length (mdp_ini m) = n. Proof. apply Hwf. Qed.
  Definition dc (j : nat) (tr : list string) : list R := map (fun oa => letter (mdp_act m) j (snd oa)) (pairs_of tr).
  Lemma dc_length j tr : length (dc j tr) = length (W tr).
  Proof. unfold dc, dW, ew. rewrite !map_length. reflexivity. Qed.

  Definition dmk (tr : list string) (t : Z) : stat_mdp :=
    let c := IZR t / P tr in
    mkStatMDP
      (vbuild n (fun s => vbuild J (fun j => wsum (gam n a0 (W tr) (fo tr) s) (dc j tr) * c)))
      (vbuild n (fun s => vbuild J (fun j => vbuild n (fun s' => wsum (xi n a0 (W tr) (fo tr) s s') (dc j tr) * c))))
      (P tr) t.

  Lemma mask_ok tr s : (s < n)%nat -> vget (zipwith Rmult (vones n) (mdp_mask m tr)) s = fo tr s.
  Proof.
    intros Hs. unfold vget. nR. rewrite (nth_zipwith _ _ _ _ 0 0).
    - unfold vones. nR. rewrite (nth_indep _ 0 1) by (rewrite repeat_length; exact Hs). rewrite nth_repeat.
      change (nth s (mdp_mask m tr) 0) with (vget (mdp_mask m tr) s). unfold mdp_mask. rewrite lab_mask_get by exact Hs. unfold df. ring.
    - rewrite vones_length. exact Hs.
    - unfold mdp_mask. rewrite lab_mask_length. exact Hs.
  Qed.
  Lemma mask_len tr : length (zipwith Rmult (vones n) (mdp_mask m tr)) = n.
  Proof. rewrite zipwith_length, vones_length. unfold mdp_mask. rewrite lab_mask_length. lia. Qed.

  Lemma pw_mdp tr t : processWork_MDP m tr t = if Req_EM_T (P tr) 0 then None else Some (dmk tr t).
  Proof.
    unfold processWork_MDP. rewrite mdp_ws_eq. rewrite (proba_model_mask n) by (auto using mdp_ini_len; apply lab_mask_length).
    rewrite (tot_ext_f n a0 (W tr) (vget (mdp_mask m tr)) (fo tr)) by (intros; apply lab_mask_get; assumption).
    change (tot n a0 (W tr) (fo tr)) with (P tr).
    nR. unfold Reqb. destruct (Req_EM_T (P tr) 0) as [EZ|NZ]; [reflexivity|]. unfold dmk. f_equal. f_equal.
    - apply vbuild_ext. intros s Hs. rewrite (map_nth_seq _ EmptyString). apply vbuild_ext. intros j Hj. rewrite col_init_mask.
      pose proof (gam_model n (mdp_ini m) (zipwith Rmult (vones n) (mdp_mask m tr)) (W tr) s mdp_ini_len (mask_len tr) Hs) as G.
      rewrite (gam_ext_f n a0 (W tr) _ (fo tr)) in G by (auto; intros; apply mask_ok; assumption). revert G. nR. intros ->.
      toR. rewrite rsum_sumL, sumL_map, sumL_scal_r. unfold wsum, dc. rewrite rsum_sumL. f_equal. f_equal. f_equal. apply map_ext. intros oa. unfold letter. rewrite String.eqb_sym. reflexivity.
    - apply vbuild_ext. intros s Hs. rewrite (map_nth_seq _ EmptyString). apply vbuild_ext. intros j Hj. apply vbuild_ext. intros s' Hs'. rewrite col_init_mask.
      pose proof (xi_model_mdp n (mdp_ini m) (zipwith Rmult (vones n) (mdp_mask m tr)) (W tr) (dc j tr) s s' mdp_ini_len (mask_len tr) Hs Hs' (dc_length j tr)) as G.
      rewrite (xi_ext_f n a0 (W tr) _ (fo tr)) in G by (auto; intros; apply mask_ok; assumption). revert G. nR. intros G.
      replace (map (fun oa => if String.eqb (snd oa) (nth j (mdp_act m) EmptyString) then 1 else 0) (pairs_of tr)) with (dc j tr).
      2:{ unfold dc. apply map_ext. intros oa. unfold letter. rewrite String.eqb_sym. reflexivity. }
      replace (map (fun oa => mdp_tau m s (snd oa) s' (fst oa)) (pairs_of tr)) with (map (fun w : nat -> nat -> R => w s s') (W tr)).
      2:{ rewrite <- mdp_ws_eq, map_map. reflexivity. }
      rewrite G. toR. rewrite rsum_sumL, sumL_map, sumL_scal_r. unfold wsum. rewrite rsum_sumL. reflexivity.
  Qed.

  Variable set : list (list string * Z).
  Definition dNUM (s j s' : nat) := XI n set a0 W fo (dc j) s s'.
  Definition dDEN (s j : nat) := GA n set a0 W fo (dc j) s.

  Hypothesis Hnn : nn_mdp m.
  Hypothesis HT : pos_times set.

  Lemma d_HA (x : list string) (t : Z) (o : string * string) : In (x, t) set -> In o (pairs_of x) -> okw n (dA m o) /\ okf n (db m o).
  Proof.
    intros _ _. split.
    - intros s s' _ _. apply act_nonneg. exact Hnn.
    - intros s _. unfold db. destruct (is_label_01 (mdp_lab m) (fst o) s) as [-> | ->]; lra.
  Qed.
  Lemma d_oka : okf n a0. Proof. intros s Hs. apply vget_nonneg. apply Hwf. Qed.
  Lemma d_okf (x : list string) (t : Z) : In (x, t) set -> okf n (fo x).
  Proof. intros _ s Hs. unfold df. destruct (is_label_01 (mdp_lab m) (last x EmptyString) s) as [-> | ->]; lra. Qed.
  Lemma d_okw x t : In (x, t) set -> Forall (okw n) (W x).
  Proof. apply (ew_okw n set pairs_of). exact d_HA. Qed.
  Lemma d_P_nonneg x t : In (x, t) set -> 0 <= P x.
  Proof. apply (P_nonneg n set pairs_of); [exact d_okf|exact d_oka|exact d_HA]. Qed.
  Lemma d_work x t : In (x, t) set -> processWork_MDP m x t = if Req_EM_T (P x) 0 then None else Some (dmk x t).
  Proof. intros _. apply pw_mdp. Qed.

  Lemma round_MDP_spec p m' ll : round_MDP p set m = Ok (m', ll) ->
    mdp_lab m' = mdp_lab m /\ mdp_act m' = mdp_act m /\ mdp_ini m' = mdp_ini m /\ mdp_name m' = mdp_name m /\ mdp_n m' = n /\
    (forall ra, In ra (mdp_mat m') -> length ra = J /\ forall r, In r ra -> length r = n) /\
    (forall s j s', (s < n)%nat -> (j < J)%nat -> (s' < n)%nat ->
       tget (mdp_mat m') s j s' = est (dDEN s j) (dNUM s j) (tget (mdp_mat m) s j) s') /\
    ll = set_ll P set /\ (exists tr t, In (tr, t) set /\ 0 < P tr).
  Proof.
    unfold round_MDP, update_MDP. destruct (unwrap _) as [temp|] eqn:E; [|discriminate]. apply unwrap_run in E. cbn [bind]. subst temp.
    destruct (goods (processWork_MDP m) set) as [|g0 gs] eqn:G; [discriminate|]. rewrite <- G.
    intros H. inversion H as [[H1 H2]]. clear H. cbn [mdp_lab mdp_act mdp_ini mdp_name mdp_mat].
    assert (NE : goods (processWork_MDP m) set <> []) by (rewrite G; discriminate).
    pose proof (goods_msum n set a0 W fo _ dmk d_work d_P_nonneg sd_den n J NE (fun x t => shaped_vbuild n J _)) as Ed.
    split; [reflexivity|]. split; [reflexivity|]. split; [reflexivity|]. split; [reflexivity|].
    split; [unfold mdp_n at 1; cbn [mdp_mat]; apply vbuild_length|]. split; [|split; [|split]].
    - intros ra Ira. apply in_map_iff in Ira. destruct Ira as [s [<- _]]. split; [apply vbuild_length|].
      intros r Ir. apply in_map_iff in Ir. destruct Ir as [j [<- _]]. apply new_row_length.
    - intros s j s' Hs Hj Hs'. unfold tget at 1. rewrite vbuild_nth by exact Hs. unfold mget at 1. rewrite vbuild_nth by exact Hj.
      rewrite new_row_get by exact Hs'.
      assert (Dd : mget (msum_all (map sd_den (goods (processWork_MDP m) set))) s j = dDEN s j).
      { rewrite Ed by assumption. apply psum_ext. intros x t I Px. cbn [dmk sd_den]. rewrite mget_vbuild by assumption. reflexivity. }
      rewrite Dd. unfold est. destruct (Req_EM_T _ 0) as [|NZ]; [reflexivity|]. f_equal.
      rewrite (tsum_nth _ n).
      2:{ intros u Iu. apply in_map_iff in Iu. destruct Iu as [st [<- Ist]]. apply (goods_form n set a0 W fo _ dmk d_work d_P_nonneg) in Ist.
          destruct Ist as [x [t [_ [_ ->]]]]. apply vbuild_length. }
      rewrite map_map.
      pose proof (goods_msum n set a0 W fo _ dmk d_work d_P_nonneg (fun st => nth s (sd_num st) []) J n NE) as En.
      change (mget (msum_all (map (fun x => nth s (sd_num x) []) (goods (processWork_MDP m) set))) j s' = dNUM s j s'). rewrite En; auto.
      + apply psum_ext. intros x t I Px. cbn [dmk sd_num]. rewrite vbuild_nth by exact Hs. rewrite mget_vbuild by assumption. reflexivity.
      + intros x t. cbn [dmk sd_num]. rewrite vbuild_nth by exact Hs. apply shaped_vbuild.
    - apply (goods_ll n set a0 W fo _ dmk d_work d_P_nonneg). reflexivity.
    - apply (goods_pos n set a0 W fo _ dmk d_work d_P_nonneg). exact NE.
  Qed.

  Lemma dc_nonneg j x y : In y (dc j x) -> 0 <= y.
  Proof. intros I. apply in_map_iff in I. destruct I as [o [<- _]]. unfold letter. destruct (String.eqb _ _); lra. Qed.
  Lemma dNUM_nonneg s j s' : (s < n)%nat -> (s' < n)%nat -> 0 <= dNUM s j s'.
  Proof. intros. apply XI_nonneg; eauto using d_okw, d_okf, d_oka, dc_nonneg. Qed.
  Lemma dDEN_sum s j : (s < n)%nat -> dDEN s j = Sum n (dNUM s j).
  Proof. intros Hs. apply GA_XI. exact Hs. Qed.
  Lemma dDEN_nonneg s j : (s < n)%nat -> dDEN s j = 0 \/ 0 < dDEN s j.
  Proof. intros Hs. assert (0 <= dDEN s j) by (rewrite dDEN_sum by exact Hs; apply Sum_nonneg; intros; apply dNUM_nonneg; assumption). lra. Qed.
  Lemma d_known x t oa : In (x, t) set -> 0 < P x -> In oa (pairs_of x) -> In (snd oa) (mdp_act m).
  Proof.
    intros I Px Io. apply (In_nth _ _ (EmptyString, EmptyString)) in Io. destruct Io as [k [Hk <-]].
    destruct (P_factors n set pairs_of fo a0 (dA m) (db m) d_okf d_oka d_HA x t k (EmptyString, EmptyString) I Px Hk) as [s [s' [Hs [Hs' [Pe _]]]]].
    destruct (in_dec String.string_dec (snd (nth k (pairs_of x) (EmptyString, EmptyString))) (mdp_act m)) as [K|K]; [exact K|].
    unfold dA in Pe. rewrite act_out in Pe by exact K. lra.
  Qed.
  Lemma dNUM_zero s j s' : (j < J)%nat -> tget (mdp_mat m) s j s' = 0 -> dNUM s j s' = 0.
  Proof.
    intros Hj Z. apply psum_zero. intros x t I Px. replace (wsum _ _) with 0; [ring|]. symmetry. unfold dW, ew, dc. generalize (fo x). intros f. generalize a0.
    clear - Z Hj Hwf. induction (pairs_of x) as [|oa l IH]; intros b; [reflexivity|].
    cbn [map xi]. rewrite wsum_cons, IH. unfold letter. destruct (String.eqb_spec (nth j (mdp_act m) EmptyString) (snd oa)) as [Eq|].
    - unfold dA. rewrite <- Eq, act_nth; [rewrite Z; ring|apply Hwf|exact Hj].
    - ring.
  Qed.
  Lemma dNUM_supp s j s' : (j < J)%nat -> 0 < dNUM s j s' -> 0 < tget (mdp_mat m) s j s'.
  Proof.
    intros Hj Q. pose proof (tget_nonneg m s j s' Hnn) as B. destruct (Req_dec (tget (mdp_mat m) s j s') 0) as [E|E]; [rewrite dNUM_zero in Q by assumption|]; lra.
  Qed.
  Lemma dXI_letters (g : string -> R) s s' : (s < n)%nat -> (s' < n)%nat ->
    psum n set a0 W fo (fun x t => wsum (xi n a0 (W x) (fo x) s s') (map (fun oa => g (snd oa)) (pairs_of x)) * fac n a0 W fo x t)
    = Sum J (fun j => dNUM s j s' * g (nth j (mdp_act m) EmptyString)).
  Proof.
    intros Hs Hs'. rewrite (psum_ext n set a0 W fo _ (fun x t => Sum J (fun j => wsum (xi n a0 (W x) (fo x) s s') (dc j x) * fac n a0 W fo x t * g (nth j (mdp_act m) EmptyString)))).
    - rewrite psum_Sum. apply Sum_ext. intros j Hj. rewrite psum_scal_r. reflexivity.
    - intros x t I Px. rewrite (by_letters (mdp_act m) (fun o => snd o) g); [|apply Hwf|intros; eapply d_known; eauto].
      rewrite <- Sum_scal_r. apply Sum_ext. intros j Hj. unfold dc. ring.
  Qed.

  Variable m' : mdp R.
  Hypothesis Hac' : mdp_act m' = mdp_act m.
  Hypothesis Hla' : mdp_lab m' = mdp_lab m.
  Hypothesis Hin' : mdp_ini m' = mdp_ini m.
  Hypothesis Hn' : mdp_n m' = n.
  Hypothesis Hsh' : forall ra, In ra (mdp_mat m') -> length ra = J /\ forall r, In r ra -> length r = n.
  Hypothesis Hget : forall s j s', (s < n)%nat -> (j < J)%nat -> (s' < n)%nat ->
       tget (mdp_mat m') s j s' = est (dDEN s j) (dNUM s j) (tget (mdp_mat m) s j) s'.

  Lemma d_nonneg_get' s j s' : (s < n)%nat -> (j < J)%nat -> (s' < n)%nat -> 0 <= tget (mdp_mat m') s j s'.
  Proof.
    intros Hs Hj Hs'. rewrite Hget by assumption. apply (est_nonneg n); auto using dDEN_sum.
    - intros; apply dNUM_nonneg; assumption.
    - intros; apply tget_nonneg; assumption.
  Qed.
  Lemma d_nonneg' : nn_mdp m'.
  Proof.
    intros ra Ira r Ir x Ix. destruct (Hsh' ra Ira) as [La Lr]. pose proof (Lr r Ir) as L1.
    apply (In_nth _ _ []) in Ira. destruct Ira as [s [Hs E]]. apply (In_nth _ _ []) in Ir. destruct Ir as [j [Hj E']].
    apply (In_nth _ _ 0) in Ix. destruct Ix as [s' [Hs' E2]]. unfold mdp_n at 1 in Hn'. rewrite Hn' in Hs. subst x r ra.
    apply d_nonneg_get'; lia.
  Qed.
  Definition row (x : mdp R) (s j : nat) : list R := nth j (nth s (mdp_mat x) []) [].
  Lemma row_Sum (x : mdp R) s j : (forall ra, In ra (mdp_mat x) -> length ra = J /\ forall r, In r ra -> length r = n) ->
    (s < mdp_n x)%nat -> (j < J)%nat -> rsum (row x s j) = Sum n (tget (mdp_mat x) s j).
  Proof.
    intros H Hs Hj. unfold row. destruct (H (nth s (mdp_mat x) [])) as [L1 L2]; [apply nth_In; exact Hs|].
    rewrite rsum_nth, L2 by (apply nth_In; lia). reflexivity.
  Qed.
  Lemma d_row_sum' s j : (s < n)%nat -> (j < J)%nat -> rsum (row m' s j) = if Req_EM_T (dDEN s j) 0 then rsum (row m s j) else 1.
  Proof.
    intros Hs Hj. rewrite row_Sum by (auto; rewrite Hn'; exact Hs).
    rewrite (Sum_ext n _ (est (dDEN s j) (dNUM s j) (tget (mdp_mat m) s j))) by (intros; apply Hget; assumption).
    rewrite est_sum by (apply dDEN_sum; exact Hs). rewrite row_Sum by (auto; apply Hwf). reflexivity.
  Qed.
  Lemma d_zero' s j s' : (s < n)%nat -> (j < J)%nat -> (s' < n)%nat -> tget (mdp_mat m) s j s' = 0 -> tget (mdp_mat m') s j s' = 0.
  Proof.
    intros Hs Hj Hs' Z. rewrite Hget by assumption. unfold est. destruct (Req_EM_T _ 0); [exact Z|]. rewrite dNUM_zero by assumption. unfold Rdiv; ring.
  Qed.
  Lemma d_act_zero' a s s' : (s < n)%nat -> (s' < n)%nat -> act_mat m a s s' = 0 -> act_mat m' a s s' = 0.
  Proof.
    intros Hs Hs' Z. destruct (in_dec String.string_dec a (mdp_act m)) as [K|K]; [|apply act_out; rewrite Hac'; exact K].
    apply (In_nth _ _ EmptyString) in K. destruct K as [j [Hj <-]]. rewrite act_nth in Z by (auto; apply Hwf).
    pose proof (act_nth m' j s s') as E. rewrite Hac' in E. rewrite E by (auto; apply Hwf). apply d_zero'; assumption.
  Qed.

  Hypothesis Hsub : forall s j, (s < n)%nat -> (j < J)%nat -> rsum (row m s j) <= 1.

  Definition mdp_change : R := Sum n (fun s => Sum J (fun j => dDEN s j * sqdist n (tget (mdp_mat m) s j) (tget (mdp_mat m') s j))).
  Lemma d_em_gain : set_ll P set + mdp_change <= set_ll (Pof n a0 (dW m') fo) set /\
    (forall tr t, In (tr, t) set -> (0 < P tr <-> 0 < Pof n a0 (dW m') fo tr)).
  Proof.
    apply (em_gain n set pairs_of fo a0 (dA m) (db m) a0 (dA m') (db m') HT d_okf d_oka d_oka d_HA).
    - intros x t o _ _. split; [intros s s' Hs Hs'; apply act_nonneg, d_nonneg'|]. intros s Hs. unfold db. destruct (is_label_01 (mdp_lab m') (fst o) s) as [-> | ->]; lra.
    - intros x t k d s s' I Px Hk Hs Hs' Pk.
      destruct (xi_factors n set pairs_of fo a0 (dA m) (db m) d_okf d_oka d_HA x t k d s s' I Hk Hs Hs' Pk) as [Pe Pb].
      split; [|unfold db in *; rewrite Hla'; exact Pb].
      assert (Ko : In (snd (nth k (pairs_of x) d)) (mdp_act m)) by (apply (d_known x t); auto; apply nth_In; exact Hk).
      apply (In_nth _ _ EmptyString) in Ko. destruct Ko as [j [Hj Ej]]. unfold dA in *. rewrite <- Ej in Pe |- *. rewrite act_nth in Pe by (auto; apply Hwf).
      pose proof (act_nth m' j s s') as E. rewrite Hac' in E. rewrite E by (auto; apply Hwf). rewrite Hget by assumption.
      unfold est. destruct (Req_EM_T _ 0) as [|NZ]; [exact Pe|].
      apply Rdiv_lt_0_compat; [|destruct (dDEN_nonneg s j Hs); [contradiction|assumption]].
      apply (XI_pos n set a0 W fo HT) with (x := x) (t := t) (k := k); auto using d_oka; try (intros; eauto using d_okw, d_okf, dc_nonneg; fail).
      + unfold dW. rewrite ew_length. exact Hk.
      + unfold dc. rewrite (nth_map_in _ _ _ d) by exact Hk. unfold letter. rewrite Ej, String.eqb_refl. lra.
    - intros x t o s s' I Io Hs Hs' Z. apply Rmult_integral in Z. destruct Z as [Z|Z].
      + unfold db in *. rewrite Hla', Z. ring.
      + unfold dA in *. rewrite d_act_zero' by assumption. ring.
    - auto.
    - intros s Hs Q. apply (IN_supp n set a0 W fo) in Q; auto using d_oka.
    - fold (dW m). rewrite (ini_same_gain n set a0 W fo), Rplus_0_l, <- (Rplus_0_r mdp_change). apply Rplus_le_compat.
    + apply Sum_le. intros s Hs.
      rewrite (Sum_ext n _ (fun s' => Sum J (fun j => dNUM s j s' * ln (est (dDEN s j) (dNUM s j) (tget (mdp_mat m) s j) s' / tget (mdp_mat m) s j s')))).
      * unfold Sum at 2 3. rewrite sumL_swap. apply sumL_le. intros j Ij. apply in_seq in Ij.
        replace (sqdist n (tget (mdp_mat m) s j) (tget (mdp_mat m') s j)) with (sqdist n (tget (mdp_mat m) s j) (est (dDEN s j) (dNUM s j) (tget (mdp_mat m) s j)))
          by (apply Sum_ext; intros s' Hs'; rewrite Hget by (assumption || lia); reflexivity).
        apply (est_gain n); auto using dDEN_sum.
        -- intros; apply dNUM_nonneg; assumption.
        -- intros; apply tget_nonneg; assumption.
        -- intros s' Hs' Q. apply dNUM_supp; [lia|exact Q].
        -- rewrite <- row_Sum; [apply Hsub; lia|apply Hwf|exact Hs|lia].
      * intros s' Hs'. unfold trans_gain. fold (dW m). unfold dA at 1 2.
        rewrite (dXI_letters (fun a => ln (act_mat m' a s s' / act_mat m a s s'))) by assumption.
        apply Sum_ext. intros j Hj. rewrite <- Hget by assumption. rewrite act_nth by (auto; apply Hwf).
        pose proof (act_nth m' j s s') as E. rewrite Hac' in E. rewrite E by (auto; apply Hwf). reflexivity.
    + apply Req_le. symmetry. apply Sum_zero_ext. intros s Hs. apply psum_zero. intros x t I Px. unfold db. rewrite Hla'.
      rewrite (wsum_const _ _ 0); [ring| |].
      * intros y Iy. apply in_map_iff in Iy. destruct Iy as [oa [<- _]]. apply is_label_ln.
      * rewrite gam_length, map_length. fold (dW m). unfold dW. rewrite ew_length. lia.
  Qed.
  Lemma mdp_change_nonneg : 0 <= mdp_change.
  Proof.
    apply Sum_nonneg. intros s Hs. apply Sum_nonneg. intros j Hj. apply Rmult_le_pos; [|apply sqdist_nonneg]. destruct (dDEN_nonneg s j Hs); lra.
  Qed.
  Lemma d_em_mono : set_ll P set <= set_ll (Pof n a0 (dW m') fo) set /\
    (forall tr t, In (tr, t) set -> (0 < P tr <-> 0 < Pof n a0 (dW m') fo tr)).
  Proof. destruct d_em_gain as [H1 H2]. pose proof mdp_change_nonneg. split; [lra|exact H2]. Qed.
End MDPfit.

(** Baum-Welch on hidden Markov models. *)
From Coq Require Import String ZArith Bool Reals List Lia Lra Psatz.
From Verif Require Import Num Py SNum SPath LSum MSet MModels MLik MBW LFB LEM SBW LBW LBWSet LBWMC SLik LLik LEMGen.
Import ListNotations.
Local Open Scope R_scope.

Definition nonneg_hmm (m : hmm R) : Prop := nonneg_mat (hmm_mat m) /\ nonneg_mat (hmm_out m).

Lemma emit_letters (m : hmm R) o s : emit m o s = Sum (length (hmm_alph m)) (fun j => letter (hmm_alph m) j o * matR (hmm_out m) s j).
Proof. unfold emit, letter. apply Sum_ext. intros j Hj. destruct (String.eqb _ _); ring. Qed.
Lemma emit_nth (m : hmm R) j s : NoDup (hmm_alph m) -> (j < length (hmm_alph m))%nat -> emit m (nth j (hmm_alph m) EmptyString) s = matR (hmm_out m) s j.
Proof.
  intros ND Hj. unfold emit. rewrite (Sum_ext _ _ (fun i => if Nat.eqb i j then matR (hmm_out m) s i else 0)).
  - apply Sum_indicator_in. exact Hj.
  - intros i Hi. destruct (Nat.eqb_spec i j) as [->|NE]; [rewrite String.eqb_refl; reflexivity|].
    destruct (String.eqb_spec (nth i (hmm_alph m) EmptyString) (nth j (hmm_alph m) EmptyString)) as [E|]; [|reflexivity].
    exfalso. apply NE. apply (NoDup_nth (hmm_alph m) EmptyString); auto.
Qed.
Lemma emit_out (m : hmm R) o s : ~ In o (hmm_alph m) -> emit m o s = 0.
Proof.
  intros I. unfold emit. apply Sum_zero_ext. intros j Hj. destruct (String.eqb_spec (nth j (hmm_alph m) EmptyString) o) as [E|]; [|reflexivity].
  exfalso. apply I. rewrite <- E. apply nth_In. exact Hj.
Qed.
Lemma emit_nonneg' (m : hmm R) o s : nonneg_mat (hmm_out m) -> 0 <= emit m o s.
Proof. intros N. unfold emit. apply Sum_nonneg. intros j Hj. destruct (String.eqb _ _); [apply mget_nonneg; exact N|lra]. Qed.

Section HMMfit.
  Variable m : hmm R.
  Notation n := (hmm_n m).
  Notation a0 := (vget (hmm_ini m)).
  Notation J := (length (hmm_alph m)).
  Definition hW (m : hmm R) : list string -> list (nat -> nat -> R) := ew (fun tr => tr) (fun _ : string => matR (hmm_mat m)) (emit m).
  Notation W := (hW m).
  Notation fo := (fun (_ : list string) (_ : nat) => 1).
  Notation P := (Pof n a0 W fo).
  Hypothesis Hwf : wf_hmm m.

  Lemma hmm_ws_eq tr : hmm_ws m tr = W tr.
  Proof. unfold hmm_ws, hW, ew. rewrite hmm_tau_eq by exact Hwf. reflexivity. Qed.
  Lemma hmm_ini_len : length (hmm_ini m) = n. Proof. apply Hwf. Qed.

  Definition hmk (tr : list string) (t : Z) : stat_hmm :=
    let c := IZR t / P tr in
    mkStatHMM
      (vbuild n (fun s => rsum (gam n a0 (W tr) (fun _ => 1) s) * c))
      (vbuild n (fun s => vbuild n (fun s' => rsum (xi n a0 (W tr) (fun _ => 1) s s') * c)))
      (vbuild n (fun s => vbuild J (fun j => wsum (gam n a0 (W tr) (fun _ => 1) s) (map (letter (hmm_alph m) j) tr) * c)))
      (P tr) t
      (vbuild n (fun s => a0 s * Bk n (W tr) (fun _ => 1) s * c)).

  Lemma pw_hmm tr t : processWork_HMM m tr t = if Req_EM_T (P tr) 0 then None else Some (hmk tr t).
  Proof.
    unfold processWork_HMM. rewrite hmm_ws_eq. rewrite (proba_model n (hmm_ini m) (W tr) hmm_ini_len).
    change (tot n a0 (W tr) (fun _ => 1)) with (P tr).
    nR. unfold Reqb. destruct (Req_EM_T (P tr) 0) as [EZ|NZ]; [reflexivity|]. unfold hmk. f_equal. f_equal.
    - apply vbuild_ext. intros s Hs. rewrite (stat_den_spec n) by (auto using hmm_ini_len, vones_length). f_equal. f_equal.
      apply gam_ext_f; [|exact Hs]. intros; apply vget_vones; assumption.
    - apply vbuild_ext. intros s Hs. apply vbuild_ext. intros s' Hs'.
      rewrite (stat_num_spec n); auto using hmm_ini_len, vones_length.
      + f_equal. f_equal. apply xi_ext_f; [|exact Hs']. intros; apply vget_vones; assumption.
      + rewrite <- hmm_ws_eq. unfold hmm_ws. rewrite map_map. reflexivity.
    - apply vbuild_ext. intros s Hs.
      assert (G : zipwith Rmult (col_init (bw_alphas n (hmm_ini m) (W tr)) s) (col_init (bw_betas n (vones n) (W tr)) s) = gam n a0 (W tr) (fun _ => 1) s).
      { rewrite gam_model by (auto using hmm_ini_len, vones_length). apply gam_ext_f; [|exact Hs]. intros; apply vget_vones; assumption. }
      rewrite G. unfold vbuild. rewrite <- (map_map (fun j => nth j (hmm_alph m) EmptyString)
        (fun o => wsum (gam n a0 (W tr) (fun _ => 1) s) (map (fun x => if String.eqb o x then 1 else 0) tr) * (IZR t / P tr))).
      assert (E : map (fun j => nth j (hmm_alph m) EmptyString) (seq 0 J) = hmm_alph m).
      { clear. generalize (hmm_alph m). intros l. induction l as [|x l IH]; [reflexivity|]. cbn [length seq map nth]. f_equal.
        rewrite <- seq_shift, map_map. exact IH. }
      rewrite E. apply map_ext. intros o. toR.
      change (rsum (zipwith Rmult (map (fun x => x * (IZR t / P tr)) (gam n a0 (W tr) (fun _ => 1) s)) (map (fun x => if String.eqb x o then 1 else 0) tr)))
        with (wsum (map (fun x => x * (IZR t / P tr)) (gam n a0 (W tr) (fun _ => 1) s)) (map (fun x => if String.eqb x o then 1 else 0) tr)).
      rewrite wsum_scal. f_equal. f_equal. apply map_ext. intros x. rewrite String.eqb_sym. reflexivity.
    - rewrite bw_alphas_hd. set (B := hd [] _). assert (LB : length B = n) by (apply bw_betas_hd_length, vones_length).
      assert (HB : forall s, (s < n)%nat -> vget B s = Bk n (W tr) (fun _ => 1) s).
      { intros s Hs. unfold B. rewrite bw_betas_hd by (auto using vones_length). apply Bk_ext; [|exact Hs]. intros; apply vget_vones; assumption. }
      rewrite (vbuild_ext n _ (fun s => a0 s * vget B s * (IZR t / P tr))) by (intros s Hs; rewrite (HB s Hs); reflexivity).
      rewrite <- (vbuild_eta (map _ (zipwith _ _ _))).
      assert (Lz : length (zipwith Rmult (hmm_ini m) B) = n) by (rewrite zipwith_length, hmm_ini_len, LB; lia).
      rewrite map_length, Lz. apply vbuild_ext. intros s Hs. unfold vget at 1. nR. rewrite (nth_map_in _ _ _ 0) by (rewrite Lz; exact Hs).
      rewrite (nth_zipwith _ _ _ _ 0 0) by (rewrite ?hmm_ini_len, ?LB; exact Hs). reflexivity.
  Qed.

  Variable set : list (list string * Z).
  Definition hNUM := XI n set a0 W fo (ones1 W).
  Definition hDEN := GA n set a0 W fo (ones1 W).
  Definition hNB (s j : nat) : R := GA n set a0 W fo (fun tr => map (letter (hmm_alph m) j) tr) s.
  Definition hIN := IN n set a0 W fo.

  Hypothesis Hnn : nonneg_hmm m.
  Hypothesis HT : pos_times set.

  Lemma h_HA (x : list string) (t : Z) (o : string) : In (x, t) set -> In o x -> okw n (matR (hmm_mat m)) /\ okf n (emit m o).
  Proof.
    intros _ _. split.
    - intros s s' _ _. apply mget_nonneg. apply Hnn.
    - intros s _. apply emit_nonneg'. apply Hnn.
  Qed.
  Lemma h_oka : okf n a0. Proof. intros s Hs. apply vget_nonneg. apply Hwf. Qed.
  Lemma h_okf (x : list string) (t : Z) : In (x, t) set -> okf n (fo x). Proof. intros _ s Hs. lra. Qed.
  Lemma h_okw x t : In (x, t) set -> Forall (okw n) (W x).
  Proof. apply (ew_okw n set (fun tr => tr)). exact h_HA. Qed.
  Lemma h_P_nonneg x t : In (x, t) set -> 0 <= P x.
  Proof. apply (P_nonneg n set (fun tr => tr)); [exact h_okf|exact h_oka|exact h_HA]. Qed.
  Lemma h_work x t : In (x, t) set -> processWork_HMM m x t = if Req_EM_T (P x) 0 then None else Some (hmk x t).
  Proof. intros _. apply pw_hmm. Qed.

  Lemma round_HMM_spec p m' ll : round_HMM p set m = Ok (m', ll) ->
    hmm_alph m' = hmm_alph m /\ hmm_name m' = hmm_name m /\ hmm_n m' = n /\ square n (hmm_mat m') /\
    length (hmm_out m') = n /\ (forall r, In r (hmm_out m') -> length r = J) /\ length (hmm_ini m') = n /\
    (forall s s', (s < n)%nat -> (s' < n)%nat -> mget (hmm_mat m') s s' = est (hDEN s) (hNUM s) (mget (hmm_mat m) s) s') /\
    (forall s j, (s < n)%nat -> (j < J)%nat -> mget (hmm_out m') s j = est (hDEN s) (hNB s) (mget (hmm_out m) s) j) /\
    (forall s, (s < n)%nat -> vget (hmm_ini m') s = hIN s / Sum n hIN) /\
    ll = set_ll P set /\ (exists tr t, In (tr, t) set /\ 0 < P tr).
  Proof.
    unfold round_HMM, update_HMM. destruct (unwrap _) as [temp|] eqn:E; [|discriminate]. apply unwrap_run in E. cbn [bind]. subst temp.
    destruct (goods (processWork_HMM m) set) as [|g0 gs] eqn:G; [discriminate|]. rewrite <- G.
    intros H. inversion H as [[H1 H2]]. clear H. cbn [hmm_alph hmm_ini hmm_name hmm_mat hmm_out].
    assert (NE : goods (processWork_HMM m) set <> []) by (rewrite G; discriminate).
    destruct (goods_vsum n set a0 W fo _ hmk h_work h_P_nonneg sh_den n NE) as [_ Ed]; [intros; apply vbuild_length|].
    destruct (goods_vsum n set a0 W fo _ hmk h_work h_P_nonneg sh_init n NE) as [Li Ei]; [intros; apply vbuild_length|].
    pose proof (goods_msum n set a0 W fo _ hmk h_work h_P_nonneg sh_num_a n n NE (fun x t => shaped_vbuild n n _)) as Ea.
    pose proof (goods_msum n set a0 W fo _ hmk h_work h_P_nonneg sh_num_b n J NE (fun x t => shaped_vbuild n J _)) as Eb.
    assert (Dd : forall s, (s < n)%nat -> vget (vsum_all (map sh_den (goods (processWork_HMM m) set))) s = hDEN s).
    { intros s Hs. rewrite Ed by exact Hs. apply psum_ext. intros x t I Px. cbn [hmk sh_den]. rewrite vget_vbuild by exact Hs.
      unfold ones1. rewrite wsum_ones1 by apply gam_length. reflexivity. }
    assert (Di : forall s, (s < n)%nat -> vget (vsum_all (map sh_init (goods (processWork_HMM m) set))) s = hIN s).
    { intros s Hs. rewrite Ei by exact Hs. apply psum_ext. intros x t I Px. cbn [hmk sh_init]. rewrite vget_vbuild by exact Hs. reflexivity. }
    split; [reflexivity|]. split; [reflexivity|].
    split; [unfold hmm_n at 1; cbn [hmm_mat]; apply vbuild_length|]. split; [apply new_matrix_square|].
    split; [apply vbuild_length|]. split.
    { intros r Ir. apply in_map_iff in Ir. destruct Ir as [s [<- _]]. apply new_row_length. }
    split; [apply vbuild_length|]. split; [|split; [|split; [|split]]].
    - intros s s' Hs Hs'. rewrite new_matrix_get by assumption. unfold est. rewrite Dd by exact Hs. rewrite Ea by assumption.
      destruct (Req_EM_T _ 0); [reflexivity|]. f_equal. apply psum_ext. intros x t I Px. cbn [hmk sh_num_a]. rewrite mget_vbuild by assumption.
      unfold ones1. rewrite wsum_ones1 by apply xi_length. reflexivity.
    - intros s j Hs Hj. unfold mget at 1. rewrite vbuild_nth by exact Hs. rewrite new_row_get by exact Hj. rewrite Dd by exact Hs.
      unfold est. destruct (Req_EM_T _ 0); [reflexivity|].
      change (vget (nth s (msum_all (map sh_num_b (goods (processWork_HMM m) set))) []) j) with (mget (msum_all (map sh_num_b (goods (processWork_HMM m) set))) s j).
      rewrite Eb by assumption. f_equal. apply psum_ext. intros x t I Px. cbn [hmk sh_num_b]. rewrite mget_vbuild by assumption. reflexivity.
    - intros s Hs. rewrite vget_vbuild by exact Hs. nR. rewrite Di by exact Hs. f_equal. rewrite nsum_rsum, rsum_nth, Li. apply Sum_ext.
      intros i Hi. apply Di. exact Hi.
    - apply (goods_ll n set a0 W fo _ hmk h_work h_P_nonneg). reflexivity.
    - apply (goods_pos n set a0 W fo _ hmk h_work h_P_nonneg). exact NE.
  Qed.

  (** ** Consequences *)
  Lemma hNUM_nonneg s s' : (s < n)%nat -> (s' < n)%nat -> 0 <= hNUM s s'.
  Proof. intros. apply XI_nonneg; eauto using h_okw, h_okf, h_oka. intros x y I. apply repeat_spec in I. lra. Qed.
  Lemma hDEN_sum s : (s < n)%nat -> hDEN s = Sum n (hNUM s).
  Proof. intros Hs. apply GA_XI. exact Hs. Qed.
  Lemma letter_nonneg al j o : 0 <= letter al j o. Proof. unfold letter. destruct (String.eqb _ _); lra. Qed.
  Lemma hNB_nonneg s j : (s < n)%nat -> 0 <= hNB s j.
  Proof.
    intros Hs. unfold hNB. rewrite GA_XI by exact Hs. apply Sum_nonneg. intros s' Hs'. apply XI_nonneg; auto using h_oka. 1-2: intros; eauto using h_okw, h_okf.
    intros x y I. apply in_map_iff in I. destruct I as [o [<- _]]. apply letter_nonneg.
  Qed.
  (** symbols of possible traces are known *)
  Lemma h_known x t o : In (x, t) set -> 0 < P x -> In o x -> In o (hmm_alph m).
  Proof.
    intros I Px Io. apply (In_nth _ _ EmptyString) in Io. destruct Io as [k [Hk <-]].
    destruct (P_factors n set (fun tr => tr) fo a0 (fun _ : string => matR (hmm_mat m)) (emit m) h_okf h_oka h_HA x t k EmptyString I Px Hk) as [s [s' [Hs [Hs' [_ Pe]]]]].
    destruct (in_dec String.string_dec (nth k x EmptyString) (hmm_alph m)) as [K|K]; [exact K|]. rewrite emit_out in Pe by exact K. lra.
  Qed.
  Lemma hGA_letters (g : string -> R) s : (s < n)%nat ->
    psum n set a0 W fo (fun x t => wsum (gam n a0 (W x) (fun _ => 1) s) (map g x) * fac n a0 W fo x t)
    = Sum J (fun j => hNB s j * g (nth j (hmm_alph m) EmptyString)).
  Proof.
    intros Hs. rewrite (psum_ext n set a0 W fo _ (fun x t => Sum J (fun j => wsum (gam n a0 (W x) (fun _ => 1) s) (map (letter (hmm_alph m) j) x) * fac n a0 W fo x t * g (nth j (hmm_alph m) EmptyString)))).
    - rewrite psum_Sum. apply Sum_ext. intros j Hj. rewrite psum_scal_r. reflexivity.
    - intros x t I Px. rewrite (by_letters (hmm_alph m) (fun o => o) g); [|apply Hwf|intros; eapply h_known; eauto].
      rewrite <- Sum_scal_r. apply Sum_ext. intros j Hj. change (fun o : string => letter (hmm_alph m) j o) with (letter (hmm_alph m) j). ring.
  Qed.
  Lemma hDEN_letters s : (s < n)%nat -> hDEN s = Sum J (hNB s).
  Proof.
    intros Hs. rewrite (Sum_ext J (hNB s) (fun j => hNB s j * (fun _ : string => 1) (nth j (hmm_alph m) EmptyString))) by (intros; ring).
    rewrite <- (hGA_letters (fun _ => 1)) by exact Hs. apply psum_ext. intros x t I Px. f_equal. f_equal. unfold ones1, hW. rewrite ew_length.
    clear. induction x; cbn; [reflexivity|]. f_equal. exact IHx.
  Qed.
  Lemma h_xi_zero x s s' : matR (hmm_mat m) s s' = 0 -> forall k, nth k (xi n a0 (W x) (fun _ => 1) s s') 0 = 0.
  Proof.
    intros Z k. apply xi_nth_zero. unfold hW, ew. revert k. induction x as [|o l IH]; intros [|k]; cbn; auto. rewrite Z. ring.
  Qed.
  Lemma hNUM_zero s s' : matR (hmm_mat m) s s' = 0 -> hNUM s s' = 0.
  Proof. intros Z. apply XI_zero. intros. apply h_xi_zero. exact Z. Qed.
  Lemma hNB_zero s j : (s < n)%nat -> (j < J)%nat -> matR (hmm_out m) s j = 0 -> hNB s j = 0.
  Proof.
    intros Hs Hj Z. unfold hNB. rewrite GA_XI by exact Hs. apply Sum_zero_ext. intros s' Hs'. apply psum_zero. intros x t I Px.
    replace (wsum _ _) with 0; [ring|]. symmetry. unfold hW, ew. generalize a0. clear - Hs Hs' Z Hj Hwf. induction x as [|o l IH]; intros b; [reflexivity|].
    cbn [map xi]. rewrite wsum_cons, IH. unfold letter. destruct (String.eqb_spec (nth j (hmm_alph m) EmptyString) o) as [<-|].
    - rewrite emit_nth; [rewrite Z; ring|apply Hwf|exact Hj].
    - ring.
  Qed.
  Lemma hNUM_supp s s' : 0 < hNUM s s' -> 0 < matR (hmm_mat m) s s'.
  Proof.
    intros Q. pose proof (mget_nonneg (hmm_mat m) s s' (proj1 Hnn)) as B. change (mget (hmm_mat m) s s') with (matR (hmm_mat m) s s') in B.
    destruct (Req_dec (matR (hmm_mat m) s s') 0) as [E|E]; [rewrite hNUM_zero in Q by exact E|]; lra.
  Qed.
  Lemma hNB_supp s j : (s < n)%nat -> (j < J)%nat -> 0 < hNB s j -> 0 < matR (hmm_out m) s j.
  Proof.
    intros Hs Hj Q. pose proof (mget_nonneg (hmm_out m) s j (proj2 Hnn)) as B. change (mget (hmm_out m) s j) with (matR (hmm_out m) s j) in B.
    destruct (Req_dec (matR (hmm_out m) s j) 0) as [E|E]; [rewrite hNB_zero in Q by assumption|]; lra.
  Qed.

  Variable m' : hmm R.
  Hypothesis Hex : exists tr t, In (tr, t) set /\ 0 < P tr.
  Hypothesis Hal' : hmm_alph m' = hmm_alph m.
  Hypothesis Hn' : hmm_n m' = n.
  Hypothesis Hsq' : square n (hmm_mat m').
  Hypothesis Hlo' : length (hmm_out m') = n.
  Hypothesis Hro' : forall r, In r (hmm_out m') -> length r = J.
  Hypothesis Hli' : length (hmm_ini m') = n.
  Hypothesis Hget : forall s s', (s < n)%nat -> (s' < n)%nat -> mget (hmm_mat m') s s' = est (hDEN s) (hNUM s) (mget (hmm_mat m) s) s'.
  Hypothesis Hout : forall s j, (s < n)%nat -> (j < J)%nat -> mget (hmm_out m') s j = est (hDEN s) (hNB s) (mget (hmm_out m) s) j.
  Hypothesis Hini : forall s, (s < n)%nat -> vget (hmm_ini m') s = hIN s / Sum n hIN.

  Lemma h_INtot : 0 < Sum n hIN.
  Proof. apply IN_total; eauto using h_okw, h_okf, h_oka; intros; eauto using h_okw, h_okf. Qed.
  Lemma h_mat_nonneg' s s' : (s < n)%nat -> (s' < n)%nat -> 0 <= mget (hmm_mat m') s s'.
  Proof.
    intros Hs Hs'. rewrite Hget by assumption. apply (est_nonneg n); auto using hDEN_sum.
    - intros; apply hNUM_nonneg; assumption.
    - intros; apply mget_nonneg; apply Hnn.
  Qed.
  Lemma h_out_nonneg' s j : (s < n)%nat -> (j < J)%nat -> 0 <= mget (hmm_out m') s j.
  Proof.
    intros Hs Hs'. rewrite Hout by assumption. apply (est_nonneg J); auto using hDEN_letters.
    - intros; apply hNB_nonneg; assumption.
    - intros; apply mget_nonneg; apply Hnn.
  Qed.
  Lemma h_nonneg' : nonneg_hmm m'.
  Proof.
    split.
    - intros r Ir x Ix. exact (mat_from_entries _ n (fun x => 0 <= x) Hsq' h_mat_nonneg' r x Ir Ix).
    - intros r Ir x Ix. pose proof (Hro' r Ir) as Lr. apply (In_nth _ _ []) in Ir. destruct Ir as [s [Hs E]]. apply (In_nth _ _ 0) in Ix. destruct Ix as [j [Hj E']].
      subst x r. apply h_out_nonneg'; lia.
  Qed.
  Lemma h_ini_nonneg' : nonneg (hmm_ini m').
  Proof.
    intros x Ix. apply (In_nth _ _ 0) in Ix. destruct Ix as [s [Hs <-]]. rewrite Hli' in Hs.
    change (nth s (hmm_ini m') 0) with (vget (hmm_ini m') s). rewrite Hini by exact Hs.
    apply Rmult_le_pos; [apply IN_nonneg; auto using h_oka; intros; eauto using h_okw, h_okf|]. apply Rlt_le, Rinv_0_lt_compat, h_INtot.
  Qed.
  Lemma h_ini_sum' : rsum (hmm_ini m') = 1.
  Proof.
    rewrite rsum_nth, Hli'. rewrite (Sum_ext n _ (fun s => hIN s / Sum n hIN)) by (intros; apply Hini; assumption).
    rewrite Sum_div_r. field. pose proof h_INtot. lra.
  Qed.
  Lemma h_row_sum' s : (s < n)%nat -> rsum (nth s (hmm_mat m') []) = if Req_EM_T (hDEN s) 0 then rsum (nth s (hmm_mat m) []) else 1.
  Proof.
    intros Hs. rewrite (row_sum_Sum _ n) by assumption.
    rewrite (Sum_ext n _ (est (hDEN s) (hNUM s) (mget (hmm_mat m) s))) by (intros; apply Hget; assumption).
    rewrite est_sum by (apply hDEN_sum; exact Hs). rewrite (row_sum_Sum _ n) by (auto; apply Hwf). reflexivity.
  Qed.
  Lemma out_row_sum (x : hmm R) s : (s < length (hmm_out x))%nat -> (forall r, In r (hmm_out x) -> length r = J) ->
    rsum (nth s (hmm_out x) []) = Sum J (mget (hmm_out x) s).
  Proof. intros Hs Hr. rewrite rsum_nth. rewrite (Hr (nth s (hmm_out x) [])) by (apply nth_In; exact Hs). reflexivity. Qed.
  Lemma h_out_sum' s : (s < n)%nat -> rsum (nth s (hmm_out m') []) = if Req_EM_T (hDEN s) 0 then rsum (nth s (hmm_out m) []) else 1.
  Proof.
    intros Hs. rewrite out_row_sum by (auto; lia).
    rewrite (Sum_ext J _ (est (hDEN s) (hNB s) (mget (hmm_out m) s))) by (intros; apply Hout; assumption).
    rewrite est_sum by (apply hDEN_letters; exact Hs). rewrite out_row_sum; auto; [|apply Hwf]. destruct Hwf as (_ & L & _). rewrite L. exact Hs.
  Qed.
  Lemma h_zero' s s' : (s < n)%nat -> (s' < n)%nat -> mget (hmm_mat m) s s' = 0 -> mget (hmm_mat m') s s' = 0.
  Proof.
    intros Hs Hs' Z. rewrite Hget by assumption. unfold est. destruct (Req_EM_T _ 0); [exact Z|]. rewrite hNUM_zero by exact Z. unfold Rdiv; ring.
  Qed.
  Lemma h_out_zero' s j : (s < n)%nat -> (j < J)%nat -> mget (hmm_out m) s j = 0 -> mget (hmm_out m') s j = 0.
  Proof.
    intros Hs Hs' Z. rewrite Hout by assumption. unfold est. destruct (Req_EM_T _ 0); [exact Z|]. rewrite hNB_zero by assumption. unfold Rdiv; ring.
  Qed.
  Lemma h_emit_zero' o s : (s < n)%nat -> emit m o s = 0 -> emit m' o s = 0.
  Proof.
    intros Hs Z. destruct (in_dec String.string_dec o (hmm_alph m)) as [K|K]; [|apply emit_out; rewrite Hal'; exact K].
    apply (In_nth _ _ EmptyString) in K. destruct K as [j [Hj <-]]. rewrite emit_nth in Z by (auto; apply Hwf).
    pose proof (emit_nth m' j s) as E. rewrite Hal' in E. rewrite E by (auto; apply Hwf). apply h_out_zero'; assumption.
  Qed.

  Hypothesis Hsub : forall r, In r (hmm_mat m) -> rsum r <= 1.
  Hypothesis Hsubo : forall r, In r (hmm_out m) -> rsum r <= 1.
  Hypothesis Hsubi : rsum (hmm_ini m) <= 1.

  Lemma h_est_pos (N : nat -> R) p s j : (s < n)%nat -> hDEN s = 0 \/ 0 < hDEN s -> 0 < N j -> 0 < p j -> 0 < est (hDEN s) N p j.
  Proof. intros Hs D PN Pp. unfold est. destruct (Req_EM_T _ 0); [exact Pp|]. apply Rdiv_lt_0_compat; [exact PN|lra]. Qed.
  Lemma hDEN_nonneg s : (s < n)%nat -> hDEN s = 0 \/ 0 < hDEN s.
  Proof. intros Hs. assert (0 <= hDEN s) by (rewrite hDEN_sum by exact Hs; apply Sum_nonneg; intros; apply hNUM_nonneg; assumption). lra. Qed.

  Definition hmm_change : R :=
    Sum n hIN * sqdist n a0 (vget (hmm_ini m')) +
    (Sum n (fun s => hDEN s * sqdist n (mget (hmm_mat m) s) (mget (hmm_mat m') s)) +
     Sum n (fun s => hDEN s * sqdist J (mget (hmm_out m) s) (mget (hmm_out m') s))).
  Lemma h_em_gain : set_ll P set + hmm_change <= set_ll (Pof n (vget (hmm_ini m')) (hW m') fo) set /\
    (forall tr t, In (tr, t) set -> (0 < P tr <-> 0 < Pof n (vget (hmm_ini m')) (hW m') fo tr)).
  Proof.
    apply (em_gain n set (fun tr => tr) fo a0 (fun _ : string => matR (hmm_mat m)) (emit m) (vget (hmm_ini m')) (fun _ => matR (hmm_mat m')) (emit m') HT h_okf h_oka).
    - intros s Hs. apply vget_nonneg. exact h_ini_nonneg'.
    - exact h_HA.
    - intros x t o _ _. split; [intros s s' Hs Hs'; apply h_mat_nonneg'; assumption|]. intros s Hs. apply emit_nonneg'. apply h_nonneg'.
    - intros x t k d s s' I Px Hk Hs Hs' Pk.
      assert (PN : 0 < hNUM s s').
      { apply (XI_ones_pos n set a0 W fo HT) with (x := x) (t := t) (k := k); auto using h_oka; try (intros; eauto using h_okw, h_okf; fail).
        unfold hW. rewrite ew_length. exact Hk. }
      split.
      + change (0 < mget (hmm_mat m') s s'). rewrite Hget by assumption. apply h_est_pos; auto using hDEN_nonneg. apply hNUM_supp. exact PN.
      + destruct (xi_factors n set (fun tr => tr) fo a0 (fun _ : string => matR (hmm_mat m)) (emit m) h_okf h_oka h_HA x t k d s s' I Hk Hs Hs' Pk) as [_ Pe].
        assert (Ko : In (nth k x d) (hmm_alph m)) by (apply (h_known x t); auto; apply nth_In; exact Hk).
        apply (In_nth _ _ EmptyString) in Ko. destruct Ko as [j [Hj Ej]]. rewrite <- Ej in Pe |- *. rewrite emit_nth in Pe by (auto; apply Hwf).
        pose proof (emit_nth m' j s) as E. rewrite Hal' in E. rewrite E by (auto; apply Hwf). change (0 < mget (hmm_out m') s j). rewrite Hout by assumption.
        apply h_est_pos; auto using hDEN_nonneg. unfold hNB. rewrite GA_XI by exact Hs. apply (Sum_pos n _ s'); auto.
        * intros i Hi. apply XI_nonneg; auto using h_oka. 1-2: intros; eauto using h_okw, h_okf.
          intros y z Iz. apply in_map_iff in Iz. destruct Iz as [o [<- _]]. apply letter_nonneg.
        * apply (XI_pos n set a0 W fo HT) with (x := x) (t := t) (k := k); auto using h_oka; try (intros; eauto using h_okw, h_okf; fail).
          -- intros y z Iz. apply in_map_iff in Iz. destruct Iz as [o [<- _]]. apply letter_nonneg.
          -- unfold hW. rewrite ew_length. exact Hk.
          -- rewrite (nth_map_in _ _ _ d) by exact Hk. unfold letter. rewrite Ej, String.eqb_refl. lra.
    - intros x t o s s' I Io Hs Hs' Z. apply Rmult_integral in Z. destruct Z as [Z|Z].
      + rewrite h_emit_zero' by assumption. ring.
      + change (matR (hmm_mat m') s s') with (mget (hmm_mat m') s s'). rewrite h_zero' by assumption. ring.
    - intros s Hs Z. rewrite Hini by exact Hs. unfold hIN. rewrite IN_zero by exact Z. unfold Rdiv; ring.
    - intros s Hs Q. rewrite Hini by exact Hs. apply Rdiv_lt_0_compat; [exact Q|apply h_INtot].
    - apply Rplus_le_compat; [|apply Rplus_le_compat].
    + apply Rle_trans with (Sum n (fun s => hIN s * ln (hIN s / Sum n hIN / a0 s))); [|apply Req_le, Sum_ext; intros s Hs; rewrite Hini by exact Hs; reflexivity].
      replace (sqdist n a0 (vget (hmm_ini m'))) with (Sum n (fun s => (sqrt (hIN s / Sum n hIN) - sqrt (a0 s)) ^ 2))
        by (apply Sum_ext; intros j Hj; rewrite Hini by assumption; reflexivity).
      apply ini_gain; auto using h_oka; try (intros; eauto using h_okw, h_okf; fail).
      rewrite <- hmm_ini_len. rewrite rsum_nth in Hsubi. exact Hsubi.
    + apply Sum_le. intros s Hs.
      rewrite (Sum_ext n _ (fun s' => hNUM s s' * ln (est (hDEN s) (hNUM s) (mget (hmm_mat m) s) s' / mget (hmm_mat m) s s'))).
      * replace (sqdist n (mget (hmm_mat m) s) (mget (hmm_mat m') s)) with (sqdist n (mget (hmm_mat m) s) (est (hDEN s) (hNUM s) (mget (hmm_mat m) s)))
          by (apply Sum_ext; intros j Hj; rewrite Hget by assumption; reflexivity).
        apply est_gain; auto using hDEN_sum.
        -- intros; apply hNUM_nonneg; assumption.
        -- intros; apply mget_nonneg; apply Hnn.
        -- intros j Hj Q. apply hNUM_supp. exact Q.
        -- rewrite <- (row_sum_Sum (hmm_mat m) n) by (auto; apply Hwf). apply Hsub. apply (nth_mget_in _ n); [apply Hwf|exact Hs].
      * intros s' Hs'. rewrite <- Hget by assumption. unfold trans_gain, hNUM, XI. rewrite <- psum_scal_r. apply psum_ext. intros x t I Px.
        fold (hW m). unfold ones1. rewrite wsum_ones1 by apply xi_length.
        rewrite (wsum_const _ _ (ln (matR (hmm_mat m') s s' / matR (hmm_mat m) s s'))).
        -- change (matR (hmm_mat m') s s') with (mget (hmm_mat m') s s'). change (matR (hmm_mat m) s s') with (mget (hmm_mat m) s s'). ring.
        -- intros y Iy. apply in_map_iff in Iy. destruct Iy as [o [<- _]]. reflexivity.
        -- rewrite xi_length, map_length. unfold hW. rewrite ew_length. lia.
    + apply Sum_le. intros s Hs. unfold emit_gain. fold (hW m). rewrite hGA_letters by exact Hs.
      rewrite (Sum_ext J _ (fun j => hNB s j * ln (est (hDEN s) (hNB s) (mget (hmm_out m) s) j / mget (hmm_out m) s j))).
      * replace (sqdist J (mget (hmm_out m) s) (mget (hmm_out m') s)) with (sqdist J (mget (hmm_out m) s) (est (hDEN s) (hNB s) (mget (hmm_out m) s)))
          by (apply Sum_ext; intros j Hj; rewrite Hout by assumption; reflexivity).
        apply est_gain; auto using hDEN_letters.
        -- intros; apply hNB_nonneg; assumption.
        -- intros; apply mget_nonneg; apply Hnn.
        -- intros j Hj Q. apply hNB_supp; assumption.
        -- assert (Lo : (s < length (hmm_out m))%nat) by (destruct Hwf as (_ & L & _); rewrite L; exact Hs).
          rewrite <- out_row_sum; [apply Hsubo, nth_In; exact Lo|exact Lo|apply Hwf].
      * intros j Hj. rewrite <- Hout by assumption. rewrite emit_nth by (auto; apply Hwf).
        pose proof (emit_nth m' j s) as E. rewrite Hal' in E. rewrite E by (auto; apply Hwf). reflexivity.
  Qed.
  Lemma hmm_change_nonneg : 0 <= hmm_change.
  Proof.
    assert (D : forall s, (s < n)%nat -> 0 <= hDEN s) by (intros s Hs; destruct (hDEN_nonneg s Hs); lra).
    pose proof h_INtot. apply Rplus_le_le_0_compat; [apply Rmult_le_pos; [lra|apply sqdist_nonneg]|].
    apply Rplus_le_le_0_compat; apply Sum_nonneg; intros; apply Rmult_le_pos; auto using sqdist_nonneg.
  Qed.
  Lemma h_em_mono : set_ll P set <= set_ll (Pof n (vget (hmm_ini m')) (hW m') fo) set /\
    (forall tr t, In (tr, t) set -> (0 < P tr <-> 0 < Pof n (vget (hmm_ini m')) (hW m') fo tr)).
  Proof. destruct h_em_gain as [H1 H2]. pose proof hmm_change_nonneg. split; [lra|exact H2]. Qed.
End HMMfit.

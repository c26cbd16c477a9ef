(** Composition of CTMCs (C52). *)
From Coq Require Import String Ascii ZArith QArith Bool Reals Lra Lia Arith List.
From Verif Require Import Num Py MTools MSet MModels MCtor MPctmc MCompose SNum SSet SCtor SPctmc SCompose LSum LSet LCtor LBW LPctmc LText LAlergia LCompose PCtor PPctmc.
Import ListNotations.
Local Open Scope R_scope.

Lemma pairs_prod l1 l2 : pairs l1 l2 = list_prod l1 l2.
Proof. induction l1 as [|x l1 IH]; [reflexivity|]. unfold pairs in *. cbn [flat_map list_prod]. rewrite IH. reflexivity. Qed.
Lemma NoDup_list_prod (A B : Type) (l1 : list A) (l2 : list B) : NoDup l1 -> NoDup l2 -> NoDup (list_prod l1 l2).
Proof.
  intros N1 N2. induction l1 as [|x l1 IH]; [constructor|]. inversion_clear N1 as [|? ? NI N1']. cbn [list_prod]. apply NoDup_app_intro.
  - apply FinFun.Injective_map_NoDup; [intros a b [= ->]; reflexivity|exact N2].
  - apply IH, N1'.
  - intros [a b] I J. apply in_map_iff in I as (c & [= <- <-] & _). apply in_prod_iff in J. tauto.
Qed.
Lemma prod_seq n1 n2 : (0 < n2)%nat -> map (dm n2) (seq 0 (n1 * n2)) = list_prod (seq 0 n1) (seq 0 n2).
Proof.
  intros P. induction n1 as [|n1 IH]; [reflexivity|]. replace (S n1) with (n1 + 1)%nat at 2 by lia. rewrite seq_app. replace (S n1 * n2)%nat with (n1 * n2 + n2)%nat by lia. rewrite seq_app, map_app, IH. cbn [plus seq].
  assert (E : forall a b c : list nat, list_prod (a ++ b) c = list_prod a c ++ list_prod b c). { intros a b c. induction a as [|x a IHa]; [reflexivity|]. cbn. rewrite IHa, app_assoc. reflexivity. }
  rewrite E. f_equal. cbn [list_prod]. rewrite app_nil_r.
  assert (S : forall k s, seq (s + k) n2 = map (fun j => s + j)%nat (seq k n2)). { clear. induction n2 as [|n IH]; intros k s; [reflexivity|]. cbn [seq map]. f_equal. rewrite <- IH. f_equal. lia. }
  replace (n1 * n2)%nat with (n1 * n2 + 0)%nat at 1 by lia. rewrite S, map_map. apply map_ext_in. intros j I. apply in_seq in I. unfold dm. destruct (divmod n2 P n1 j) as [-> ->]; [lia|reflexivity].
Qed.
Lemma filter_map {A B} (f : B -> bool) (g : A -> B) l : filter f (map g l) = map g (filter (fun x => f (g x)) l).
Proof. induction l as [|x l IH]; [reflexivity|]. cbn. destruct (f (g x)); cbn; rewrite IH; reflexivity. Qed.
Lemma dget_map_some (d : dict R) k : dget (drop_nan (map (fun p => (fst p, Some (snd p))) d)) k = dget d k.
Proof. induction d as [|[p v] d IH]; [reflexivity|]. unfold drop_nan in *. cbn. rewrite IH. reflexivity. Qed.
Lemma combine_seq_In (v : list R) : forall s i x, In (i, x) (combine (seq s (length v)) v) <-> (s <= i)%nat /\ nth_error v (i - s) = Some x.
Proof.
  induction v as [|a v IH]; intros s i x; cbn [length seq combine In].
  - split; [intros []|]. intros [_ E]. destruct (i - s)%nat; discriminate.
  - rewrite IH. split.
    + intros [[= <- <-]|[L E]]; [rewrite Nat.sub_diag; auto|]. split; [lia|]. replace (i - s)%nat with (S (i - S s)) by lia. exact E.
    + intros [L E]. destruct (Nat.eq_dec s i) as [<-|N]; [left; rewrite Nat.sub_diag in E; cbn in E; congruence|]. right. split; [lia|]. replace (i - s)%nat with (S (i - S s)) in E by lia. exact E.
Qed.
Lemma combine_seq_fst (v : list R) : forall s, map fst (combine (seq s (length v)) v) = seq s (length v).
Proof. induction v as [|a v IH]; intros s; [reflexivity|]. cbn. rewrite IH. reflexivity. Qed.

Section Comp.
  Variables (n1 n2 : nat) (l1 l2 : list string) (m1 m2 : ctmc R) (sync1 sync2 : list sync).
  Hypothesis C1 : component n1 l1 m1.
  Hypothesis C2 : component n2 l2 m2.
  Hypothesis P2 : (0 < n2)%nat.
  Hypothesis LE : (n2 <= n1 + 1)%nat.
  Hypothesis NL : forall a b, (a < n1)%nat -> (b < n2)%nat -> matR (ct_mat m1) a a = 0 \/ matR (ct_mat m2) b b = 0.
  Hypothesis S1 : sync_in n1 sync1.
  Hypothesis S2 : sync_in n2 sync2.
  Hypothesis BD : (1 + nonzeros n1 m1 + nonzeros n2 m2 + sync_pairs sync1 sync2 + start_pairs m1 m2 n1 n2 <= 256)%nat.
  Notation nb := (n1 * n2)%nat.
  Notation q1 := (list_prod (seq 0 n1) (seq 0 n1)).
  Notation q2 := (list_prod (seq 0 n2) (seq 0 n2)).
  Notation q12 := (list_prod (seq 0 n1) (seq 0 n2)).
  Notation sy := (list_prod sync1 sync2).
  Definition v1 := map (fun j => mget (ct_mat m1) n1 j) (seq 0 n1).
  Definition v2 := map (fun j => mget (ct_mat m2) n2 j) (seq 0 n2).
  Definition W1 := Wph n2 true (ct_mat m1) q1 (fun _ _ => EConst 0).
  Definition W2 := Wph n2 false (ct_mat m2) q2 W1.
  Definition W3 := Wsync n2 sy W2.
  Definition W4 := Winit n1 n2 v1 v2 q12 (Wext nb W3).
  Definition V2 := Vph false (ct_mat m2) q2 (Vph true (ct_mat m1) q1 (fun _ => None)).
  Definition V4 := Vini "initq_" (combine (seq 0 (length v2)) v2) (Vini "initp_" (combine (seq 0 (length v1)) v1) V2).

  Lemma qin n i j : In (i, j) (list_prod (seq 0 n) (seq 0 n)) <-> (i < n)%nat /\ (j < n)%nat.
  Proof. rewrite in_prod_iff, !in_seq. lia. Qed.
  Lemma q12in i j : In (i, j) q12 <-> (i < n1)%nat /\ (j < n2)%nat.
  Proof. rewrite in_prod_iff, !in_seq. lia. Qed.
  Lemma sy_in t : In t sy -> (s_src (fst t) < n1 /\ s_dst (fst t) < n1 /\ s_src (snd t) < n2 /\ s_dst (snd t) < n2)%nat.
  Proof. destruct t as [a b]. rewrite in_prod_iff. intros [A B]. apply S1 in A. apply S2 in B. cbn [fst snd]. tauto. Qed.
  Lemma len_v1 : length v1 = n1. Proof. unfold v1. rewrite map_length, seq_length. reflexivity. Qed.
  Lemma len_v2 : length v2 = n2. Proof. unfold v2. rewrite map_length, seq_length. reflexivity. Qed.
  Lemma nth_row (f : nat -> R) n i : (i < n)%nat -> nth_error (map f (seq 0 n)) i = Some (f i).
  Proof. intros L. rewrite nth_error_map. rewrite (nth_error_nth' _ O) by (rewrite seq_length; exact L). rewrite seq_nth by exact L. reflexivity. Qed.
  Lemma pos_eq ij : In ij q12 -> pos v1 v2 ij = negb (Rleb (prod_start m1 m2 n1 n2 ij) 0).
  Proof.
    destruct ij as [i j]. rewrite q12in. intros [Li Lj]. unfold pos, prod_start. cbn [fst snd]. unfold v1, v2.
    rewrite (nth_error_nth _ _ 0 (nth_row (fun j => mget (ct_mat m1) n1 j) n1 i Li)). rewrite (nth_error_nth _ _ 0 (nth_row (fun j => mget (ct_mat m2) n2 j) n2 j Lj)). reflexivity.
  Qed.
  Lemma pos_both i j : (i < n1)%nat -> (j < n2)%nat -> pos v1 v2 (i, j) = true -> 0 < matR (ct_mat m1) n1 i /\ 0 < matR (ct_mat m2) n2 j.
  Proof.
    intros Li Lj. rewrite pos_eq by (apply q12in; auto). unfold prod_start. cbn [fst snd]. intros P. apply negb_true_iff in P. unfold Rleb in P. destruct (Rle_dec _ 0) as [|G]; [discriminate|].
    destruct C1 as (_ & _ & _ & _ & _ & N1). destruct C2 as (_ & _ & _ & _ & _ & N2). specialize (N1 i Li). specialize (N2 j Lj).
    split; (destruct (Rle_lt_dec (matR (ct_mat m1) n1 i) 0); [exfalso; apply G; assert (matR (ct_mat m1) n1 i = 0) by lra; rewrite H; lra|]); (destruct (Rle_lt_dec (matR (ct_mat m2) n2 j) 0); [exfalso; apply G; assert (matR (ct_mat m2) n2 j = 0) by lra; rewrite H; lra|]); assumption.
  Qed.
  Lemma Vinit1 i : (i < n1)%nat -> 0 < matR (ct_mat m1) n1 i -> V4 ("initp_" ++ str_nat i)%string = Some (matR (ct_mat m1) n1 i).
  Proof.
    intros Li P. unfold V4. rewrite Vini_other by (intros j E; discriminate E). apply Vini_in; [rewrite combine_seq_fst; apply seq_NoDup| |exact P]. apply combine_seq_In. split; [lia|]. rewrite Nat.sub_0_r. exact (nth_row (fun j => mget (ct_mat m1) n1 j) n1 i Li).
  Qed.
  Lemma Vinit2 i : (i < n2)%nat -> 0 < matR (ct_mat m2) n2 i -> V4 ("initq_" ++ str_nat i)%string = Some (matR (ct_mat m2) n2 i).
  Proof.
    intros Li P. unfold V4. apply Vini_in; [rewrite combine_seq_fst; apply seq_NoDup| |exact P]. apply combine_seq_In. split; [lia|]. rewrite Nat.sub_0_r. exact (nth_row (fun j => mget (ct_mat m2) n2 j) n2 i Li).
  Qed.
  Lemma Vrate1 i j : nz (ct_mat m1) (i, j) = true -> (i < n1)%nat -> (j < n1)%nat -> V4 (name2 "p_" i j) = Some (matR (ct_mat m1) i j).
  Proof.
    intros NZ Li Lj. unfold V4. rewrite !Vini_other by (intros k E; discriminate E). unfold V2. rewrite Vph_other by (intros a b E; discriminate E). apply (Vph_in true); [exact NZ|apply qin; auto].
  Qed.
  Lemma Vrate2 i j : nz (ct_mat m2) (i, j) = true -> (i < n2)%nat -> (j < n2)%nat -> V4 (name2 "q_" i j) = Some (matR (ct_mat m2) i j).
  Proof.
    intros NZ Li Lj. unfold V4. rewrite !Vini_other by (intros k E; discriminate E). apply (Vph_in false); [exact NZ|apply qin; auto].
  Qed.

  Definition b0 : build R := mkB (repeat (repeat O nb) nb) [EConst 0] [] [] [].
  Lemma b0_ok : binv nb b0 (fun _ _ => EConst 0) (fun _ => None).
  Proof.
    unfold b0. split; [|split; [reflexivity|split; [cbn; lia|split; [cbn; lia|split; [constructor|split; [reflexivity|split]]]]]]; cbn [b_mat b_te b_ps b_pv b_pi].
    - split; [apply repeat_length|]. assert (E : forall x, (x < nb)%nat -> nth x (repeat (repeat O nb) nb) [] = repeat O nb).
      { intros x Lx. assert (I : In (nth x (repeat (repeat O nb) nb) []) (repeat (repeat O nb) nb)) by (apply nth_In; rewrite repeat_length; exact Lx). apply repeat_spec in I. exact I. }
      split; [intros x Lx; rewrite E by exact Lx; apply repeat_length|]. split; [intros x y Lx Ly; rewrite E by exact Lx; rewrite nth_repeat; cbn; auto|]. split; [reflexivity|]. cbn. lia.
    - intros k. cbn. tauto.
    - intros x y k _ _ [].
  Qed.
  Lemma build_ok : exists b, binv (S nb) b W4 V4 /\
    forall (f : build R -> res (pctmc R)),
    (do b <- mfold (add_trans (seq 0 n1) (seq 0 n2) (ct_mat m1) true) (pairs (seq 0 n1) (seq 0 n1)) b0;
     do b <- mfold (add_trans (seq 0 n1) (seq 0 n2) (ct_mat m2) false) (pairs (seq 0 n2) (seq 0 n2)) b;
     do b <- mfold (add_loop (seq 0 n1) (seq 0 n2) (ct_mat m1) (ct_mat m2)) (pairs (seq 0 n1) (seq 0 n2)) b;
     do b <- mfold (add_sync (seq 0 n1) (seq 0 n2)) sy b;
     let b := mkB (map (fun r => r ++ [O]) (b_mat b ++ [repeat O nb])) (b_te b) (b_ps b) (b_pv b) (b_pi b) in
     let b := fold_left (add_init_params "initp_") (combine (seq 0 (length v1)) v1) b in
     let b := fold_left (add_init_params "initq_") (combine (seq 0 (length v2)) v2) b in
     do b <- mfold (add_init (seq 0 n1) (seq 0 n2) v1 v2) (pairs (seq 0 (length v1)) (seq 0 (length v2))) b;
     f b) = f b.
  Proof.
    unfold nonzeros, sync_pairs, start_pairs in BD. rewrite !pairs_prod.
    destruct (phase_ok n1 n2 P2 true (ct_mat m1) q1 b0 (fun _ _ => EConst 0) (fun _ => None)) as (b1 & E1 & B1 & T1).
    { apply NoDup_list_prod; apply seq_NoDup. } { intros i j I. apply qin, I. } { exact b0_ok. } { reflexivity. } { reflexivity. }
    { change (nz (ct_mat m1)) with (fun ij : nat * nat => negb (Reqb (matR (ct_mat m1) (fst ij) (snd ij)) 0)). cbn [b_te b0 length]. lia. }
    rewrite E1. cbn [bind]. fold W1 in B1. change (nz (ct_mat m1)) with (fun ij : nat * nat => negb (Reqb (matR (ct_mat m1) (fst ij) (snd ij)) 0)) in T1.
    destruct (phase_ok n1 n2 P2 false (ct_mat m2) q2 b1 W1 (Vph true (ct_mat m1) q1 (fun _ => None))) as (b2 & E2 & B2 & T2).
    { apply NoDup_list_prod; apply seq_NoDup. } { intros i j I. apply qin, I. } { exact B1. }
    { intros i j x y I NZ Lx Ly EO E3 E4. unfold W1, Wph. destruct (Nat.eqb_spec (oth n2 true x) (oth n2 true y)) as [EO1|]; cbn [andb]; [|reflexivity].
      destruct (nz (ct_mat m1) (own n2 true x, own n2 true y)) eqn:NZ1; [|rewrite andb_false_r; reflexivity]. exfalso.
      change (oth n2 true x) with (own n2 false x) in EO1. change (oth n2 true y) with (own n2 false y) in EO1. change (oth n2 false x) with (own n2 true x) in EO. change (oth n2 false y) with (own n2 true y) in EO.
      assert (EJ : j = i) by congruence. clear E4. subst j. rewrite <- EO in NZ1. apply qin in I as [I _]. destruct (NL (own n2 true x) i (own_lt n1 n2 P2 true x Lx) I) as [Z|Z].
      - unfold nz in NZ1. cbn [fst snd] in NZ1. change (mget (ct_mat m1)) with (matR (ct_mat m1)) in NZ1. rewrite Z in NZ1. unfold Reqb in NZ1. destruct (Req_EM_T 0 0); [discriminate|lra].
      - unfold nz in NZ. cbn [fst snd] in NZ. change (mget (ct_mat m2)) with (matR (ct_mat m2)) in NZ. rewrite Z in NZ. unfold Reqb in NZ. destruct (Req_EM_T 0 0); [discriminate|lra]. }
    { intros i j _. rewrite Vph_other by (intros a c E; discriminate E). reflexivity. }
    { change (nz (ct_mat m2)) with (fun ij : nat * nat => negb (Reqb (matR (ct_mat m2) (fst ij) (snd ij)) 0)). rewrite T1. cbn [b_te b0 length]. lia. }
    change (nz (ct_mat m2)) with (fun ij : nat * nat => negb (Reqb (matR (ct_mat m2) (fst ij) (snd ij)) 0)) in T2.
    rewrite E2. cbn [bind]. fold W2 in B2. fold V2 in B2.
    assert (E3 : forall b, mfold (add_loop (seq 0 n1) (seq 0 n2) (ct_mat m1) (ct_mat m2)) q12 b = Ok b).
    { assert (G : forall (l : list (nat * nat)) (b : build R), fold_left (fun b _ => b) l b = b) by (induction l; auto). intros b. rewrite (mfold_ok _ (fun b _ => b)); [rewrite G; reflexivity|]. intros b' [i j] I. apply q12in in I as [Li Lj]. unfold add_loop. destruct (NL i j Li Lj) as [Z|Z]; change (mget (ct_mat m1)) with (matR (ct_mat m1)); change (mget (ct_mat m2)) with (matR (ct_mat m2)); rewrite Z; nR; unfold Reqb; destruct (Req_EM_T 0 0); try lra; [|rewrite orb_true_r]; reflexivity. }
    rewrite E3. cbn [bind].
    destruct (sync_ok n1 n2 P2 sy b2 W2 V2 sy_in B2) as (b3 & E4 & B3 & T3); [rewrite T2, T1; cbn [b_te b0 length]; lia|]. rewrite E4. cbn [bind]. fold W3 in B3.
    pose proof (extend_ok nb b3 W3 V2 B3) as B4. set (b4 := mkB _ _ _ _ _) in B4.
    destruct (init_params_ok (S nb) "initp_" (combine (seq 0 (length v1)) v1) b4 (Wext nb W3) V2) as (B5 & T5 & _).
    { rewrite combine_seq_fst. apply seq_NoDup. } { exact B4. } { intros i v _. unfold V2. rewrite !Vph_other by (intros a c E; discriminate E). reflexivity. }
    cbv zeta in B5, T5. set (b5 := fold_left _ _ b4) in B5, T5.
    destruct (init_params_ok (S nb) "initq_" (combine (seq 0 (length v2)) v2) b5 (Wext nb W3) (Vini "initp_" (combine (seq 0 (length v1)) v1) V2)) as (B6 & T6 & _).
    { rewrite combine_seq_fst. apply seq_NoDup. } { exact B5. } { intros i v _. rewrite Vini_other by (intros a E; discriminate E). unfold V2. rewrite !Vph_other by (intros a c E; discriminate E). reflexivity. }
    cbv zeta in B6, T6. set (b6 := fold_left _ _ b5) in B6, T6. fold V4 in B6.
    destruct (init_ok n1 n2 P2 v1 v2 q12 b6 (Wext nb W3) V4) as (b7 & E7 & B7).
    { apply NoDup_list_prod; apply seq_NoDup. } { intros i j I. apply q12in, I. } { exact B6. }
    { intros i j _. unfold Wext. rewrite Nat.ltb_irrefl. reflexivity. }
    { intros i j I P. apply q12in in I as [Li Lj]. destruct (pos_both i j Li Lj P) as [A B]. rewrite (Vinit1 i Li A), (Vinit2 j Lj B). split; discriminate. }
    { rewrite T6, T5. cbn [b4 b_te]. rewrite T3, T2, T1. cbn [b_te b0 length]. rewrite (filter_ext_in (pos v1 v2) (fun ab => negb (Rleb (prod_start m1 m2 n1 n2 ab) 0))) by (intros ij I; apply pos_eq, I). lia. }
    exists b7. split; [exact B7|]. intros f. cbv zeta. fold b4. fold b5. fold b6. rewrite len_v1, len_v2. rewrite E7. reflexivity.
  Qed.
  Lemma nz_true (m : list (list R)) i j : nz m (i, j) = true <-> matR m i j <> 0.
  Proof. unfold nz. cbn [fst snd]. change (mget m i j) with (matR m i j). unfold Reqb. destruct (Req_EM_T (matR m i j) 0); cbn; split; intros; congruence. Qed.
  Lemma nz_false (m : list (list R)) i j : nz m (i, j) = false -> matR m i j = 0.
  Proof. intros E. destruct (Req_EM_T (matR m i j) 0) as [Z|N]; [exact Z|]. apply nz_true in N. congruence. Qed.
  Lemma var_value (V : string -> option R) k v : V k = Some v -> has_value V (EVar k) v.
  Proof. intros E. exists (fun _ => v). cbn. split; [intros x ->; exact E|reflexivity]. Qed.
  Lemma const_value (V : string -> option R) c : has_value V (EConst c) c.
  Proof. exists (fun _ => 0). split; [intros x []|reflexivity]. Qed.
  Lemma memb_q n x y : (x < n)%nat -> (y < n)%nat -> memb cell_eqb (x, y) (list_prod (seq 0 n) (seq 0 n)) = true.
  Proof. intros. apply (LCtor.memb_In _ cell_eqb_eq). apply qin. auto. Qed.
  Lemma W2_value x y : (x < nb)%nat -> (y < nb)%nat -> has_value V4 (W2 x y)
    ((if Nat.eqb (snd (dm n2 x)) (snd (dm n2 y)) then matR (ct_mat m1) (fst (dm n2 x)) (fst (dm n2 y)) else 0) +
     (if Nat.eqb (fst (dm n2 x)) (fst (dm n2 y)) then matR (ct_mat m2) (snd (dm n2 x)) (snd (dm n2 y)) else 0)).
  Proof.
    intros Lx Ly. pose proof (own_lt n1 n2 P2 true x Lx) as A1. pose proof (own_lt n1 n2 P2 true y Ly) as A2. pose proof (own_lt n1 n2 P2 false x Lx) as A3. pose proof (own_lt n1 n2 P2 false y Ly) as A4.
    unfold W2, Wph, dm. cbn [own oth size fst snd] in *. rewrite memb_q by assumption. rewrite andb_true_r.
    destruct (Nat.eqb_spec (x / n2) (y / n2)) as [E1|E1]; cbn [andb].
    - destruct (nz (ct_mat m2) (x mod n2, y mod n2)%nat) eqn:Z2.
      + assert (E : (if (x mod n2 =? y mod n2)%nat then matR (ct_mat m1) (x / n2)%nat (y / n2)%nat else 0) = 0).
        { destruct (Nat.eqb_spec (x mod n2) (y mod n2)) as [E2|]; [|reflexivity]. apply nz_true in Z2. rewrite <- E2 in Z2. rewrite <- E1. destruct (NL _ _ A1 A3); [assumption|contradiction]. }
        rewrite E, Rplus_0_l. apply var_value. apply Vrate2; assumption.
      + rewrite (nz_false _ _ _ Z2), Rplus_0_r. unfold W1, Wph. cbn [own oth]. rewrite memb_q by assumption. rewrite andb_true_r. destruct (x mod n2 =? y mod n2)%nat; cbn [andb]; [|apply const_value].
        destruct (nz (ct_mat m1) (x / n2, y / n2)%nat) eqn:Z1; [apply var_value, Vrate1; assumption|]. rewrite (nz_false _ _ _ Z1). apply const_value.
    - rewrite Rplus_0_r. unfold W1, Wph. cbn [own oth]. rewrite memb_q by assumption. rewrite andb_true_r. destruct (x mod n2 =? y mod n2)%nat; cbn [andb]; [|apply const_value].
      destruct (nz (ct_mat m1) (x / n2, y / n2)%nat) eqn:Z1; [apply var_value, Vrate1; assumption|]. rewrite (nz_false _ _ _ Z1). apply const_value.
  Qed.
  Lemma W4_value x y : (x < nb)%nat -> (y < nb)%nat -> has_value V4 (W4 x y) (prod_rate m1 m2 sync1 sync2 (dm n2 x) (dm n2 y)).
  Proof.
    intros Lx Ly. unfold W4, Winit. rewrite (proj2 (Nat.eqb_neq x nb)) by lia. cbn [andb]. unfold Wext. rewrite (proj2 (Nat.ltb_lt _ _) Lx), (proj2 (Nat.ltb_lt _ _) Ly). cbn [andb]. apply Wsync_value; [exact P2| |apply W2_value; assumption].
    intros t I. apply sy_in in I. tauto.
  Qed.
  Lemma W4_start y : (y < nb)%nat -> has_value V4 (W4 nb y) (prod_start m1 m2 n1 n2 (dm n2 y)) /\ (prod_start m1 m2 n1 n2 (dm n2 y) <> 0 -> W4 nb y <> EConst 0).
  Proof.
    intros Ly. pose proof (own_lt n1 n2 P2 true y Ly) as A2. pose proof (own_lt n1 n2 P2 false y Ly) as A4. cbn [own size] in A2, A4.
    assert (I : In (dm n2 y) q12) by (apply q12in; auto). unfold W4, Winit. rewrite Nat.eqb_refl, (proj2 (Nat.ltb_lt _ _) Ly). fold (dm n2 y). rewrite (proj2 (LCtor.memb_In _ cell_eqb_eq _ _) I). cbn [andb].
    destruct (pos v1 v2 (dm n2 y)) eqn:P.
    - split; [|discriminate]. destruct (pos_both _ _ A2 A4 P) as [P1 P3]. set (f := fun k => if String.eqb k ("initp_" ++ str_nat (y / n2)) then matR (ct_mat m1) n1 (y / n2)%nat else matR (ct_mat m2) n2 (y mod n2)%nat).
      assert (F : f ("initq_" ++ str_nat (y mod n2))%string = matR (ct_mat m2) n2 (y mod n2)%nat) by (unfold f; destruct (String.eqb_spec ("initq_" ++ str_nat (y mod n2)) ("initp_" ++ str_nat (y / n2))) as [E|]; [discriminate E|reflexivity]).
      assert (F' : f ("initp_" ++ str_nat (y / n2))%string = matR (ct_mat m1) n1 (y / n2)%nat) by (unfold f; rewrite String.eqb_refl; reflexivity).
      exists f. split.
      + unfold initE. cbn [occurs]. intros k [->| ->]; [rewrite F'; apply Vinit1|rewrite F; apply Vinit2]; assumption.
      + unfold initE. cbn [denote]. rewrite F, F'. reflexivity.
    - rewrite pos_eq in P by exact I. apply negb_false_iff in P. unfold Rleb in P. destruct (Rle_dec _ 0) as [P'|]; [|discriminate].
      assert (Z : prod_start m1 m2 n1 n2 (dm n2 y) = 0). { apply Rle_antisym; [exact P'|]. unfold prod_start, dm. cbn [fst snd]. destruct C1 as (_ & _ & _ & _ & _ & N1). destruct C2 as (_ & _ & _ & _ & _ & N2). apply Rmult_le_pos; auto. }
      rewrite Z. split; [|congruence]. unfold Wext. rewrite Nat.ltb_irrefl. apply const_value.
  Qed.
  Lemma W4_init x : (x <= nb)%nat -> W4 x nb = EConst 0.
  Proof. intros _. unfold W4, Winit. rewrite Nat.ltb_irrefl, andb_false_r. cbn [andb]. unfold Wext. rewrite Nat.ltb_irrefl, andb_false_r. reflexivity. Qed.
  Lemma value_nz V e v : has_value V e v -> v <> 0 -> e <> EConst 0.
  Proof. intros (rho & _ & E) N ->. cbn in E. contradiction. Qed.
  Lemma dm_idx a b : (b < n2)%nat -> dm n2 (a * n2 + b) = (a, b).
  Proof. intros L. unfold dm. destruct (divmod n2 P2 a b L) as [-> ->]. reflexivity. Qed.

  Definition lab12 (ab : nat * nat) : string := (nth (fst ab) l1 EmptyString ++ "," ++ nth (snd ab) l2 EmptyString)%string.
  Lemma comma_not_init a b : (a ++ "," ++ b)%string <> "init"%string.
  Proof.
    intros E. assert (I : In ","%char (list_ascii_of_string (a ++ "," ++ b))) by (rewrite l_app; apply in_or_app; right; left; reflexivity). rewrite E in I. cbn in I. destruct I as [I|[I|[I|[I|[]]]]]; discriminate.
  Qed.
  Lemma compose_ok name : exists m keep, let kept := filter keep q12 in
    synchronousCompositionCTMCs m1 m2 sync1 sync2 name = Ok m /\ pc_name m = name /\
    pc_lab m = map lab12 kept ++ ["init"%string] /\ wf_pctmc m /\ uniform_on_init (pc_lab m) (pc_ini m) /\
    (forall x y, (x < length kept)%nat -> (y < length kept)%nat -> has_rate m (current m) x y (prod_rate m1 m2 sync1 sync2 (nth x kept (O, O)) (nth y kept (O, O)))) /\
    (forall y, (y < length kept)%nat -> has_rate m (current m) (length kept) y (prod_start m1 m2 n1 n2 (nth y kept (O, O)))) /\
    (forall x, (x <= length kept)%nat -> transition m x (length kept) = EConst 0) /\
    (forall ab, reachable m1 m2 n1 n2 sync1 sync2 ab -> In ab kept) /\
    (forall y, (y < length kept)%nat -> exists x, (x <= length kept)%nat /\ transition m x y <> EConst 0) /\
    (forall p x y, In (Z.of_nat x, Z.of_nat y) (parameterIndexes m p) <-> (x < pc_n m)%nat /\ (y < pc_n m)%nat /\ occurs p (transition m x y)).
  Proof.
    destruct build_ok as (b & ((ML & MR & EN & LP & PI) & Z0 & LT & NZ & ND & PV & KS & OC) & BE).
    pose proof C1 as (LL1 & NI1 & LB1 & LM1 & LR1 & NN1). pose proof C2 as (LL2 & NI2 & LB2 & LM2 & LR2 & NN2).
    set (lab := fun x => lab12 (dm n2 x)).
    destruct (removal_ok nb (b_te b) (b_ps b) W4 lab Z0 NZ (fun x _ => comma_not_init _ _) (fun i => shift i []) shift_In) with (fuel := S nb) (f := fun _ : nat => true) (mat := b_mat b) (pi := b_pi b) as (g & mat & pi & ER & CL & (ML' & MR' & EN' & LP' & PI') & INC).
    { rewrite <- minv_filter_all, app_length, seq_length. cbn. lia. }
    { intros x y _ Ly _. rewrite <- minv_filter_all. apply in_or_app. left. apply in_seq. lia. }
    { rewrite <- minv_filter_all, app_length, seq_length. cbn [length]. rewrite Nat.add_1_r. split; [exact ML|]. split; [exact MR|].
      assert (EX : forall x, (x < S nb)%nat -> nth x (filter (fun _ => true) (seq 0 nb) ++ [nb]) O = x). { intros x Lx. rewrite <- minv_filter_all. replace (seq 0 nb ++ [nb]) with (seq 0 (S nb)) by (rewrite seq_S; reflexivity). apply seq_nth, Lx. }
      split; [intros x y Lx Ly; unfold Wk; rewrite !EX by assumption; apply EN; assumption|]. split; [exact LP|]. intros q Lq c. rewrite (PI q Lq). unfold Wk. split; intros (A & B & D); (split; [exact A|split; [exact B|]]); [rewrite !EX by assumption|rewrite !EX in D by assumption]; exact D. }
    set (k0 := filter g (seq 0 nb)) in *. set (keep := fun ab : nat * nat => g (fst ab * n2 + snd ab)%nat).
    assert (KE : filter keep q12 = map (dm n2) k0).
    { rewrite <- (prod_seq n1 n2 P2), filter_map. unfold k0. f_equal. apply filter_ext. intros x. unfold keep, dm. cbn [fst snd]. rewrite idx_dm by exact P2. reflexivity. }
    assert (LK : length (filter keep q12) = length k0) by (rewrite KE, map_length; reflexivity).
    assert (K0 : forall x, (x < length k0)%nat -> (nth x k0 O < nb)%nat /\ nth x (filter keep q12) (O, O) = dm n2 (nth x k0 O)).
    { intros x Lx. split; [|rewrite KE; assert (D : dm n2 O = (O, O)) by (unfold dm; rewrite Nat.div_0_l, Nat.mod_0_l by lia; reflexivity); rewrite <- D; apply map_nth]. assert (I : In (nth x k0 O) k0) by (apply nth_In; exact Lx). apply filter_In in I as [I _]. apply in_seq in I. lia. }
    assert (LKN : length (k0 ++ [nb]) = S (length k0)) by (rewrite app_length; cbn; lia).
    assert (N1 : forall x, (x < length k0)%nat -> nth x (k0 ++ [nb]) O = nth x k0 O) by (intros x Lx; apply app_nth1; exact Lx).
    assert (N2 : nth (length k0) (k0 ++ [nb]) O = nb) by (rewrite app_nth2, Nat.sub_diag by lia; reflexivity).
    assert (SE : synchronousCompositionCTMCs m1 m2 sync1 sync2 name =
      PCTMC_new (map (map Z.of_nat) mat) (map lab k0 ++ ["init"%string]) (b_te b) (map (fun p => (fst p, Some (snd p))) (b_pv b)) (map (map (fun c => (Z.of_nat (fst c), Z.of_nat (snd c)))) pi) (b_ps b) name).
    { unfold synchronousCompositionCTMCs. rewrite LB1, LB2. rewrite (sids_ok n1 l1 n1 l1), (sids_ok n1 l1 n2 l2) by (assumption || lia). rewrite !seq_length. unfold init_ids. rewrite (proj2 (filter_seq_init l1 NI1)), (proj2 (filter_seq_init l2 NI2)), LL1, LL2, !init_trans_one. fold v1 v2. 
      rewrite BE. assert (EL : map (fun ab : nat * nat => (nth (fst ab) (l1 ++ ["init"]) EmptyString ++ "," ++ nth (snd ab) (l2 ++ ["init"]) EmptyString)%string) (pairs (seq 0 n1) (seq 0 n2)) = map lab (filter (fun _ => true) (seq 0 nb))).
      { rewrite <- minv_filter_all, pairs_prod, <- (prod_seq n1 n2 P2), map_map. apply map_ext_in. intros x I. apply in_seq in I. unfold lab, lab12. pose proof (own_lt n1 n2 P2 true x) as A. pose proof (own_lt n1 n2 P2 false x) as B. cbn [own size] in A, B. rewrite !app_nth1 by (unfold dm; cbn [fst snd]; lia). reflexivity. }
      rewrite EL. rewrite ER. reflexivity. }
    match type of SE with _ = PCTMC_new ?a ?b' ?c ?d ?e ?f ?h => destruct (C86_PCTMC_constructor a b' c d e f h) as (OK & AT & _); destruct (PCTMC_new a b' c d e f h) as [m|x] eqn:EM end.
    2:{ exfalso. assert (X : exists m, @Err (pctmc R) x = Ok m); [|destruct X as (m & X); discriminate]. apply OK. split; [apply in_or_app; right; left; reflexivity|]. split; [rewrite map_length; exact LP'|]. split.
        - assert (I : In (nth O mat []) mat) by (apply nth_In; lia). assert (LO : (0 < length (nth O mat []))%nat) by (rewrite MR'; lia). exists (map Z.of_nat (nth O mat [])), (Z.of_nat (nth O (nth O mat []) O)). split; apply in_map; [exact I|apply nth_In; exact LO].
        - split; [|rewrite map_length, app_length, map_length; cbn; lia]. intros r k Ir Ik. apply in_map_iff in Ir as (r' & <- & Ir). apply in_map_iff in Ik as (k' & <- & Ik). destruct (In_nth _ _ [] Ir) as (x' & Lx & Ex). assert (Lr := MR' x' ltac:(lia)). rewrite Ex in Lr. destruct (In_nth _ _ O Ik) as (y' & Ly & Ey). destruct (EN' x' y') as [A _]; [lia|lia|]. rewrite Ex, Ey in A. lia. }
    destruct (AT m eq_refl) as (A1 & A2 & A3 & A4 & A5 & A6 & A7 & _).
    assert (MM : pc_mat m = mat). { rewrite A1, map_map. apply map_id_in. intros r _. rewrite map_map. apply map_id_in. intros k _. apply Nat2Z.id. }
    assert (PN : pc_n m = S (length k0)) by (unfold pc_n; rewrite MM; lia).
    assert (CU : forall k, current m k = V4 k).
    { intros k. unfold current, parameterValue. rewrite <- PV, <- (dget_map_some (b_pv b)). f_equal. clear -EM. unfold PCTMC_new in EM. repeat (destruct (negb _); [discriminate|]). destruct (zmax _) as [z|]; cbn [bind] in EM; [|discriminate]. destruct (_ <=? z)%Z; [discriminate|]. destruct (zmin _) as [z'|]; cbn [bind] in EM; [|discriminate]. destruct (_ <? _)%Z; [discriminate|]. destruct (negb _); [discriminate|]. destruct (model_init _ _); cbn [bind] in EM; [|discriminate]. injection EM as <-. reflexivity. }
    assert (TR : forall x y, (x < S (length k0))%nat -> (y < S (length k0))%nat -> transition m x y = W4 (nth x (k0 ++ [nb]) O) (nth y (k0 ++ [nb]) O)).
    { intros x y Lx Ly. unfold transition. rewrite MM, A3. destruct (EN' x y) as [_ E]; [lia|lia|]. exact E. }
    assert (HR : forall x y v, (x < S (length k0))%nat -> (y < S (length k0))%nat -> has_value V4 (W4 (nth x (k0 ++ [nb]) O) (nth y (k0 ++ [nb]) O)) v -> has_rate m (current m) x y v).
    { intros x y v Lx Ly HV. unfold has_rate. rewrite TR by assumption. apply (has_value_ext V4); [intros k _; symmetry; apply CU|exact HV]. }
    exists m, keep. cbv zeta. rewrite LK. split; [exact SE|]. split; [exact A6|]. split; [rewrite A2, KE, map_map; reflexivity|]. split; [|split; [|split; [|split; [|split; [|split; [|split]]]]]].
    - split; [|split; [rewrite A2, PN, app_length, map_length; cbn; lia|]].
      + intros r Ir. rewrite MM in Ir. destruct (In_nth _ _ [] Ir) as (x & Lx & <-). rewrite PN. split; [rewrite MR'; lia|]. intros k Ik. destruct (In_nth _ _ O Ik) as (y & Ly & <-). rewrite A3. rewrite MR' in Ly by lia. apply EN'; lia.
      + destruct A7 as (U1 & (U2 & _) & _). split; [rewrite U1, PN, app_length, map_length; cbn; lia|]. split; [rewrite A3; exact Z0|exact U2].
    - rewrite A2. exact A7.
    - intros x y Lx Ly. apply HR; [lia|lia|]. rewrite !N1 by assumption. destruct (K0 x Lx) as [Bx ->]. destruct (K0 y Ly) as [By ->]. apply W4_value; assumption.
    - intros y Ly. apply HR; [lia|lia|]. rewrite N2, N1 by assumption. destruct (K0 y Ly) as [By ->]. apply W4_start; assumption.
    - intros x Lx. rewrite TR by lia. rewrite N2. apply W4_init. destruct (Nat.eq_dec x (length k0)) as [->|]; [rewrite N2; lia|]. rewrite N1 by lia. destruct (K0 x); lia.
    - assert (IK : forall a c, (c < n2)%nat -> In (a * n2 + c)%nat k0 -> In (a, c) (filter keep q12)) by (intros a c Lc I; rewrite KE, <- (dm_idx a c Lc); apply in_map, I).
      assert (IN : forall y, (y < nb)%nat -> In y (k0 ++ [nb]) -> In y k0) by (intros y Ly I; apply in_app_or in I as [I|[I|[]]]; [exact I|lia]).
      intros ab RE. induction RE as [[a c] La Lc PS|[a c] [a' c'] _ IH La Lc PR]; cbn [fst snd] in *; apply (IK _ _ Lc); assert (Ly := idx_lt n1 n2 P2 _ _ La Lc); apply (IN _ Ly).
      + apply (CL nb); [apply in_or_app; right; left; reflexivity|exact Ly|]. apply W4_start; [exact Ly|]. rewrite dm_idx by exact Lc. exact PS.
      + rewrite KE in IH. apply in_map_iff in IH as (x & Ex & Ix). assert (Lx : (x < nb)%nat) by (apply filter_In in Ix as [Ix _]; apply in_seq in Ix; lia).
        apply (CL x); [apply in_or_app; left; exact Ix|exact Ly|]. apply (value_nz V4 _ _ (W4_value x _ Lx Ly)). rewrite Ex, dm_idx by exact Lc. exact PR.
    - intros y Ly. destruct (INC (nth y k0 O)) as (x & Ix & NE); [apply nth_In; exact Ly|]. destruct (In_nth _ _ O Ix) as (x' & Lx & Ex). exists x'. split; [lia|]. rewrite TR by lia. rewrite Ex, N1 by exact Ly. exact NE.
    - intros p x y. unfold parameterIndexes. rewrite A4, A5, PN. destruct (index_of String.eqb p (b_ps b)) as [k|] eqn:IX.
      + apply (LCtor.index_of_Some String.eqb String.eqb_eq) in IX. assert (Lk : (k < length (b_ps b))%nat) by (apply nth_error_Some; congruence). apply (nth_error_nth _ _ EmptyString) in IX.
        assert (D : nth k (map (map (fun c => (Z.of_nat (fst c), Z.of_nat (snd c)))) pi) [] = map (fun c => (Z.of_nat (fst c), Z.of_nat (snd c))) (nth k pi [])) by exact (map_nth (map (fun c => (Z.of_nat (fst c), Z.of_nat (snd c)))) pi [] k). rewrite D. rewrite in_map_iff. split.
        * intros ([a c] & E & I). cbn [fst snd] in E. injection E as E1 E2. apply Nat2Z.inj in E1, E2. subst a c. apply (PI' k Lk) in I as (B1 & B2 & O). cbn [fst snd] in *. rewrite IX in O. rewrite LKN in B1, B2. split; [exact B1|split; [exact B2|]]. rewrite TR by assumption. exact O.
        * intros (B1 & B2 & O). exists (x, y). split; [reflexivity|]. apply (PI' k Lk). cbn [fst snd]. rewrite LKN. split; [exact B1|split; [exact B2|]]. rewrite IX. rewrite TR in O by assumption. exact O.
      + split; [intros []|]. intros (B1 & B2 & OO). exfalso. rewrite TR in OO by assumption. assert (I : In p (b_ps b)).
        { assert (NB : forall x, (x < S (length k0))%nat -> (nth x (k0 ++ [nb]) O < S nb)%nat). { intros z Lz. destruct (Nat.eq_dec z (length k0)) as [->|]; [rewrite N2; lia|]. rewrite N1 by lia. destruct (K0 z); lia. }
          apply (OC _ _ _ (NB x B1) (NB y B2) OO). }
        destruct (LCtor.index_of_In String.eqb String.eqb_eq _ _ I). congruence.
  Qed.
End Comp.

(** ** C52: composition of CTMCs.
    The two CTMCs end with their state labelled 'init'.  The guards: the second
    one has at most one state more than the first, no pair of states has two
    self loops, at most 256 expressions.  The theorems below show that each guard
    is needed. *)
Theorem C52_ctmc_composition_partial : forall n1 n2 l1 l2 (m1 m2 : ctmc R) (sync1 sync2 : list sync) name,
  component n1 l1 m1 -> component n2 l2 m2 -> (0 < n2 <= n1 + 1)%nat ->
  (forall a b, (a < n1)%nat -> (b < n2)%nat -> matR (ct_mat m1) a a = 0 \/ matR (ct_mat m2) b b = 0) ->
  sync_in n1 sync1 -> sync_in n2 sync2 ->
  (1 + nonzeros n1 m1 + nonzeros n2 m2 + sync_pairs sync1 sync2 + start_pairs m1 m2 n1 n2 <= 256)%nat ->
  exists m keep, let kept := filter keep (list_prod (seq 0 n1) (seq 0 n2)) in
    synchronousCompositionCTMCs m1 m2 sync1 sync2 name = Ok m /\ pc_name m = name /\
    (* states: pairs in order, then the initial state *)
    pc_lab m = map (fun ab => nth (fst ab) l1 EmptyString ++ "," ++ nth (snd ab) l2 EmptyString)%string kept ++ ["init"%string] /\
    wf_pctmc m /\ uniform_on_init (pc_lab m) (pc_ini m) /\
    (* rates *)
    (forall x y, (x < length kept)%nat -> (y < length kept)%nat -> has_rate m (current m) x y (prod_rate m1 m2 sync1 sync2 (nth x kept (O, O)) (nth y kept (O, O)))) /\
    (forall y, (y < length kept)%nat -> has_rate m (current m) (length kept) y (prod_start m1 m2 n1 n2 (nth y kept (O, O)))) /\
    (forall x, (x <= length kept)%nat -> transition m x (length kept) = EConst 0) /\
    (* no reachable pair is missing, no pair without incoming transition is left *)
    (forall ab, reachable m1 m2 n1 n2 sync1 sync2 ab -> In ab kept) /\
    (forall y, (y < length kept)%nat -> exists x, (x <= length kept)%nat /\ transition m x y <> EConst 0) /\
    (* the declared positions of each parameter *)
    (forall p x y, In (Z.of_nat x, Z.of_nat y) (parameterIndexes m p) <-> (x < pc_n m)%nat /\ (y < pc_n m)%nat /\ occurs p (transition m x y)).
Proof.
  intros n1 n2 l1 l2 m1 m2 sync1 sync2 name C1 C2 [P2 LE] NL S1 S2 BD. exact (compose_ok n1 n2 l1 l2 m1 m2 sync1 sync2 C1 C2 P2 LE NL S1 S2 BD name).
Qed.
Print Assumptions C52_ctmc_composition_partial.

(** Two clients of a server: they move alone, and synchronise on 'go'. *)
Definition cA : ctmc R := mkCTMC [[0; 2; 0]; [1; 0; 0]; [1; 0; 0]] ["a"; "b"; "init"]%string [0; 0; 1] "A".
Definition cB : ctmc R := mkCTMC [[0; 3; 0]; [0; 4; 0]; [/ 2; / 2; 0]] ["c"; "d"; "init"]%string [0; 0; 1] "B".
Definition sA : list sync := [(0%nat, "go"%string, 1%nat, 5)].
Definition sB : list sync := [(1%nat, "go"%string, 0%nat, 7); (1%nat, "no"%string, 1%nat, 1)].
Lemma cA_ok : component 2 ["a"; "b"]%string cA.
Proof.
  repeat split.
  - cbn. intros [E|[E|[]]]; discriminate.
  - cbn. intros r [<-|[<-|[<-|[]]]]; reflexivity.
  - intros [|[|s]] L; try lia; unfold matR; cbn; lra.
Qed.
Lemma cB_ok : component 2 ["c"; "d"]%string cB.
Proof.
  repeat split.
  - cbn. intros [E|[E|[]]]; discriminate.
  - cbn. intros r [<-|[<-|[<-|[]]]]; reflexivity.
  - intros [|[|s]] L; try lia; unfold matR; cbn; lra.
Qed.
Lemma filter_length_le {A} (f : A -> bool) l : (length (filter f l) <= length l)%nat.
Proof. induction l as [|x l IH]; cbn; [lia|]. destruct (f x); cbn; lia. Qed.
Example C52_instance :
  (forall a b, (a < 2)%nat -> (b < 2)%nat -> matR (ct_mat cA) a a = 0 \/ matR (ct_mat cB) b b = 0) /\
  (1 + nonzeros 2 cA + nonzeros 2 cB + sync_pairs sA sB + start_pairs cA cB 2 2 <= 256)%nat /\
  prod_rate cA cB sA sB (0, 1)%nat (1, 0)%nat = 35 /\
  exists m, synchronousCompositionCTMCs cA cB sA sB "AB" = Ok m.
Proof.
  assert (G : forall a b, (a < 2)%nat -> (b < 2)%nat -> matR (ct_mat cA) a a = 0 \/ matR (ct_mat cB) b b = 0) by (intros [|[|a]] b La Lb; try lia; left; reflexivity).
  assert (B : (1 + nonzeros 2 cA + nonzeros 2 cB + sync_pairs sA sB + start_pairs cA cB 2 2 <= 256)%nat).
  { assert (N : forall m, (nonzeros 2 m <= 4)%nat) by (intros m; apply (filter_length_le _ (list_prod (seq 0 2) (seq 0 2)))). assert (S : (sync_pairs sA sB <= 2)%nat) by apply (filter_length_le _ (list_prod sA sB)).
    assert (T : (start_pairs cA cB 2 2 <= 4)%nat) by apply (filter_length_le _ (list_prod (seq 0 2) (seq 0 2))). pose proof (N cA). pose proof (N cB). lia. }
  split; [exact G|]. split; [exact B|]. split; [unfold prod_rate, sumL, sync_rate, matR; cbn; lra|].
  destruct (C52_ctmc_composition_partial 2 2 ["a"; "b"]%string ["c"; "d"]%string cA cB sA sB "AB" cA_ok cB_ok) as (m & _ & E & _); [lia|exact G| | |exact B|exists m; exact E].
  - intros t [<-|[]]; cbn; lia.
  - intros t [<-|[<-|[]]]; cbn; lia.
Qed.

(** *** The sizes: with a second model of n1+2 states or more the composition
    always fails. *)
Definition only_value {A} (r : res A) : Prop := forall e, r = Err e -> e = ValueError.
Lemma only_bind {A B} (r : res A) (f : A -> res B) : only_value r -> (forall a, r = Ok a -> only_value (f a)) -> only_value (bind r f).
Proof. intros H F e. destruct r as [a|x]; cbn; [apply F; reflexivity|]. intros [= ->]. apply H. reflexivity. Qed.
Lemma only_mfold {A B} (f : A -> B -> res A) l : (forall a b, only_value (f a b)) -> forall a, only_value (mfold f l a).
Proof. intros H. induction l as [|x l IH]; intros a; [intros e; discriminate|]. cbn [mfold]. apply only_bind; [apply H|]. intros a' _. apply IH. Qed.
Lemma only_ok {A} (a : A) : only_value (Ok a).
Proof. intros e. discriminate. Qed.
Lemma only_index x ids : only_value (index_err Nat.eqb x ids).
Proof. unfold index_err. destruct (index_of _ _ _); intros e; congruence. Qed.
Lemma only_state ids1 ids2 i j : only_value (state_index ids1 ids2 i j).
Proof. unfold state_index. apply only_bind; [apply only_index|]. intros y _. apply only_bind; [apply only_index|]. intros x _. apply only_ok. Qed.
Lemma only_sindex (b : build R) p c : only_value (add_index b p c).
Proof. unfold add_index. apply only_bind; [|intros; apply only_ok]. unfold index_err. destruct (index_of _ _ _); intros e; congruence. Qed.
Lemma only_add_trans ids1 ids2 (mat : list (list R)) first b ij : only_value (add_trans ids1 ids2 mat first b ij).
Proof.
  destruct ij as [i j]. unfold add_trans. destruct (_ =? _)%num; [apply only_ok|]. unfold add_in_matrix. destruct first; apply only_mfold; intros b' k; (apply only_bind; [apply only_state|]; intros x _; apply only_bind; [apply only_state|]; intros y _; apply only_ok).
Qed.
Lemma only_add_loop ids1 ids2 (a1 a2 : list (list R)) b ij : only_value (add_loop ids1 ids2 a1 a2 b ij).
Proof. destruct ij as [i j]. unfold add_loop. destruct (_ || _)%bool; [apply only_ok|]. apply only_bind; [apply only_state|]. intros; apply only_ok. Qed.
Lemma only_add_sync ids1 ids2 (b : build R) t : only_value (add_sync ids1 ids2 b t).
Proof.
  destruct t as [[[[si ai] di] pi] [[[sj aj] dj] pj]]. unfold add_sync. destruct (String.eqb ai aj); [|apply only_ok]. apply only_bind; [apply only_state|]. intros x _. apply only_bind; [apply only_state|]. intros; apply only_ok.
Qed.
Lemma only_add_init ids1 ids2 (u1 u2 : list R) b ij : only_value (add_init ids1 ids2 u1 u2 b ij).
Proof.
  destruct ij as [i j]. unfold add_init. apply only_bind; [apply only_state|]. intros y _. destruct (_ <=? _)%num; [apply only_ok|]. apply only_bind; [apply only_sindex|]. intros b' _. apply only_sindex.
Qed.
Lemma mfold_step_ok {A B} (f : A -> B -> res A) l : forall a a' b, mfold f l a = Ok a' -> In b l -> exists x y, f x b = Ok y.
Proof.
  induction l as [|c l IH]; intros a a' b E I; [destruct I|]. cbn [mfold] in E. destruct (f a c) as [z|] eqn:F; [|discriminate]. destruct I as [->|I]; [eauto|]. apply (IH z a' b E I).
Qed.
Lemma bind_value_err {A B} (r : res A) (f : A -> res B) : only_value r -> (forall a, r = Ok a -> f a = Err ValueError) -> bind r f = Err ValueError.
Proof. intros H F. destruct r as [a|e]; cbn; [apply F; reflexivity|]. f_equal. apply H. reflexivity. Qed.
Theorem C52_larger_second_refuted : forall n1 n2 l1 l2 (m1 m2 : ctmc R) (sync1 sync2 : list sync) name,
  component n1 l1 m1 -> component n2 l2 m2 -> (0 < n1)%nat -> (n1 + 2 <= n2)%nat ->
  synchronousCompositionCTMCs m1 m2 sync1 sync2 name = Err ValueError.
Proof.
  intros n1 n2 l1 l2 m1 m2 sync1 sync2 name (LL1 & NI1 & LB1 & _) (LL2 & NI2 & LB2 & _) P1 LE. unfold synchronousCompositionCTMCs. cbv zeta.
  set (ids1 := sids (ct_lab m1) (ct_lab m1)). set (ids2 := sids (ct_lab m1) (ct_lab m2)).
  assert (I2 : ~ In (n2 - 1)%nat ids2).
  { unfold ids2, sids. rewrite LB1, LB2, (proj1 (filter_seq_init l2 NI2)), LL2. intros I. apply in_map_iff in I as (i & E & I). apply in_seq in I. assert (i = n2 - 1)%nat by lia. subst i.
    rewrite firstn_all2 in E by (rewrite app_length; cbn; lia). assert (countb String.eqb "init"%string (l1 ++ ["init"%string]) = 1)%nat; [|lia]. clear -NI1. induction l1 as [|x l IH]; [reflexivity|]. cbn [app countb]. destruct (String.eqb_spec "init" x) as [<-|]; [exfalso; apply NI1; left; reflexivity|]. apply IH. intros I. apply NI1. right. exact I. }
  assert (L1 : length ids1 = n1) by (unfold ids1; rewrite LB1, (sids_ok n1 l1 n1 l1) by (assumption || lia); apply seq_length).
  assert (L2 : length ids2 = n2) by (unfold ids2, sids; rewrite map_length, LB2, (proj1 (filter_seq_init l2 NI2)), seq_length; exact LL2).
  apply bind_value_err; [apply only_mfold; intros; apply only_add_trans|]. intros b1 _. apply bind_value_err; [apply only_mfold; intros; apply only_add_trans|]. intros b2 _.
  apply bind_value_err; [apply only_mfold; intros; apply only_add_loop|]. intros b3 _. apply bind_value_err; [apply only_mfold; intros; apply only_add_sync|]. intros b4 _.
  apply bind_value_err; [apply only_mfold; intros; apply only_add_init|]. intros b5 E. exfalso.
  assert (LV : forall (mat : list (list R)) ids' ids, length (init_trans mat ids' ids) = length ids).
  { intros mat ids' ids. unfold init_trans. assert (G : forall inits v, length v = length ids -> length (fold_left (fun (v : list R) (i : nat) => zipwith (fun a x => if n0 <? a * x then a * x else a + x) v (map (fun j => mget mat i j) ids))%num inits v) = length ids).
    { induction inits as [|i inits IH]; intros v Lv; [exact Lv|]. cbn [fold_left]. apply IH. rewrite zipwith_length, map_length. lia. }
    apply G. unfold vzeros. apply repeat_length. }
  rewrite !LV, L1, L2 in E. apply (mfold_step_ok _ _ _ _ (O, (n2 - 1)%nat)) in E as (x & y & E).
  - cbn [add_init] in E. unfold state_index, index_err in E. destruct (index_of Nat.eqb (n2 - 1)%nat ids2) as [k|] eqn:IX; [|discriminate]. apply (LCtor.index_of_Some Nat.eqb Nat.eqb_eq) in IX. apply nth_error_In in IX. contradiction.
  - rewrite pairs_prod. apply in_prod_iff. rewrite !in_seq. lia.
Qed.
Print Assumptions C52_larger_second_refuted.
Definition cC : ctmc R := mkCTMC [[0; 0]; [1; 0]] ["c"; "init"]%string [0; 1] "C".
Definition cD : ctmc R := mkCTMC [[0; 2; 0; 0]; [0; 0; 3; 0]; [1; 0; 0; 0]; [1; 0; 0; 0]] ["d"; "e"; "f"; "init"]%string [0; 0; 0; 1] "D".
Example C52_larger_second_instance : component 1 ["c"%string] cC /\ component 3 ["d"; "e"; "f"]%string cD /\ synchronousCompositionCTMCs cC cD [] [] "CD" = Err ValueError.
Proof.
  assert (A : component 1 ["c"%string] cC).
  { repeat split; [cbn; intros [E|[]]; discriminate|cbn; intros r [<-|[<-|[]]]; reflexivity|]. intros [|s] L; try lia; unfold matR; cbn; lra. }
  assert (B : component 3 ["d"; "e"; "f"]%string cD).
  { repeat split; [cbn; intros [E|[E|[E|[]]]]; discriminate|cbn; intros r [<-|[<-|[<-|[<-|[]]]]]; reflexivity|]. intros [|[|[|s]]] L; try lia; unfold matR; cbn; lra. }
  split; [exact A|]. split; [exact B|]. apply (C52_larger_second_refuted 1 3 ["c"%string] ["d"; "e"; "f"]%string); [exact A|exact B|lia|lia].
Qed.

(** *** Two self loops in a pair: the two rates are known, all the declared
    parameters have a value, and yet the self loop of the pair has none.
    (Over the rationals, by computation.) *)
Local Open Scope Q_scope.
Definition loopA : ctmc Q := mkCTMC [[2; 0]; [1; 0]] ["a"; "init"]%string [0; 1] "A".
Definition loopB : ctmc Q := mkCTMC [[3; 0]; [1; 0]] ["b"; "init"]%string [0; 1] "B".
Theorem C52_two_self_loops_refuted : exists m, synchronousCompositionCTMCs loopA loopB [] [] "AB" = Ok m /\
  pc_lab m = ["a,b"; "init"]%string /\ inst_model m = true /\ evaluateTransition m 0 0 None = None /\ inst_state m 0 None = Ok false.
Proof. eexists. split; [vm_compute; reflexivity|]. vm_compute. auto. Qed.
Print Assumptions C52_two_self_loops_refuted.

(** *** More than 256 expressions: the references are 8-bit, so later rates
    refer to earlier expressions. *)
Definition ring17 (i : nat) : list Q := map (fun j => if (Nat.eqb i j || Nat.eqb j 17)%bool then 0 else if Nat.eqb i 17 then (if Nat.eqb j 0 then 1 else 0) else 1) (seq 0 18).
Definition bigA : ctmc Q := mkCTMC (map ring17 (seq 0 18)) (repeat "a"%string 17 ++ ["init"%string]) (repeat 0 17 ++ [1]) "A".
Definition oneB : ctmc Q := mkCTMC [[0; 0]; [1; 0]] ["b"; "init"]%string [0; 1] "B".
Theorem C52_wrap_refuted : exists m, synchronousCompositionCTMCs bigA oneB [] [] "AB" = Ok m /\ pc_n m = 18%nat /\
  mget (ct_mat bigA) 15 16 = 1 /\ evaluateTransition m 15 16 None = Some 0.
Proof.
  assert (E : match synchronousCompositionCTMCs bigA oneB [] [] "AB" with Ok m => (pc_n m, evaluateTransition m 15 16 None) | Err _ => (O, None) end = (18%nat, Some 0)) by (vm_compute; reflexivity).
  destruct (synchronousCompositionCTMCs bigA oneB [] [] "AB") as [m|e]; [|discriminate]. exists m. injection E as E1 E2. split; [reflexivity|]. split; [exact E1|]. split; [vm_compute; reflexivity|exact E2].
Qed.
Print Assumptions C52_wrap_refuted.

(** *** 'init' not in last position: the state ids are renumbered but the labels
    and the rates are not, so the only pair of states disappears. *)
Definition initA : ctmc Q := mkCTMC [[0; 1]; [0; 2]] ["init"; "a"]%string [1; 0] "A".
Theorem C52_init_first_refuted : exists m, synchronousCompositionCTMCs initA oneB [] [] "AB" = Ok m /\ pc_lab m = ["init"%string].
Proof. eexists. split; [vm_compute; reflexivity|]. reflexivity. Qed.
Print Assumptions C52_init_first_refuted.

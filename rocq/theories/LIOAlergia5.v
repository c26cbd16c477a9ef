(** The MDP returned by IOAlergia. *)
From Coq Require Import String ZArith Reals Lra Lia Bool List Permutation.
From Verif Require Import Num Py SNum LSum MTools MSet MModels MCtor SSet SBW SCtor LSet LCtor SLik MAlergia SAlergia LAlergia LAlergia2 LAlergia3 LAlergia4 LAlergia5 PCtor
  MIOAlergia SIOAlergia LIOAlergia LIOAlergia2 LIOAlergia3 LIOAlergia4.
Import ListNotations.
Local Open Scope R_scope.

Lemma total_zs h s a : total h s a = zs (edges h s a) (fun dp => snd dp).
Proof. reflexivity. Qed.
Lemma freq_to_none e x : ~ In x (map fst e) -> freq_to e x = 0%Z.
Proof.
  induction e as [|(d, p) e IH]; [reflexivity|]. cbn. intros N. destruct (Nat.eqb_spec d x) as [->|]; [exfalso; apply N; left; reflexivity|]. apply IH. intros I. apply N. right; exact I.
Qed.
Lemma freq_of e x c : NoDup (map fst e) -> In (x, c) e -> freq_to e x = c.
Proof.
  induction e as [|(d, p) e IH]; [intros _ []|]. cbn [map fst freq_to]. intros ND. inversion ND as [|? ? NI ND']; subst. intros [[= -> ->]|I]; [rewrite Nat.eqb_refl; reflexivity|].
  destruct (Nat.eqb_spec d x) as [->|]; [exfalso; apply NI, In_fst; eauto|apply IH; assumption].
Qed.
Lemma freq_zs e x : NoDup (map fst e) -> freq_to e x = zs e (fun dp => if (x =? fst dp)%nat then snd dp else 0%Z).
Proof.
  induction e as [|(d, p) e IH]; intros ND; [reflexivity|]. cbn [map fst] in ND. inversion ND as [|? ? NI ND']; subst. rewrite zs_cons. cbn [freq_to fst snd]. rewrite Nat.eqb_sym. destruct (Nat.eqb_spec x d) as [->|].
  - rewrite <- IH, freq_to_none by assumption. lia.
  - rewrite IH by assumption. lia.
Qed.
Lemma freq_total e red : NoDup (map fst e) -> NoDup red -> (forall d c, In (d, c) e -> In d red) -> zs red (freq_to e) = zs e (fun dp => snd dp).
Proof.
  intros ND NR I. transitivity (zs red (fun x => zs e (fun dp => if (x =? fst dp)%nat then snd dp else 0%Z))); [apply zs_ext; intros x _; apply freq_zs, ND|].
  rewrite zs_swap. apply zs_ext. intros (d, c) J. cbn [fst snd]. rewrite zs_single by exact NR. destruct (in_dec _ _ _) as [_|N]; [reflexivity|]. exfalso. apply N, (I d c J).
Qed.
Lemma clean_fill red (tot : Z) : NoDup red -> forall e (row : list R), length row = (length red + 1)%nat -> NoDup (map fst e) -> (forall d c, In (d, c) e -> In d red) ->
  exists row', mfold (fun row dp => do j <- index_err Nat.eqb (fst dp) red; Ok (upd row j (IZR (snd dp) / IZR tot))) e row = Ok row' /\ length row' = (length red + 1)%nat /\
    (forall j, (j < length red)%nat -> nth j row' 0 = if memb Nat.eqb (nth j red O) (map fst e) then IZR (freq_to e (nth j red O)) / IZR tot else nth j row 0) /\
    nth (length red) row' 0 = nth (length red) row 0.
Proof.
  intros NR. induction e as [|(d, c) e IH]; intros row L ND I.
  - exists row. split; [reflexivity|]. split; [exact L|]. split; [|reflexivity]. reflexivity.
  - cbn [map fst] in ND. inversion ND as [|? ? NI ND']; subst. cbn [mfold fst snd]. unfold index_err.
    destruct (LCtor.index_of_In Nat.eqb Nat.eqb_eq d red (I d c (or_introl eq_refl))) as (i & E). rewrite E. cbn [bind].
    apply (index_of_Some Nat.eqb Nat.eqb_eq) in E. pose proof (nth_error_nth _ _ O E) as Ei. assert (Li : (i < length red)%nat) by (apply nth_error_Some; congruence).
    destruct (IH (upd row i (IZR c / IZR tot))) as (row' & A & B & C & D); [rewrite upd_length; exact L|exact ND'|intros d' c' J; apply (I d' c'); right; exact J|].
    exists row'. split; [exact A|]. split; [exact B|]. split.
    + intros j Lj. rewrite (C j Lj). cbn [map fst]. unfold memb. cbn [existsb]. cbn [freq_to]. rewrite (Nat.eqb_sym d). destruct (Nat.eqb_spec (nth j red O) d) as [Q|Q]; cbn [orb].
      * assert (i = j) by (apply (proj1 (NoDup_nth red O) NR i j Li Lj); congruence). subst j.
        destruct (existsb _ _) eqn:M; [exfalso|rewrite upd_nth, Nat.eqb_refl by lia; reflexivity].
        apply NI. rewrite <- Q. fold (memb Nat.eqb (nth i red O) (map fst e)) in M. apply memb_nat, M.
      * destruct (existsb _ _); [reflexivity|]. rewrite upd_nth by lia. destruct (Nat.eqb_spec i j) as [->|]; [congruence|reflexivity].
    + rewrite D, upd_nth by lia. destruct (Nat.eqb_spec i (length red)); [lia|reflexivity].
Qed.

Lemma clean_row_eq h red s a : NoDup red -> NoDup (map fst (edges h s a)) -> (forall d c, In (d, c) (edges h s a) -> In d red) ->
  clean_row (K := R) h red s a = Ok (map (fun x => IZR (freq_to (edges h s a) x) / IZR (total h s a)) red ++ [0]).
Proof.
  intros NR ND I. unfold clean_row. destruct (clean_fill red (total h s a) NR (edges h s a) (vzeros (length red + 1))) as (row & A & B & C & D); [unfold vzeros; apply repeat_length|exact ND|exact I|].
  change (@nofZ R RNum) with IZR. change (@ndiv R RNum) with Rdiv. rewrite A. f_equal. apply (nth_ext _ _ 0 0); [rewrite app_length, map_length; exact B|].
  intros j Lj. rewrite B in Lj. destruct (Nat.eq_dec j (length red)) as [->|N].
  - rewrite D, app_nth2, map_length, Nat.sub_diag by (rewrite map_length; lia). cbn. unfold vzeros. apply nth_repeat.
  - assert (Lj' : (j < length red)%nat) by lia. rewrite (C j Lj'), app_nth1 by (rewrite map_length; exact Lj'). set (g := fun x => IZR (freq_to (edges h s a) x) / IZR (total h s a)).
    rewrite (nth_indep (map g red) 0 (g O)) by (rewrite map_length; exact Lj'). rewrite (map_nth g). unfold g. destruct (memb Nat.eqb (nth j red O) (map fst (edges h s a))) eqn:M; [reflexivity|].
    rewrite freq_to_none by (apply memb_nat_false, M). unfold vzeros. transitivity 0; [apply nth_repeat|unfold Rdiv; ring].
Qed.

Lemma mmap_ok {A B} (f : A -> res B) (g : A -> B) l : (forall x, In x l -> f x = Ok (g x)) -> mmap f l = Ok (map g l).
Proof. induction l as [|x l IH]; intros H; [reflexivity|]. cbn. rewrite H by (left; reflexivity). cbn. rewrite IH by (intros y I; apply H; right; exact I). reflexivity. Qed.

Definition dist_row (h : ioheap) (red : list nat) (s : nat) (a : string) : list R := map (fun x => IZR (freq_to (edges h s a) x) / IZR (total h s a)) red ++ [0].
Definition state_rows (h : ioheap) (red : list nat) (acts : list string) (s : nat) : list (list R) :=
  map (dist_row h red s) (filter (actionAllowed h s) acts) ++ repeat (repeat 0 (length red + 1)) (length acts - length (filter (actionAllowed h s) acts)).

Lemma repeat_sum n : rsum (repeat 0 n) = 0.
Proof. induction n as [|n IH]; [reflexivity|]. cbn [repeat]. change (rsum (0 :: repeat 0 n)) with (0 + rsum (repeat 0 n)). rewrite IH. ring. Qed.
Lemma rsum_app_l l1 l2 : rsum (l1 ++ l2) = rsum l1 + rsum l2.
Proof. induction l1 as [|x l IH]; [change (rsum l2 = 0 + rsum l2); ring|]. cbn [app]. change (rsum (x :: l ++ l2)) with (x + rsum (l ++ l2)). change (rsum (x :: l)) with (x + rsum l). rewrite IH. ring. Qed.

Section Clean.
  Context (obss : list string) (h : ioheap) (red : list nat) (acts : list string).
  Hypothesis W : iwf obss h.
  Hypothesis NR : NoDup red.
  Hypothesis IN : forall s a d c, In s red -> In (d, c) (edges h s a) -> In d red /\ (0 < c)%Z.
  Hypothesis NA : acts <> [].

  Lemma dests_NoDup s a : NoDup (map fst (edges h s a)).
  Proof. apply (NoDup_map_inv (obs h)), (w_det _ _ W). Qed.
  Lemma allowed_spec s a : actionAllowed h s a = true <-> edges h s a <> [].
  Proof.
    unfold actionAllowed. rewrite memb_str. split; [apply (w_full _ _ W)|]. intros N. destruct (in_dec string_dec a (map fst (trans h s))) as [I|I]; [exact I|]. exfalso. apply N. unfold edges. apply tr_get_none, I.
  Qed.
  Lemma clean_state_eq s : In s red -> clean_state h red acts s = Ok (state_rows h red acts s).
  Proof.
    intros Is. unfold clean_state. rewrite (mmap_ok _ (dist_row h red s)).
    - cbn [bind]. unfold state_rows. rewrite map_length. reflexivity.
    - intros a _. apply clean_row_eq; [exact NR|apply dests_NoDup|]. intros d c J. apply (IN s a d c Is J).
  Qed.
  Lemma total_pos s a : In s red -> edges h s a <> [] -> (0 < total h s a)%Z.
  Proof.
    intros Is N. rewrite total_zs. destruct (edges h s a) as [|(d, c) e] eqn:E; [congruence|]. apply (zs_pos _ _ (d, c)); [|left; reflexivity|].
    - intros (d', c') J. cbn. rewrite <- E in J. pose proof (proj2 (IN s a d' c' Is J)). lia.
    - cbn. apply (IN s a d c Is). rewrite E. left; reflexivity.
  Qed.
  Lemma freq_nonneg s a x : In s red -> (0 <= freq_to (edges h s a) x)%Z.
  Proof.
    intros Is. rewrite freq_zs by apply dests_NoDup. apply zs_nonneg. intros (d, c) J. cbn. destruct (x =? d)%nat; [|lia]. pose proof (proj2 (IN s a d c Is J)). lia.
  Qed.
  Lemma freq_pos s a x : In s red -> (0 < freq_to (edges h s a) x)%Z <-> exists c, In (x, c) (edges h s a).
  Proof.
    intros Is. split.
    - intros P. destruct (in_dec Nat.eq_dec x (map fst (edges h s a))) as [I|I]; [apply In_fst in I; exact I|]. rewrite (freq_to_none _ _ I) in P. lia.
    - intros (c & I). rewrite freq_zs by apply dests_NoDup. apply (zs_pos _ _ (x, c)); [|exact I|cbn; rewrite Nat.eqb_refl; apply (IN s a x c Is I)].
      intros (d, c') J. cbn. destruct (x =? d)%nat; [|lia]. pose proof (proj2 (IN s a d c' Is J)). lia.
  Qed.
  Lemma dist_row_dist s a : In s red -> edges h s a <> [] -> is_dist (dist_row h red s a).
  Proof.
    intros Is N. pose proof (total_pos s a Is N) as P. unfold dist_row. split.
    - intros x I. apply in_app_or in I as [I|[<-|[]]]; [|lra]. apply in_map_iff in I as (y & <- & _). unfold Rdiv. apply Rmult_le_pos; [apply IZR_le, freq_nonneg, Is|].
      apply Rlt_le, Rinv_0_lt_compat, IZR_lt, P.
    - rewrite rsum_app_l, rsum_zs, freq_total; [|apply dests_NoDup|exact NR|intros d c J; apply (IN s a d c Is J)]. rewrite <- total_zs. change (rsum [0]) with (0 + 0). field. apply not_0_IZR. lia.
  Qed.
  Lemma state_rows_ok s : In s red -> length (state_rows h red acts s) = length acts /\
    forall r, In r (state_rows h red acts s) -> length r = (length red + 1)%nat /\ (rsum r = 1 \/ rsum r = 0).
  Proof.
    intros Is. unfold state_rows. assert (LF : (length (filter (actionAllowed h s) acts) <= length acts)%nat) by (clear; induction acts as [|a l IH]; cbn; [lia|]; destruct (actionAllowed h s a); cbn; lia).
    split; [rewrite app_length, map_length, repeat_length; lia|]. intros r I. apply in_app_or in I as [I|I].
    - apply in_map_iff in I as (a & <- & I). apply filter_In in I as (_ & I). apply allowed_spec in I. split; [unfold dist_row; rewrite app_length, map_length; reflexivity|]. left. apply (dist_row_dist s a Is I).
    - apply repeat_spec in I. subst r. rewrite repeat_length. split; [reflexivity|]. right. apply repeat_sum.
  Qed.

  Definition last_rows : list (list R) := (1 :: repeat 0 (length red)) :: repeat (repeat 0 (length red + 1)) (length acts - 1).
  Definition all_rows : list (list (list R)) := map (state_rows h red acts) red ++ [last_rows].
  Lemma all_rows_ok : forall ra, In ra all_rows -> length ra = length acts /\ forall r, In r ra -> length r = (length red + 1)%nat /\ (rsum r = 1 \/ rsum r = 0).
  Proof.
    intros ra I. apply in_app_or in I as [I|[<-|[]]].
    - apply in_map_iff in I as (s & <- & Is). apply state_rows_ok, Is.
    - unfold last_rows. split; [cbn [length]; rewrite repeat_length; destruct acts; [congruence|cbn; lia]|]. intros r [<-|I].
      + split; [cbn [length]; rewrite repeat_length; lia|]. left. change (rsum (1 :: repeat 0 (length red))) with (1 + rsum (repeat 0 (length red))). rewrite repeat_sum. ring.
      + apply repeat_spec in I. subst r. rewrite repeat_length. split; [reflexivity|]. right. apply repeat_sum.
  Qed.

  Lemma cleanMDP_ok : exists m, cleanMDP (K := R) h red acts = Ok m /\ mdp_mat m = all_rows /\ mdp_lab m = map (obs h) red ++ ["init"%string] /\ mdp_act m = acts /\ mdp_name m = "unknown_MDP"%string /\
    uniform_on_init (mdp_lab m) (mdp_ini m).
  Proof.
    unfold cleanMDP. rewrite (mmap_ok _ (state_rows h red acts)) by (intros s Is; apply clean_state_eq, Is). cbn [bind].
    assert (EL : clean_last (K := R) (length red + 1) acts = Ok last_rows).
    { unfold clean_last, last_rows. destruct acts as [|a l]; [congruence|]. cbn [length]. replace (S (length l) - 1)%nat with (length l) by lia. rewrite Nat.add_1_r. reflexivity. }
    rewrite EL. cbn [bind]. fold all_rows. destruct (C16_MDP_constructor all_rows (map (obs h) red ++ ["init"%string]) acts "unknown_MDP") as (A & B & _).
    destruct (proj2 A) as (m & Em).
    - split; [apply in_or_app; right; left; reflexivity|]. split; [unfold all_rows; rewrite !app_length, !map_length; reflexivity|].
      intros r I a La. destruct (all_rows_ok r I) as (L & Q). destruct (nth_error r a) as [x|] eqn:E; [|apply nth_error_None in E; lia]. exists x. split; [reflexivity|].
      destruct (Q x (nth_error_In _ _ E)) as (_ & [P|P]); [apply row_ok_one, P|apply row_ok_zero, P].
    - exists m. split; [exact Em|]. destruct (B m Em) as (-> & -> & -> & -> & U). auto.
  Qed.
End Clean.

Lemma seen_length T w : seen T w -> exists t n k, In (t, n) T /\ w = firstn (2 * k + 1) t /\ (2 * k < length t)%nat.
Proof.
  intros (O & t & n & I & S). apply Nat.odd_spec in O as (k & E). apply starts_firstn in S as (S & L). exists t, n, k. split; [exact I|]. rewrite <- E. split; [exact S|lia].
Qed.

Lemma last_nth {A} (l : list A) d : last l d = nth (length l - 1) l d.
Proof. induction l as [|x [|y l] IH]; [reflexivity|reflexivity|]. cbn [last length] in *. rewrite IH. cbn [Nat.sub]. rewrite Nat.sub_0_r. destruct l; reflexivity. Qed.
Lemma seen_last ss T w : (forall t n, In (t, n) T -> In t ss) -> seen T w -> at_even ss (last w EmptyString).
Proof.
  intros H (O & t & n & I & S). exists t. apply Nat.odd_spec in O as (k & E). exists k. split; [apply (H t n I)|]. apply starts_spec in S as (u & ->).
  rewrite nth_error_app1 by lia. rewrite last_nth, E. replace (2 * k + 1 - 1)%nat with (2 * k)%nat by lia. apply nth_error_nth'. lia.
Qed.

Definition pos (red : list nat) (x : nat) : nat := match index_of Nat.eqb x red with Some i => i | None => O end.
Lemma pos_In red x : In x red -> (pos red x < length red)%nat /\ nth (pos red x) red O = x.
Proof.
  intros I. unfold pos. destruct (LCtor.index_of_In Nat.eqb Nat.eqb_eq x red I) as (i & E). rewrite E. apply (index_of_Some Nat.eqb Nat.eqb_eq) in E.
  split; [apply nth_error_Some; congruence|apply (nth_error_nth _ _ O E)].
Qed.
Lemma pos_nth red i : NoDup red -> (i < length red)%nat -> pos red (nth i red O) = i.
Proof. intros N L. unfold pos. rewrite (LCtor.index_of_nth Nat.eqb Nat.eqb_eq red i O N L). reflexivity. Qed.

Lemma fold_right_zs {A} (l : list A) (c : A -> Z) : fold_right (fun j x => (c j + x)%Z) 0%Z l = zs l c.
Proof. reflexivity. Qed.
Lemma zs_nth (l : list nat) (g : nat -> Z) : zs l g = zs (seq 0 (length l)) (fun j => g (nth j l O)).
Proof.
  transitivity (zs (map (fun j => nth j l O) (seq 0 (length l))) g); [|apply zs_map]. f_equal. symmetry. apply (nth_ext _ _ O O).
  - rewrite map_length, seq_length. reflexivity.
  - intros j Lj. rewrite map_length, seq_length in Lj. rewrite (nth_indep _ O (nth O l O)) by (rewrite map_length, seq_length; exact Lj). rewrite (map_nth (fun j => nth j l O)). rewrite seq_nth by exact Lj. reflexivity.
Qed.

Notation traces s := (combine (seqs s) (times s)).
Definition labels_list (T : list (list string * Z)) : list (list string) := map fst (label_sort trace_leb (prefix_counts trace_eqb T)).

Section Fit.
  Context (s : tset (list string)).
  Hypothesis U : io_usable s.
  Let T := traces s.
  Let ps := labels_list T.
  Let N := length ps.
  Let h0 := fst (buildIOFPTA trace_eqb trace_leb T).

  Lemma N_eq : length (label_sort trace_leb (prefix_counts trace_eqb T)) = N.
  Proof. unfold N, ps, labels_list. rewrite map_length. reflexivity. Qed.
  Lemma T_seqs t n : In (t, n) T -> In t (seqs s) /\ (1 <= n)%Z.
  Proof. intros I. split; [apply (in_combine_l _ _ _ _ I)|]. apply (proj1 (proj2 U)). apply (in_combine_r _ _ _ _ I). Qed.
  Lemma seqs_T t : In t (seqs s) -> exists n, In (t, n) T.
  Proof.
    intros I. destruct U as ((L & _) & _). unfold T. revert L. generalize (times s). induction (seqs s) as [|a l IH]; [destruct I|]. intros [|n ns] L; [discriminate|].
    destruct I as [->|I]; [exists n; left; reflexivity|]. destruct (IH I ns ltac:(cbn in L; lia)) as (m & J). exists m. right; exact J.
  Qed.
  Lemma ps_seen w : In w ps <-> seen T w.
  Proof. apply ps_In. Qed.
  Lemma N_pos : (0 < N)%nat.
  Proof.
    destruct U as (_ & _ & _ & t & I & L). destruct (seqs_T t I) as (n & J). destruct t as [|o t]; [cbn in L; lia|].
    assert (K : In [o] ps) by (apply ps_seen; split; [reflexivity|]; exists (o :: t), n; split; [exact J|]; cbn; rewrite String.eqb_refl; reflexivity).
    unfold N. destruct ps; [destruct K|cbn; lia].
  Qed.
  Lemma N_bound : (N <= fold_right (fun t a => (length t + a)%nat) O (seqs s))%nat.
  Proof.
    set (all := flat_map (fun t => map (fun p => firstn p t) (seq 1 (length t))) (seqs s)).
    assert (LA : length all = fold_right (fun t a => (length t + a)%nat) O (seqs s)).
    { unfold all. clear. induction (seqs s) as [|t l IH]; [reflexivity|]. cbn [flat_map fold_right]. rewrite app_length, map_length, seq_length, IH. reflexivity. }
    rewrite <- LA. unfold N. apply NoDup_incl_length; [apply ps_NoDup|]. intros w I. apply ps_seen in I as (O & t & n & I & S). apply in_flat_map. exists t. split; [apply (T_seqs t n I)|].
    apply starts_firstn in S as (S & L). apply in_map_iff. exists (length w). split; [symmetry; exact S|]. apply in_seq. destruct (length w); [discriminate|]. lia.
  Qed.
  Definition start_symbol : string := hd EmptyString (nth 0 ps []).
  Lemma ps_0 : nth 0 ps [] = [start_symbol].
  Proof.
    assert (L : length (nth 0 ps []) = 1%nat) by (apply first_state; rewrite N_eq; apply N_pos). unfold start_symbol. destruct (nth 0 ps []) as [|o [|]]; try discriminate L. reflexivity.
  Qed.
  Lemma start_least o : seen T [o] -> String.leb start_symbol o = true.
  Proof.
    intros Se. apply ps_seen in Se. apply (In_nth _ _ []) in Se as (j & Lj & Ej). assert (String.eqb start_symbol start_symbol = true) as R by apply String.eqb_refl.
    destruct j as [|j]; [rewrite ps_0 in Ej; injection Ej as <-; destruct (string_leb_total start_symbol start_symbol); assumption|].
    assert (Q : trace_leb (nth 0 ps []) (nth (S j) ps []) = true).
    { unfold ps, labels_list. change (@nil string) with (fst ([] : list string, 0%Z)). rewrite !map_nth.
      apply (sorted_by_nth (fun x y => trace_leb (fst x) (fst y)) (label_sort trace_leb (prefix_counts trace_eqb T)) ([], 0%Z)); [|rewrite N_eq; unfold N in *; lia].
      apply isort_sorted_by.
      - intros x y. apply (lex_total String.eqb String.leb string_eqb_decides string_leb_total).
      - intros x y z. apply (lex_trans String.eqb String.leb string_eqb_decides string_leb_trans string_leb_antisym). }
    rewrite ps_0, Ej in Q. unfold trace_leb in Q. cbn in Q. destruct (String.eqb_spec start_symbol o) as [->|]; [destruct (string_leb_total o o); assumption|]. exact Q.
  Qed.
  Lemma kept_live w : kept T start_symbol w <-> In w ps /\ live T (idx ps w).
  Proof.
    unfold kept, live. rewrite <- ps_seen. rewrite N_eq. fold ps. split.
    - intros (I & H). split; [exact I|]. destruct (idx_In ps w (ps_NoDup T) I) as (L & E). split; [exact L|]. fold (labels_list T). fold ps. rewrite E. destruct H as [->|H]; [left|right; exact H].
      rewrite <- ps_0. apply idx_nth; [apply ps_NoDup|apply N_pos].
    - intros (I & L & H). split; [exact I|]. destruct (idx_In ps w (ps_NoDup T) I) as (_ & E). fold (labels_list T) in H. fold ps in H. rewrite E in H. destruct H as [H|H]; [left|right; exact H].
      rewrite H, ps_0 in E. symmetry. exact E.
  Qed.
  Lemma live_kept x : live T x -> kept T start_symbol (nth x ps []) /\ idx ps (nth x ps []) = x.
  Proof.
    intros L. assert (Lx : (x < length ps)%nat) by (destruct L as (L & _); rewrite N_eq in L; exact L). assert (E : idx ps (nth x ps []) = x) by (apply idx_nth; [apply ps_NoDup|exact Lx]).
    split; [|exact E]. apply kept_live. rewrite E. split; [apply nth_In, Lx|exact L].
  Qed.
  Lemma kept_ext w a o : seen T (w ++ [a; o]) -> kept T start_symbol (w ++ [a; o]).
  Proof. intros Se. split; [exact Se|]. right. rewrite app_length. cbn [length]. lia. Qed.

  Lemma loop_model acts obss (eps : R) fuel : NoDup obss -> (forall o, In o obss <-> at_even (seqs s) o) -> (N <= fuel)%nat ->
    exists h red f DB, io_loop fuel acts obss eps h0 [O] (flat_map (successors h0) (snd (buildIOFPTA trace_eqb trace_leb T))) = Some (h, red) /\
      inv obss h0 (O :: DB) h red [] [] f /\ forall x, In x (O :: DB) <-> live T x.
  Proof.
    intros NO HO Fu. destruct (start_inv T obss) as (DB & V & L & LV).
    - rewrite N_eq. apply N_pos.
    - intros w I. apply HO. apply (seen_last (seqs s) T); [intros t n J; apply (T_seqs t n J)|apply ps_seen, I].
    - rewrite N_eq in L. destruct (io_loop_spec acts obss NO h0 (O :: DB) eps fuel _ _ _ _ _ V ltac:(lia)) as (h & red & f & E & V'). exists h, red, f, DB. auto.
  Qed.

  Section Model.
    Context (acts obss : list string) (h : ioheap) (red : list nat) (g : nat -> nat) (DB : list nat).
    Hypothesis V : inv obss h0 (O :: DB) h red [] [] g.
    Hypothesis LV : forall x, In x (O :: DB) <-> live T x.
    Let f := fun w => pos red (g (idx ps w)).

    Lemma f_red w : kept T start_symbol w -> In (g (idx ps w)) red.
    Proof. intros K. apply kept_live in K as (_ & L). destruct (i_fL _ _ _ _ _ _ _ _ V (idx ps w)) as [J|[]]; [apply LV, L|exact J]. Qed.
    Lemma f_nth w : kept T start_symbol w -> (f w < length red)%nat /\ nth (f w) red O = g (idx ps w).
    Proof. intros K. apply pos_In, f_red, K. Qed.
    Lemma red_kept i : (i < length red)%nat -> let w := nth (nth i red O) ps [] in kept T start_symbol w /\ f w = i.
    Proof.
      intros L. destruct (i_onto _ _ _ _ _ _ _ _ V (nth i red O)) as (A & B); [left; apply nth_In, L|]. apply LV in A. destruct (live_kept _ A) as (K & E). split; [exact K|].
      unfold f. rewrite E, B. apply pos_nth; [apply (i_nd _ _ _ _ _ _ _ _ V)|exact L].
    Qed.
    Lemma edge_lead i a j c : (i < length red)%nat -> (j < length red)%nat -> In (nth j red O, c) (edges h (nth i red O) a) ->
      exists w o, kept T start_symbol w /\ f w = i /\ f (w ++ [a; o]) = j /\ seen T (w ++ [a; o]) /\ c = pcount T (w ++ [a; o]).
    Proof.
      intros Li Lj I. destruct (i_sound _ _ _ _ _ _ _ _ V (nth i red O) a (nth j red O) c) as (d & z & Id & Ed & J & Ez); [left; apply nth_In, Li|exact I|].
      apply LV in Id. destruct (live_kept d Id) as (K & Ei). apply h_edges in J as (Ld & Lz & (o & E) & Ec). fold (labels_list T) in E, Ec. fold ps in E, Ec.
      exists (nth d ps []), o. split; [exact K|]. assert (NR : NoDup red) by apply (i_nd _ _ _ _ _ _ _ _ V).
      split; [unfold f; rewrite Ei, Ed; apply pos_nth; assumption|]. rewrite N_eq in Lz. rewrite <- E. split.
      - unfold f. rewrite idx_nth by (first [apply ps_NoDup|exact Lz]). rewrite Ez. apply pos_nth; assumption.
      - split; [apply ps_seen, nth_In, Lz|exact Ec].
    Qed.
    Lemma lead_edge w a o : kept T start_symbol w -> seen T (w ++ [a; o]) -> exists c, In (nth (f (w ++ [a; o])) red O, c) (edges h (nth (f w) red O) a).
    Proof.
      intros K Se. destruct (f_nth w K) as (_ & ->). destruct (f_nth _ (kept_ext w a o Se)) as (_ & ->). pose proof K as K'. apply kept_live in K' as (Iw & L).
      destruct (idx_In ps w (ps_NoDup T) Iw) as (Lw & Ew). destruct (idx_In ps _ (ps_NoDup T) (proj2 (ps_seen _) Se)) as (Lz & Ez).
      apply (i_complete _ _ _ _ _ _ _ _ V (idx ps w) a (idx ps (w ++ [a; o])) (pcount T (w ++ [a; o]))); [apply LV, L|].
      apply h_edges. rewrite N_eq. fold (labels_list T). fold ps. rewrite Ew, Ez. split; [exact Lw|]. split; [exact Lz|]. split; [eauto|reflexivity].
    Qed.
    Lemma edge_red x a d c : In x red -> In (d, c) (edges h x a) -> In d red /\ (0 < c)%Z.
    Proof.
      intros Ix I. assert (J : In d (sons h x)) by (apply In_sons; [apply (w_keys _ _ (i_wf _ _ _ _ _ _ _ _ V))|eauto]).
      destruct (i_red _ _ _ _ _ _ _ _ V x d Ix J) as [K|[]]. split; [exact K|]. apply (In_nth _ _ O) in Ix as (i & Li & <-). apply (In_nth _ _ O) in K as (j & Lj & <-).
      destruct (edge_lead i a j c Li Lj I) as (w & o & _ & _ & _ & (_ & t & n & It & S) & ->). apply (pcount_pos T _ t n); [intros t' n' J'; apply (T_seqs t' n' J')|exact It|exact S].
    Qed.

    Hypothesis NA : NoDup acts.
    Hypothesis SA : sorted_by String.leb acts.
    Hypothesis HA : forall a, In a acts <-> at_odd (seqs s) a.

    Lemma acts_not_nil : acts <> [].
    Proof.
      destruct U as (_ & _ & _ & t & I & L). destruct t as [|o [|a t]]; try (cbn in L; lia). assert (J : In a acts) by (apply HA; exists (o :: a :: t), O; split; [exact I|reflexivity]). intros E. rewrite E in J. exact J.
    Qed.
    Lemma lead_act w a o : seen T (w ++ [a; o]) -> Nat.odd (length w) = true -> In a acts.
    Proof.
      intros (_ & t & n & I & S) O. apply HA. exists t. apply Nat.odd_spec in O as (k & Ek). exists k. split; [apply (T_seqs t n I)|]. apply starts_spec in S as (u & ->).
      rewrite <- app_assoc, nth_error_app2 by lia. rewrite Ek, Nat.sub_diag. reflexivity.
    Qed.

    Theorem clean_model : exists m, cleanMDP (K := R) h red acts = Ok m /\ io_model T m start_symbol f (fun i => filter (actionAllowed h (nth i red O)) acts) /\
      uniform_on_init (mdp_lab m) (mdp_ini m) /\ mdp_name m = "unknown_MDP"%string /\ mdp_act m = acts /\ mdp_n m = S (length red) /\ (length red <= N)%nat /\ mdp_mat m = all_rows h red acts.
    Proof.
      pose proof (i_wf _ _ _ _ _ _ _ _ V) as W. pose proof (i_nd _ _ _ _ _ _ _ _ V) as NR.
      destruct (cleanMDP_ok obss h red acts W NR (fun s a d c => edge_red s a d c) acts_not_nil) as (m & E & Em & El & Ea & En & Ui).
      assert (Hn : mdp_n m = S (length red)) by (unfold mdp_n; rewrite Em; unfold all_rows; rewrite app_length, map_length; cbn; lia).
      assert (Rows : forall i, (i < length red)%nat -> nth i (mdp_mat m) [] = state_rows h red acts (nth i red O)).
      { intros i Li. rewrite Em. unfold all_rows. rewrite app_nth1 by (rewrite map_length; exact Li). rewrite (nth_indep _ [] (state_rows h red acts O)) by (rewrite map_length; exact Li). apply (map_nth (state_rows h red acts)). }
      exists m. split; [exact E|]. split; [|split; [exact Ui|]; split; [exact En|]; split; [exact Ea|]; split; [exact Hn|]; split; [|exact Em]].
      2:{ unfold N. rewrite <- (seq_length (length ps) 0). apply NoDup_incl_length; [exact NR|]. intros x I. destruct (i_onto _ _ _ _ _ _ _ _ V x (or_introl I)) as (A & _). apply LV in A as (A & _). rewrite N_eq in A. apply in_seq. unfold N in A. lia. }
      assert (F1 : forall w, kept T start_symbol w -> (S (f w) < mdp_n m)%nat /\ nth (f w) (mdp_lab m) EmptyString = last w EmptyString).
      { intros w K. destruct (f_nth w K) as (L & Ef). split; [rewrite Hn; lia|]. rewrite El, app_nth1 by (rewrite map_length; exact L).
        rewrite (nth_indep _ EmptyString (obs h O)) by (rewrite map_length; exact L). rewrite (map_nth (obs h)), Ef, (i_obs _ _ _ _ _ _ _ _ V), (i_fobs _ _ _ _ _ _ _ _ V).
        apply kept_live in K as (I & Lv). destruct (idx_In ps w (ps_NoDup T) I) as (Lw & Ew). unfold h0. rewrite h_obs by (rewrite N_eq; exact Lw). fold (labels_list T). fold ps. rewrite Ew. reflexivity. }
      assert (Ld : forall i a j, (i < length red)%nat -> (leads T start_symbol f i a j <-> (j < length red)%nat /\ exists c, In (nth j red O, c) (edges h (nth i red O) a))).
      { intros i a j Li. split.
        - intros (w & o & K & <- & Se & <-). split; [apply f_nth, kept_ext, Se|]. apply (lead_edge w a o K Se).
        - intros (Lj & c & I). destruct (edge_lead i a j c Li Lj I) as (w & o & K & Ei & Ej & Se & _). exists w, o. auto. }
      constructor.
      - exists (length red). split; [exact Hn|]. destruct (i_hd _ _ _ _ _ _ _ _ V) as (l & ->). cbn; lia.
      - destruct Ui as (LI & DI & _). split; [|split; [|split; [|split]]].
        + intros ra I. rewrite Em in I. rewrite Ea, Hn. destruct (all_rows_ok obss h red acts W NR (fun s a d c => edge_red s a d c) acts_not_nil ra I) as (A & B). split; [exact A|]. intros r J. rewrite (proj1 (B r J)). lia.
        + rewrite El, Hn, app_length, map_length. cbn. lia.
        + rewrite Ea. exact NA.
        + rewrite LI, El, Hn, app_length, map_length. cbn. lia.
        + apply DI.
      - rewrite Ea. split; [exact SA|]. intros a. rewrite HA. unfold at_odd. split.
        + intros (t & k & I & Q). exists t, k. split; [|exact Q]. destruct (seqs_T t I) as (n & J). apply in_map_iff. exists (t, n). auto.
        + intros (t & k & I & Q). exists t, k. split; [|exact Q]. apply in_map_iff in I as ((t', n) & <- & J). apply (T_seqs t' n J).
      - split; [apply ps_seen; rewrite <- ps_0; apply nth_In, N_pos|]. split; [exact start_least|]. unfold f. rewrite <- ps_0, idx_nth by (first [apply ps_NoDup|apply N_pos]).
        destruct (i_hd _ _ _ _ _ _ _ _ V) as (l & Hl). destruct (i_onto _ _ _ _ _ _ _ _ V O) as (_ & ->); [left; rewrite Hl; left; reflexivity|]. rewrite Hl. reflexivity.
      - exact F1.
      - intros i Li. rewrite Hn in Li. exists (nth (nth i red O) ps []). apply red_kept. lia.
      - intros i Li. rewrite Hn in Li. assert (Li' : (i < length red)%nat) by lia. set (x := nth i red O). assert (Ix : In x red) by (apply nth_In, Li').
        exists (actionAllowed h x). split; [|split; [rewrite Ea; reflexivity|]].
        + intros a. rewrite (allowed_spec obss h W). split.
          * intros NE. destruct (edges h x a) as [|(d, c) e] eqn:Ee; [congruence|]. assert (J : In (d, c) (edges h x a)) by (rewrite Ee; left; reflexivity).
            destruct (edge_red x a d c Ix J) as (Id & _). apply (In_nth _ _ O) in Id as (j & Lj & <-). exists j. apply (Ld i a j Li'). split; [exact Lj|]. exists c. exact J.
          * intros (j & Q) Z. apply (Ld i a j Li') in Q as (_ & c & J). fold x in J. rewrite Z in J. exact J.
        + rewrite (Rows i Li'), Hn. fold x. set (al := filter (actionAllowed h x) acts). unfold state_rows. fold al. split.
          * intros q Lq. rewrite app_nth1 by (rewrite map_length; exact Lq). rewrite (nth_indep _ [] (dist_row h red x EmptyString)) by (rewrite map_length; exact Lq). rewrite (map_nth (dist_row h red x)).
            set (a := nth q al EmptyString). assert (Ia : In a al) by (apply nth_In, Lq). apply filter_In in Ia as (_ & Ia). apply (allowed_spec obss h W) in Ia.
            assert (LD : length (dist_row h red x a) = S (length red)) by (unfold dist_row; rewrite app_length, map_length; cbn; lia).
            split; [exact LD|]. split; [apply (dist_row_dist obss h red W NR (fun s a d c => edge_red s a d c) x a Ix Ia)|].
            exists (fun j => if (j <? length red)%nat then freq_to (edges h x a) (nth j red O) else 0%Z).
            assert (ST : fold_right (fun j y => ((if (j <? length red)%nat then freq_to (edges h x a) (nth j red O) else 0) + y)%Z) 0%Z (seq 0 (S (length red))) = total h x a).
            { rewrite fold_right_zs. replace (S (length red)) with (length red + 1)%nat by lia. rewrite seq_app, zs_app. change (seq (0 + length red) 1) with [length red]. rewrite (zs_cons (length red) []), Nat.ltb_irrefl. change (zs (@nil nat) ?[F]) with 0%Z. rewrite !Z.add_0_r.
              rewrite total_zs, <- (freq_total (edges h x a) red (dests_NoDup obss h W x a) NR (fun d c J => proj1 (edge_red x a d c Ix J))), (zs_nth red). apply zs_ext. intros j Ij. apply in_seq in Ij.
              assert ((j <? length red)%nat = true) as -> by (apply Nat.ltb_lt; lia). reflexivity. }
            split; [|split; [|split]].
            -- intros j Lj. rewrite ST. unfold vecR, dist_row. destruct (Nat.ltb_spec j (length red)) as [L|L].
               ++ rewrite app_nth1 by (rewrite map_length; exact L). set (k := fun y => IZR (freq_to (edges h x a) y) / IZR (total h x a)). rewrite (nth_indep _ 0 (k O)) by (rewrite map_length; exact L). apply (map_nth k).
               ++ rewrite app_nth2 by (rewrite map_length; exact L). rewrite map_length. replace (j - length red)%nat with O by lia. cbn. unfold Rdiv. ring.
            -- intros j. destruct (j <? length red)%nat; [|lia]. apply (freq_nonneg obss h red W (fun s a d c => edge_red s a d c) x a _ Ix).
            -- intros j Lj. rewrite (Ld i a j Li'). fold x. destruct (Nat.ltb_spec j (length red)) as [L|L].
               ++ rewrite (freq_pos obss h red W (fun s a d c => edge_red s a d c) x a _ Ix). split; [auto|intros (_ & Q); exact Q].
               ++ split; [lia|intros (Q & _); lia].
            -- intros j P. destruct (Nat.ltb_spec j (length red)) as [L|L]; [|lia].
               assert (J : In (nth j red O, freq_to (edges h x a) (nth j red O)) (edges h x a)).
               { pose proof (proj1 (freq_pos obss h red W (fun s a d c => edge_red s a d c) x a _ Ix) P) as (c & J). rewrite (freq_of (edges h x a) _ _ (dests_NoDup obss h W x a) J). exact J. }
               destruct (edge_lead i a j _ Li' L J) as (w & o & K & Ei & Ej & Se & Ec). exists w, o. auto.
          * intros q (Lq & Lq2). rewrite Ea in Lq2. rewrite app_nth2 by (rewrite map_length; exact Lq). rewrite map_length. rewrite (nth_indep _ [] (repeat 0 (length red + 1))) by (rewrite repeat_length; lia). rewrite nth_repeat. f_equal. lia.
      - intros i a j1 j2 L1 L2 Eq. assert (Li : (i < length red)%nat) by (destruct L1 as (w & o & K & <- & _); apply f_nth, K).
        apply (Ld i a j1 Li) in L1 as (Lj1 & c1 & I1). apply (Ld i a j2 Li) in L2 as (Lj2 & c2 & I2).
        assert (Lb : forall j, (j < length red)%nat -> nth j (mdp_lab m) EmptyString = obs h (nth j red O)).
        { intros j Lj. rewrite El, app_nth1 by (rewrite map_length; exact Lj). rewrite (nth_indep _ EmptyString (obs h O)) by (rewrite map_length; exact Lj). apply (map_nth (obs h)). }
        rewrite (Lb j1 Lj1), (Lb j2 Lj2) in Eq. apply (proj1 (NoDup_nth red O) NR j1 j2 Lj1 Lj2). apply (NoDup_map_uniq (obs h) (map fst (edges h (nth i red O) a))); [apply (w_det _ _ W)|apply In_fst; eauto|apply In_fst; eauto|exact Eq].
      - rewrite Hn. cbn [Nat.sub]. rewrite Nat.sub_0_r. split.
        + rewrite El, app_nth2 by (rewrite map_length; lia). rewrite map_length, Nat.sub_diag. reflexivity.
        + rewrite Em. unfold all_rows. rewrite app_nth2 by (rewrite map_length; lia). rewrite map_length, Nat.sub_diag. cbn [nth]. unfold last_rows. rewrite Ea, Nat.add_1_r. reflexivity.
    Qed.
  End Model.
End Fit.

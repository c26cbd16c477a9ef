(** Theorems C155: the law of the simulation of MDPs under any scheduler. *)
From Coq Require Import String ZArith Bool Reals Lra Lia List.
From Verif Require Import Num Py SNum LSum MTools LTools SPath LPath MSet SSet LSet MModels MCtor SBW SLik MRun SRun LCtor LRun LFB LLik PRun PRace SLaw PLaw SSched.
Import ListNotations.
Local Open Scope R_scope.

Lemma available_iff (m : mdp R) s a : available m s a = true <-> In a (getActions m s).
Proof.
  rewrite getActions_In. unfold available. rewrite existsb_exists. split.
  - intros (k & I & E). apply in_seq in I. apply andb_true_iff in E as [E1 E2]. apply String.eqb_eq in E1. destruct (Rlt_dec _ _) as [P|]; [|discriminate]. exists k. split; [lia|]. split; [exact E1|exact P].
  - intros (k & L & E & P). exists k. split; [apply in_seq; lia|]. rewrite E, String.eqb_refl. destruct (Rlt_dec _ _); [reflexivity|contradiction].
Qed.

Lemma Un_cv_ext f g l : (forall k : nat, f k = g k) -> Un_cv f l -> Un_cv g l.
Proof. intros E C e He. destruct (C e He) as (k & K). exists k. intros i Hi. rewrite <- E. apply K, Hi. Qed.

  Fixpoint geo (q : R) (r : nat) : R := match r with O => 1 | Datatypes.S r' => 1 + q * geo q r' end.
  Lemma geo_closed q r : geo q r * (1 - q) = 1 - q ^ (Datatypes.S r).
  Proof. induction r as [|r IH]; cbn [geo pow] in *; [ring|]. rewrite Rmult_plus_distr_r, Rmult_assoc, IH. ring. Qed.
  Lemma Un_cv_const c : Un_cv (fun _ => c) c.
  Proof. intros e He. exists O. intros k _. unfold R_dist. rewrite Rminus_diag_eq by reflexivity. rewrite Rabs_R0. exact He. Qed.
  Lemma geo_cv q : 0 <= q < 1 -> Un_cv (geo q) (/ (1 - q)).
  Proof.
    intros Q. apply (Un_cv_ext (fun r => (1 - q ^ (Datatypes.S r)) * / (1 - q))).
    { intros r. rewrite <- geo_closed. field. lra. }
    rewrite <- (Rmult_1_l (/ (1 - q))) at 1. apply CV_mult; [|apply Un_cv_const]. replace 1 with (1 - 0) at 1 by ring. apply CV_minus; [apply Un_cv_const|].
    assert (C : Un_cv (fun i => q ^ i) 0).
    { intros e He. destruct (pow_lt_1_zero q ltac:(rewrite Rabs_pos_eq; lra) e He) as (k & K). exists k. intros i Hi. unfold R_dist. rewrite Rminus_0_r. apply K. lia. }
    intros e He. destruct (C e He) as (k & K). exists k. intros i Hi. apply K. lia.
  Qed.
  Lemma Sum_cv k (f : nat -> nat -> R) g : (forall j, (j < k)%nat -> Un_cv (f j) (g j)) -> Un_cv (fun N => Sum k (fun j => f j N)) (Sum k g).
  Proof.
    induction k as [|k IH]; intros H; [apply (Un_cv_const 0)|]. apply (Un_cv_ext (fun N => Sum k (fun j => f j N) + f k N)).
    { intros N. rewrite Sum_S. reflexivity. }
    rewrite Sum_S. apply CV_plus; [apply IH; intros; apply H; lia|apply H; lia].
  Qed.

Section Law.
  Variable m : mdp R.
  Hypothesis W : wf_mdp m.
  Hypothesis AD : forall ra r, In ra (mdp_mat m) -> In r ra -> is_dist r \/ rsum r = 0.
  Let n := mdp_n m.
  Let row s j := nth j (nth s (mdp_mat m) []) [].
  Context {S : Type} (ps : S -> list R) (acts : S -> list string) (upd : S -> string -> S) (inv : S -> Prop).
  Hypothesis PD : forall st, inv st -> is_dist (ps st) /\ length (ps st) = length (acts st).
  Hypothesis UI : forall st o, inv st -> inv (upd st o).
  Let act st j := nth j (acts st) EmptyString.
  (** index of an action *)
  Definition aidx a := match index_of String.eqb a (mdp_act m) with Some k => k | None => O end.

  Lemma avail_row s a : (s < n)%nat -> available m s a = true ->
    (aidx a < length (mdp_act m))%nat /\ nth (aidx a) (mdp_act m) EmptyString = a /\ index_of String.eqb a (mdp_act m) = Some (aidx a) /\
    is_dist (row s (aidx a)) /\ length (row s (aidx a)) = n /\ forall s', act_mat m a s s' = vecR (row s (aidx a)) s'.
  Proof.
    intros Ls A. apply available_iff, getActions_In in A as (k & Lk & E & P). destruct W as (SH & Ll & ND & _).
    assert (X : index_of String.eqb a (mdp_act m) = Some k) by (rewrite <- E; apply (index_of_nth String.eqb String.eqb_eq); assumption).
    unfold aidx. rewrite X. assert (I : In (nth s (mdp_mat m) []) (mdp_mat m)) by (apply nth_In; exact Ls). destruct (SH _ I) as [La Lr].
    assert (J : In (row s k) (nth s (mdp_mat m) [])) by (apply nth_In; rewrite La; exact Lk).
    split; [exact Lk|]. split; [exact E|]. split; [reflexivity|]. split; [destruct (AD _ _ I J) as [D|D]; [exact D|]; unfold row in D; lra|]. split; [apply Lr, J|].
    intros s'. unfold act_mat. rewrite (Sum_ext _ _ (fun i => if (i =? k)%nat then vecR (row s k) s' else 0)).
    - rewrite Sum_delta. apply Nat.ltb_lt in Lk. rewrite Lk. reflexivity.
    - intros i Li. destruct (Nat.eqb_spec i k) as [->|N]; [rewrite E, String.eqb_refl; reflexivity|].
      destruct (String.eqb_spec (nth i (mdp_act m) EmptyString) a) as [Ei|]; [|reflexivity]. exfalso. apply N. apply (proj1 (NoDup_nth _ EmptyString) ND); [assumption|assumption|congruence].
  Qed.

  (** Boxes with at most N refused actions per step. *)
  Definition accept (st : S) (s : nat) (a : string) (rest : nat -> list (list (R * R))) : list (list (R * R)) :=
    flat_map (fun j => if String.eqb (act st j) a then flat_map (fun s' => map (fun b => cell (ps st) j :: cell (row s (aidx a)) s' :: b) (rest s')) (seq 0 n) else []) (seq 0 (length (acts st))).
  Fixpoint refuse (st : S) (s : nat) (acc : list (list (R * R))) (r : nat) : list (list (R * R)) :=
    match r with
    | O => acc
    | Datatypes.S r' => acc ++ flat_map (fun j => if available m s (act st j) then [] else map (cons (cell (ps st) j)) (refuse st s acc r')) (seq 0 (length (acts st)))
    end.
  Fixpoint sboxes (N : nat) (st : S) (s : nat) (tr : list string) : list (list (R * R)) :=
    match tr with
    | [] => []
    | l :: [] => if String.eqb (nth s (mdp_lab m) EmptyString) l then [[]] else []
    | l :: a :: tr' => if String.eqb (nth s (mdp_lab m) EmptyString) l && available m s a
                       then refuse st s (accept st s a (fun s' => sboxes N (upd st l) s' tr')) N else []
    end.

  Lemma accept_in st s a rest b : In b (accept st s a rest) <-> exists j s' b', (j < length (acts st))%nat /\ (s' < n)%nat /\ act st j = a /\ In b' (rest s') /\ b = cell (ps st) j :: cell (row s (aidx a)) s' :: b'.
  Proof.
    unfold accept. rewrite in_flat_map. split.
    - intros (j & Jj & I). apply in_seq in Jj. destruct (String.eqb_spec (act st j) a) as [E|]; [|destruct I]. apply in_flat_map in I as (s' & J & I). apply in_seq in J.
      apply in_map_iff in I as (b' & <- & I). exists j, s', b'. repeat split; auto; lia.
    - intros (j & s' & b' & Lj & Ls' & E & I & ->). exists j. split; [apply in_seq; lia|]. rewrite E, String.eqb_refl. apply in_flat_map. exists s'. split; [apply in_seq; lia|]. apply in_map_iff. eauto.
  Qed.
  Lemma refuse_in st s acc r b : In b (refuse st s acc (Datatypes.S r)) <-> In b acc \/ exists j b', (j < length (acts st))%nat /\ available m s (act st j) = false /\ In b' (refuse st s acc r) /\ b = cell (ps st) j :: b'.
  Proof.
    cbn [refuse]. rewrite in_app_iff, in_flat_map. split; (intros [H|H]; [left; exact H|right]).
    - destruct H as (j & Jj & I). apply in_seq in Jj. destruct (available m s (act st j)) eqn:E; [destruct I|]. apply in_map_iff in I as (b' & <- & I). exists j, b'. repeat split; auto; lia.
    - destruct H as (j & b' & Lj & E & I & ->). exists j. split; [apply in_seq; lia|]. rewrite E. apply in_map, I.
  Qed.
  Lemma refuse_mono st s acc acc' r r' : (forall b, In b acc -> In b acc') -> (r <= r')%nat -> forall b, In b (refuse st s acc r) -> In b (refuse st s acc' r').
  Proof.
    intros H. revert r'. induction r as [|r IH]; intros r' L b I.
    - destruct r'; [apply H, I|]. apply refuse_in. left. apply H, I.
    - destruct r' as [|r']; [lia|]. apply refuse_in in I as [I|(j & b' & Lj & E & I & ->)]; apply refuse_in; [left; apply H, I|]. right. exists j, b'. repeat split; auto. apply (IH r'); [lia|exact I].
  Qed.
  Lemma accept_mono st s a rest rest' : (forall s' b, In b (rest s') -> In b (rest' s')) -> forall b, In b (accept st s a rest) -> In b (accept st s a rest').
  Proof. intros H b I. apply accept_in in I as (j & s' & b' & Lj & Ls' & E & I & ->). apply accept_in. exists j, s', b'. repeat split; auto. Qed.
  Lemma sboxes_mono N N' : (N <= N')%nat -> forall t tr st s b, (length tr <= 2 * t + 1)%nat -> In b (sboxes N st s tr) -> In b (sboxes N' st s tr).
  Proof.
    intros L. induction t as [|t IH]; intros tr st s b Lt I; (destruct tr as [|l [|a tr]]; [exact I|exact I|]); cbn [length] in Lt; try lia.
    cbn [sboxes] in *. destruct (String.eqb _ _ && _); [|destruct I]. revert I. apply refuse_mono; [|exact L]. apply accept_mono. intros s' b' I. apply (IH tr); [lia|exact I].
  Qed.

  (** Cells of the unit interval. *)
  Definition unit_cells (b : list (R * R)) : Prop := forall ab, In ab b -> 0 <= fst ab <= snd ab /\ snd ab <= 1.
  Lemma refuse_unit st s acc r : inv st -> (forall b, In b acc -> unit_cells b) -> forall b, In b (refuse st s acc r) -> unit_cells b.
  Proof.
    intros V H. induction r as [|r IH]; intros b I; [apply H, I|]. apply refuse_in in I as [I|(j & b' & Lj & E & I & ->)]; [apply H, I|]. intros ab [<-|K]; [apply cell_unit, PD, V|apply (IH _ I), K].
  Qed.
  Lemma sboxes_unit N t : forall tr st s b, (length tr <= 2 * t + 1)%nat -> inv st -> (s < n)%nat -> In b (sboxes N st s tr) -> unit_cells b.
  Proof.
    induction t as [|t IH]; intros tr st s b Lt V Ls I; (destruct tr as [|l [|a tr]]; [destruct I| |]); cbn [length] in Lt; try lia.
    1,2: cbn in I; destruct (String.eqb _ _); [|destruct I]; destruct I as [<-|[]]; intros ab [].
    cbn [sboxes] in I. destruct (String.eqb _ _ && _) eqn:E; [|destruct I]. apply andb_true_iff in E as [_ E]. revert b I. apply refuse_unit; [exact V|]. intros b I.
    apply accept_in in I as (j & s' & b' & Lj & Ls' & Ea & I & ->). destruct (avail_row s a Ls E) as (_ & _ & _ & D & _).
    intros ab [<-|[<-|K]]; [apply cell_unit, PD, V|apply cell_unit, D|]. apply (IH tr (upd st l) s' b'); auto; lia.
  Qed.

  Lemma sboxes_apart N t : forall tr st s i, (length tr <= 2 * t + 1)%nat -> inv st -> (s < n)%nat -> ForallOrdPairs (apart i) (sboxes N st s tr).
  Proof.
    induction t as [|t IH]; intros tr st s i Lt V Ls; (destruct tr as [|l [|a tr]]; [constructor| |]); cbn [length] in Lt; try lia.
    1,2: cbn; destruct (String.eqb _ _); repeat constructor.
    cbn [sboxes]. destruct (String.eqb _ _ && _) eqn:E; [|constructor]. apply andb_true_iff in E as [_ E]. destruct (PD st V) as [D1 E1]. destruct (avail_row s a Ls E) as (_ & _ & _ & D2 & E2 & _).
    assert (A : forall i, ForallOrdPairs (apart i) (accept st s a (fun s' => sboxes N (upd st l) s' tr))).
    { intros i0. unfold accept. apply FOP_flat; [apply seq_NoDup| |].
      - intros j Jj. destruct (String.eqb _ _); [|constructor]. apply FOP_flat; [apply seq_NoDup| |].
        + intros s' J. apply in_seq in J. apply (FOP_map (apart (Datatypes.S (Datatypes.S i0)))); [apply IH; auto; lia|]. intros b c B d U (_ & _ & X) (_ & _ & Y). exact (B d U X Y).
        + intros x y b c Jx Jy Nxy I I'. apply in_seq in Jx, Jy. apply in_map_iff in I as (b' & <- & _). apply in_map_iff in I' as (c' & <- & _). intros d U (_ & B & _) (_ & C & _). apply Nxy. apply (cells_apart (row s (aidx a)) x y (d (Datatypes.S i0))); auto; lia.
      - intros x y b c Jx Jy Nxy I I'. apply in_seq in Jx, Jy. destruct (String.eqb (act st x) a); [|destruct I]. destruct (String.eqb (act st y) a); [|destruct I'].
        apply in_flat_map in I as (j & _ & I). apply in_flat_map in I' as (j' & _ & I'). apply in_map_iff in I as (b' & <- & _). apply in_map_iff in I' as (c' & <- & _). intros d U (B & _) (C & _). apply Nxy. apply (cells_apart (ps st) x y (d i0)); auto; lia. }
    generalize i. generalize N at 2 as r. intros r. induction r as [|r IHr]; intros i0; [apply A|]. cbn [refuse]. apply FOP_app; [apply A| |].
    - apply FOP_flat; [apply seq_NoDup| |].
      + intros j Jj. destruct (available m s (act st j)); [constructor|]. apply (FOP_map (apart (Datatypes.S i0))); [apply IHr|]. intros b c B d U [_ X] [_ Y]. exact (B d U X Y).
      + intros x y b c Jx Jy Nxy I I'. apply in_seq in Jx, Jy. destruct (available m s (act st x)); [destruct I|]. destruct (available m s (act st y)); [destruct I'|].
        apply in_map_iff in I as (b' & <- & _). apply in_map_iff in I' as (c' & <- & _). intros d U (B & _) (C & _). apply Nxy. apply (cells_apart (ps st) x y (d i0)); auto; lia.
    - intros b c I I'. apply accept_in in I as (j & s' & b' & Lj & Ls' & Ea & I & ->). apply in_flat_map in I' as (j' & Jj' & I'). apply in_seq in Jj'.
      destruct (available m s (act st j')) eqn:E'; [destruct I'|]. apply in_map_iff in I' as (c' & <- & _). intros d U (B & _) (C & _).
      assert (j = j') by (apply (cells_apart (ps st) j j' (d i0)); auto; lia). subst j'. rewrite Ea in E'. congruence.
  Qed.

  (** Volumes. *)
  Definition refused (st : S) (s : nat) : R := Sum (length (acts st)) (fun j => if available m s (act st j) then 0 else vecR (ps st) j).
  Lemma refuse_volume st s acc r : sumL (refuse st s acc r) volume = geo (refused st s) r * sumL acc volume.
  Proof.
    induction r as [|r IH]; [cbn [refuse geo]; ring|]. cbn [refuse geo]. rewrite sumL_app, sumL_flat_map. unfold refused at 1.
    rewrite (sumL_ext (seq 0 (length (acts st))) _ (fun j => (if available m s (act st j) then 0 else vecR (ps st) j) * sumL (refuse st s acc r) volume)).
    - rewrite sumL_scal_r. change (sumL (seq 0 (length (acts st))) ?f) with (Sum (length (acts st)) f). rewrite IH. ring.
    - intros j _. destruct (available m s (act st j)); [unfold sumL; cbn; ring|]. rewrite sumL_map. cbn [volume]. rewrite sumL_scal_l, cell_volume. reflexivity.
  Qed.
  Lemma accept_volume st s a rest : sumL (accept st s a rest) volume = chosen ps acts st a * Sum n (fun s' => vecR (row s (aidx a)) s' * sumL (rest s') volume).
  Proof.
    unfold accept, chosen. rewrite sumL_flat_map. unfold Sum at 1. rewrite <- sumL_scal_r. apply sumL_ext. intros j _. fold (act st j). destruct (String.eqb _ _); [|unfold sumL at 1; cbn; ring].
    rewrite sumL_flat_map. unfold Sum. rewrite <- sumL_scal_l. apply sumL_ext. intros s' _. rewrite sumL_map. cbn [volume]. rewrite !cell_volume.
    rewrite (sumL_ext _ _ (fun b => (vecR (ps st) j * vecR (row s (aidx a)) s') * volume b)) by (intros; ring). rewrite sumL_scal_l. ring.
  Qed.
  Lemma refused_offered st s : inv st -> refused st s = 1 - offered ps acts m st s.
  Proof.
    intros V. destruct (PD st V) as [[_ D] L]. rewrite rsum_nth, L in D. unfold refused, offered.
    assert (E : Sum (length (acts st)) (fun j => if available m s (act st j) then 0 else vecR (ps st) j) + Sum (length (acts st)) (fun j => if available m s (nth j (acts st) EmptyString) then vecR (ps st) j else 0) = 1).
    { rewrite <- D. rewrite <- Sum_plus. apply Sum_ext. intros j _. fold (act st j). unfold vecR. destruct (available m s (act st j)); ring. }
    lra.
  Qed.
  Lemma ps_nonneg st j : inv st -> 0 <= vecR (ps st) j.
  Proof. intros V. apply vecR_nonneg, PD, V. Qed.
  Lemma refused_nonneg st s : inv st -> 0 <= refused st s.
  Proof. intros V. apply Sum_nonneg. intros j _. destruct (available _ _ _); [lra|apply ps_nonneg, V]. Qed.
  Lemma chosen_offered st s a : inv st -> available m s a = true -> 0 <= chosen ps acts st a <= offered ps acts m st s.
  Proof.
    intros V A. split.
    - apply Sum_nonneg. intros j _. destruct (String.eqb _ _); [apply ps_nonneg, V|lra].
    - apply Sum_le. intros j _. destruct (String.eqb_spec (nth j (acts st) EmptyString) a) as [->|]; [rewrite A; lra|]. destruct (available m s (nth j (acts st) EmptyString)); [apply ps_nonneg, V|lra].
  Qed.
  Lemma sboxes_volume t : forall tr st s, (length tr <= 2 * t + 1)%nat -> inv st -> (s < n)%nat -> Un_cv (fun N => sumL (sboxes N st s tr) volume) (sched_prob ps acts upd m st s tr).
  Proof.
    induction t as [|t IH]; intros tr st s Lt V Ls; (destruct tr as [|l [|a tr]]; [exact (Un_cv_const 0)| |]); cbn [length] in Lt; try lia.
    1,2: apply (Un_cv_ext (fun _ => is_label (mdp_lab m) l s)); [intros N; cbn; unfold is_label, sumL; destruct (String.eqb _ _); cbn; ring|apply Un_cv_const].
    cbn [sched_prob sboxes]. unfold is_label, taken. destruct (String.eqb _ _); cbn [andb].
    2:{ apply (Un_cv_ext (fun _ => 0)); [reflexivity|]. rewrite Rmult_0_l. apply Un_cv_const. }
    destruct (available m s a) eqn:A.
    2:{ apply (Un_cv_ext (fun _ => 0)); [reflexivity|]. rewrite Rmult_0_l, Rmult_0_r. apply Un_cv_const. }
    destruct (avail_row s a Ls A) as (_ & _ & _ & _ & _ & AM). rewrite Rmult_1_l.
    apply (Un_cv_ext (fun N => (geo (refused st s) N * chosen ps acts st a) * Sum n (fun s' => vecR (row s (aidx a)) s' * sumL (sboxes N (upd st l) s' tr) volume))).
    { intros N. rewrite refuse_volume, accept_volume. ring. }
    apply CV_mult.
    - destruct (chosen_offered st s a V A) as [C1 C2]. destruct (Req_dec (offered ps acts m st s) 0) as [Z|Z].
      + assert (C : chosen ps acts st a = 0) by lra. rewrite C. unfold Rdiv. rewrite Rmult_0_l. apply (Un_cv_ext (fun _ => 0)); [intros; ring|apply Un_cv_const].
      + unfold Rdiv. rewrite (Rmult_comm (chosen ps acts st a)). apply CV_mult; [|apply Un_cv_const]. replace (offered ps acts m st s) with (1 - refused st s) by (rewrite (refused_offered st s V); ring).
        apply geo_cv. split; [apply refused_nonneg, V|]. rewrite (refused_offered st s V). lra.
    - rewrite (Sum_ext _ _ (fun s' => vecR (row s (aidx a)) s' * sched_prob ps acts upd m (upd st l) s' tr)) by (intros s' _; rewrite AM; reflexivity).
      apply (Sum_cv n (fun s' N => vecR (row s (aidx a)) s' * sumL (sboxes N (upd st l) s' tr) volume)). intros s' Ls'. apply CV_mult; [apply Un_cv_const|]. apply IH; auto; lia.
  Qed.

  (** Runs. *)
  Variable sch : scheduler R S.
  Hypothesis HG : forall st r, inv st -> sch_get sch st r = (do i <- resolveRandom (ps st) r; at_list (acts st) i).
  Hypothesis HO : forall st o, inv st -> sch_obs sch st o = Ok (upd st o).
  Lemma get_cell st r : inv st -> unit_draw r -> exists j, (j < length (acts st))%nat /\ within (cell (ps st) j) r /\ sch_get sch st r = Ok (act st j) /\
    forall j', (j' < length (acts st))%nat -> within (cell (ps st) j') r -> j' = j.
  Proof.
    intros V U. destruct (PD st V) as [D L]. destruct (dist_selects _ r D U) as (j & Ej & Sj). apply selected_cell in Sj as [Lj Wj]. rewrite L in Lj. exists j. split; [exact Lj|]. split; [exact Wj|]. split.
    - rewrite (HG st r V), Ej. cbn [bind]. apply at_list_nth. exact Lj.
    - intros j' Lj' Wj'. apply (cells_apart (ps st) j' j r); auto; lia.
  Qed.
  Lemma sboxes_run t : forall tr st s draws, length tr = (2 * t + 1)%nat -> inv st -> (s < n)%nat -> (forall r, In r draws -> unit_draw r) ->
    (mdp_run_from m sch t st s draws = Some (Ok tr) <-> exists N b, In b (sboxes N st s tr) /\ starts_in b draws).
  Proof.
    induction t as [|t IH]; intros tr st s draws Lt V Ls UD; (destruct tr as [|l [|a tr]]; [discriminate| |]); cbn [length] in Lt; try lia.
    - cbn [mdp_run_from sboxes]. destruct W as (_ & Ll & _). rewrite (at_list_nth _ _ EmptyString) by (unfold n in Ls; lia). cbn [bind].
      destruct (String.eqb_spec (nth s (mdp_lab m) EmptyString) l) as [->|E]; split.
      + intros _. exists O, []. split; [left; reflexivity|destruct draws; exact I].
      + reflexivity.
      + congruence.
      + intros (N & b & [] & _).
    - cbn [mdp_run_from].
      (* the step once the action is accepted *)
      assert (ST : forall N b, In b (sboxes N st s (l :: a :: tr)) <-> nth s (mdp_lab m) EmptyString = l /\ available m s a = true /\ In b (refuse st s (accept st s a (fun s' => sboxes N (upd st l) s' tr)) N)).
      { intros N b. cbn [sboxes]. destruct (String.eqb_spec (nth s (mdp_lab m) EmptyString) l) as [E|E]; [|cbn; tauto]. destruct (available m s a); cbn; [tauto|]. intuition congruence. }
      assert (AC : forall j r r' draws', (j < length (acts st))%nat -> within (cell (ps st) j) r -> act st j = a -> available m s a = true -> unit_draw r -> unit_draw r' -> (forall x, In x draws' -> unit_draw x) ->
        (match mdp_next m s a r' with Err e => Some (Err e) | Ok (s', o) => match sch_obs sch st o with Err e => Some (Err e) | Ok st' => match mdp_run_from m sch t st' s' draws' with None => None | Some (Err e) => Some (Err e) | Some (Ok tr0) => Some (Ok (o :: a :: tr0)) end end end = Some (Ok (l :: a :: tr))
         <-> nth s (mdp_lab m) EmptyString = l /\ exists N b, In b (accept st s a (fun s' => sboxes N (upd st l) s' tr)) /\ starts_in b (r :: r' :: draws'))).
      { intros j r r' draws' Lj Wj Ej A Ur Ur' UD'. destruct (avail_row s a Ls A) as (La & _ & Ia & D2 & E2 & _). unfold mdp_next. rewrite Ia. rewrite (at_list_nth (mdp_mat m) s []) by exact Ls. cbn [bind].
        destruct W as (SH & Ll & _). rewrite (at_list_nth _ (aidx a) []) by (destruct (SH (nth s (mdp_mat m) [])) as [La' _]; [apply nth_In; exact Ls|rewrite La'; exact La]). cbn [bind]. fold (row s (aidx a)).
        destruct (dist_selects _ r' D2 Ur') as (c & Ec & Sc). apply selected_cell in Sc as [Lc Wc]. rewrite E2 in Lc. rewrite Ec. cbn [bind].
        rewrite (at_list_nth (mdp_lab m) s EmptyString) by (unfold n in Ls; lia). cbn [bind]. rewrite (HO st _ V).
        specialize (IH tr (upd st (nth s (mdp_lab m) EmptyString)) c draws' ltac:(lia) (UI _ _ V) Lc UD'). split.
        - intros H. destruct (mdp_run_from m sch t _ c draws') as [[rest|]|] eqn:Er; try discriminate. injection H as H1 H3. subst rest. split; [exact H1|]. rewrite <- H1.
          destruct (proj1 IH eq_refl) as (N & b & I & B). exists N, (cell (ps st) j :: cell (row s (aidx a)) c :: b). split; [|repeat split; assumption || apply Wj || apply Wc].
          apply accept_in. exists j, c, b. rewrite H1 in *. repeat split; auto.
        - intros (H1 & N & b & I & B). apply accept_in in I as (j' & s' & b' & Lj' & Ls' & Ea & I & ->). destruct B as (B1 & B2 & B3).
          assert (s' = c) as -> by (apply (cells_apart (row s (aidx a)) s' c r'); auto; lia). rewrite H1 in *. rewrite (proj2 IH); [reflexivity|]. exists N, b'. auto. }
      clear IH Lt. induction draws as [|r draws IHd]; cbn [mdp_choose].
      + split; [discriminate|]. intros (N & b & I & B). exfalso. apply ST in I as (_ & _ & I). destruct b as [|ab b]; [|destruct B].
        destruct N as [|N]; [|apply refuse_in in I as [I|(j & b' & _ & _ & _ & X)]; [|discriminate]].
        all: apply accept_in in I as (j & s' & b' & _ & _ & _ & _ & X); discriminate.
      + assert (Ur : unit_draw r) by (apply UD; left; reflexivity). assert (UD' : forall x, In x draws -> unit_draw x) by (intros x I; apply UD; right; exact I). specialize (IHd UD').
        destruct (get_cell st r V Ur) as (j & Lj & Wj & Gj & Uj). rewrite Gj. destruct (memb String.eqb (act st j) (getActions m s)) eqn:M.
        * (* accepted *)
          apply memb_str in M. apply available_iff in M.
          destruct draws as [|r' draws].
          { split; [discriminate|]. intros (N & b & I & B). exfalso. apply ST in I as (_ & A & I).
            destruct N as [|N]; [|apply refuse_in in I as [I|(j' & b' & Lj' & E' & I & ->)]].
            1,2: apply accept_in in I as (j' & s' & b' & _ & _ & _ & _ & ->); destruct B as [_ []].
            destruct B as [B1 _]. rewrite (Uj j' Lj' B1) in E'. congruence. }
          assert (Ur' : unit_draw r') by (apply UD'; left; reflexivity). assert (UD2 : forall x, In x draws -> unit_draw x) by (intros x I; apply UD'; right; exact I).
          destruct (String.string_dec (act st j) a) as [Ea|Ea].
          -- rewrite Ea in *. rewrite (AC j r r' draws Lj Wj Ea M Ur Ur' UD2). split.
             ++ intros (El & N & b & I & B). exists N, b. split; [|exact B]. apply ST. split; [exact El|]. split; [exact M|]. apply (refuse_mono st s _ _ 0 N (fun b I => I)); [lia|exact I].
             ++ intros (N & b & I & B). apply ST in I as (El & _ & I). split; [exact El|]. exists N, b. split; [|exact B].
                destruct N as [|N]; [exact I|]. apply refuse_in in I as [I|(j' & b' & Lj' & E' & I & ->)]; [exact I|]. exfalso. destruct B as [B1 _]. unfold act in *. rewrite (Uj j' Lj' B1), Ea in E'. congruence.
          -- split.
             ++ intros H. exfalso. destruct (mdp_next m s (act st j) r') as [[s' o]|]; [|discriminate]. destruct (sch_obs sch st o); [|discriminate]. destruct (mdp_run_from m sch t _ s' draws) as [[|]|]; try discriminate. injection H as _ H _. contradiction.
             ++ intros (N & b & I & B). exfalso. apply ST in I as (_ & A & I).
                destruct N as [|N]; [|apply refuse_in in I as [I|(j' & b' & Lj' & E' & I & ->)]].
                1,2: apply accept_in in I as (j' & s' & b' & Lj' & _ & Ea' & _ & ->); destruct B as [B1 _]; apply Ea; rewrite <- (Uj j' Lj' B1); exact Ea'.
                destruct B as [B1 _]. rewrite (Uj j' Lj' B1) in E'. congruence.
        * (* refused *)
          assert (NA : available m s (act st j) = false). { destruct (available m s (act st j)) eqn:A; [|reflexivity]. apply available_iff, memb_str in A. congruence. }
          rewrite IHd. split.
          -- intros (N & b & I & B). apply ST in I as (El & A & I). exists (Datatypes.S N), (cell (ps st) j :: b). split; [|split; assumption]. apply ST. split; [exact El|]. split; [exact A|].
             apply refuse_in. right. exists j, b. repeat split; auto. revert I. apply refuse_mono; [|lia]. apply accept_mono. intros s' b'. apply (sboxes_mono N (Datatypes.S N) ltac:(lia) (length tr)). lia.
          -- intros (N & b & I & B). apply ST in I as (El & A & I). destruct N as [|N]; [|apply refuse_in in I as [I|(j' & b' & Lj' & E' & I & ->)]].
             1,2: exfalso; apply accept_in in I as (j' & s' & b' & Lj' & _ & Ea' & _ & ->); destruct B as [B1 _]; rewrite (Uj j' Lj' B1) in Ea'; congruence.
             destruct B as [_ B]. exists (Datatypes.S N), b'. split; [|exact B]. apply ST. split; [exact El|]. split; [exact A|]. revert I. apply refuse_mono; [auto|lia].
  Qed.
End Law.

(** [described]: the scheduler, in the states [inv], chooses among [acts st] with
    the probabilities [ps st] and moves according to [upd]. *)
Definition described {S : Type} (sch : scheduler R S) (ps : S -> list R) (acts : S -> list string) (upd : S -> string -> S) (inv : S -> Prop) : Prop :=
  (forall st, inv (sch_reset sch st)) /\
  (forall st, inv st -> is_dist (ps st) /\ length (ps st) = length (acts st)) /\
  (forall st r, inv st -> sch_get sch st r = (do i <- resolveRandom (ps st) r; at_list (acts st) i)) /\
  (forall st o, inv st -> sch_obs sch st o = Ok (upd st o) /\ inv (upd st o)).

(** The draws for which [run] returns the trace form a growing family of boxes;
    at each stage the boxes are disjoint, and the sum of their volumes tends to
    the probability of the trace under the scheduler. *)
Theorem C155_mdp_scheduler_law : forall (S : Type) (sch : scheduler R S) ps acts upd inv (m : mdp R) (st : S) (t : nat) (tr : list string),
  described sch ps acts upd inv -> wf_mdp m -> (forall ra r, In ra (mdp_mat m) -> In r ra -> is_dist r \/ rsum r = 0) -> is_dist (mdp_ini m) ->
  length tr = (2 * t + 1)%nat ->
  exists boxes : nat -> list (list (R * R)),
    (forall N b, In b (boxes N) -> In b (boxes (Datatypes.S N))) /\
    (forall N b ab, In b (boxes N) -> In ab b -> 0 <= fst ab <= snd ab /\ snd ab <= 1) /\
    (forall N p q b b' draws, (forall k, unit_draw (draws k)) -> nth_error (boxes N) p = Some b -> nth_error (boxes N) q = Some b' -> inbox b draws 0 -> inbox b' draws 0 -> p = q) /\
    Un_cv (fun N => rsum (map volume (boxes N))) (Sum (mdp_n m) (fun s => vecR (mdp_ini m) s * sched_prob ps acts upd m (sch_reset sch st) s tr)) /\
    forall draws, (forall r, In r draws -> unit_draw r) ->
      (mdp_run m sch st (Z.of_nat t) draws = Some (Ok tr) <-> exists N b, In b (boxes N) /\ starts_in b draws).
Proof.
  intros S sch ps acts upd inv m st t tr (H0 & PD & HG & HOU) W AD DI L. pose proof W as (SH & Ll & ND & Li & Ni).
  assert (HO : forall st o, inv st -> sch_obs sch st o = Ok (upd st o)) by (intros; apply HOU; assumption).
  assert (UI : forall st o, inv st -> inv (upd st o)) by (intros; apply HOU; assumption).
  set (st0 := sch_reset sch st). assert (V : inv st0) by apply H0.
  exists (fun N => flat_map (fun s => map (cons (cell (mdp_ini m) s)) (sboxes m ps acts upd N st0 s tr)) (seq 0 (mdp_n m))).
  split; [|split; [|split; [|split]]].
  - intros N b I. apply in_flat_map in I as (s & J & I). apply in_map_iff in I as (c & <- & I). apply in_flat_map. exists s. split; [exact J|]. apply in_map.
    apply (sboxes_mono m ps acts upd N (Datatypes.S N) ltac:(lia) t); [lia|exact I].
  - intros N b ab I. apply in_flat_map in I as (s & J & I). apply in_seq in J. apply in_map_iff in I as (c & <- & I). intros [<-|K]; [apply cell_unit, DI|].
    apply (sboxes_unit m W AD ps acts upd inv PD UI N t tr st0 s c); auto; lia.
  - intros N p q b b' draws U Ep Eq B B'.
    assert (F : ForallOrdPairs (apart 0) (flat_map (fun s => map (cons (cell (mdp_ini m) s)) (sboxes m ps acts upd N st0 s tr)) (seq 0 (mdp_n m)))).
    { apply start_apart; [exact DI|exact Li|]. intros s Ls. apply (sboxes_apart m W AD ps acts upd inv PD UI N t); auto; lia. }
    destruct (Nat.lt_trichotomy p q) as [H|[H|H]]; [|exact H|]; exfalso.
    + exact (FOP_nth _ _ p q _ _ F Ep Eq H draws U B B').
    + exact (FOP_nth _ _ q p _ _ F Eq Ep H draws U B' B).
  - apply (Un_cv_ext (fun N => Sum (mdp_n m) (fun s => vecR (mdp_ini m) s * sumL (sboxes m ps acts upd N st0 s tr) volume))).
    { intros N. change (rsum (map volume ?l)) with (sumL l volume). rewrite sumL_flat_map. apply sumL_ext. intros s _. rewrite sumL_map. cbn [volume]. rewrite sumL_scal_l, cell_volume. reflexivity. }
    apply (Sum_cv (mdp_n m) (fun s N => vecR (mdp_ini m) s * sumL (sboxes m ps acts upd N st0 s tr) volume)). intros s Ls. apply CV_mult; [apply Un_cv_const|].
    apply (sboxes_volume m W AD ps acts upd inv PD UI t); auto; lia.
  - intros draws UD. destruct draws as [|r0 draws].
    + cbn. split; [discriminate|]. intros (N & b & I & B). apply in_flat_map in I as (s & J & I). apply in_map_iff in I as (c & <- & I). destruct B.
    + unfold mdp_run. destruct (dist_selects _ r0 DI (UD r0 (or_introl eq_refl))) as (c & Ec & Sc). rewrite Ec. rewrite Nat2Z.id. fold st0.
      apply selected_cell in Sc as [Lc Wc]. rewrite Li in Lc.
      rewrite (sboxes_run m W AD ps acts upd inv PD UI sch HG HO t tr st0 c draws L V Lc (fun r I => UD r (or_intror I))). split.
      * intros (N & b & I & B). exists N, (cell (mdp_ini m) c :: b). split; [apply in_flat_map; exists c; split; [apply in_seq; lia|apply in_map, I]|]. split; assumption.
      * intros (N & b & I & B). apply in_flat_map in I as (s' & J & I). apply in_seq in J. apply in_map_iff in I as (b' & <- & I). destruct B as [B1 B2].
        assert (s' = c) as -> by (apply (cells_apart (mdp_ini m) s' c r0); auto; try lia; apply UD; left; reflexivity). eauto.
Qed.
Print Assumptions C155_mdp_scheduler_law.

(** The schedulers of the library. *)
Theorem C155_uniform_described : forall (l : list string), l <> [] ->
  described (UniformScheduler l) (fun _ => repeat (1 / INR (length l)) (length l)) (fun _ => l) (fun st _ => st) (fun _ => True).
Proof.
  intros l N. assert (E : uniform_weights (K := R) l = repeat (1 / INR (length l)) (length l)) by (unfold uniform_weights; nR; rewrite <- INR_IZR_INZ; reflexivity).
  split; [intros; exact I|]. split; [intros st _; rewrite <- E; apply uniform_dist, N|]. split; [intros st r _; cbn; unfold uniform_get; rewrite E; reflexivity|]. intros; split; [reflexivity|exact I].
Qed.
Print Assumptions C155_uniform_described.

(** A finite memory scheduler with the states 0, ..., q-1: an entry in
    action_matrix for each of them, with a distribution and as many actions, and
    a row of q such states for each observation of transition_matrix. *)
Definition fm_wf (q : nat) (am : list (Z * (list R * list string))) (tm : list (string * list Z)) : Prop :=
  (0 < q)%nat /\
  (forall s, (s < q)%nat -> exists ps acts, assoc Z.eqb (Z.of_nat s) am = Some (ps, acts) /\ is_dist ps /\ length ps = length acts) /\
  (forall o dest, assoc String.eqb o tm = Some dest -> length dest = q /\ forall d, In d dest -> (0 <= d < Z.of_nat q)%Z).
Definition fm_ps (am : list (Z * (list R * list string))) (s : Z) : list R := match assoc Z.eqb s am with Some (ps, _) => ps | None => [] end.
Definition fm_acts (am : list (Z * (list R * list string))) (s : Z) : list string := match assoc Z.eqb s am with Some (_, acts) => acts | None => [] end.
Definition fm_upd (tm : list (string * list Z)) (s : Z) (o : string) : Z :=
  match assoc String.eqb o tm with Some dest => nth (Z.to_nat s) dest 0%Z | None => s end.
Theorem C155_finite_memory_described : forall q am tm, fm_wf q am tm ->
  described (FiniteMemoryScheduler am tm) (fm_ps am) (fm_acts am) (fm_upd tm) (fun s => (0 <= s < Z.of_nat q)%Z).
Proof.
  intros q am tm (Q & HA & HT).
  assert (X : forall s, (0 <= s < Z.of_nat q)%Z -> exists ps acts, assoc Z.eqb s am = Some (ps, acts) /\ is_dist ps /\ length ps = length acts).
  { intros s H. destruct (HA (Z.to_nat s) ltac:(lia)) as (ps & acts & E & D). rewrite Z2Nat.id in E by lia. eauto. }
  split; [intros st; cbn; lia|]. split; [|split].
  - intros st H. destruct (X st H) as (ps & acts & E & D & L). unfold fm_ps, fm_acts. rewrite E. auto.
  - intros st r H. destruct (X st H) as (ps & acts & E & D & L). unfold fm_ps, fm_acts. cbn [FiniteMemoryScheduler sch_get]. unfold fm_get. rewrite E. reflexivity.
  - intros st o H. cbn [FiniteMemoryScheduler sch_obs]. unfold fm_obs, fm_upd. destruct (assoc String.eqb o tm) as [dest|] eqn:E; [|split; [reflexivity|exact H]].
    destruct (HT o dest E) as [L R]. split; [|apply R, nth_In; lia].
    rewrite <- (Z2Nat.id st) at 1 by lia. apply (pyget_nth dest (Z.to_nat st) 0%Z). lia.
Qed.
Print Assumptions C155_finite_memory_described.

(** When every action that the scheduler offers is available in every state, the
    probability is the product of the probabilities of its choices and of the
    probability of the trace given the actions, which is the one used by
    logLikelihood. *)
Theorem C155_mdp_all_available : forall (S : Type) ps acts upd (inv : S -> Prop) (m : mdp R) (t : nat) (tr : list string) (st : S),
  wf_mdp m -> inv st -> (forall st o, inv st -> inv (upd st o)) -> (forall st, inv st -> is_dist (ps st) /\ length (ps st) = length (acts st)) ->
  (forall st j s, inv st -> (j < length (acts st))%nat -> (s < mdp_n m)%nat -> In (nth j (acts st) EmptyString) (getActions m s)) ->
  length tr = (2 * t + 1)%nat ->
  Sum (mdp_n m) (fun s => vecR (mdp_ini m) s * sched_prob ps acts upd m st s tr) = all_chosen ps acts upd st tr * mdp_trace_prob m tr.
Proof.
  intros S ps acts upd inv m t tr st W V UI PD HA L.
  assert (OF : forall st s, inv st -> (s < mdp_n m)%nat -> offered ps acts m st s = 1).
  { intros st' s V' Ls. destruct (PD st' V') as [[_ D] Lp]. rewrite rsum_nth, Lp in D. rewrite <- D. apply Sum_ext. intros j Lj. rewrite (proj2 (available_iff m s _)); [reflexivity|]. apply HA; assumption. }
  assert (TK : forall st s a, inv st -> (s < mdp_n m)%nat -> taken ps acts m st s a = chosen ps acts st a).
  { intros st' s a V' Ls. unfold taken. destruct (available m s a) eqn:A; [rewrite OF by assumption; field|]. symmetry. apply Sum_zero_ext. intros j Lj.
    destruct (String.eqb_spec (nth j (acts st') EmptyString) a) as [E|]; [|reflexivity]. specialize (HA st' j s V' Lj Ls). rewrite E in HA. apply available_iff in HA. congruence. }
  assert (G : forall t tr st s, length tr = (2 * t + 1)%nat -> inv st -> (s < mdp_n m)%nat -> sched_prob ps acts upd m st s tr =
     all_chosen ps acts upd st tr * sumL (paths (mdp_n m) t) (fun y => path_weight (map (act_mat m) (odds tr)) (map (is_label (mdp_lab m)) (evens tr)) (s :: y))).
  { clear tr t L st V. induction t as [|t IH]; intros tr st s L V Ls; (destruct tr as [|l [|a tr]]; [discriminate| |]); cbn [length] in L; try lia.
    - cbn. unfold sumL. cbn. ring.
    - cbn [sched_prob all_chosen evens odds map]. rewrite TK by assumption. rewrite sumL_paths_S.
      rewrite (Sum_ext _ _ (fun s' => all_chosen ps acts upd (upd st l) tr * (act_mat m a s s' * sumL (paths (mdp_n m) t) (fun y => path_weight (map (act_mat m) (odds tr)) (map (is_label (mdp_lab m)) (evens tr)) (s' :: y))))).
      2:{ intros s' Ls'. rewrite (IH tr (upd st l) s') by (auto; lia). ring. }
      rewrite Sum_scal_l. rewrite (Sum_ext (mdp_n m) (fun x => sumL _ _) (fun s' => is_label (mdp_lab m) l s * (act_mat m a s s' * sumL (paths (mdp_n m) t) (fun y => path_weight (map (act_mat m) (odds tr)) (map (is_label (mdp_lab m)) (evens tr)) (s' :: y))))).
      + rewrite Sum_scal_l. ring.
      + intros s' _. rewrite <- !sumL_scal_l. apply sumL_ext. intros y _. cbn [path_weight]. destruct tr as [|l' tr]; [cbn in L; lia|]. cbn [evens map]. ring. }
  rewrite (Sum_ext _ _ (fun s => all_chosen ps acts upd st tr * (vecR (mdp_ini m) s * sumL (paths (mdp_n m) t) (fun y => path_weight (map (act_mat m) (odds tr)) (map (is_label (mdp_lab m)) (evens tr)) (s :: y))))) by (intros s Ls; rewrite (G t tr st s) by assumption; ring).
  rewrite Sum_scal_l. f_equal. unfold mdp_trace_prob, trace_prob. rewrite map_length.
  assert (Le : length (evens tr) = Datatypes.S t). { clear -L. revert tr L. induction t as [|t IH]; intros [|l [|a tr]] L; cbn [length] in L; try lia; [reflexivity|]. cbn [evens length]. f_equal. apply IH. lia. }
  rewrite Le, sumL_paths_S. apply Sum_ext. intros s _. rewrite <- sumL_scal_l. reflexivity.
Qed.
Print Assumptions C155_mdp_all_available.

(** An MDP with action r unavailable in state 1 and a scheduler that alternates
    between a choice of r and an equal choice: the trace a-l-init from state 1
    has probability 1 although l is chosen with probability 1/2 only. *)
Definition sched_mdp : mdp R := mkMDP [[[1/2; 1/2]; [0; 1]]; [[1; 0]; [0; 0]]] ["init"; "a"]%string ["l"; "r"]%string [1; 0] EmptyString.
Definition sched_am : list (Z * (list R * list string)) := [(0%Z, ([1], ["r"%string])); (1%Z, ([1/2; 1/2], ["r"; "l"]%string))].
Definition sched_tm : list (string * list Z) := [("init"%string, [1; 1]%Z); ("a"%string, [0; 0]%Z)].
Example C155_instance : fm_wf 2 sched_am sched_tm /\ wf_mdp sched_mdp /\ (forall ra r, In ra (mdp_mat sched_mdp) -> In r ra -> is_dist r \/ rsum r = 0) /\ is_dist (mdp_ini sched_mdp) /\
  Sum (mdp_n sched_mdp) (fun s => vecR (mdp_ini sched_mdp) s * sched_prob (fm_ps sched_am) (fm_acts sched_am) (fm_upd sched_tm) sched_mdp 0%Z s ["init"; "r"; "a"; "l"; "init"]%string) = 1.
Proof.
  split; [|split; [|split; [|split]]].
  - split; [lia|]. split.
    + intros [|[|s]] L; [| |lia]; [exists [1], ["r"%string]|exists [1/2; 1/2], ["r"; "l"]%string]; (split; [reflexivity|]; split; [|reflexivity]); split; try (cbn; lra); intros x I; cbn in I; intuition (subst; lra).
    + intros o dest E. unfold sched_tm, assoc in E. destruct (String.eqb o "init"); [injection E as <-; split; [reflexivity|]; intros d I; cbn in I; lia|]. destruct (String.eqb o "a"); [|discriminate]. injection E as <-. split; [reflexivity|]; intros d I; cbn in I; lia.
  - split; [|split; [reflexivity|split; [|split; [reflexivity|intros x [<-|[<-|[]]]; lra]]]].
    + intros ra [<-|[<-|[]]]; (split; [reflexivity|]); intros r [<-|[<-|[]]]; reflexivity.
    + repeat constructor; cbn; intuition discriminate.
  - intros ra r [<-|[<-|[]]] [<-|[<-|[]]].
    1,2,3: left; split; try (cbn; lra); intros x [<-|[<-|[]]]; lra.
    right. cbn. lra.
  - split; [intros x [<-|[<-|[]]]; lra|cbn; lra].
  - assert (A0 : available sched_mdp 0 "r" = true) by (apply available_iff, getActions_In; exists 1%nat; cbn; split; [lia|split; [reflexivity|lra]]).
    assert (A1 : available sched_mdp 1 "l" = true) by (apply available_iff, getActions_In; exists 0%nat; cbn; split; [lia|split; [reflexivity|lra]]).
    assert (A2 : available sched_mdp 1 "r" = false). { destruct (available sched_mdp 1 "r") eqn:E; [|reflexivity]. apply available_iff, getActions_In in E as ([|[|k]] & L & E & P); cbn in *; try lia; try discriminate; lra. }
    assert (A3 : available sched_mdp 0 "l" = true) by (apply available_iff, getActions_In; exists 0%nat; cbn; split; [lia|split; [reflexivity|lra]]).
    change (mdp_n sched_mdp) with 2%nat. unfold Sum, sumL. cbn -[available taken act_mat]. change (mdp_n sched_mdp) with 2%nat. unfold Sum, sumL. cbn -[available taken act_mat].
    unfold is_label, taken. cbn -[available act_mat]. rewrite A0, A1, A3. unfold chosen, offered, act_mat, Sum, sumL, vecR. cbn -[available]. rewrite ?A0, ?A1, ?A2, ?A3. field_simplify; try lra.
Qed.

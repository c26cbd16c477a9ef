(** From the merged tree to the Markov chain. *)
From Coq Require Import String ZArith Lia Bool List Sorting Permutation.
From Verif Require Import Num Py MTools MSet MModels MCtor SSet LSet LCtor MAlergia SAlergia LAlergia LAlergia2 LAlergia3.
Import ListNotations.

(** ** Breadth-first search *)
Lemma bfs_inner ks : forall st tmp, NoDup st -> exists new,
  fold_left (fun (st : list nat * list nat) (kc : nat * Z) => if memb Nat.eqb (fst kc) (fst st) then st else (fst st ++ [fst kc], snd st ++ [fst kc])) ks (st, tmp) = (st ++ new, tmp ++ new) /\
  NoDup (st ++ new) /\ (forall x, In x new -> In x (map fst ks)) /\ (forall k c, In (k, c) ks -> In k (st ++ new)).
Proof.
  induction ks as [|[k c] ks IH]; intros st tmp ND; cbn [fold_left fst snd].
  - exists []. rewrite !app_nil_r. split; [reflexivity|]. split; [exact ND|]. split; [intros x []|intros ? ? []].
  - destruct (memb Nat.eqb k st) eqn:M.
    + destruct (IH st tmp ND) as (new & E & A & B & C). exists new. split; [exact E|]. split; [exact A|]. split.
      * intros x J. right. apply B, J.
      * intros k' c' [[= <- <-]|J]; [apply in_or_app; left; apply memb_nat, M|apply (C k' c' J)].
    + apply memb_nat_false in M. destruct (IH (st ++ [k]) (tmp ++ [k])) as (new & E & A & B & C).
      { apply NoDup_app_intro; [exact ND|constructor; [intros []|constructor]|]. intros x J [<-|[]]. contradiction. }
      exists (k :: new). rewrite <- !app_assoc in *. cbn [app] in *. split; [exact E|]. split; [exact A|]. split.
      * intros x [<-|J]; [left; reflexivity|right; apply B, J].
      * intros k' c' [[= <- <-]|J]; [apply in_or_app; right; left; reflexivity|apply (C k' c' J)].
Qed.
Lemma bfs_spec h N (Q : nat -> Prop) : (forall x, Q x -> (x < N)%nat) -> (forall x k c, Q x -> In (k, c) (kids h x) -> Q k) ->
  forall fuel st tmp, NoDup st -> (forall x, In x st -> Q x) -> (forall x, In x tmp -> In x st) ->
  (forall x k c, In x st -> ~ In x tmp -> In (k, c) (kids h x) -> In k st) -> (length tmp + N <= fuel + length st)%nat ->
  exists l, bfs fuel h st tmp = Some (st ++ l) /\ NoDup (st ++ l) /\ (forall x, In x (st ++ l) -> Q x) /\
    (forall x k c, In x (st ++ l) -> In (k, c) (kids h x) -> In k (st ++ l)).
Proof.
  intros QN QC. induction fuel as [|fuel IH]; intros st tmp ND QS TS CL LE.
  - destruct tmp as [|n tmp].
    + exists []. rewrite app_nil_r. split; [reflexivity|]. split; [exact ND|]. split; [exact QS|]. intros x k c J. apply (CL x k c J). intros [].
    + exfalso. cbn [length] in LE. assert (length st <= N)%nat; [|lia].
      rewrite <- (seq_length N 0). apply NoDup_incl_length; [exact ND|]. intros x J. apply in_seq. pose proof (QN x (QS x J)). lia.
  - destruct tmp as [|n tmp].
    + exists []. rewrite app_nil_r. split; [reflexivity|]. split; [exact ND|]. split; [exact QS|]. intros x k c J. apply (CL x k c J). intros [].
    + cbn [bfs]. destruct (bfs_inner (kids h n) st tmp ND) as (new & E & ND2 & SB & AL). rewrite E. cbn [fst snd].
      assert (Qn : Q n) by (apply QS, TS; left; reflexivity).
      destruct (IH (st ++ new) (tmp ++ new)) as (l & E2 & A & B & C).
      * exact ND2.
      * intros x J. apply in_app_or in J as [J|J]; [apply QS, J|]. apply SB, In_fst in J as (c & J). apply (QC n x c Qn J).
      * intros x J. apply in_app_or in J as [J|J]; apply in_or_app; [left; apply TS; right; exact J|right; exact J].
      * intros x k c J NJ Jk. apply in_app_or in J as [J|J]; [|exfalso; apply NJ, in_or_app; right; exact J].
        destruct (Nat.eq_dec x n) as [->|NE]; [apply (AL k c Jk)|]. apply in_or_app; left. apply (CL x k c J); [|exact Jk].
        intros [->|J']; [congruence|]. apply NJ, in_or_app. left; exact J'.
      * rewrite !app_length. cbn [length] in LE. lia.
      * exists (new ++ l). rewrite app_assoc. auto.
Qed.

(** ** Counting passages of the traces *)
Lemma pcount_zs T w : pcount T w = zs T (fun tm => if starts w (fst tm) then snd tm else 0%Z).
Proof. reflexivity. Qed.
Section Reindex.
  Variables (T : list (list string * Z)) (ps : list (list string)).
  Hypothesis ND : NoDup ps.
  Hypothesis P0 : nth 0 ps [] = [] /\ (0 < length ps)%nat.
  Hypothesis In_ps : forall w, In w ps <-> w = [] \/ exists t m, In (t, m) T /\ starts w t = true.

  Lemma ps_tail : map (fun y => nth y ps []) (seq 1 (length ps - 1)) = tl ps.
  Proof.
    destruct ps as [|p q] eqn:E; [reflexivity|]. cbn [tl length]. rewrite <- (seq_shift (S (length q) - 1) 0), map_map.
    replace (S (length q) - 1)%nat with (length q) by lia. cbn [nth]. clear. induction q as [|a q IH]; [reflexivity|].
    cbn [length seq map nth]. f_equal. rewrite <- seq_shift, map_map. exact IH.
  Qed.
  Lemma in_tail w : In w (tl ps) <-> In w ps /\ w <> [].
  Proof.
    destruct ps as [|p q] eqn:E; [cbn in P0; lia|]. cbn [tl]. cbn in P0. destruct P0 as (-> & _). inversion ND as [|? ? NI _]; subst. split.
    - intros J. split; [right; exact J|]. intros ->. contradiction.
    - intros ([J|J] & N); [congruence|exact J].
  Qed.
  Lemma reindex (C : list string -> bool) :
    zs (seq 1 (length ps - 1)) (fun y => if C (nth y ps []) then pcount T (nth y ps []) else 0%Z) =
    zs T (fun tm => snd tm * zs (seq 1 (length (fst tm))) (fun p => if C (firstn p (fst tm)) then 1 else 0))%Z.
  Proof.
    rewrite <- (zs_map (fun y => nth y ps []) (seq 1 (length ps - 1)) (fun w => if C w then pcount T w else 0%Z)), ps_tail.
    rewrite (zs_ext (tl ps) _ (fun w => zs T (fun tm => if C w && starts w (fst tm) then snd tm else 0%Z))).
    2:{ intros w _. rewrite pcount_zs. destruct (C w); cbn [andb]; [reflexivity|]. symmetry. apply zs_zero. reflexivity. }
    rewrite zs_swap. apply zs_ext. intros [t m] I. cbn [fst snd].
    rewrite (zs_ext (tl ps) _ (fun w => if starts w t then if C w then m else 0%Z else 0%Z)).
    2:{ intros w _. destruct (C w), (starts w t); reflexivity. }
    assert (FILT : forall l (F : list string -> Z), zs l (fun w => if starts w t then F w else 0%Z) = zs (filter (fun w => starts w t) l) F).
    { clear. intros l F. induction l as [|a l IH]; [reflexivity|]. cbn [filter]. rewrite zs_cons, IH. destruct (starts a t); [reflexivity|lia]. }
    rewrite FILT. rewrite (zs_perm _ (map (fun p => firstn p t) (seq 1 (length t)))).
    - rewrite zs_map, <- zs_scal. apply zs_ext. intros p _. destruct (C (firstn p t)); lia.
    - apply NoDup_Permutation.
      + apply NoDup_filter. destruct ps; [constructor|]. inversion ND; assumption.
      + apply (NoDup_map_inv (@length string)). rewrite map_map. rewrite (map_ext_in _ (fun p => p)); [rewrite map_id; apply seq_NoDup|].
        intros p J. apply in_seq in J. rewrite firstn_length. lia.
      + intros w. rewrite filter_In, in_tail, in_map_iff. split.
        * intros ((J & N) & S). apply starts_firstn in S as (E & L). exists (length w). split; [symmetry; exact E|]. apply in_seq. destruct w; [congruence|cbn [length] in *; lia].
        * intros (p & <- & J). apply in_seq in J.
          assert (S : starts (firstn p t) t = true) by (apply starts_spec; exists (skipn p t); symmetry; apply firstn_skipn).
          split; [|exact S]. split; [apply In_ps; right; eauto|]. intros E. apply (f_equal (@length string)) in E. rewrite firstn_length in E. cbn in E. lia.
  Qed.
End Reindex.

(** ** Everything together, before the numbers *)
Lemma starts_trans a b c : starts a b = true -> starts b c = true -> starts a c = true.
Proof. rewrite !starts_spec. intros [u ->] [v ->]. exists (u ++ v). symmetry. apply app_assoc. Qed.

Definition idx (ps : list (list string)) (w : list string) : nat := match index_of trace_eqb w ps with Some i => i | None => O end.
Lemma idx_nth ps y : NoDup ps -> (y < length ps)%nat -> idx ps (nth y ps []) = y.
Proof. intros ND L. unfold idx. rewrite (index_of_nth trace_eqb (lex_eqb_decides _ string_eqb_decides)) by assumption. reflexivity. Qed.
Lemma idx_In ps w : NoDup ps -> In w ps -> (idx ps w < length ps)%nat /\ nth (idx ps w) ps [] = w.
Proof. intros ND I. apply (In_nth _ _ []) in I as (y & L & <-). rewrite idx_nth by assumption. auto. Qed.

(** [n] transitions from [x] to [y] when [T] is read with [Fw]. *)
Definition passages (Fw : list string -> nat) (T : list (list string * Z)) (x : nat) (g : nat -> bool) : Z :=
  zs T (fun tm => snd tm * zs (seq 1 (length (fst tm))) (fun p => if (Fw (firstn (p - 1) (fst tm)) =? x)%nat && g (Fw (firstn p (fst tm))) then 1 else 0))%Z.

Lemma removelast_firstn_pred {A} (t : list A) p : (1 <= p <= length t)%nat -> removelast (firstn p t) = firstn (p - 1) t.
Proof.
  intros L. destruct p as [|p]; [lia|]. rewrite removelast_firstn by lia. f_equal. lia.
Qed.

Section Graph.
  Context {K : Type} `{Num K} `{Trans K}.
  Variables (T : list (list string * Z)) (alpha : K).
  Hypothesis Srt : sorted_by trace_leb (map fst T).
  Hypothesis Pos : forall t m, In (t, m) T -> (1 <= m)%Z.
  Hypothesis NoEmpty : forall t m, In (t, m) T -> ~ In EmptyString t.

  Definition is_prefix (w : list string) : Prop := w = [] \/ exists t m, In (t, m) T /\ starts w t = true.

  Lemma merged_tree fuel al : (length (fst (pta_build T)) <= fuel)%nat ->
    exists h' N (L : nat -> bool) Fw,
      alergia_loop fuel (fst (pta_build T)) al alpha [O] (map fst (kids (fst (pta_build T)) 0)) = Some h' /\
      length h' = N /\ (0 < N <= fuel)%nat /\ L O = true /\ Fw [] = O /\ (forall w, Fw w = O -> is_prefix w -> w = []) /\
      (forall n, L n = true -> (n < N)%nat /\ exists w, is_prefix w /\ Fw w = n) /\
      (forall w, is_prefix w -> L (Fw w) = true) /\
      (forall w o, is_prefix (w ++ [o]) -> label h' (Fw (w ++ [o])) = o) /\
      (forall n, L n = true -> NoDup (labels_of h' n)) /\
      (forall n k c, L n = true -> In (k, c) (kids h' n) -> (0 < c)%Z /\ L k = true) /\
      (forall n g, L n = true -> wt h' n g = passages Fw T n g).
  Proof.
    intros Fu. destruct (pta_build_spec T Srt) as (ps & P & IP). set (h0 := fst (pta_build T)) in *.
    assert (Wpos : forall w, In w ps -> w <> [] -> (0 < pcount T w)%Z).
    { intros w J N. apply IP in J as [->|(t & m & J & S)]; [congruence|]. apply (pcount_pos T w t m Pos J S). }
    destruct (loop_spec h0 (par_of h0) (w_of ps (pcount T)) (fun y L => proj1 (par_of_lt h0 ps (pcount T) P y L)) al alpha fuel h0
               (fun x => (x <? length h0)%nat) [O] (fun y => y) (map fst (kids h0 0))) as (h' & L & red & F & E & M).
    { apply start_MInv; assumption. }
    { intros s J. apply In_fst in J as (c & J). exists O, c. split; [left; reflexivity|]. split; [exact J|]. intros [<-|[]].
      apply (kids_parent h0 ps (pcount T) P 0 0 c) in J; [lia|apply P]. }
    { apply (Nat.lt_le_trans _ (length h0)); [apply (start_measure h0 ps (pcount T) P)|exact Fu]. }
    pose proof (pi_nd _ _ _ P) as ND. pose proof (pi_len _ _ _ P) as LP.
    set (Fw := fun w => F (idx ps w)).
    assert (I0 : idx ps [] = O) by (rewrite <- (proj1 (pi_0 _ _ _ P)); apply idx_nth; [exact ND|rewrite LP; apply P]).
    assert (PI : forall w, is_prefix w <-> In w ps) by (intros w; unfold is_prefix; rewrite IP; reflexivity).
    assert (Lab : forall y, (0 < y < length h0)%nat -> label h0 y <> EmptyString).
    { intros y Ly Q. destruct (par_of_lt h0 ps (pcount T) P y Ly) as (_ & Ey). rewrite Q in Ey.
      assert (J : In (nth y ps []) ps) by (apply nth_In; lia). apply IP in J as [J|(t & m & J & S)].
      - rewrite J in Ey. symmetry in Ey. apply app_eq_nil in Ey as (_ & Ey). discriminate.
      - apply (NoEmpty t m J). apply starts_spec in S as (u & S). rewrite S, Ey, <- app_assoc. apply in_or_app. right. left. reflexivity. }
    assert (Lab0 : label h0 0 = EmptyString) by apply P.
    assert (N0 : (0 < length h0)%nat) by apply P.
    assert (F0 : forall y, (y < length h0)%nat -> F y = O -> y = O).
    { intros y Ly Q. destruct (Nat.eq_dec y 0) as [E0|NE]; [exact E0|]. exfalso. apply (Lab y); [lia|]. 
      destruct (mi_map _ _ _ _ _ _ _ M y Ly) as (_ & B). rewrite Q, Lab0 in B. symmetry; exact B. }
    assert (LI : forall w, In w ps -> (idx ps w < length h0)%nat /\ nth (idx ps w) ps [] = w) by (intros w J; rewrite <- LP; apply idx_In; assumption).
    exists h', (length h0), L, Fw. split; [exact E|]. split; [apply M|]. split; [lia|]. 
    assert (Pre : forall w, is_prefix w -> (idx ps w < length h0)%nat /\ nth (idx ps w) ps [] = w) by (intros w J; apply LI, PI, J).
    pose proof (mi_inv _ _ _ _ _ _ _ M) as I.
    split; [|split; [|split; [|split; [|split; [|split; [|split; [|split]]]]]]].
    - rewrite <- (proj2 (mi_root _ _ _ _ _ _ _ M)). apply (mi_map _ _ _ _ _ _ _ M O N0).
    - unfold Fw. rewrite I0. apply M.
    - intros w Q J. destruct (Pre w J) as (A & B). rewrite <- B. unfold Fw in Q. rewrite (F0 _ A Q). apply P.
    - intros n Ln. assert (Lt : (n < length h0)%nat) by (rewrite <- (mi_len _ _ _ _ _ _ _ M); apply (li_range _ _ _ I n Ln)). split; [exact Lt|].
      exists (nth n ps []). split; [apply PI, nth_In; lia|]. unfold Fw. rewrite idx_nth by (try exact ND; lia). apply (mi_fix _ _ _ _ _ _ _ M), Ln.
    - intros w J. destruct (Pre w J) as (A & _). apply (mi_map _ _ _ _ _ _ _ M _ A).
    - intros w o J. destruct (Pre (w ++ [o]) J) as (A & B). rewrite (mi_lab _ _ _ _ _ _ _ M). unfold Fw.
      rewrite (proj2 (mi_map _ _ _ _ _ _ _ M _ A)). assert (NZ : idx ps (w ++ [o]) <> O).
      { intros Q. rewrite Q, (proj1 (pi_0 _ _ _ P)) in B. destruct w; discriminate. }
      destruct (par_of_lt h0 ps (pcount T) P (idx ps (w ++ [o]))) as (_ & C); [lia|]. rewrite B in C. apply app_inj_tail in C as (_ & C). symmetry; exact C.
    - apply I.
    - intros n k c Ln J. split; [apply (li_pos _ _ _ I n k c Ln J)|apply (li_closed _ _ _ I n k c Ln J)].
    - intros n g Ln. rewrite (mi_wt _ _ _ _ _ _ _ M n g Ln). unfold w_of.
      set (C := fun w => (Fw (removelast w) =? n)%nat && g (Fw w)).
      transitivity (zs (seq 1 (length ps - 1)) (fun y => if C (nth y ps []) then pcount T (nth y ps []) else 0%Z)).
      { rewrite LP. apply zs_ext. intros y Jy. apply in_seq in Jy. destruct (par_of_lt h0 ps (pcount T) P y) as (Lp & Ep); [lia|]. unfold C.
        assert (RL : removelast (nth y ps []) = nth (par_of h0 y) ps []) by (rewrite Ep; apply removelast_last). rewrite RL.
        unfold Fw. rewrite !idx_nth by (try exact ND; lia). reflexivity. }
      rewrite (reindex T ps ND) by (try exact IP; rewrite LP; apply P). unfold C.
      apply zs_ext. intros [t m] _. cbn [fst snd]. f_equal. apply zs_ext. intros p Jp. apply in_seq in Jp. cbn beta.
      rewrite removelast_firstn_pred by lia. reflexivity.
  Qed.
End Graph.

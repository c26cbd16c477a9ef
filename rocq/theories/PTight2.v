(** Theorems added after more seeded edits of the model were not noticed. *)
From Coq Require Import String ZArith Bool Reals List Lia Lra.
From Verif Require Import Num Py SNum LSum MSet MTools LTools SSet MModels LBW SBW SLik MCtor SCtor LCtor PCtor SRun LRun PRun MRandom MActive MPctmc MPLearn MExt PRandom.
Import ListNotations.
Local Open Scope R_scope.

(** C11: isEqual only raises when the second set has fewer counts than
    sequences, and this is an IndexError. *)
Theorem C11_isEqual_error : forall (A : Type) (eqb : A -> A -> bool) (s1 s2 : tset A) e, isEqual eqb s1 s2 = Err e ->
  e = IndexError /\ (length (times s2) < length (seqs s2))%nat.
Proof.
  intros A eqb s1 s2 e. unfold isEqual. do 4 (destruct (negb _); [discriminate|]). induction (combine (seqs s1) (times s1)) as [|[x t] l IH]; [discriminate|]. cbn [isEqual_loop].
  destruct (index_of eqb x (seqs s2)) as [i|] eqn:Ei; [|discriminate]. destruct (nth_error (times s2) i) as [u|] eqn:Eu.
  - destruct (t =? u)%Z; [exact IH|discriminate].
  - intros [= <-]. split; [reflexivity|]. apply nth_error_None in Eu. assert (i < length (seqs s2))%nat; [|lia]. clear - Ei. revert i Ei. induction (seqs s2) as [|y l IH]; intros i E; [discriminate|]. cbn in E.
    destruct (eqb x y); [injection E as <-; cbn; lia|]. destruct (index_of eqb x l) as [k|]; [|discriminate]. injection E as <-. specialize (IH k eq_refl). cbn. lia.
Qed.
Print Assumptions C11_isEqual_error.
Example C11_isEqual_error_instance : isEqual Z.eqb (mkset [5; 6] [2; 0] None)%Z (mkset [5; 6] [2] None)%Z = Err IndexError.
Proof. reflexivity. Qed.

(** C69: the labels of a random model: the given ones in order, then one chosen
    label per further state, in the order of the choices, then init. *)
Theorem C69_labels_exact : forall n labels ch, ~ In "init"%string labels -> (forall k, (ch k < length labels)%nat) ->
  exists l, labelsForRandomModel n labels ch = Ok l /\ length l = S n /\
    forall i, nth i l EmptyString = if (i <? n)%nat then if (i <? length labels)%nat then nth i labels EmptyString else nth (ch (i - length labels)%nat) labels EmptyString
                                    else if (i =? n)%nat then "init"%string else EmptyString.
Proof.
  intros n labels ch NI C. unfold labelsForRandomModel. destruct (memb String.eqb "init"%string labels) eqn:M; [apply memb_str in M; contradiction|].
  rewrite (mmap_ok _ (fun k => nth (ch k) labels EmptyString)) by (intros k _; apply at_list_ok, C). cbn [bind].
  assert (Lf : length (firstn (Nat.min (length labels) n) labels) = Nat.min (length labels) n) by (rewrite firstn_length; lia).
  eexists. split; [reflexivity|]. split; [rewrite !app_length, Lf, map_length, seq_length; cbn; lia|].
  intros i. destruct (Nat.ltb_spec i n) as [Li|Li].
  - destruct (Nat.ltb_spec i (length labels)) as [Ll|Ll].
    + rewrite app_nth1 by lia. apply nth_firstn_lt. lia.
    + rewrite app_nth2, Lf by lia. rewrite app_nth1 by (rewrite map_length, seq_length; lia).
      rewrite (nth_indep _ EmptyString (nth (ch O) labels EmptyString)) by (rewrite map_length, seq_length; lia). rewrite (map_nth (fun k => nth (ch k) labels EmptyString)). rewrite seq_nth by lia. f_equal. f_equal. lia.
  - rewrite app_nth2, Lf by lia. rewrite app_nth2; rewrite map_length, seq_length; [|lia]. destruct (Nat.eqb_spec i n) as [->|Ne].
    + replace (n - Nat.min (length labels) n - (n - length labels))%nat with O by lia. reflexivity.
    + apply nth_overflow. cbn. lia.
Qed.
Print Assumptions C69_labels_exact.
Example C69_labels_instance : labelsForRandomModel 4 ["a"; "b"]%string (fun k => if (k =? 0)%nat then 1%nat else 0%nat) = Ok ["a"; "b"; "b"; "a"; "init"]%string.
Proof. reflexivity. Qed.

(** C103: asked for an action before it got a strategy, the scheduler of active
    learning raises a TypeError, in any arithmetic. *)
Theorem C103_without_strategy : forall K (NK : Num K) (h : mdp K) (st : al_state K) (r : K) (draws : list K) s, al_mat st = None -> resolveRandom (al_states (al_belief st)) r = Ok s ->
  al_getAction h st (r :: draws) = Some (Err TypeError, draws).
Proof. intros K NK h st r draws s Em Es. unfold al_getAction. rewrite Es, Em. reflexivity. Qed.
Print Assumptions C103_without_strategy.
Example C103_without_strategy_instance : al_getAction (mkMDP [[[1]]] ["x"]%string ["a"]%string [1] "m") (mkAL None [1] None) [1/2; 1/2] = Some (Err TypeError, [1/2]).
Proof.
  apply (C103_without_strategy _ _ _ _ _ _ 0%nat); [reflexivity|]. unfold al_states. cbn. unfold Rleb. destruct (Rle_dec (1 + 0) 0); [lra|]. replace (1 / (1 + 0)) with 1 by field.
  cbv [resolveRandom cumsum cumsum_from nonzero nonzero_from resolve_loop vget nltb]. cbn. unfold Reqb, Rleb. destruct (Req_EM_T (0 + 1) 0); [lra|]. cbn. destruct (Rle_dec (0 + 1) (1 / 2)); [lra|]. reflexivity.
Qed.

Lemma find_app_l {A} (f : A -> bool) l l' : find f (l ++ l') = match find f l with Some x => Some x | None => find f l' end.
Proof. induction l as [|x l IH]; [reflexivity|]. cbn. destruct (f x); [reflexivity|exact IH]. Qed.
Lemma find_row (f : nat * nat -> bool) a : forall m b x, find f (map (pair a) (seq b m)) = Some x ->
  fst x = a /\ (b <= snd x < b + m)%nat /\ f x = true /\ forall j, (b <= j < b + m)%nat -> f (a, j) = true -> (snd x <= j)%nat.
Proof.
  induction m as [|m IH]; intros b x E; [discriminate|]. cbn [seq map find] in E. destruct (f (a, b)) eqn:F.
  - injection E as <-. cbn. split; [reflexivity|]. split; [lia|]. split; [exact F|]. intros; lia.
  - destruct (IH (S b) x E) as (A & B & C & D). split; [exact A|]. split; [lia|]. split; [exact C|]. intros j Lj Fj. destruct (Nat.eq_dec j b) as [->|Ne]; [congruence|]. apply D; [lia|exact Fj].
Qed.
Lemma find_pairs (f : nat * nat -> bool) m : forall n a x, find f (list_prod (seq a n) (seq 0 m)) = Some x ->
  (a <= fst x < a + n)%nat /\ (snd x < m)%nat /\ f x = true /\ forall i j, (a <= i < a + n)%nat -> (j < m)%nat -> f (i, j) = true -> (fst x < i \/ fst x = i /\ snd x <= j)%nat.
Proof.
  induction n as [|n IH]; intros a x E; [discriminate|]. cbn [seq list_prod] in E. rewrite find_app_l in E. destruct (find f (map _ _)) as [y|] eqn:F.
  - injection E as <-. apply find_row in F. destruct F as (A & B & C & D). split; [lia|]. split; [lia|]. split; [exact C|]. intros i j Li Lj Fj. destruct (Nat.eq_dec i a) as [->|Ne]; [|lia].
    right. split; [exact A|]. apply D; [lia|exact Fj].
  - destruct (IH (S a) x E) as (A & B & C & D). split; [lia|]. split; [exact B|]. split; [exact C|]. intros i j Li Lj Fj. destruct (Nat.eq_dec i a) as [->|Ne]; [|apply D; [lia|exact Lj|exact Fj]].
    exfalso. assert (I : In (a, j) (map (pair a) (seq 0 m))) by (apply in_map, in_seq; lia). pose proof (find_none _ _ F _ I). congruence.
Qed.
(** C112: the transition used to learn a constant rate is the first one, in the
    order of the rows, that refers to it. *)
Theorem C112_first_use : forall (m : pctmc R) k i j, first_use m k = Ok (i, j) ->
  (i < pc_n m)%nat /\ (j < pc_n m)%nat /\ nth j (nth i (pc_mat m) []) O = k /\
  forall i' j', (i' < pc_n m)%nat -> (j' < pc_n m)%nat -> nth j' (nth i' (pc_mat m) []) O = k -> (i < i' \/ i = i' /\ j <= j')%nat.
Proof.
  intros m k i j. unfold first_use. destruct (find _ _) as [x|] eqn:F; [|discriminate]. intros [= ->]. apply find_pairs in F. destruct F as (A & B & C & D). cbn [fst snd] in *.
  split; [lia|]. split; [exact B|]. split; [apply Nat.eqb_eq, C|]. intros i' j' Li Lj E. apply (D i' j'); [lia|exact Lj|]. apply Nat.eqb_eq. exact E.
Qed.
Print Assumptions C112_first_use.
Example C112_first_use_instance : first_use (mkPC [[0; 2]; [1; 1]]%nat ["a"; "b"]%string [EConst 0; EConst 5; EConst 4] [] [] [] [1; 0] "m") 1 = Ok (1, 0)%nat.
Proof. reflexivity. Qed.

(** C111: an object whose attribute verbose is set by hand still has no number of
    processes: the first round raises AttributeError, in any arithmetic. *)
Theorem C111_without_processes : forall K (NK : Num K) (TK : Trans K) kind (maxroot : list K -> res K) uc pl set (eps : K) max_it (m : pctmc K),
  bw_PCTMC (mkBW true None kind) maxroot uc pl set eps (S max_it) m = Err AttributeError.
Proof. intros. reflexivity. Qed.
Print Assumptions C111_without_processes.

(** C152: equality of extended numbers: nan equals nothing, the infinities equal
    themselves. *)
Theorem C152_equality : forall a b : xr, xeqb a b = true <-> a = b /\ a <> XN.
Proof.
  intros [x| | |] [y| | |]; cbn; try (split; [discriminate|intros [E N]; congruence]); try (split; [intros _; split; [reflexivity|discriminate]|reflexivity]).
  unfold Reqb. destruct (Req_EM_T x y) as [->|Ne]; split; try discriminate; auto; [intros _; split; [reflexivity|discriminate]|]. intros [[= E] _]. contradiction.
Qed.
Print Assumptions C152_equality.

(** Labels, alphabet and sets of traces of parametric CTMCs (C17, C140, C26). *)
From Coq Require Import String ZArith Bool Reals Lra Lia Arith List.
From Verif Require Import Num Py MTools MSet MModels MCtor MRun MLik MPctmc MPAcc SNum SSet SPath SBW SCtor SLik SRun SPctmc LSum LSet LCtor LBW LLik LRun LPctmc PCtor PRun PPctmc PPctmc2.
Import ListNotations.
Local Open Scope R_scope.

(** ** C17: getLabel *)
(** The integer read from an argument. *)
Definition int_of (s : stateid) : option Z :=
  match s with SidInt z | SidFloat z | SidNumeral z => Some z | SidText | SidOther => None end.
(** A label is returned for the integers which are ids, and it is the label of
    that state; any other argument is an error: IndexError when it reads as an
    integer which is no id, TypeError when it reads as an id without being an
    integer or cannot be read, except ValueError for texts. *)
Theorem C17_pctmc_getLabel : forall {K} `{Num K} (m : pctmc K) (s : stateid), length (pc_lab m) = pc_n m ->
  (forall l, pc_getLabel m s = Ok l <-> exists i, s = SidInt (Z.of_nat i) /\ nth_error (pc_lab m) i = Some l) /\
  (forall z, int_of s = Some z -> ~ (0 <= z < Z.of_nat (pc_n m))%Z -> pc_getLabel m s = Err IndexError) /\
  (forall z, int_of s = Some z -> (0 <= z < Z.of_nat (pc_n m))%Z -> s <> SidInt z -> pc_getLabel m s = Err TypeError) /\
  (s = SidText -> pc_getLabel m s = Err ValueError) /\ (s = SidOther -> pc_getLabel m s = Err TypeError).
Proof.
  intros K NK m s Ll. unfold pc_getLabel.
  assert (CK : forall z, (if (z <? 0)%Z then Err IndexError else if (Z.of_nat (pc_n m) <=? z)%Z then Err IndexError else Ok tt) =
     (if andb (0 <=? z)%Z (z <? Z.of_nat (pc_n m))%Z then Ok tt else Err IndexError)).
  { intros z. destruct (Z.ltb_spec z 0), (Z.leb_spec 0 z), (Z.leb_spec (Z.of_nat (pc_n m)) z), (Z.ltb_spec z (Z.of_nat (pc_n m))); try lia; reflexivity. }
  split; [|split; [|split; [|split; intros ->; reflexivity]]].
  - intros l. split.
    + destruct s as [z|z|z| |]; cbn; try discriminate; rewrite CK; destruct (Z.leb_spec 0 z), (Z.ltb_spec z (Z.of_nat (pc_n m))); cbn; try discriminate.
      intros E. exists (Z.to_nat z). split; [rewrite Z2Nat.id by lia; reflexivity|]. rewrite <- (Z2Nat.id z) in E by lia. rewrite (pyget_nth _ (Z.to_nat z) EmptyString) in E by lia.
      injection E as <-. apply nth_error_nth'. lia.
    + intros (i & -> & E). assert (L : (i < length (pc_lab m))%nat) by (apply nth_error_Some; congruence). cbn. rewrite CK. rewrite (proj2 (Z.leb_le _ _)), (proj2 (Z.ltb_lt _ _)) by lia. cbn.
      rewrite (pyget_nth _ i EmptyString) by exact L. f_equal. apply nth_error_nth, E.
  - intros z E N. destruct s as [y|y|y| |]; cbn in E; try discriminate; injection E as ->; cbn; rewrite CK; destruct (Z.leb_spec 0 z), (Z.ltb_spec z (Z.of_nat (pc_n m))); try lia; reflexivity.
  - intros z E B N. destruct s as [y|y|y| |]; cbn in E; try discriminate; injection E as ->; [congruence| |]; cbn; rewrite CK; rewrite (proj2 (Z.leb_le _ _)), (proj2 (Z.ltb_lt _ _)) by lia; reflexivity.
Qed.
Print Assumptions C17_pctmc_getLabel.

(** ** C140: the alphabet *)
Theorem C140_pctmc_alphabet : forall {K} `{Num K} (m : pctmc K), NoDup (pc_getAlphabet m) /\ forall a, In a (pc_getAlphabet m) <-> In a (pc_lab m).
Proof. intros K NK m. apply (LSet.dedup_exact String.eqb String.eqb_eq). Qed.
Print Assumptions C140_pctmc_alphabet.

(** ** C26: the traces *)
(** Without times a run of [steps] steps is a list of [steps + 1] labels, all of
    the model; every step follows a positive rate. *)
Theorem C88_pctmc_run_untimed_partial : forall (m : pctmc R) (c : ctmc R) (steps : nat) r0 samples,
  wf_pctmc m -> realises m c -> is_dist (pc_ini m) -> unit_draw r0 ->
  (forall s k, (s < pc_n m)%nat -> (k < pc_n m)%nat -> 0 <= matR (ct_mat c) s k) ->
  (forall s, (s < pc_n m)%nat -> exists k, (k < pc_n m)%nat /\ 0 < matR (ct_mat c) s k) ->
  exists s x, length x = steps /\ selected (pc_ini m) r0 s /\ pc_path c samples 0 s x /\
    pc_run_untimed m (Z.of_nat steps) r0 samples = Ok (map (fun j => nth j (pc_lab m) EmptyString) (s :: x)) /\
    pc_run_timed m (Z.of_nat steps) r0 samples =
      Ok (inl (nth s (pc_lab m) EmptyString) :: flat_map (fun jt => [inr (Some (snd jt)); inl (nth (fst jt) (pc_lab m) EmptyString)]) (combine x (ct_times samples 0 x))).
Proof.
  intros m c steps r0 samples W RE DI U P H. destruct (C88_pctmc_run_partial m c steps r0 samples W RE DI U P H) as (s & x & Lx & Sx & Px & E).
  exists s, x. split; [exact Lx|]. split; [exact Sx|]. split; [exact Px|]. unfold pc_run_untimed, pc_run_timed. rewrite E. cbn [bind fst snd].
  set (lab := fun j => nth j (pc_lab m) EmptyString).
  assert (LT : forall i x, length (ct_times samples i x) = length x) by (intros i y; revert i; induction y as [|a y IH]; intros i; [reflexivity|cbn; rewrite IH; reflexivity]).
  assert (LA : forall (s a : nat) x, last (a :: x) s = last x a).
  { clear. intros s a x; revert s a; induction x as [|y x IH]; intros s a; [reflexivity|]. destruct x as [|z x]; [reflexivity|]. exact (IH s a). }
  assert (A : forall x s (ts : list (option R)), length ts = length x -> map fst (combine (map lab (s :: x)) ts) ++ [lab (last x s)] = map lab (s :: x)).
  { clear - LA. induction x as [|a x IH]; intros s ts L; destruct ts as [|t ts]; try discriminate; [reflexivity|]. rewrite LA. cbn [map combine fst app]. f_equal. apply (IH a ts). cbn in L. lia. }
  assert (B : forall x s i, flat_map (fun ot : string * option R => [inl (fst ot); inr (snd ot)]) (combine (map lab (s :: x)) (map Some (ct_times samples i x))) ++ [inl (lab (last x s))] =
     inl (lab s) :: flat_map (fun jt : nat * R => [inr (Some (snd jt)); inl (lab (fst jt))]) (combine x (ct_times samples i x))).
  { clear - LA. induction x as [|a x IH]; intros s i; [reflexivity|]. rewrite LA. cbn [map combine ct_times flat_map fst snd app]. f_equal. f_equal. apply (IH a (S i)). }
  split; f_equal.
  - apply A. rewrite map_length, LT. reflexivity.
  - apply B.
Qed.
Print Assumptions C88_pctmc_run_untimed_partial.

(** generateSet of a parametric CTMC all of whose states have a positive rate: the
    set holds the traces of the runs of the requested lengths, each once with the
    number of runs that gave it. *)
Theorem C26_pctmc_generateSet : forall (m : pctmc R) (c : ctmc R) (k : nat) param geo min_size (size : nat -> nat) (r0 : nat -> R) (samples : nat -> nat -> nat -> R) eqb,
  wf_pctmc m -> realises m c -> is_dist (pc_ini m) -> (forall i, unit_draw (r0 i)) ->
  (forall s k, (s < pc_n m)%nat -> (k < pc_n m)%nat -> 0 <= matR (ct_mat c) s k) ->
  (forall s, (s < pc_n m)%nat -> exists k, (k < pc_n m)%nat /\ 0 < matR (ct_mat c) s k) ->
  decides_eq eqb -> requested param geo min_size k (fun i => Z.of_nat (size i)) ->
  exists paths ss vs, (forall i, (i < k)%nat -> exists s x, paths i = s :: x /\ length x = size i /\ selected (pc_ini m) (r0 i) s /\ pc_path c (samples i) 0 s x) /\
    gen_lists eqb (fun i z => pc_run_untimed m z (r0 i) (samples i)) (Z.of_nat k) param geo min_size = Ok (ss, vs) /\
    let trs := map (fun i => map (fun j => nth j (pc_lab m) EmptyString) (paths i)) (seq 0 k) in
    NoDup ss /\ (forall t, In t ss <-> In t trs) /\ vs = map (fun t => Z.of_nat (occ eqb t trs)) ss /\ zsum vs = Z.of_nat k.
Proof.
  intros m c k param geo mn size r0 samples eqb W RE DI U P H D RQ.
  assert (EX : forall i, exists p, (exists s x, p = s :: x /\ length x = size i /\ selected (pc_ini m) (r0 i) s /\ pc_path c (samples i) 0 s x) /\
     pc_run_untimed m (Z.of_nat (size i)) (r0 i) (samples i) = Ok (map (fun j => nth j (pc_lab m) EmptyString) p)).
  { intros i. destruct (C88_pctmc_run_untimed_partial m c (size i) (r0 i) (samples i) W RE DI (U i) P H) as (s & x & A & B & C & E & _). exists (s :: x). split; [exists s, x; auto|exact E]. }
  assert (CH : forall n, exists paths : nat -> list nat, forall i, (i < n)%nat -> (exists s x, paths i = s :: x /\ length x = size i /\ selected (pc_ini m) (r0 i) s /\ pc_path c (samples i) 0 s x) /\
     pc_run_untimed m (Z.of_nat (size i)) (r0 i) (samples i) = Ok (map (fun j => nth j (pc_lab m) EmptyString) (paths i))).
  { induction n as [|n (ps & IH)]; [exists (fun _ => []); intros; lia|]. destruct (EX n) as (p & Hp). exists (fun i => if Nat.eqb i n then p else ps i). intros i L. destruct (Nat.eqb_spec i n) as [->|N]; [exact Hp|apply IH; lia]. }
  destruct (CH k) as (paths & HP).
  destruct (C26_generateSet eqb (fun i z => pc_run_untimed m z (r0 i) (samples i)) k param geo mn (fun i => Z.of_nat (size i)) (fun i => map (fun j => nth j (pc_lab m) EmptyString) (paths i)) D RQ) as (ss & vs & E).
  { intros i L. apply HP, L. }
  exists paths, ss, vs. split; [intros i L; apply HP, L|exact E].
Qed.
Print Assumptions C26_pctmc_generateSet.

(** ** GoHMM.mu *)
(** The means of a state, one per dimension, in order; no check of the id: negative
    ids count from the end. *)
Theorem C17_GoHMM_mu : forall (m : gohmm R) d i, wf_gohmm d m -> (i < go_n m)%nat ->
  go_mus m (Z.of_nat i) = Ok (map (fun k => mean m i k) (seq 0 d)) /\ go_mus m (Z.of_nat i - Z.of_nat (go_n m)) = go_mus m (Z.of_nat i).
Proof.
  intros m d i (SQ & Lo & Lr & _) Li. unfold go_mus. assert (L : (i < length (go_out m))%nat) by lia. rewrite (pyget_nth _ i []) by exact L. cbn [bind]. split.
  - f_equal. assert (Ld : length (nth i (go_out m) []) = d) by (apply Lr, nth_In; exact L). rewrite <- Ld. unfold mean. clear.
    set (l := nth i (go_out m) []). clearbody l. assert (G : forall p, map fst l = map (fun k => fst (nth (k - p) l (0, 0))) (seq p (length l))).
    { induction l as [|a l IH]; intros p; [reflexivity|]. cbn [length seq map]. rewrite Nat.sub_diag. cbn [nth]. f_equal. rewrite (IH (S p)). apply map_ext_in. intros k I. apply in_seq in I.
      replace (k - p)%nat with (S (k - S p)) by lia. reflexivity. }
    rewrite (G O). apply map_ext. intros k. rewrite Nat.sub_0_r. reflexivity.
  - unfold pyget. rewrite (proj2 (Z.ltb_lt (Z.of_nat i - Z.of_nat (go_n m)) 0)) by lia. replace (Z.of_nat i - Z.of_nat (go_n m) + Z.of_nat (length (go_out m)))%Z with (Z.of_nat i) by lia.
    destruct ((Z.of_nat i <? 0) || (Z.of_nat (length (go_out m)) <=? Z.of_nat i))%Z%bool eqn:B. { apply orb_true_iff in B as [B|B]; [apply Z.ltb_lt in B|apply Z.leb_le in B]; lia. }
    rewrite Nat2Z.id, (nth_error_nth' _ []) by exact L. reflexivity.
Qed.
Print Assumptions C17_GoHMM_mu.

Example C17_pctmc_instance : length (pc_lab ex_inst) = pc_n ex_inst /\ pc_getLabel ex_inst (SidInt 1) = Ok "a"%string /\ pc_getLabel ex_inst (SidInt (-1)) = Err IndexError /\
  pc_getLabel ex_inst (SidNumeral 1) = Err TypeError /\ pc_getLabel ex_inst SidText = Err ValueError.
Proof. repeat split. Qed.
Example C26_pctmc_instance : exists ss vs, gen_lists (fun x y : list string => if list_eq_dec String.string_dec x y then true else false) (fun i z => pc_run_untimed ex_inst z 0 (fun i j => INR (i + j))) 3 (PInt 4) None None = Ok (ss, vs) /\ zsum vs = 3%Z.
Proof.
  destruct (C26_pctmc_generateSet ex_inst ex_real 3 (PInt 4) None None (fun _ => 4%nat) (fun _ => 0) (fun _ i j => INR (i + j)) (fun x y : list string => if list_eq_dec String.string_dec x y then true else false) ex_inst_wf ex_realises) as (p & ss & vs & _ & E & _ & _ & _ & Z).
  - split; [intros x [<-|[<-|[]]]; lra|cbn; lra].
  - intros _. unfold unit_draw. lra.
  - intros s k Ls Lk. cbn in Ls, Lk. assert (C : (s = 0 \/ s = 1)%nat) by lia. assert (D : (k = 0 \/ k = 1)%nat) by lia. destruct C as [-> | ->], D as [-> | ->]; unfold matR, vecR; cbn; lra.
  - intros s Ls. cbn in Ls. assert (C : (s = 0 \/ s = 1)%nat) by lia. destruct C as [-> | ->]; [exists 1%nat|exists 0%nat]; (split; [cbn; lia|unfold matR, vecR; cbn; lra]).
  - exact str_list_eqb_ok.
  - intros i _. reflexivity.
  - exists ss, vs. split; [exact E|exact Z].
Qed.

(** Which counts of a Set are integers, and what depends on it: C142. *)
From Coq Require Import String Ascii ZArith QArith Bool DecimalString List Lia.
From Verif Require Import Num Py MSet SSet LSet MText SText LText PText MSetNum.
Import ListNotations.
Local Close Scope Q_scope.
Local Open Scope nat_scope.

(** ** Specification *)
(** Every count is an integer for Python. *)
Definition integral {A} (d : dset A) : Prop := forall c, In c (entries (dtimes d)) -> exists z, c = CInt z.
(** One count per sequence. *)
Definition counted {A} (d : dset A) : Prop := length (entries (dtimes d)) = length (dseqs d).

(** ** Proofs *)
Lemma entries_append t c : map cval (entries (np_append t c)) = map cval (entries t) ++ [cval c].
Proof.
  assert (I : forall l, map cval (map CInt l) = l) by (induction l; cbn; congruence).
  assert (F : forall l, map cval (map CFlt l) = l) by (induction l; cbn; congruence).
  unfold np_append. destruct t as [l|l|l].
  - destruct l as [|x l]; [destruct c; reflexivity|]. cbn [np_array]. destruct (forallb is_int (x :: l)); [destruct c as [z|z]|]; cbn [entries]; rewrite ?I, ?F; reflexivity.
  - destruct c; cbn [entries]; rewrite ?I, ?F; reflexivity.
  - cbn [entries]. rewrite ?F. reflexivity.
Qed.
Lemma map_upd {A B} (f : A -> B) l i x : map f (upd l i x) = upd (map f l) i (f x).
Proof. revert i. induction l as [|y l IH]; intros [|i]; cbn; try reflexivity. rewrite IH. reflexivity. Qed.
Lemma entries_inc t i c : map cval (entries (inc_at t i c)) = upd (map cval (entries t)) i (nth i (map cval (entries t)) 0 + cval c)%Z.
Proof.
  assert (I : forall l, map cval (map CInt l) = l) by (induction l; cbn; congruence).
  assert (F : forall l, map cval (map CFlt l) = l) by (induction l; cbn; congruence).
  destruct t as [l|l|l]; cbn [inc_at entries]; rewrite ?I, ?F; try reflexivity. rewrite map_upd. pose proof (map_nth cval l (CInt 0) i) as M. cbn [cval] in M. rewrite M. destruct (nth i l (CInt 0)), c; reflexivity.
Qed.
Lemma combine_map_r {A B C} (f : B -> C) (l : list A) (m : list B) : combine l (map f m) = map (fun xy => (fst xy, f (snd xy))) (combine l m).
Proof. revert m. induction l as [|x l IH]; intros [|y m]; cbn; try reflexivity. rewrite IH. reflexivity. Qed.

(** Read by value, the operations are those of MSet.v: what C08 to C13 say of
    multiplicities holds whatever the types of the counts. *)
Theorem C142_addSet_values : forall {A} (eqb : A -> A -> bool) (d1 d2 : dset A),
  match d_addSet eqb d1 d2 with Ok d => Ok (erase d) | Err e => Err e end = addSet eqb (erase d1) (erase d2).
Proof.
  intros A eqb d1 d2. unfold d_addSet, addSet. cbn [ty erase seqs times]. destruct (negb _); [reflexivity|].
  rewrite combine_map_r. generalize (combine (dseqs d2) (entries (dtimes d2))) as l. generalize (dseqs d1) as ss, (dtimes d1) as ts. intros ss ts l. revert ss ts.
  induction l as [|[x c] l IH]; intros ss ts; [reflexivity|]. cbn [map fold_left d_addSet_step addSet_step fst snd]. destruct (memb eqb x ss).
  - destruct (index_of eqb x ss) as [i|]; [|apply IH]. rewrite IH, entries_inc. reflexivity.
  - rewrite IH, entries_append. reflexivity.
Qed.
Print Assumptions C142_addSet_values.
Theorem C142_sort_values : forall {A} (eqb leb : A -> A -> bool) (d : dset A), erase (d_sort eqb leb d) = sort eqb leb (erase d).
Proof.
  intros A eqb leb d. unfold d_sort, sort, erase. cbn [seqs times ty dseqs dtimes dty entries]. rewrite combine_map_r.
  assert (G : forall l, map (fun xy : A * count => (fst xy, cval (snd xy))) (d_isort eqb leb l) = isort eqb leb (map (fun xy => (fst xy, cval (snd xy))) l)).
  { assert (N : forall p l, map (fun xy : A * count => (fst xy, cval (snd xy))) (d_insert eqb leb p l) = insert eqb leb (fst p, cval (snd p)) (map (fun xy => (fst xy, cval (snd xy))) l)).
    { intros p. induction l as [|q l IH]; [reflexivity|]. cbn [d_insert insert map]. destruct (pair_leb _ _ _ _); [reflexivity|]. cbn [map]. rewrite IH. reflexivity. }
    induction l as [|p l IH]; [reflexivity|]. cbn [d_isort isort map]. rewrite N, IH. reflexivity. }
  rewrite <- G, !map_map. reflexivity.
Qed.
Print Assumptions C142_sort_values.

(** to_list works exactly when all counts are integers. *)
Theorem C142_to_list : forall {A} (d : dset A), counted d ->
  (integral d -> d_to_list d = Ok (to_list (erase d))) /\ (~ integral d -> d_to_list d = Err TypeError).
Proof.
  intros A d L. unfold d_to_list, to_list, integral, counted in *. cbn [erase seqs times]. rewrite combine_map_r. revert L.
  generalize (dseqs d) as ss. intros ss. generalize (entries (dtimes d)) as cs. intros cs L.
  assert (G : forall ss cs, length cs = length ss ->
    mmap (fun xc : A * count => match snd xc with CInt j => Ok (repeat (fst xc) (Z.to_nat (j - 1))) | CFlt _ => Err TypeError end) (combine ss cs) =
    if forallb is_int cs then Ok (map (fun xc => repeat (fst xc) (Z.to_nat (cval (snd xc) - 1))) (combine ss cs)) else Err TypeError).
  { clear. induction ss as [|x ss IH]; intros [|c cs] L; try discriminate; [reflexivity|]. cbn [combine mmap forallb fst snd map]. destruct c as [j|j]; cbn [bind is_int andb]; [|reflexivity].
    rewrite IH by (cbn in L; lia). destruct (forallb is_int cs); reflexivity. }
  rewrite G by exact L. split.
  - intros H. assert (E : forallb is_int cs = true) by (apply forallb_forall; intros c I; destruct (H c I) as [z ->]; reflexivity). rewrite E. cbn [bind]. rewrite flat_map_concat_map, map_map. reflexivity.
  - intros H. destruct (forallb is_int cs) eqn:E; [|reflexivity]. exfalso. apply H. intros c I. rewrite forallb_forall in E. specialize (E c I). destruct c; [eauto|discriminate].
Qed.
Print Assumptions C142_to_list.

(** A saved set can be loaded exactly when all counts are integers; the sequences,
    counts and type are then the same. *)
Lemma uint_dot s : In "."%char (s2t s) -> NilEmpty.uint_of_string s = None.
Proof.
  intros I. destruct (NilEmpty.uint_of_string s) as [d|] eqn:E; [|reflexivity]. exfalso. apply NilEmpty.sus in E. subst s. apply uint_digits in I. discriminate.
Qed.
Lemma read_int_dot t : In "."%char t -> read_int t = None.
Proof.
  intros I. unfold read_int. assert (J : In "."%char (s2t (t2s t))) by (unfold s2t, t2s; rewrite list_ascii_of_string_of_list_ascii; exact I).
  assert (E : NilZero.int_of_string (t2s t) = None); [|rewrite E; reflexivity].
  assert (U : forall s, In "."%char (s2t s) -> NilZero.uint_of_string s = None) by (intros s H; unfold NilZero.uint_of_string; destruct s; [reflexivity|apply uint_dot, H]).
  destruct (t2s t) as [|a s]; [reflexivity|]. unfold NilZero.int_of_string. destruct (Ascii.eqb_spec a "-") as [->|N]; [|rewrite U by exact J; reflexivity].
  rewrite U; [reflexivity|]. destruct J as [J|J]; [discriminate|exact J].
Qed.
Lemma plain_count c : plain (show_count c).
Proof.
  destruct c as [z|z]; cbn [show_count]; [apply plain_int|]. intros c I. apply in_app_or in I as [I|I]; [apply (plain_int z), I|]. cbn in I. destruct I as [<-|[<-|[]]]; split; discriminate.
Qed.
Section Load.
  Context {K : Type} `{TK : Text K}.
  Definition pairs_text (l : list (pyv K * count)) : text := flat_map (fun xc => repr (fst xc) ++ [NL] ++ show_count (snd xc) ++ [NL]) l.
  Lemma load_counts : forall (l : list (pyv K * count)) fuel, (forall v n, In (v, n) l -> writable_val v) -> length l < fuel ->
    load_pairs fuel (pairs_text l) = if forallb (fun xc => is_int (snd xc)) l then Ok (map fst l, map (fun xc => cval (snd xc)) l) else Err ValueError.
  Proof.
    induction l as [|[v n] l IH]; intros fuel W L; (destruct fuel as [|f]; [cbn in L; lia|]); [reflexivity|]. unfold pairs_text. cbn [flat_map fst snd]. fold (pairs_text l).
    rewrite <- !app_assoc. cbn [app]. cbn [load_pairs].
    assert (Wv : writable_val v) by (apply (W v n); left; reflexivity).
    rewrite readline_line by (intros c I; apply (plain_repr v Wv), I).
    destruct (repr v ++ [NL]) as [|c t] eqn:E; [destruct (repr v); discriminate|]. rewrite <- E. unfold chop at 1. rewrite removelast_last.
    rewrite (literal_eval_repr v Wv). cbn [bind]. rewrite readline_line by (intros d I; apply (plain_count n), I). unfold chop. rewrite removelast_last. cbn [forallb map fst snd].
    destruct n as [z|z]; cbn [show_count is_int andb].
    - rewrite read_show_int. cbn [bind]. rewrite IH by (try (intros; apply (W v0 n); right; assumption); cbn in L; lia). destruct (forallb _ l); reflexivity.
    - rewrite read_int_dot; [reflexivity|]. apply in_or_app. right. left. reflexivity.
  Qed.
  Lemma newlines_counts (l : list (pyv K * count)) : (forall v n, In (v, n) l -> writable_val v) -> newlines (pairs_text l) = pairs_text l.
  Proof.
    intros W. rewrite <- (app_nil_r (pairs_text l)) at 1. rewrite newlines_app; [apply app_nil_r|].
    intros c I. apply in_flat_map in I as ([v n] & J & I). cbn [fst snd app] in I. apply in_app_or in I as [I|[<-|I]]; [apply (plain_repr v (W v n J)), I|discriminate|].
    apply in_app_or in I as [I|[<-|[]]]; [apply (plain_count n), I|discriminate].
  Qed.
End Load.
Theorem C142_save_load : forall K (TK : Text K) (d : dset (pyv K)), counted d -> (forall v, In v (dseqs d) -> writable_val v) -> (dty d = None -> dseqs d = []) ->
  (integral d -> exists d', d_load (d_save d) = Ok d' /\ erase d' = erase d /\ integral d') /\
  (~ integral d -> d_load (d_save d) = Err ValueError).
Proof.
  intros K TK d L W TY. set (l := combine (dseqs d) (entries (dtimes d))).
  assert (Wl : forall v n, In (v, n) l -> writable_val v) by (intros v n I; apply W, (in_combine_l _ _ _ _ I)).
  assert (F : forallb (fun xc => is_int (snd xc)) l = true <-> integral d).
  { unfold integral. rewrite forallb_forall. assert (E : map snd l = entries (dtimes d)) by (unfold l; unfold counted in L; revert L; generalize (entries (dtimes d)); generalize (dseqs d); clear; induction l as [|x l IH]; intros [|c cs] L; try discriminate; [reflexivity|]; cbn; rewrite IH by (cbn in L; lia); reflexivity).
    rewrite <- E. split.
    - intros H c I. apply in_map_iff in I as (xc & <- & I). specialize (H xc I). destruct (snd xc); [eauto|discriminate].
    - intros H xc I. destruct (H (snd xc)) as [z ->]; [apply in_map, I|reflexivity]. }
  assert (G : loadSet (d_save d) = if forallb (fun xc => is_int (snd xc)) l then Ok (erase d) else Err ValueError).
  { unfold loadSet, d_save. fold l. change (flat_map _ l) with (pairs_text l). set (r := pairs_text l). replace (type_text (dty d) ++ [NL] ++ r) with (line (type_text (dty d)) ++ r) by (unfold line; rewrite <- app_assoc; reflexivity).
    rewrite newlines_line by apply plain_type. unfold r at 1. rewrite newlines_counts by exact Wl. fold r.
    unfold line. rewrite <- app_assoc. cbn [app]. rewrite readline_line by (intros c I; apply (plain_type (dty d)), I). unfold chop. rewrite removelast_last, eval_type. cbn [bind].
    assert (LL : length l < S (length r)).
    { unfold r. clear. induction l as [|[v n] l IH]; [cbn; lia|]. unfold pairs_text in *. cbn [flat_map fst snd length]. rewrite !app_length. cbn [length]. lia. }
    unfold r at 2. rewrite load_counts by assumption. destruct (forallb _ l); [|reflexivity]. cbn [bind fst snd].
    assert (E1 : map fst l = dseqs d). { unfold l. unfold counted in L. revert L. generalize (entries (dtimes d)). clear. induction (dseqs d) as [|a u IH]; intros [|b t] L; cbn in *; try discriminate; [reflexivity|]. f_equal. apply IH. injection L as ->; reflexivity. }
    assert (E2 : map (fun xc => cval (snd xc)) l = map cval (entries (dtimes d))). { unfold l. unfold counted in L. revert L. generalize (entries (dtimes d)). clear. induction (dseqs d) as [|a u IH]; intros [|b t] L; cbn in *; try discriminate; [reflexivity|]. f_equal. apply IH. injection L as ->; reflexivity. }
    rewrite E1, E2. unfold erase. destruct (dty d) as [z|] eqn:ED; [reflexivity|]. unfold counted in L. rewrite (TY eq_refl) in *. destruct (entries (dtimes d)); [reflexivity|discriminate]. }
  unfold d_load. rewrite G. split.
  - intros H. apply F in H as H'. rewrite H'. cbn [bind]. eexists. split; [reflexivity|]. cbn [erase seqs times ty].
    assert (V : forall cs, (forall c, In c cs -> exists z, c = CInt z) -> map CInt (map cval cs) = cs).
    { induction cs as [|c cs IH]; intros Hc; [reflexivity|]. cbn. rewrite IH by (intros; apply Hc; right; assumption). destruct (Hc c (or_introl eq_refl)) as [z ->]. reflexivity. }
    rewrite (V _ H). destruct (dseqs d) as [|x ss] eqn:Es.
    + unfold counted in L. rewrite Es in L. destruct (entries (dtimes d)) eqn:Ee; [|discriminate]. split; [unfold erase; cbn; rewrite Es, Ee; reflexivity|intros c []].
    + destruct (entries (dtimes d)) as [|c cs] eqn:Ee; [unfold counted in L; rewrite Es, Ee in L; discriminate|].
      assert (FI : forallb is_int (c :: cs) = true) by (apply forallb_forall; intros y I; unfold integral in H; rewrite Ee in H; destruct (H y I) as [z ->]; reflexivity).
      unfold np_array. rewrite FI. unfold erase, integral. cbn [dseqs dtimes dty entries]. unfold integral in H. rewrite Ee in H. rewrite (V _ H), Es, Ee. split; [reflexivity|exact H].
  - intros H. destruct (forallb _ l); [|reflexivity]. exfalso. apply H, F. reflexivity.
Qed.
Print Assumptions C142_save_load.

(** Integers stay integers: new sets, loaded sets, sorted sets, and sets with
    sequences to which a set is added. *)
Lemma np_array_int l : l <> [] -> (forall c, In c l -> exists z, c = CInt z) -> exists zs, np_array l = TInts zs.
Proof.
  intros N H. destruct l as [|c l]; [congruence|]. unfold np_array.
  replace (forallb is_int (c :: l)) with true; [eauto|]. symmetry. apply forallb_forall. intros x I. destruct (H x I) as [z ->]. reflexivity.
Qed.
Lemma d_isort_in {A} eqb leb (l : list (A * count)) p : In p (d_isort eqb leb l) <-> In p l.
Proof.
  assert (N : forall q l, In p (d_insert eqb leb q l) <-> q = p \/ In p l).
  { intros q. induction l0 as [|x l0 IH]; [reflexivity|]. cbn [d_insert]. destruct (pair_leb _ _ _ _); [reflexivity|]. cbn [In]. rewrite IH. tauto. }
  induction l as [|x l IH]; [reflexivity|]. cbn [d_isort]. rewrite N, IH. reflexivity.
Qed.
Theorem C142_integral_partial : forall {A} (eqb leb : A -> A -> bool),
  (forall l t, integral (d_new eqb l None t)) /\
  (forall l zs t, integral (d_new eqb (A := A) l (Some (map CInt zs)) t) \/ zs = []) /\
  (forall d, integral d -> counted d -> integral (d_sort eqb leb d)) /\
  (forall d1 d2 d, integral d1 -> integral d2 -> counted d1 -> dseqs d1 <> [] -> d_addSet eqb d1 d2 = Ok d -> integral d /\ dseqs d <> []).
Proof.
  intros A eqb leb. split; [|split; [|split]].
  - intros l t. unfold d_new. destruct l as [|x l]; [intros c []|]. set (r := setFromList eqb (x :: l)). destruct r as [ss ts]. unfold integral. cbn [dtimes]. destruct ts as [|z ts]; [intros c []|].
    destruct (np_array_int (map CInt (z :: ts))) as [zs E]; [discriminate|intros c I; apply in_map_iff in I as (y & <- & _); eauto|]. rewrite E. intros c I. cbn [entries] in I. apply in_map_iff in I as (y & <- & _). eauto.
  - intros l zs t. destruct zs as [|z zs]; [right; reflexivity|left]. unfold d_new. destruct l as [|x l]; [intros c []|]. unfold integral. cbn [dtimes].
    destruct (np_array_int (map CInt (z :: zs))) as [ys E]; [discriminate|intros c I; apply in_map_iff in I as (y & <- & _); eauto|]. rewrite E. intros c I. cbn [entries] in I. apply in_map_iff in I as (y & <- & _). eauto.
  - intros d H _ c I. unfold d_sort in I. cbn [dtimes entries] in I. apply in_map_iff in I as ((x & c') & <- & I). apply d_isort_in in I. apply in_combine_r in I. apply H, I.
  - intros d1 d2 d H1 H2 L1 N1. unfold d_addSet. destruct (negb _); [discriminate|].
    assert (H2' : forall x c, In (x, c) (combine (dseqs d2) (entries (dtimes d2))) -> exists z, c = CInt z) by (intros x c I; apply in_combine_r in I; apply H2, I).
    assert (I1 : (exists zs, dtimes d1 = TInts zs) \/ (exists l, dtimes d1 = TList l /\ l <> [] /\ forall c, In c l -> exists z, c = CInt z)).
    { unfold integral, counted in *. destruct (dtimes d1) as [l|l|l].
      - right. exists l. split; [reflexivity|]. split; [|exact H1]. intros ->. cbn in L1. destruct (dseqs d1); [congruence|discriminate].
      - left. eauto.
      - destruct l as [|z l]; [destruct (dseqs d1); [congruence|discriminate]|]. destruct (H1 (CFlt z)) as [y E]; [left; reflexivity|discriminate]. }
    clear H1 H2 L1. revert I1 N1 H2'. generalize (combine (dseqs d2) (entries (dtimes d2))) as l. generalize (dtimes d1) as ts, (dseqs d1) as ss.
    assert (G : forall l ts ss, ((exists zs, ts = TInts zs) \/ (exists l, ts = TList l /\ l <> [] /\ forall c, In c l -> exists z, c = CInt z)) -> ss <> [] ->
       (forall (x : A) c, In (x, c) l -> exists z, c = CInt z) -> let '(ss', ts') := fold_left (d_addSet_step eqb) l (ss, ts) in ss' <> [] /\ forall c, In c (entries ts') -> exists z, c = CInt z).
    { induction l as [|[x c] l IH]; intros ts ss I1 N1 H2.
      - cbn. split; [exact N1|]. destruct I1 as [[zs ->]|(l & -> & _ & H)]; [|exact H]. intros c I. cbn in I. apply in_map_iff in I as (y & <- & _). eauto.
      - destruct (H2 x c (or_introl eq_refl)) as [z ->]. cbn [fold_left d_addSet_step]. assert (H2' : forall (x : A) c, In (x, c) l -> exists z, c = CInt z) by (intros; eapply H2; right; eassumption).
        destruct (memb eqb x ss).
        + destruct (index_of eqb x ss) as [i|]; [|apply IH; assumption]. apply IH; [|assumption..]. destruct I1 as [[zs ->]|(cs & -> & N & H)]; [left; eexists; reflexivity|]. right. cbn [inc_at]. eexists. split; [reflexivity|]. split.
          * intros E. apply N. apply (f_equal (@length _)) in E. revert E. clear. revert i. destruct cs; [reflexivity|]. intros [|i]; discriminate.
          * assert (HN : exists y, nth i cs (CInt 0) = CInt y) by (destruct (nth_in_or_default i cs (CInt 0)) as [I| ->]; [apply H, I|eauto]). destruct HN as [y ->]. cbn [cadd].
            clear - H. revert i. induction cs as [|a cs IH]; intros i c I; [destruct i; destruct I|]. destruct i as [|i]; cbn in I; destruct I as [<-|I]; eauto; [apply H; right; exact I|apply H; left; reflexivity|]. apply (IH (fun c I => H c (or_intror I)) i c I).
        + apply IH; [|destruct ss; discriminate|assumption]. left. destruct I1 as [[zs ->]|(cs & -> & N & H)]; [eexists; reflexivity|]. unfold np_append. destruct (np_array_int cs N H) as [zs ->]. eexists; reflexivity. }
    intros ts ss l I1 N1 H2. specialize (G l ts ss I1 N1 H2). destruct (fold_left _ _ _) as [ss' ts']. intros [= <-]. destruct G as [G1 G2]. split; [exact G2|exact G1].
Qed.
Print Assumptions C142_integral_partial.

(** A set that was empty when another one, not empty, was added to it holds only
    floats: to_list raises TypeError and the file written by save cannot be
    loaded. *)
Theorem C142_empty_refuted : forall K (TK : Text K) eqb t l (d2 d : dset (pyv K)), counted d2 -> dseqs d2 <> [] ->
  d_addSet eqb (d_new eqb [] l t) d2 = Ok d ->
  (forall c, In c (entries (dtimes d)) -> exists z, c = CFlt z) /\ d_to_list d = Err TypeError /\
  (t <> None -> (forall v, In v (dseqs d) -> writable_val v) -> d_load (d_save d) = Err ValueError).
Proof.
  intros K TK eqb t l d2 d L2 N2. unfold d_addSet. cbn [d_new dty dseqs dtimes]. destruct (negb _); [discriminate|].
  unfold counted in L2. destruct (dseqs d2) as [|x ss2]; [congruence|]. destruct (entries (dtimes d2)) as [|c cs2]; [discriminate|]. cbn [combine fold_left d_addSet_step memb existsb].
  replace (np_append (TList []) c) with (TFlts [cval c]) by (destruct c; reflexivity).
  assert (G : forall l zs ss, length zs = length ss -> zs <> [] -> exists zs' ss', fold_left (d_addSet_step eqb) l (ss, TFlts zs) = (ss', TFlts zs') /\ length zs' = length ss' /\ zs' <> []).
  { clear. induction l as [|[x c] l IH]; intros zs ss L N; [eexists; eexists; split; [reflexivity|auto]|]. cbn [fold_left d_addSet_step]. destruct (memb eqb x ss).
    - destruct (index_of eqb x ss) as [i|]; [|apply IH; assumption]. cbn [inc_at]. apply IH; [rewrite upd_length; exact L|]. destruct zs; [congruence|destruct i; discriminate].
    - cbn [np_append]. apply IH; [rewrite !app_length, L; reflexivity|destruct zs; discriminate]. }
  destruct (G (combine ss2 cs2) [cval c] [x]) as (zs & ss & E & L & N); [reflexivity|discriminate|]. cbn [app]. rewrite E. intros [= <-].
  assert (A : forall y, In y (map CFlt zs) -> exists z, y = CFlt z) by (intros y I; apply in_map_iff in I as (z & <- & _); eauto).
  split; [exact A|]. assert (C : counted (mkD ss (TFlts zs) t)) by (unfold counted; cbn; rewrite map_length; exact L).
  assert (NI : ~ integral (mkD ss (TFlts zs) t)). { intros H. destruct zs as [|z zs]; [congruence|]. destruct (H (CFlt z)) as [y Ey]; [left; reflexivity|discriminate]. }
  split; [apply C142_to_list; assumption|]. intros T W. apply C142_save_load; [exact C|exact W| |exact NI]. cbn. intros ->. congruence.
Qed.
Print Assumptions C142_empty_refuted.

Example C142_instance : let d1 := d_new (trace_eqb) [["a"; "b"]; ["a"]; ["a"; "b"]]%string None (Some 0%Z) in let d2 := d_new trace_eqb [["c"]]%string (Some [CInt 4]) (Some 0%Z) in
  integral d1 /\ integral d2 /\ counted d1 /\ dseqs d1 <> [] /\ exists d, d_addSet trace_eqb d1 d2 = Ok d /\ dtimes d = TInts [2; 1; 4]%Z.
Proof.
  intros d1 d2. split; [intros c I; cbn in I; destruct I as [<-|[<-|[]]]; eauto|]. split; [intros c I; cbn in I; destruct I as [<-|[]]; eauto|]. split; [reflexivity|]. split; [discriminate|].
  eexists. split; reflexivity.
Qed.
Example C142_refuted_instance : exists d : dset (pyv Q), d_addSet (fun _ _ => false) (d_new (fun _ _ => false) [] None (Some 0%Z)) (d_new (fun _ _ => false) [PList [PStr "a"]] None (Some 0%Z)) = Ok d /\ d_to_list d = Err TypeError.
Proof. eexists. split; reflexivity. Qed.

(** The merging loop of IOAlergia. *)
From Coq Require Import String ZArith Reals Lia Bool List Permutation.
From Verif Require Import Num Py MTools MSet MModels MCtor SSet LSet LCtor MAlergia LAlergia LAlergia2 MIOAlergia LIOAlergia LIOAlergia2.
Import ListNotations.

Lemma all_opt_total {A} (f : A -> option bool) l : (forall x, In x l -> f x <> None) -> exists b, all_opt (map f l) = Some b /\ (b = true <-> forall x, In x l -> f x = Some true).
Proof.
  induction l as [|a l IH]; intros T.
  - exists true. split; [reflexivity|]. split; [intros _ x []|reflexivity].
  - cbn [map all_opt]. destruct (f a) as [[|]|] eqn:E; [| |exfalso; apply (T a (or_introl eq_refl) E)].
    + destruct IH as (b & E' & Q); [intros x I; apply T; right; exact I|]. exists b. split; [exact E'|]. rewrite Q. split.
      * intros G x [<-|I]; [exact E|apply G, I].
      * intros G x I. apply G. right; exact I.
    + exists false. split; [reflexivity|]. split; [discriminate|]. intros G. specialize (G a (or_introl eq_refl)). congruence.
Qed.


Lemma son_tree h s D a o c : (forall x, NoDup (map fst (trans h x))) -> tree h s D -> successor h s a o = Some c ->
  exists D', tree h c D' /\ (length D' < length D)%nat.
Proof.
  intros ND T E. apply tree_inv in T as (D' & -> & NI & F). destruct (forest_split h _ D' F) as (T & TA & _).
  destruct (successor_Some _ _ _ _ _ E) as (_ & w & I). destruct (TA c) as (A & _ & L); [apply In_sons; eauto|].
  exists (T c). split; [exact A|]. cbn. lia.
Qed.

(** States reached by a word. *)
Fixpoint follow (h : ioheap) (s : nat) (w : list (string * string)) : option nat :=
  match w with [] => Some s | (a, o) :: w' => match successor h s a o with Some s' => follow h s' w' | None => None end end.

Lemma io_compatible_spec (acts obss : list string) h (eps : R) : (forall x, NoDup (map fst (trans h x))) -> forall fuel s1 s2 D, tree h s2 D -> (length D < fuel)%nat ->
  exists b, io_compatible fuel acts obss h eps (Some s1) (Some s2) = Some b /\
    (b = true <-> forall w x y, (forall a o, In (a, o) w -> In a acts /\ In o obss) -> follow h s1 w = Some x -> follow h s2 w = Some y ->
       obs h x = obs h y /\ forall a o, In a acts -> In o obss -> hoeffding h x y a o eps = true).
Proof.
  intros ND. induction fuel as [|fuel IH]; intros s1 s2 D T L; [lia|]. cbn [io_compatible].
  assert (LF : (0 < fuel)%nat) by (apply tree_inv in T as (D' & -> & _); cbn in L; lia).
  destruct (String.eqb_spec (obs h s1) (obs h s2)) as [EO|NO]; cbn [negb].
  2:{ exists false. split; [reflexivity|]. split; [discriminate|]. intros G. exfalso. apply NO. apply (G [] s1 s2); [intros a o []|reflexivity|reflexivity]. }
  set (g := fun ao : string * string => if negb (hoeffding h s1 s2 (fst ao) (snd ao) eps) then Some false else io_compatible fuel acts obss h eps (successor h s1 (fst ao) (snd ao)) (successor h s2 (fst ao) (snd ao))).
  assert (K : forall a o, In a acts -> In o obss -> exists b, g (a, o) = Some b /\ (b = true <-> hoeffding h s1 s2 a o eps = true /\
     forall c d, successor h s1 a o = Some c -> successor h s2 a o = Some d -> forall w x y, (forall a o, In (a, o) w -> In a acts /\ In o obss) -> follow h c w = Some x -> follow h d w = Some y ->
       obs h x = obs h y /\ forall a o, In a acts -> In o obss -> hoeffding h x y a o eps = true)).
  { intros a o Ia Io. unfold g. cbn [fst snd]. destruct (hoeffding h s1 s2 a o eps); cbn [negb]; [|exists false; split; [reflexivity|]; split; [discriminate|intros (Q & _); discriminate]].
    destruct (successor h s1 a o) as [c|] eqn:E1.
    - destruct (successor h s2 a o) as [d|] eqn:E2.
      + destruct (son_tree h s2 D a o d ND T E2) as (D' & T' & L'). destruct (IH c d D' T' ltac:(lia)) as (b & Eb & Hb). exists b. split; [exact Eb|]. rewrite Hb. split.
        * intros G. split; [reflexivity|]. intros c' d' [= <-] [= <-]. exact G.
        * intros (_ & G). exact (G c d eq_refl eq_refl).
      + exists true. split; [destruct fuel; [lia|reflexivity]|]. split; [|reflexivity]. intros _. split; [reflexivity|]. intros c' d' _ Q. discriminate Q.
    - exists true. split; [destruct fuel; [lia|reflexivity]|]. split; [|reflexivity]. intros _. split; [reflexivity|]. intros c' d' Q. discriminate Q. }
  destruct (all_opt_total g (all_pairs acts obss)) as (b & Eb & Hb).
  { intros (a, o) I. apply In_pairs in I as (Ia & Io). destruct (K a o Ia Io) as (b & -> & _). discriminate. }
  exists b. split; [exact Eb|]. rewrite Hb. split.
  - intros G w x y Hw F1 F2. destruct w as [|(a, o) w].
    + cbn in F1, F2. injection F1 as <-. injection F2 as <-. split; [exact EO|]. intros a o Ia Io. destruct (K a o Ia Io) as (b' & Eg & Hb'). rewrite G in Eg by (apply In_pairs; auto). injection Eg as <-. apply Hb'. reflexivity.
    + destruct (Hw a o (or_introl eq_refl)) as (Ia & Io). destruct (K a o Ia Io) as (b' & Eg & Hb'). rewrite G in Eg by (apply In_pairs; auto). injection Eg as <-.
      cbn in F1, F2. destruct (successor h s1 a o) as [c|] eqn:E1; [|discriminate]. destruct (successor h s2 a o) as [d|] eqn:E2; [|discriminate].
      apply (proj2 (proj1 Hb' eq_refl) c d eq_refl eq_refl w x y); auto. intros a' o' I. apply Hw. right; exact I.
  - intros G (a, o) I. apply In_pairs in I as (Ia & Io). destruct (K a o Ia Io) as (b' & Eg & Hb'). rewrite Eg. f_equal. apply Hb'. split.
    + apply (G [] s1 s2); [intros a' o' []|reflexivity|reflexivity|exact Ia|exact Io].
    + intros c d E1 E2 w x y Hw F1 F2. apply (G ((a, o) :: w) x y).
      * intros a' o' [[= <- <-]|J]; [auto|apply Hw, J].
      * cbn. rewrite E1. exact F1.
      * cbn. rewrite E2. exact F2.
Qed.

Lemma first_red_spec acts obss h (eps : R) fuel b D : (forall x, NoDup (map fst (trans h x))) -> tree h b D -> (length D < fuel)%nat -> forall red,
  first_red fuel acts obss h eps b red = Some None \/ exists r, first_red fuel acts obss h eps b red = Some (Some r) /\ In r red /\ obs h r = obs h b.
Proof.
  intros ND T L. induction red as [|r red IH]; [left; reflexivity|]. cbn [first_red].
  destruct (io_compatible_spec acts obss h eps ND fuel r b D T L) as ([|] & -> & Hb).
  - right. exists r. split; [reflexivity|]. split; [left; reflexivity|]. apply (proj1 Hb eq_refl [] r b); [intros a o []|reflexivity|reflexivity].
  - destruct IH as [E|(r' & E & I & O)]; [left; exact E|right]. exists r'. split; [exact E|]. split; [right; exact I|exact O].
Qed.

Lemma nat_dec_dedup (l : list nat) : NoDup (dedup Nat.eqb l) /\ forall x, In x (dedup Nat.eqb l) <-> In x l.
Proof. exact (LCtor.dedup_spec Nat.eqb Nat.leb Nat.eqb_eq l). Qed.
Lemma sorted_NoDup (l : list nat) : NoDup (isort_list Nat.leb (dedup Nat.eqb l)) /\ forall x, In x (isort_list Nat.leb (dedup Nat.eqb l)) <-> In x l.
Proof.
  pose proof (LCtor.isort_perm Nat.leb (dedup Nat.eqb l)) as P. destruct (nat_dec_dedup l) as (N & I). split.
  - apply (Permutation_NoDup P N).
  - intros x. rewrite <- I. split; apply Permutation_in; [symmetry|]; exact P.
Qed.
Lemma In_successors h s x : In x (successors h s) <-> In x (sons h s).
Proof. unfold successors. apply sorted_NoDup. Qed.
Lemma new_blue_spec h red rest : NoDup (new_blue h red rest) /\
  forall x, In x (new_blue h red rest) <-> In x rest \/ (~ In x red /\ exists r, In r red /\ In x (sons h r)).
Proof.
  unfold new_blue. destruct (sorted_NoDup (rest ++ flat_map (fun r => filter (fun s => negb (memb Nat.eqb s red)) (successors h r)) red)) as (N & I).
  split; [exact N|]. intros x. rewrite I, in_app_iff, in_flat_map. split.
  - intros [J|(r & Ir & J)]; [left; exact J|right]. apply filter_In in J as (J & M). apply negb_true_iff, memb_nat_false in M. split; [exact M|]. exists r. rewrite <- In_successors. auto.
  - intros [J|(M & r & Ir & J)]; [left; exact J|right]. exists r. split; [exact Ir|]. apply filter_In. rewrite In_successors. split; [exact J|]. apply negb_true_iff, memb_nat_false, M.
Qed.

Section Loop.
  Context (acts obss : list string) (NDO : NoDup obss) (h0 : ioheap) (L0 : list nat).

  Record inv (h : ioheap) (red blue DB : list nat) (f : nat -> nat) : Prop := {
    i_wf : iwf obss h;
    i_len : length h = length h0;
    i_obs : forall x, obs h x = obs h0 x;
    i_forest : forest h blue DB;
    i_disj : forall x, In x red -> ~ In x DB;
    i_red : forall r d, In r red -> In d (sons h r) -> In d red \/ In d blue;
    i_range : forall x, In x red \/ In x DB -> (x < length h)%nat;
    i_nd : NoDup red;
    i_hd : exists l, red = O :: l;
    i_fL : forall d, In d L0 -> In (f d) red \/ In (f d) DB;
    i_fobs : forall d, obs h0 (f d) = obs h0 d;
    i_sound : forall x a z c, In x red \/ In x DB -> In (z, c) (edges h x a) -> exists d z0, In d L0 /\ f d = x /\ In (z0, c) (edges h0 d a) /\ f z0 = z;
    i_complete : forall d a z0 c0, In d L0 -> In (z0, c0) (edges h0 d a) -> exists c, In (f z0, c) (edges h (f d) a);
    i_onto : forall x, In x red \/ In x DB -> In x L0 /\ f x = x;
    i_cnt : forall g : nat -> bool, zs (seq 0 (length h0)) (fun x => if g x then cnt h x else 0%Z) = zs (seq 0 (length h0)) (fun x => if g (f x) then cnt h0 x else 0%Z) }.

  Lemma inv_merge h red b rest DB f r fuel : inv h red (b :: rest) DB f -> In r red -> obs h r = obs h b -> (length DB <= fuel)%nat ->
    exists h' DB' f', merge fuel obss h r b = Some h' /\ inv h' red (new_blue h' red rest) DB' f' /\ (length DB' < length DB)%nat.
  Proof.
    intros V Ir EO LD. destruct V as [V1 V2 V3 V4 V5 V6 V7 V8 V9 V10 V11 V12 V13 V14 V15].
    inversion V4 as [|? ? D DC T F DJ]; subst. pose proof (tree_In h b D T) as Ib.
    assert (Lb : (b < length h)%nat) by (apply V7; right; apply in_or_app; left; exact Ib).
    destruct (merge_spec obss NDO red fuel h rest DC r b D) as (h' & C' & DC' & g & M & P & Co & Gb & Nb).
    - split; [exact V1|]. split; [exact F|]. split; [intros x I J; apply (V5 x I), in_or_app; right; exact J|].
      split. { intros x d Ix Id. destruct (V6 x d Ix Id) as [J|[<-|J]]; auto. }
      split; [intros x I; apply V7; destruct I; [left; assumption|right; apply in_or_app; right; assumption]|].
      split; [exact T|]. split; [intros x I; split; [intros J; apply (V5 x J), in_or_app; left; exact I|apply DJ, I]|]. auto.
    - rewrite app_length in LD. lia.
    - destruct P as [P1 P2 P3 P4 P5 P6 P7 P8 P9 P10 P11 P12 P13 P14 P15 P16 P17].
      destruct (new_blue_spec h' red rest) as (NB & IB). destruct (forest_roots h' C' DC' P4) as (RC & NC).
      destruct (forest_perm h' C' (new_blue h' red rest) DC') as (DB' & F' & PD); [|exact P4|].
      { apply NoDup_Permutation; [exact NC|exact NB|]. intros x. rewrite IB. split.
        - intros I. destruct (P8 x I) as [J|(q & Iq & J)]; [left; exact J|right]. split; [intros K; apply (P5 x K), RC, I|eauto].
        - intros [I|(Nx & q & Iq & J)]; [apply P7, I|]. destruct (P6 q x Iq J); [contradiction|assumption]. }
      assert (ED : forall x, In x DB' <-> In x DC') by (intros x; split; apply Permutation_in; [symmetry|]; exact PD).
      assert (SB : forall x, In x red \/ In x DB' -> In x red \/ In x (D ++ DC)).
      { intros x [I|I]; [left; exact I|right]. apply ED in I. rewrite in_app_iff. destruct (P10 x I); auto. }
      assert (GX : forall x, In x red \/ In x DB' -> g x = x).
      { intros x [I|I]; [apply P11; intros J; apply (V5 x I), in_or_app; left; exact J|apply P14, ED, I]. }
      exists h', DB', (fun x => g (f x)). split; [exact M|]. split.
      + constructor; auto.
        * congruence.
        * intros x. rewrite P2. apply V3.
        * intros x I J. apply (P5 x I), ED, J.
        * intros q d Iq Id. destruct (P6 q d Iq Id) as [J|J]; [left; exact J|]. destruct (in_dec Nat.eq_dec d red) as [K|K]; [left; exact K|right]. apply IB. right. eauto.
        * intros x I. rewrite P1. apply V7, SB, I.
        * intros d Id. destruct (V10 d Id) as [J|J].
          -- left. rewrite P11; [exact J|]. intros K. apply (V5 _ J), in_or_app. left; exact K.
          -- apply in_app_or in J as [J|J]; [destruct (P13 _ J) as [K|K]; [left; exact K|right; apply ED, K]|right; apply ED]. rewrite P11; [apply P9, J|]. intros K. apply (DJ _ K J).
        * intros d. rewrite <- V3, P12, V3. apply V11.
        * intros x a z c Ix I. destruct (P15 x a) as (e & Ee & _ & Se). rewrite Ee in I. apply in_app_or in I as [I|I].
          -- apply In_map_e in I as (z1 & <- & I). destruct (V12 x a z1 c (SB x Ix) I) as (d & z0 & Id & Fd & J & Fz). exists d, z0. split; [exact Id|].
             split; [rewrite Fd; apply GX, Ix|]. split; [exact J|congruence].
          -- destruct (Se z c I) as (d1 & z1 & A & B & <-).
             assert (K : In d1 D /\ g d1 = x) by (destruct A as [A|(-> & ->)]; [exact A|auto]). destruct K as (K & K').
             destruct (V12 d1 a z1 c) as (d & z0 & Id & Fd & J & Fz); [right; apply in_or_app; left; exact K|exact B|].
             exists d, z0. split; [exact Id|]. split; [congruence|]. split; [exact J|congruence].
        * intros d a z0 c0 Id J. destruct (V13 d a z0 c0 Id J) as (c & K). destruct (in_dec Nat.eq_dec (f d) D) as [I|I].
          -- apply (Co (f d) a (f z0) c I K).
          -- rewrite (P11 (f d) I). exists c. destruct (P15 (f d) a) as (e & -> & _). apply in_or_app. left. apply In_map_e. eauto.
        * intros x I. destruct (V14 x (SB x I)) as (A & B). split; [exact A|]. rewrite B. apply GX, I.
        * intros q. specialize (P17 q). rewrite V2 in P17. rewrite P17. apply (V15 (fun x => q (g x))).
      + apply tree_inv in T as (D' & -> & NI & _). rewrite <- (Permutation_length PD). cbn [app length]. apply Nat.lt_succ_r. apply NoDup_incl_length; [apply (proj2 (tree_nodup h') C' DC' P4)|].
        intros x I. assert (x <> b) by (intros ->; contradiction). destruct (P10 x I) as [J|[J|J]]; [apply in_or_app; right; exact J|congruence|apply in_or_app; left; exact J].
  Qed.

  Lemma inv_promote h red b rest DB f : inv h red (b :: rest) DB f ->
    exists DB', inv h (red ++ [b]) (new_blue h (red ++ [b]) rest) DB' f /\ (length DB' < length DB)%nat.
  Proof.
    intros V. destruct V as [V1 V2 V3 V4 V5 V6 V7 V8 V9 V10 V11 V12 V13 V14 V15].
    inversion V4 as [|? ? D DC T F DJ]; subst. pose proof T as T0. apply tree_inv in T as (D' & -> & NI & F2).
    assert (FA : forest h (rest ++ sons h b) (DC ++ D')). { apply forest_app; [exact F|exact F2|]. intros x I J. apply (DJ x (or_intror J) I). }
    destruct (new_blue_spec h (red ++ [b]) rest) as (NB & IB). destruct (forest_roots h _ _ FA) as (RC & NC).
    assert (NR : forall x, In x (DC ++ D') -> ~ In x (red ++ [b])).
    { intros x I J. apply in_app_or in J as [J|[<-|[]]].
      - apply (V5 x J). apply in_or_app. apply in_app_or in I as [I|I]; [right; exact I|left; right; exact I].
      - apply in_app_or in I as [I|I]; [apply (DJ b (or_introl eq_refl) I)|contradiction]. }
    destruct (forest_perm h (rest ++ sons h b) (new_blue h (red ++ [b]) rest) (DC ++ D')) as (DB' & F' & PD); [|exact FA|].
    { apply NoDup_Permutation; [exact NC|exact NB|]. intros x. rewrite IB, in_app_iff. split.
      - intros [I|I]; [left; exact I|right]. split; [apply NR, RC, in_or_app; right; exact I|]. exists b. split; [apply in_or_app; right; left; reflexivity|exact I].
      - intros [I|(Nx & q & Iq & J)]; [left; exact I|]. apply in_app_or in Iq as [Iq|[<-|[]]]; [|right; exact J].
        destruct (V6 q x Iq J) as [K|[<-|K]]; [exfalso; apply Nx, in_or_app; left; exact K|exfalso; apply Nx, in_or_app; right; left; reflexivity|left; exact K]. }
    assert (ED : forall x, In x DB' <-> In x DC \/ In x D') by (intros x; rewrite <- in_app_iff; split; apply Permutation_in; [symmetry|]; exact PD).
    assert (SB : forall x, In x (red ++ [b]) \/ In x DB' <-> In x red \/ In x ((b :: D') ++ DC)).
    { intros x. rewrite ED, !in_app_iff. cbn. tauto. }
    exists DB'. split.
    - constructor; auto.
      + intros x I J. apply (NR x); [apply in_app_iff; apply ED, J|exact I].
      + intros q d Iq Id. destruct (in_dec Nat.eq_dec d (red ++ [b])) as [K|K]; [left; exact K|right]. apply IB. right. eauto.
      + intros x I. apply V7, SB, I.
      + apply NoDup_app_intro; [exact V8|constructor; [intros []|constructor]|]. intros x I [<-|[]]. apply (V5 b I). left. reflexivity.
      + destruct V9 as (l & ->). exists (l ++ [b]). reflexivity.
      + intros d Id. apply SB, V10, Id.
      + intros x a z c Ix. apply V12, SB, Ix.
      + intros x Ix. apply V14, SB, Ix.
    - rewrite <- (Permutation_length PD), !app_length. cbn. lia.
  Qed.

  Theorem io_loop_spec (eps : R) : forall fuel h red blue DB f, inv h red blue DB f -> (length DB < fuel)%nat ->
    exists h' red' f', io_loop fuel acts obss eps h red blue = Some (h', red') /\ inv h' red' [] [] f'.
  Proof.
    induction fuel as [|fuel IH]; intros h red blue DB f V L; [lia|]. destruct blue as [|b rest].
    - exists h, red, f. split; [reflexivity|]. pose proof (i_forest _ _ _ _ _ V) as F. inversion F; subst. exact V.
    - cbn [io_loop]. pose proof (i_forest _ _ _ _ _ V) as F. inversion F as [|? ? D DC T F' DJ]; subst.
      destruct (first_red_spec acts obss h eps (S fuel) b D (w_keys _ _ (i_wf _ _ _ _ _ V)) T ltac:(rewrite app_length in L; lia) red) as [E|(r & E & Ir & EO)]; rewrite E.
      + destruct (inv_promote h red b rest _ f V) as (DB' & V' & L'). apply (IH h _ _ DB' f V'). lia.
      + destruct (inv_merge h red b rest _ f r (S fuel) V Ir EO) as (h' & DB' & f' & M & V' & L'); [lia|]. rewrite M. apply (IH h' _ _ DB' f' V'). lia.
  Qed.
End Loop.

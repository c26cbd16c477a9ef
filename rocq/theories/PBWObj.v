(** Using one BW object for several learnings (C117). *)
From Coq Require Import String ZArith Bool Reals List Lia Lra.
From Verif Require Import Num Py SNum LSum MSet MModels MLik MBW MPctmc MPLearn SPctmc LPLearn2 LPLearn3 PPLearn3 MBWObj.
Import ListNotations.
Local Open Scope R_scope.

(** ** Specification *)
(** Kinds of calls that store methods in the object. *)
Definition harmless (c : call) : bool := match c with CallMC | CallHMM | CallGoHMM | CallCTMC false => true | _ => false end.
Definition parametric (c : call) : bool := match c with CallPCTMC _ | CallParameters _ => true | _ => false end.
(** The rounds of the chapters on Baum-Welch, one per kind of model. *)
Definition fit_new (processes : nat) (eps : R) (max_it : nat) (j : job) : res (model * nat * option R * bool) :=
  match j with
  | JobMC set m => tag TheMC (bw_loop (round_MC processes set) eps max_it None 0 m)
  | JobHMM set m => tag TheHMM (bw_loop (round_HMM processes set) eps max_it None 0 m)
  | JobGoHMM d set m => tag TheGoHMM (bw_loop (round_GoHMM processes d set) eps max_it None 0 m)
  | JobMDP set m => tag TheMDP (bw_loop (round_MDP processes set) eps max_it None 0 m)
  | JobUntimed fixed set m => tag TheCTMC (bw_loop (round_CTMC_untimed processes fixed set) eps max_it None 0 m)
  | JobTimed fixed set m => tag TheCTMC (bw_loop (round_CTMC_timed processes fixed set) eps max_it None 0 m)
  end.
(** Traces a CTMC can be learned from: two elements at least. *)
Definition readable (j : @job R) : Prop :=
  match j with
  | JobUntimed _ set _ => forall tr t, In (tr, t) set -> (2 <= length tr)%nat
  | JobTimed _ set _ => forall tr t, In (tr, t) set -> (2 <= length (fst tr) + length (snd tr))%nat
  | _ => True
  end.
Definition traces_of (j : @job R) : nat :=
  match j with JobMC s _ => length s | JobHMM s _ => length s | JobGoHMM _ s _ => length s | JobMDP s _ => length s | JobUntimed _ s _ => length s | JobTimed _ s _ => length s end.
Definition states_of (j : @job R) : nat :=
  match j with JobMC _ m => mc_n m | JobHMM _ m => hmm_n m | JobGoHMM _ _ m => go_n m | JobMDP _ m => mdp_n m | JobUntimed _ _ m => ct_n m | JobTimed _ _ m => ct_n m end.

(** ** Lemmas *)
Lemma run_all_ok {S T} p (work : S -> Z -> res (option T)) (w : S -> Z -> option T) set :
  (forall s t, In (s, t) set -> work s t = Ok (w s t)) -> run_all p work set = Ok (runProcesses p w set).
Proof.
  intros E. unfold run_all, runProcesses. assert (M : mmap (fun st => work (fst st) (snd st)) set = Ok (map (fun st => w (fst st) (snd st)) set)).
  { induction set as [|[s t] set IH]; [reflexivity|]. cbn. rewrite (E s t (or_introl eq_refl)). cbn. fold (@mmap (S * Z) (option T)). rewrite IH by (intros; apply E; right; assumption). reflexivity. }
  rewrite M. reflexivity.
Qed.
Lemma loop_ext {M} (f g : M -> res (M * R)) eps mx : (forall m, f m = g m) -> forall prev c m, bw_loop f eps mx prev c m = bw_loop g eps mx prev c m.
Proof. intros E. induction mx as [|mx IH]; intros prev c m; [reflexivity|]. cbn. rewrite E. destruct (g m) as [[m' ll]|]; [|reflexivity]. cbn. rewrite IH. destruct (match prev with None => false | Some p => nltb (nsub ll p) eps end); reflexivity. Qed.

Lemma after_snoc h c : after (h ++ [c]) = bind_methods c (after h).
Proof. unfold after. rewrite fold_left_app. reflexivity. Qed.
Lemma after_harmless h : forallb harmless h = true -> after h = new_object.
Proof.
  induction h as [|c h IH] using rev_ind; [reflexivity|]. rewrite forallb_app, andb_true_iff. cbn. intros [A B]. rewrite after_snoc, (IH A). rewrite andb_true_r in B.
  destruct c as [| | | |[]|[]|[]]; try discriminate; reflexivity.
Qed.
Lemma after_pctmc h : me_pctmc (after h) = existsb parametric h.
Proof.
  induction h as [|c h IH] using rev_ind; [reflexivity|]. rewrite existsb_app, after_snoc, <- IH. cbn. destruct c as [| | | |[]|[]|[]]; cbn; rewrite ?orb_false_r, ?orb_true_r; reflexivity.
Qed.
Lemma after_bound h : existsb (fun c => negb (harmless c)) h = true -> existsb parametric h = false -> me_alphas (after h) = KMdp \/ me_alphas (after h) = KTimed.
Proof.
  induction h as [|c h IH] using rev_ind; [discriminate|]. rewrite !existsb_app, after_snoc, orb_true_iff, orb_false_iff. cbn [existsb]. rewrite !orb_false_r. intros [A|A] [B C].
  - specialize (IH A B). destruct c as [| | | |[]|[]|[]]; try discriminate; cbn; auto.
  - destruct c as [| | | |[]|[]|[]]; try discriminate; cbn; auto.
Qed.
Lemma mmap_raises {A B} (f : A -> res B) l : l <> [] -> (forall a, In a l -> forall b, f a <> Ok b) -> forall r, mmap f l <> Ok r.
Proof. destruct l as [|a l]; [congruence|]. intros _ E r. cbn. specialize (E a (or_introl eq_refl)). destruct (f a) as [b|e]; [exfalso; apply (E b eq_refl)|discriminate]. Qed.
Lemma run_all_raises {S T} p (work : S -> Z -> res (option T)) set : set <> [] -> (forall s t x, work s t <> Ok x) -> forall r, run_all p work set <> Ok r.
Proof.
  intros N E r F. unfold run_all in F. apply bind_ok in F. destruct F as (rs & F & _). revert F. apply mmap_raises; [exact N|]. intros [s t] _ b. apply E.
Qed.
Lemma tag_raises {M} (f : M -> @model R) (r : res (M * nat * option R * bool)) : (forall x, r <> Ok x) -> forall x, tag f r <> Ok x.
Proof. intros E x F. unfold tag in F. apply bind_ok in F. destruct F as (y & F & _). apply (E y F). Qed.
Lemma step_raises {A B} (a : res A) (f : A -> res B) r : (forall x, a <> Ok x) -> bind a f <> Ok r.
Proof. intros E F. apply bind_ok in F. destruct F as (x & F & _). apply (E x F). Qed.

(** ** C117 *)
(** After calls that learned MCs, HMMs, GoHMMs and untimed CTMCs, an object
    learns every model as a new one; after calls without parametric CTMCs it
    learns MDPs and timed CTMCs as a new one. *)
Theorem C117_reused_object : forall history processes eps max_it (j : job), readable j ->
  forallb harmless history = true \/ (existsb parametric history = false /\ (call_of j = CallMDP \/ call_of j = CallCTMC true)) ->
  fst (fit_on (after history) processes eps max_it j) = fit_new processes eps max_it j.
Proof.
  intros h p eps mx j Hr H.
  assert (P : me_pctmc (after h) = false).
  { destruct H as [H|[H _]]; [rewrite (after_harmless h H); reflexivity|rewrite after_pctmc; exact H]. }
  destruct j as [set m|set m|d set m|set m|fx set m|fx set m]; cbn [fit_on fst fit_new call_of bind_methods]; f_equal; apply loop_ext; intros m'.
  1,2,3,5: assert (E : after h = new_object) by (destruct H as [H|[_ [H|H]]]; [apply after_harmless, H|discriminate|discriminate]); rewrite E.
  - unfold round_MC_on. cbn. rewrite (run_all_ok p _ (processWork_MC m')) by reflexivity. reflexivity.
  - unfold round_HMM_on. cbn. rewrite (run_all_ok p _ (processWork_HMM m')) by reflexivity. reflexivity.
  - unfold round_GoHMM_on. cbn. rewrite (run_all_ok p _ (processWork_GoHMM m' d)) by reflexivity. reflexivity.
  - unfold round_CTMC_untimed_on. cbn [computeTaus new_object me_pctmc andb bind one_argument me_alphas me_tau]. rewrite (run_all_ok p _ (processWork_CTMC_untimed m' fx)); [reflexivity|].
    intros s t I. specialize (Hr s t I). destruct (Nat.ltb_spec (length s) 2); [lia|reflexivity].
  - unfold round_MDP_on, computeTaus. cbn [me_pctmc]. rewrite P. cbn [andb bind me_alphas me_tau]. rewrite (run_all_ok p _ (processWork_MDP m')) by reflexivity. reflexivity.
  - unfold round_CTMC_timed_on, computeTaus. cbn [me_pctmc]. rewrite P. cbn [andb bind me_alphas]. rewrite (run_all_ok p _ (processWork_CTMC_timed m' fx)); [reflexivity|].
    intros s t I. specialize (Hr s t I). destruct (Nat.ltb_spec (length (fst s) + length (snd s)) 2); [lia|reflexivity].
Qed.
Print Assumptions C117_reused_object.

(** Otherwise never: whatever is called in between, after an MDP or a timed CTMC
    no MC, HMM, GoHMM or untimed CTMC is learned any more with this object, and
    after a parametric CTMC nothing else is. *)
Theorem C117_reused_object_refuted : forall history processes eps max_it (j : job), (1 <= max_it)%nat -> traces_of j <> 0%nat -> states_of j <> 0%nat ->
  existsb parametric history = true \/ (existsb (fun c => negb (harmless c)) history = true /\ harmless (call_of j) = true) ->
  forall r, fst (fit_on (after history) processes eps max_it j) <> Ok r.
Proof.
  intros h p eps mx j Hm Ht Hn H r. destruct (existsb parametric h) eqn:P.
  - assert (T : forall c n, n <> 0%nat -> parametric c = false -> forall x, computeTaus (bind_methods c (after h)) n <> Ok x).
    { intros c n N Hc x E. unfold computeTaus in E. assert (Q : me_pctmc (bind_methods c (after h)) = true) by (rewrite <- after_snoc, after_pctmc, existsb_app, P; reflexivity).
      rewrite Q in E. destruct (Nat.ltb_spec 0 n); [discriminate|lia]. }
    destruct j as [set m|set m|d set m|set m|fx set m|fx set m]; cbn [fit_on fst]; apply tag_raises, loop_err; try exact Hm; intros x; apply step_raises; apply T; try reflexivity; exact Hn.
  - destruct H as [H|[H Hc]]; [discriminate|]. destruct (after_bound h H P) as [A|A];
    (destruct j as [set m|set m|d set m|set m|fx set m|fx set m]; try discriminate; cbn [fit_on fst]; apply tag_raises, loop_err; try exact Hm; intros x; cbn [call_of bind_methods];
     intros F; apply bind_ok in F; destruct F as (u & _ & F); revert F; apply step_raises; (apply run_all_raises; [destruct set; [contradiction|discriminate]|]);
     intros s t y; unfold one_argument; rewrite A; try discriminate; destruct (_ <? _)%nat; discriminate).
Qed.
Print Assumptions C117_reused_object_refuted.

(** After a parametric CTMC the exception is always the same. *)
Theorem C117_after_parametric : forall history processes eps max_it (j : job), (1 <= max_it)%nat -> states_of j <> 0%nat ->
  existsb parametric history = true -> fst (fit_on (after history) processes eps max_it j) = Err AttributeError.
Proof.
  intros h p eps mx j Hm Hn P. destruct mx as [|mx]; [lia|].
  assert (T : forall c n, n <> 0%nat -> parametric c = false -> computeTaus (bind_methods c (after h)) n = Err AttributeError).
  { intros c n N Hc. unfold computeTaus. assert (Q : me_pctmc (bind_methods c (after h)) = true) by (rewrite <- after_snoc, after_pctmc, existsb_app, P; reflexivity).
    rewrite Q. destruct (Nat.ltb_spec 0 n); [reflexivity|lia]. }
  destruct j as [set m|set m|d set m|set m|fx set m|fx set m]; cbn [fit_on fst call_of bw_loop];
  unfold round_MC_on, round_HMM_on, round_GoHMM_on, round_MDP_on, round_CTMC_untimed_on, round_CTMC_timed_on; rewrite T by (exact Hn || reflexivity); reflexivity.
Qed.
Print Assumptions C117_after_parametric.

(** ** fit_parameters on an object already used by fit *)
Theorem C117_fit_parameters : forall history p (maxroot : list R -> res R) (ts : traces R) (m : pctmc R) (to_update : list string) (eps : R) (max_it : nat) rnd,
  forallb harmless history = true \/ (exists l, ts = Timed l) ->
  fit_parameters (seen_by_fit_parameters (after history) p) maxroot ts m to_update eps max_it rnd = fit_parameters (seen_by_fit_parameters new_object p) maxroot ts m to_update eps max_it rnd.
Proof.
  intros h p mr ts m tu eps mx rnd [H|[l ->]]; [rewrite (after_harmless h H); reflexivity|reflexivity].
Qed.
Print Assumptions C117_fit_parameters.
Theorem C117_fit_parameters_refuted : forall history p (maxroot : list R -> res R) (l : list (list string * Z)) (m : pctmc R) (to_update : list string) (eps : R) (max_it : nat) rnd,
  (1 <= max_it)%nat -> existsb (fun c => negb (harmless c)) history = true -> existsb parametric history = false ->
  forall result m', fit_parameters (seen_by_fit_parameters (after history) p) maxroot (Untimed l) m to_update eps max_it rnd <> Some (Ok result, m').
Proof.
  intros h p mr l m tu eps mx rnd Hm H P result m' E. unfold fit_parameters in E. destruct (negb _) in E; [discriminate|]. destruct (rnd _) as [m0|]; [|discriminate].
  destruct (sortParameters _ _) as [pl|]; [|discriminate]. unfold bw_PCTMC in E. cbn [seen_by_fit_parameters ob_verbose ob_processes ob_kind negb] in E.
  match type of E with Some (match ?x with _ => _ end) = _ => destruct x as [[[[m1 a] b] c]|e] eqn:L end; [|discriminate]. clear E. revert L. apply loop_err; [exact Hm|].
  apply round_err. intros hv tr t st I. apply in_map_iff in I. destruct I as ([o q] & E & _). injection E as <- _. unfold processWork_PCTMC.
  destruct (after_bound h H P) as [-> | ->]; intros E; destruct (_ <? 2)%nat in E; [discriminate| |discriminate|]; apply bind_ok in E; destruct E as (ab & E & _); discriminate E.
Qed.
Print Assumptions C117_fit_parameters_refuted.

(** ** Instances *)
Example C117_instance : readable (JobUntimed [] [(["init"; "a"]%string, 1%Z)] (mkCTMC [[1; 1]; [1; 1]] ["init"; "a"]%string [1; 0] "ex")) /\
  forallb harmless [CallMC; CallCTMC false; CallHMM] = true.
Proof. split; [|reflexivity]. intros tr t [E|[]]. injection E as <- _. cbn. lia. Qed.
Example C117_refuted_instance : forall p eps r,
  fst (fit_on (after [CallMC; CallMDP; CallMC]) p eps 10 (JobMC [(["init"; "a"]%string, 1%Z)] (mkMC [[0; 1]; [0; 1]] ["init"; "a"]%string [1; 0] "ex"))) <> Ok r.
Proof. intros p eps r. apply C117_reused_object_refuted; [lia|discriminate|discriminate|right; split; reflexivity]. Qed.
Example C117_after_parametric_instance : forall p eps,
  fst (fit_on (after [CallPCTMC true; CallMC]) p eps 10 (JobMC [(["init"; "a"]%string, 1%Z)] (mkMC [[0; 1]; [0; 1]] ["init"; "a"]%string [1; 0] "ex"))) = Err AttributeError.
Proof. intros p eps. apply C117_after_parametric; [lia|discriminate|reflexivity]. Qed.

(** ** C118: a trace with one observation *)
(** One such trace in the set, and no CTMC is learned, on any object.  (MCs are:
    C117_reused_object has no condition on the traces of an MC.) *)
Theorem C118_single_observation_refuted : forall me processes eps max_it fixed (set : list (list string * Z)) (m : ctmc R) tr t, (1 <= max_it)%nat -> In (tr, t) set -> length tr = 1%nat ->
  forall r, fst (fit_on me processes eps max_it (JobUntimed fixed set m)) <> Ok r.
Proof.
  intros me p eps mx fx set m tr t Hm I L r. cbn [fit_on fst]. apply tag_raises, loop_err; [exact Hm|]. intros x F. apply bind_ok in F. destruct F as (u & _ & F).
  apply bind_ok in F. destruct F as (rs & F & _). unfold run_all in F. apply bind_ok in F. destruct F as (rs' & F & _).
  apply mmap_forall2 in F. destruct (Forall2_In_l _ _ _ _ F I) as (y & _ & E). cbn [fst snd] in E. rewrite L in E. discriminate.
Qed.
Print Assumptions C118_single_observation_refuted.
Theorem C118_two_observations : forall processes eps max_it fixed (set : list (list string * Z)) (m : ctmc R), (forall tr t, In (tr, t) set -> (2 <= length tr)%nat) ->
  fst (fit_on new_object processes eps max_it (JobUntimed fixed set m)) = fit_new processes eps max_it (JobUntimed fixed set m).
Proof. intros p eps mx fx set m Hr. apply (C117_reused_object [] p eps mx (JobUntimed fx set m) Hr). left. reflexivity. Qed.
Print Assumptions C118_two_observations.

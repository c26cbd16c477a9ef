(** The Baum-Welch algorithm: jajapy/base/BW.py:278-859, 1533-1649. *)
From Coq Require Import String ZArith Bool List.
From Verif Require Import Num Py MSet MModels MLik.
Import ListNotations.
Local Open Scope num_scope.

Section BW.
  Context {K : Type} `{Num K} `{Trans K}.

  (** ** Forward and backward matrices

      Matrices are lists of rows, one row per position (the code transposes them
      at the end of these functions and back when using them). [ws] is the list,
      position by position, of the weights [fun ss s => tau(ss,s,sequence[k])]. *)

  (** jajapy/base/BW.py:1551-1563 [_computeAlphas]; same loop in
      [_computeAlphas_MDP] 407-414 and [_computeAlphas_timed] 594-603. *)
  Fixpoint bw_alphas (n : nat) (a : list K) (ws : list (nat -> nat -> K)) : list (list K) :=
    match ws with
    | [] => [a]
    | w :: ws' => a :: bw_alphas n (fstep n a w) ws'
    end.

  (** jajapy/base/BW.py:1624-1636 [_computeBetas]; same loop in
      [_computeBetas_MDP] 433-441 and [_computeBetas_timed] 668-677.  [f] is the
      last row. *)
  Fixpoint bw_betas (n : nat) (f : list K) (ws : list (nat -> nat -> K)) : list (list K) :=
    match ws with
    | [] => [f]
    | w :: ws' =>
      let bs := bw_betas n f ws' in
      vbuild n (fun s => ndot (hd [] bs) (vbuild n (fun ss => w s ss))) :: bs
    end.

  (** [ones(n)] *)
  Definition vones (n : nat) : list K := repeat n1 n.

  (** [alpha_matrix[-1] *= mask] (base/BW.py:413, 602). *)
  Definition mask_last (mask : list K) (alphas : list (list K)) : list (list K) :=
    removelast alphas ++ [zipwith nmul (last alphas []) mask].

  (** [alpha_matrix.T[-1].sum()] *)
  Definition proba_of (alphas : list (list K)) : K := nsum (last alphas []).

  (** [alpha_matrix[s][:-1]]: values of state s at all positions but the last;
      [beta_matrix[ss][1:]]: at all positions but the first. *)
  Definition col_init (m : list (list K)) (s : nat) : list K := map (fun r => vget r s) (removelast m).
  Definition col_tail (m : list (list K)) (s : nat) : list K := map (fun r => vget r s) (tl m).

  (** [(alpha[s][:-1]*beta[s][:-1]*times/proba).sum()] (base/BW.py:336, 720, 763). *)
  Definition stat_den (alphas betas : list (list K)) (factor : K) (s : nat) : K :=
    nsum (map (fun x => x * factor) (zipwith nmul (col_init alphas s) (col_init betas s))).

  (** [dot(alpha[s][:-1]*p*beta[ss][1:],times/proba).sum()] (base/BW.py:341). *)
  Definition stat_num (alphas betas : list (list K)) (p : list K) (factor : K) (s ss : nat) : K :=
    nsum (map (fun x => x * factor)
              (zipwith nmul (zipwith nmul (col_init alphas s) p) (col_tail betas ss))).

  (** Entrywise sum of the statistics of all sequences: [array([...]).sum(axis=0)]. *)
  Definition vadd (l m : list K) : list K := zipwith nadd l m.
  Definition madd (l m : list (list K)) : list (list K) := zipwith vadd l m.
  Definition vsum_all (l : list (list K)) : list K :=
    match l with [] => [] | x :: r => fold_left vadd r x end.
  Definition msum_all (l : list (list (list K))) : list (list K) :=
    match l with [] => [] | x :: r => fold_left madd r x end.

  (** [dot(log(lst_proba),lst_times)] *)
  Definition log_lik (pt : list (K * Z)) : K := nsum (map (fun x => nln (fst x) * nofZ (snd x)) pt).

  (** The update functions index the results of the workers: on False this
      raises TypeError ('bool' object is not subscriptable). *)
  Definition unwrap {A} (l : list (option A)) : res (list A) :=
    mmap (fun x => match x with Some a => Ok a | None => Err TypeError end) l.

  (** ** MC *)

  Record stat_mc := mkStatMC { sm_den : list K; sm_num : list (list K); sm_proba : K; sm_times : Z }.

  Definition mc_ws (m : mc K) (sequence : list string) : list (nat -> nat -> K) :=
    map (fun o ss s => mc_tau m ss s o) sequence.

  (** jajapy/base/BW.py:329-344 [_processWork_MC] *)
  Definition processWork_MC (m : mc K) (sequence : list string) (times : Z) : option stat_mc :=
    let n := mc_n m in
    let alphas := bw_alphas n (mc_ini m) (mc_ws m sequence) in
    let betas := bw_betas n (vones n) (mc_ws m sequence) in
    let proba := proba_of alphas in
    if proba =? n0 then None
    else
      let factor := nofZ times / proba in
      let den := vbuild n (fun s => stat_den alphas betas factor s) in
      let num := vbuild n (fun s => vbuild n (fun ss =>
                   stat_num alphas betas (map (fun o => mc_tau m s ss o) sequence) factor s ss)) in
      Some (mkStatMC den num proba times).

  (** jajapy/base/BW.py:354-359: rows with den 0 keep the current row; then
      divide each row. *)
  Definition new_row (n : nat) (den : K) (num old : list K) : list K :=
    if den =? n0 then vbuild n (fun j => vget old j / n1) else vbuild n (fun j => vget num j / den).
  Definition new_matrix (n : nat) (den : list K) (num old : list (list K)) : list (list K) :=
    vbuild n (fun s => new_row n (vget den s) (nth s num []) (nth s old [])).

  (** jajapy/base/BW.py:346-361 [_update_MC].  With no result at all, [den] is a
      number and [len(den)] raises TypeError. *)
  Definition update_MC (m : mc K) (temp : list (option stat_mc)) : res (mc K * K) :=
    do temp <- unwrap temp;
    match temp with
    | [] => Err TypeError
    | _ =>
      let den := vsum_all (map sm_den temp) in
      let num := msum_all (map sm_num temp) in
      let ll := log_lik (map (fun t => (sm_proba t, sm_times t)) temp) in
      Ok (mkMC (new_matrix (mc_n m) den num (mc_mat m)) (mc_lab m) (mc_ini m) (mc_name m), ll)
    end.

  (** jajapy/base/BW.py:1641-1649 [_runProcesses]: with several processes the
      False results are dropped, with one process they are not. *)
  Definition runProcesses {S T} (processes : nat) (work : S -> Z -> option T) (set : list (S * Z)) : list (option T) :=
    let results := map (fun st => work (fst st) (snd st)) set in
    if (1 <? processes)%nat then filter (fun r => match r with Some _ => true | None => false end) results
    else results.

  (** One iteration of base/BW.py:294-296 for an MC. *)
  Definition round_MC (processes : nat) (set : list (list string * Z)) (m : mc K) : res (mc K * K) :=
    update_MC m (runProcesses processes (processWork_MC m) set).

  (** ** HMM *)

  Record stat_hmm := mkStatHMM { sh_den : list K; sh_num_a : list (list K); sh_num_b : list (list K);
                                 sh_proba : K; sh_times : Z; sh_init : list K }.

  Definition hmm_ws (m : hmm K) (sequence : list string) : list (nat -> nat -> K) :=
    map (fun o ss s => hmm_tau m ss s o) sequence.

  (** jajapy/base/BW.py:757-779 [_processWork_HMM]. (The assignment of num_b is
      repeated for each ss with the same value.) *)
  Definition processWork_HMM (m : hmm K) (sequence : list string) (times : Z) : option stat_hmm :=
    let n := hmm_n m in
    let alphas := bw_alphas n (hmm_ini m) (hmm_ws m sequence) in
    let betas := bw_betas n (vones n) (hmm_ws m sequence) in
    let proba := proba_of alphas in
    if proba =? n0 then None
    else
      let factor := nofZ times / proba in
      let den := vbuild n (fun s => stat_den alphas betas factor s) in
      let num_a := vbuild n (fun s => vbuild n (fun ss =>
                   stat_num alphas betas (map (fun o => hmm_tau m s ss o) sequence) factor s ss)) in
      let num_b := vbuild n (fun s => map (fun obs =>
                   nsum (zipwith nmul
                     (map (fun x => x * factor) (zipwith nmul (col_init alphas s) (col_init betas s)))
                     (map (fun t => if String.eqb t obs then n1 else n0) sequence))) (hmm_alph m)) in
      let num_init := map (fun x => x * factor) (zipwith nmul (hd [] alphas) (hd [] betas)) in
      Some (mkStatHMM den num_a num_b proba times num_init).

  (** jajapy/base/BW.py:784-806 [_update_HMM] *)
  Definition update_HMM (m : hmm K) (temp : list (option stat_hmm)) : res (hmm K * K) :=
    do temp <- unwrap temp;
    match temp with
    | [] => Err TypeError
    | _ =>
      let n := hmm_n m in
      let den := vsum_all (map sh_den temp) in
      let num_a := msum_all (map sh_num_a temp) in
      let num_b := msum_all (map sh_num_b temp) in
      let init := vsum_all (map sh_init temp) in
      let ll := log_lik (map (fun t => (sh_proba t, sh_times t)) temp) in
      let output := vbuild n (fun s =>
                      new_row (length (hmm_alph m)) (vget den s) (nth s num_b []) (nth s (hmm_out m) [])) in
      Ok (mkHMM (new_matrix n den num_a (hmm_mat m)) output (hmm_alph m)
                (vbuild n (fun s => vget init s / nsum init)) (hmm_name m), ll)
    end.

  Definition round_HMM (processes : nat) (set : list (list string * Z)) (m : hmm K) : res (hmm K * K) :=
    update_HMM m (runProcesses processes (processWork_HMM m) set).

  (** ** MDP *)

  Record stat_mdp := mkStatMDP { sd_den : list (list K); sd_num : list (list (list K)); sd_proba : K; sd_times : Z }.

  Definition mdp_mask (m : mdp K) (sequence : list string) : list K :=
    lab_mask (mdp_n m) (mdp_lab m) (last sequence EmptyString).

  (** jajapy/base/BW.py:443-464 [_processWork_MDP] *)
  Definition processWork_MDP (m : mdp K) (sequence : list string) (times : Z) : option stat_mdp :=
    let n := mdp_n m in
    let oas := pairs_of sequence in
    let ws := map (mdp_w m) oas in
    let mask := mdp_mask m sequence in
    let alphas := mask_last mask (bw_alphas n (mdp_ini m) ws) in
    let betas := bw_betas n (zipwith nmul (vones n) mask) ws in
    let proba := proba_of alphas in
    if proba =? n0 then None
    else
      let factor := nofZ times / proba in
      let dirak a := map (fun oa => if String.eqb (snd oa) a then n1 else n0) oas in
      let den := vbuild n (fun s => map (fun a =>
                   nsum (map (fun x => x * factor)
                     (zipwith nmul (zipwith nmul (col_init alphas s) (col_init betas s)) (dirak a)))) (mdp_act m)) in
      let num := vbuild n (fun s => map (fun a => vbuild n (fun ss =>
                   let p := map (fun oa => mdp_tau m s (snd oa) ss (fst oa)) oas in
                   nsum (map (fun x => x * factor)
                     (zipwith nmul (zipwith nmul (zipwith nmul (col_init alphas s) (dirak a)) (col_tail betas ss)) p))))
                   (mdp_act m)) in
      Some (mkStatMDP den num proba times).

  Definition tadd (l m : list (list (list K))) := zipwith madd l m.
  Definition tsum_all (l : list (list (list (list K)))) : list (list (list K)) :=
    match l with [] => [] | x :: r => fold_left tadd r x end.

  (** jajapy/base/BW.py:466-487 [_update_MDP]: ValueError when no sequence can be
      generated. *)
  Definition update_MDP (m : mdp K) (temp : list (option stat_mdp)) : res (mdp K * K) :=
    do temp <- unwrap temp;
    match temp with
    | [] => Err ValueError
    | _ =>
      let n := mdp_n m in
      let den := msum_all (map sd_den temp) in
      let num := tsum_all (map sd_num temp) in
      let ll := log_lik (map (fun t => (sd_proba t, sd_times t)) temp) in
      let matrix := vbuild n (fun s => vbuild (length (mdp_act m)) (fun a =>
                      new_row n (mget den s a) (nth a (nth s num []) []) (nth a (nth s (mdp_mat m) []) []))) in
      Ok (mkMDP matrix (mdp_lab m) (mdp_act m) (mdp_ini m) (mdp_name m), ll)
    end.

  Definition round_MDP (processes : nat) (set : list (list string * Z)) (m : mdp K) : res (mdp K * K) :=
    update_MDP m (runProcesses processes (processWork_MDP m) set).

  (** ** CTMC *)

  Definition fixed_get (fixed : list (list bool)) (s ss : nat) : bool := nth ss (nth s fixed []) false.

  (** jajapy/base/BW.py:705-734 [_processWork_CTMC], timed branch.  [den] is
      weighted by the dwell times; entries of fixed parameters are 0. *)
  Definition processWork_CTMC_timed (m : ctmc K) (fixed : list (list bool)) (tr : timed) (times : Z) : option stat_mc :=
    let (obs, ts) := tr in
    let n := ct_n m in
    let ots := combine (removelast obs) ts in
    let ws := map (ct_w m) ots in
    let mask := lab_mask n (ct_lab m) (last obs EmptyString) in
    let alphas := mask_last mask (bw_alphas n (ct_ini m) ws) in
    let betas := bw_betas n (zipwith nmul (vones n) mask) ws in
    let proba := proba_of alphas in
    if proba =? n0 then None
    else
      let factor := nofZ times / proba in
      let den := vbuild n (fun s =>
                   nsum (map (fun x => x * factor)
                     (zipwith nmul (zipwith nmul (col_init alphas s) (col_init betas s)) (map snd ots)))) in
      let num := vbuild n (fun s => vbuild n (fun ss =>
                   if fixed_get fixed s ss then n0
                   else stat_num alphas betas
                          (map (fun ot => ct_l m s ss (fst ot) * nexp (n0 - ct_e m s * snd ot)) ots) factor s ss)) in
      Some (mkStatMC den num proba times).

  (** jajapy/base/BW.py:705-734, untimed branch: the generic [_computeAlphas] /
      [_computeBetas] with [tau = l/e]. *)
  Definition processWork_CTMC_untimed (m : ctmc K) (fixed : list (list bool)) (sequence : list string) (times : Z) : option stat_mc :=
    let n := ct_n m in
    let ws := map (fun o ss s => ct_tau m ss s o) sequence in
    let alphas := bw_alphas n (ct_ini m) ws in
    let betas := bw_betas n (vones n) ws in
    let proba := proba_of alphas in
    if proba =? n0 then None
    else
      let factor := nofZ times / proba in
      let den := vbuild n (fun s => stat_den alphas betas factor s) in
      let num := vbuild n (fun s => vbuild n (fun ss =>
                   if fixed_get fixed s ss then n0
                   else stat_num alphas betas (map (fun o => ct_l m s ss o / ct_e m s) sequence) factor s ss)) in
      Some (mkStatMC den num proba times).

  (** jajapy/base/BW.py:736-753 [_update_CTMC]:
      [matrix = h.matrix*fixed + num/den]. *)
  Definition update_CTMC (m : ctmc K) (fixed : list (list bool)) (temp : list (option stat_mc)) : res (ctmc K * K) :=
    do temp <- unwrap temp;
    match temp with
    | [] => Err TypeError
    | _ =>
      let n := ct_n m in
      let den := vsum_all (map sm_den temp) in
      let num := msum_all (map sm_num temp) in
      let ll := log_lik (map (fun t => (sm_proba t, sm_times t)) temp) in
      let matrix := new_matrix n den num (ct_mat m) in
      let matrix := vbuild n (fun s => vbuild n (fun ss =>
                      mget (ct_mat m) s ss * (if fixed_get fixed s ss then n1 else n0) + mget matrix s ss)) in
      Ok (mkCTMC matrix (ct_lab m) (ct_ini m) (ct_name m), ll)
    end.

  Definition round_CTMC_timed (processes : nat) (fixed : list (list bool)) (set : list (timed * Z)) (m : ctmc K) : res (ctmc K * K) :=
    update_CTMC m fixed (runProcesses processes (processWork_CTMC_timed m fixed) set).
  Definition round_CTMC_untimed (processes : nat) (fixed : list (list bool)) (set : list (list string * Z)) (m : ctmc K) : res (ctmc K * K) :=
    update_CTMC m fixed (runProcesses processes (processWork_CTMC_untimed m fixed) set).

  (** ** GoHMM *)

  Record stat_go := mkStatGO { sg_den : list K; sg_num_a : list (list K); sg_mu : list (list K);
                               sg_va : list (list K); sg_proba : K; sg_times : Z; sg_init : list K }.

  (** jajapy/base/BW.py:809-829 [_processWork_GoHMM] (NaN test not modelled);
      [d] is [nb_distr], the number of components of the observations. *)
  Definition processWork_GoHMM (m : gohmm K) (d : nat) (sequence : list (list K)) (times : Z) : option stat_go :=
    let n := go_n m in
    let ws := map (fun o ss s => go_tau m ss s o) sequence in
    let alphas := bw_alphas n (go_ini m) ws in
    let betas := bw_betas n (vones n) ws in
    let proba := proba_of alphas in
    if proba =? n0 then None
    else
      let factor := nofZ times / proba in
      let den := vbuild n (fun s => stat_den alphas betas factor s) in
      let num_a := vbuild n (fun s => vbuild n (fun ss =>
                   stat_num alphas betas (map (fun o => go_tau m s ss o) sequence) factor s ss)) in
      let ab s := zipwith nmul (col_init alphas s) (col_init betas s) in
      let num_mu := vbuild n (fun s => vbuild d (fun k =>
                   nsum (map (fun x => x * factor) (zipwith nmul (ab s) (map (fun o => vget o k) sequence))))) in
      let num_va := vbuild n (fun s => vbuild d (fun k =>
                   nsum (map (fun x => x * factor) (zipwith nmul (ab s)
                     (map (fun o => let z := vget o k - go_mu m s k in z * z) sequence))))) in
      let num_init := map (fun x => x * factor) (zipwith nmul (hd [] alphas) (hd [] betas)) in
      Some (mkStatGO den num_a num_mu num_va proba times num_init).

  (** jajapy/base/BW.py:834-859 [_update_GoHMM].  Rows with den 0: mu and va take
      the old mu and sigma, so the new sigma is the square root of the old one. *)
  Definition update_GoHMM (m : gohmm K) (d : nat) (temp : list (option stat_go)) : res (gohmm K * K) :=
    do temp <- unwrap temp;
    match temp with
    | [] => Err TypeError
    | _ =>
      let n := go_n m in
      let den := vsum_all (map sg_den temp) in
      let num_a := msum_all (map sg_num_a temp) in
      let mu := msum_all (map sg_mu temp) in
      let va := msum_all (map sg_va temp) in
      let init := vsum_all (map sg_init temp) in
      let ll := log_lik (map (fun t => (sg_proba t, sg_times t)) temp) in
      let output := vbuild n (fun s => vbuild d (fun k =>
            if vget den s =? n0 then (fst (go_param m s k) / n1, nsqrt (snd (go_param m s k) / n1))
            else (mget mu s k / vget den s, nsqrt (mget va s k / vget den s)))) in
      Ok (mkGO (new_matrix n den num_a (go_mat m)) output
               (vbuild n (fun s => vget init s / nsum init)) (go_name m), ll)
    end.

  Definition round_GoHMM (processes d : nat) (set : list (list (list K) * Z)) (m : gohmm K) : res (gohmm K * K) :=
    update_GoHMM m d (runProcesses processes (processWork_GoHMM m d) set).

  (** ** The main loop *)

  (** jajapy/base/BW.py:283-306 [_bw]: [prev] is None for -infinity (the first
      difference is then +infinity, never below epsilon); [fuel] bounds the
      number of iterations ([max_it]; None as result means that the fuel ran
      out, used to model [max_it = inf]).  Returns the model, the number of rounds
      and the last log-likelihood. *)
  Fixpoint bw_loop {M} (round : M -> res (M * K)) (epsilon : K) (fuel : nat)
      (prev : option K) (counter : nat) (m : M) : res (M * nat * option K * bool) :=
    match fuel with
    | O => Ok (m, counter, prev, false)
    | S fuel' =>
      do ml <- round m;
      let (m', ll) := ml in
      let stop := match prev with None => false | Some p => (ll - p) <? epsilon end in
      if stop then Ok (m', S counter, Some ll, true)
      else bw_loop round epsilon fuel' (Some ll) (S counter) m'
    end.
End BW.

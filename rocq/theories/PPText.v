(** C119: saving and loading a parametric CTMC. *)
From Coq Require Import String Ascii ZArith QArith Qround Bool DecimalString Lia List.
From Verif Require Import Num Py MTools MSet MModels MCtor MText SText LCtor LText PText MPctmc MPCompose MPText.
Import ListNotations.
Local Open Scope nat_scope.

Section Dicts.
  Context {K : Type} `{TK : Text K} `{NK : Num K}.
  Local Open Scope char_scope.

  Lemma parse_flt x r f : writable x -> match r with [] => True | c :: _ => numchar c = false end -> (1 <= f)%nat -> parse f (s2t (show x) ++ r) = Some (PFlt x, r).
  Proof.
    intros W S L. apply parse_number; [apply show_nonempty, W|apply show_chars, W| |exact L].
    unfold parse_num. rewrite span_app; [|apply show_chars, W|exact S]. destruct W as (_ & _ & -> & E). rewrite t2s_s2t, E. reflexivity.
  Qed.
  Lemma skip_show x r : writable x -> skip (s2t (show x) ++ r) = s2t (show x) ++ r.
  Proof. intros W. apply (skip_repr (PFlt x)). exact W. Qed.

  Lemma entry_head (p : string * K) : exists q t, repr_entry p = q :: t /\ is_quote q.
  Proof. unfold repr_entry, repr_str. eexists _, _. split; [reflexivity|apply quote_of_quote]. Qed.
  Lemma entries_head (p : string * K) l r : exists q t, join [","; " "] (map repr_entry (p :: l)) ++ r = q :: t /\ is_quote q.
  Proof.
    cbn [map]. rewrite join_cons. destruct (entry_head p) as (q & t & -> & Q). destruct (map repr_entry l); eexists _, _; (split; [reflexivity|exact Q]).
  Qed.
  Lemma skip_quote q t : is_quote q -> skip (q :: t) = q :: t.
  Proof. intros [-> | ->]; apply skip_other; discriminate. Qed.

  Lemma parse_entries_spec : forall (d : dict K) f r, d <> [] -> (forall p, In p d -> writable (snd p)) -> (length d <= f)%nat ->
    parse_entries f (join [","; " "] (map repr_entry d) ++ "}" :: r) = Some (map (fun p => (fst p, PFlt (snd p))) d, r).
  Proof.
    induction d as [|[k x] d IH]; intros f r NE W L; [congruence|]. destruct f as [|f]; [cbn in L; lia|]. cbn [length] in L.
    cbn [map]. rewrite join_cons.
    match goal with |- parse_entries _ ?X = _ => assert (E : X = repr_str k ++ ":" :: " " :: s2t (show x) ++ match d with [] => "}" :: r | _ :: _ => "," :: " " :: join [","; " "] (map repr_entry d) ++ "}" :: r end) end.
    { destruct d as [|p d]; cbn [map]; unfold repr_entry at 1; cbn [fst snd repr]; rewrite <- ?app_assoc; cbn [app]; rewrite <- ?app_assoc; reflexivity. }
    rewrite E. clear E. unfold repr_str. set (q := quote_of (s2t k)). assert (Q : is_quote q) by apply quote_of_quote. clearbody q.
    cbn [app]. rewrite <- app_assoc. cbn [app parse_entries]. assert (ceq q QUOTE || ceq q DQUOTE = true) as -> by (destruct Q as [->| ->]; reflexivity).
    rewrite parse_str_spec by exact Q. rewrite skip_other by discriminate. rewrite skip_space.
    assert (Wx : writable x) by apply (W (k, x)), or_introl, eq_refl.
    rewrite skip_show by exact Wx. rewrite parse_flt; [|exact Wx| |lia].
    2:{ destruct d; reflexivity. }
    destruct d as [|p d]; rewrite skip_other by discriminate.
    - cbn [map fst snd]. rewrite t2s_s2t. reflexivity.
    - rewrite skip_space. destruct (entries_head p d ("}" :: r)) as (q2 & t2 & E2 & Q2). rewrite E2, (skip_quote q2 t2 Q2), <- E2.
      rewrite IH; [|discriminate|intros u I; apply W; right; exact I|lia]. rewrite t2s_s2t. reflexivity.
  Qed.

  Lemma dset_new (d : dict K) k x : ~ In k (map fst d) -> dset d k x = d ++ [(k, x)].
  Proof.
    induction d as [|[y w] d IH]; intros N; [reflexivity|]. cbn [dset]. destruct (String.eqb_spec k y) as [->|]; [destruct N; left; reflexivity|].
    rewrite IH by (intros I; apply N; right; exact I). reflexivity.
  Qed.
  Lemma dset_all (es d : dict K) : NoDup (map fst (d ++ es)) -> fold_left (fun d e => dset d (fst e) (snd e)) es d = d ++ es.
  Proof.
    revert d. induction es as [|[k x] es IH]; intros d N; cbn [fold_left fst snd]; [rewrite app_nil_r; reflexivity|].
    rewrite dset_new. { rewrite IH; rewrite <- app_assoc; [reflexivity|exact N]. }
    rewrite map_app in N. cbn [map fst] in N. apply NoDup_remove_2 in N. intros I. apply N, in_or_app. left. exact I.
  Qed.

  Lemma eval_dict_repr (d : dict K) : NoDup (map fst d) -> (forall p, In p d -> writable (snd p)) -> eval_dict (repr_dict d) = Ok d.
  Proof.
    intros N W. unfold eval_dict, repr_dict. destruct d as [|p d].
    - cbn [map join app parse_dict]. rewrite skip_other by discriminate. cbn [skip span snd mmap bind fold_left]. reflexivity.
    - cbn [parse_dict]. destruct (entries_head p d ["}"]) as (q & t & E & Q). rewrite E, skip_quote by exact Q.
      assert (PE : parse_entries (length (q :: t)) (q :: t) = Some (map (fun p => (fst p, PFlt (snd p))) (p :: d), [])).
      { rewrite <- E. apply parse_entries_spec; [discriminate|exact W|]. clear. revert p. induction d as [|p' d IH]; intros p; [rewrite app_length; cbn; lia|].
        cbn [map]. rewrite join_cons. change (repr_entry p' :: map repr_entry d) with (map repr_entry (p' :: d)). cbv iota. rewrite <- app_assoc, app_length. cbn [app length]. specialize (IH p'). cbn [length] in *. lia. }
      assert (MM : forall l : dict K, mmap (fun e => do x <- as_flt (snd e); Ok (fst e, x)) (map (fun p => (fst p, PFlt (snd p))) l) = Ok l).
      { induction l as [|[a b] l IH]; [reflexivity|]. cbn [map mmap fst snd as_flt bind]. rewrite IH. reflexivity. }
      destruct Q as [-> | ->]; unfold QUOTE, DQUOTE in *; cbv beta iota zeta; rewrite PE; cbn [skip span snd]; rewrite MM; cbn [bind]; rewrite dset_all by exact N; reflexivity.
  Qed.

  Lemma plain_str s : plain (repr_str s).
  Proof. apply (plain_repr (K := K) (PStr s)). exact I. Qed.
  Lemma plain_dict (d : dict K) : (forall p, In p d -> writable (snd p)) -> plain (repr_dict d).
  Proof.
    intros W c [<-|I]; [split; discriminate|]. apply in_app_or in I as [I|[<-|[]]]; [|split; discriminate]. revert I. induction d as [|p d IH]; [intros []|]. cbn [map]. rewrite join_cons.
    assert (A : In c (repr_entry p) -> c <> NL /\ c <> CR).
    { unfold repr_entry. intros I. apply in_app_or in I as [I|[<-|[<-|I]]]; [apply (plain_str _ c I)|split; discriminate|split; discriminate|].
      apply (plain_repr (PFlt (snd p))); [apply W; left; reflexivity|exact I]. }
    specialize (IH (fun u I => W u (or_intror I))). destruct (map repr_entry d) eqn:E; [exact A|]. intros I. apply in_app_or in I as [I|[<-|[<-|I]]]; auto; split; discriminate.
  Qed.

  Lemma w_ints l : writable_val (K := K) (ints l).
  Proof. apply writable_list. intros v I. apply in_map_iff in I as (z & <- & _). exact Logic.I. Qed.
  Lemma as_ints_ok l : as_ints (K := K) (ints l) = Ok l.
  Proof. unfold as_ints, ints. cbn [as_list bind]. induction l as [|s l IH]; [reflexivity|]. cbn [map mmap as_int bind]. rewrite IH. reflexivity. Qed.
  Lemma as_zmat_ok (m : list (list Z)) : as_zmat (K := K) (PList (map ints m)) = Ok m.
  Proof. unfold as_zmat. cbn [as_list bind]. induction m as [|s l IH]; [reflexivity|]. cbn [map mmap]. rewrite as_ints_ok. cbn [bind]. rewrite IH. reflexivity. Qed.
  Definition cells (o : list (list (Z * Z))) : pyv K := PList (map (fun l => PList (map (fun c => ints [fst c; snd c]) l)) o).
  Lemma as_cells_ok o : as_cells (cells o) = Ok o.
  Proof.
    unfold as_cells, cells. cbn [as_list bind]. induction o as [|l o IH]; [reflexivity|]. cbn [map mmap].
    assert (A : (do l0 <- as_list (PList (map (fun c => ints (K := K) [fst c; snd c]) l)); mmap as_cell l0) = Ok l).
    { cbn [as_list bind]. clear. induction l as [|[a b] l IH]; [reflexivity|]. cbn [map mmap fst snd]. unfold as_cell at 1. rewrite as_ints_ok. cbn [bind]. rewrite IH. reflexivity. }
    rewrite A. cbn [bind]. rewrite IH. reflexivity.
  Qed.
  Lemma w_cells o : writable_val (cells o).
  Proof. apply writable_list. intros v I. apply in_map_iff in I as (l & <- & _). apply writable_list. intros v I. apply in_map_iff in I as (c & <- & _). apply w_ints. Qed.
  Lemma w_zmat (m : list (list nat)) : writable_val (K := K) (PList (map (fun r => ints (map Z.of_nat r)) m)).
  Proof. apply writable_list. intros v I. apply in_map_iff in I as (c & <- & _). apply w_ints. Qed.
End Dicts.

(** ** Vocabulary *)
(** The model [m] with other expressions. *)
Definition with_exprs {K} (m : pctmc K) (es : list (expr K)) : pctmc K :=
  mkPC (pc_mat m) (pc_lab m) es (pc_val m) (pc_ind m) (pc_par m) (pc_ini m) (pc_name m).
(** The model was returned by the constructor; its parameters may have been
    given other values since (a dict has each key once). *)
Definition constructed {K} `{Num K} (m : pctmc K) : Prop :=
  NoDup (map fst (pc_val m)) /\
  exists matrix labels exprs values indexes params name old,
    PCTMC_new matrix labels exprs values indexes params name = Ok (mkPC (pc_mat m) (pc_lab m) (pc_expr m) old (pc_ind m) (pc_par m) (pc_ini m) (pc_name m)).
(** The name fits on one line and the values are floats that are read back. *)
Definition savable {K} `{Text K} (m : pctmc K) : Prop := one_line (pc_name m) /\ forall x v, In (x, v) (pc_val m) -> writable v.
(** sympify reads the text of [e] as [e']. *)
Definition reread {K} `{Sym K} (e e' : expr K) : Prop := read_expr (show_expr e) = Some e'.

Lemma drop_nan_some {K} `{Num K} (d : dict K) : drop_nan (map (fun p => (fst p, Some (snd p))) d) = d.
Proof. unfold drop_nan. induction d as [|[k v] d IH]; [reflexivity|]. cbn [map flat_map fst snd app]. rewrite IH. reflexivity. Qed.

Lemma zmin_le l z x : zmin l = Ok z -> In x l -> (z <= x)%Z.
Proof.
  destruct l as [|y l]; [discriminate|]. cbn [zmin]. intros E. injection E as <-. revert y x. induction l as [|w l IH]; intros y x; cbn [fold_left].
  - intros [->|[]]. lia.
  - intros I. destruct I as [->|[->|I]].
    + specialize (IH (Z.min x w) (Z.min x w) (or_introl eq_refl)). lia.
    + specialize (IH (Z.min y x) (Z.min y x) (or_introl eq_refl)). lia.
    + apply IH. right. exact I.
Qed.

(** The constructor accepts its own result again. *)
Lemma new_again {K} `{NK : Num K} (m : pctmc K) es : constructed m -> length es = length (pc_expr m) ->
  PCTMC_new (map (map Z.of_nat) (pc_mat m)) (pc_lab m) es (map (fun p => (fst p, Some (snd p))) (pc_val m)) (pc_ind m) (pc_par m) (pc_name m) = Ok (with_exprs m es).
Proof.
  intros (_ & matrix & labels & exprs & values & indexes & params & name & old & E) LE. unfold PCTMC_new in *.
  destruct (negb (memb String.eqb _ labels)) eqn:E1; [discriminate|]. destruct (negb (length indexes =? _)) eqn:E2; [discriminate|].
  destruct (zmax (concat matrix)) as [mx|] eqn:E3; cbn [bind] in E; [|discriminate]. destruct (_ <=? mx)%Z eqn:E4; [discriminate|].
  destruct (zmin (concat matrix)) as [mn|] eqn:E5; cbn [bind] in E; [|discriminate]. destruct (mn <? 0)%Z eqn:E6; [discriminate|].
  destruct (negb (length labels =? _)) eqn:E7; [discriminate|]. destruct (model_init _ _) as [ini|] eqn:E8; cbn [bind] in E; [|discriminate].
  injection E as Ma La Ex _ In Pa Ii Na.
  assert (BM : map (map Z.of_nat) (pc_mat m) = matrix).
  { rewrite <- Ma, map_map. rewrite <- map_id. apply map_ext_in. intros r Ir. rewrite map_map. rewrite <- map_id. apply map_ext_in. intros z Iz.
    apply Z.ltb_ge in E6. assert (mn <= z)%Z by (apply (zmin_le (concat matrix)); [exact E5|apply in_concat; exists r; auto]). lia. }
  rewrite BM, <- La, <- In, <- Pa, E1, E2, E3. cbn [bind]. rewrite LE, <- Ex, E4, E5. cbn [bind]. rewrite E6, E7, E8. cbn [bind].
  rewrite drop_nan_some. unfold with_exprs. rewrite Ma, Ii, <- La, <- In, <- Pa, <- Na. reflexivity.
Qed.

Section Load.
  Context {K : Type} {NK : Num K} {TK : Text K} {SK : Sym K}.
  Notation sync := (nat * string * nat * K)%type.

  Lemma sympify_all es es' : Forall2 reread es es' -> mmap sympify (map show_expr es) = Ok es'.
  Proof. induction 1 as [|e e' es es' R F IH]; [reflexivity|]. cbn [map mmap]. unfold sympify at 1. rewrite R. cbn [bind]. rewrite IH. reflexivity. Qed.

  (** The model loaded from a saved file has the same states, labels, parameter
      names and values, positions of the parameters and name; its rates are the
      rates as sympify reads their texts.  It has no synchronous transitions of
      its own. *)
  Theorem C119_save_load : forall (m : pctmc K) (own : option (list sync)) es', constructed m -> savable m -> Forall2 reread (pc_expr m) es' ->
    loadPCTMC (pctmc_save (m, own)) = Ok (with_exprs m es', None).
  Proof.
    intros m own es' C (N & W) R. assert (ND : NoDup (map fst (pc_val m))) by apply C.
    assert (Wv : forall p, In p (pc_val m) -> writable (snd p)) by (intros [x v] I; apply (W x v I)).
    assert (P0 : plain (s2t "PCTMC")) by (apply plain_lit; reflexivity).
    unfold loadPCTMC, pctmc_save. cbn [fst]. rewrite newlines_line by exact P0. rewrite nextline_line by exact P0. rewrite t2s_s2t. cbn [String.eqb Ascii.eqb Bool.eqb negb].
    unfold parametric_save. rewrite newlines_line by apply plain_name, N. rewrite nextline_line by apply plain_name, N.
    rewrite newlines_line by apply plain_repr, w_zmat. rewrite nextline_line by apply plain_repr, w_zmat. rewrite literal_eval_repr by apply w_zmat. cbn [bind].
    rewrite <- (map_map (map Z.of_nat) ints), as_zmat_ok. cbn [bind].
    rewrite newlines_line by apply plain_repr, w_strs. rewrite nextline_line by apply plain_repr, w_strs. rewrite literal_eval_repr by apply w_strs. cbn [bind]. rewrite as_strs_ok. cbn [bind].
    rewrite newlines_line by apply plain_dict, Wv. rewrite nextline_line by apply plain_dict, Wv. rewrite (eval_dict_repr (NK := NK)) by assumption. cbn [bind].
    fold (cells (K := K) (pc_ind m)). rewrite newlines_line by apply plain_repr, w_cells. rewrite nextline_line by apply plain_repr, w_cells. rewrite literal_eval_repr by apply w_cells. cbn [bind]. rewrite as_cells_ok. cbn [bind].
    rewrite newlines_line by apply plain_repr, w_strs. rewrite nextline_line by apply plain_repr, w_strs. rewrite literal_eval_repr by apply w_strs. cbn [bind]. rewrite as_strs_ok. cbn [bind].
    rewrite <- (app_nil_r (line (repr (strs (map show_expr (pc_expr m)))))). rewrite newlines_line by apply plain_repr, w_strs. rewrite nextline_line by apply plain_repr, w_strs. rewrite literal_eval_repr by apply w_strs. cbn [bind]. rewrite as_strs_ok. cbn [bind].
    rewrite (sympify_all _ es' R). cbn [bind]. rewrite t2s_s2t. rewrite new_again; [reflexivity|exact C|]. symmetry. clear -R. induction R; cbn; congruence.
  Qed.

  (** When every expression is read back as itself, so is the model. *)
  Theorem C119_identity : forall (m : pctmc K) own, constructed m -> savable m -> (forall e, In e (pc_expr m) -> reread e e) ->
    loadPCTMC (pctmc_save (m, own)) = Ok (m, None).
  Proof.
    intros m own C S R. rewrite (C119_save_load m own (pc_expr m) C S). { destruct m; reflexivity. }
    induction (pc_expr m) as [|e l IH]; [constructor|]. constructor; [apply R; left; reflexivity|apply IH; intros; apply R; right; assumption].
  Qed.

  (** A rate that sympify does not read: ValueError. *)
  Theorem C119_unreadable : forall (m : pctmc K) own e, constructed m -> savable m -> In e (pc_expr m) -> (forall e', ~ reread e e') ->
    loadPCTMC (pctmc_save (m, own)) = Err ValueError.
  Proof.
    intros m own e C (N & W) I R. assert (ND : NoDup (map fst (pc_val m))) by apply C.
    assert (Wv : forall p, In p (pc_val m) -> writable (snd p)) by (intros [x v] J; apply (W x v J)).
    assert (P0 : plain (s2t "PCTMC")) by (apply plain_lit; reflexivity).
    unfold loadPCTMC, pctmc_save. cbn [fst]. rewrite newlines_line by exact P0. rewrite nextline_line by exact P0. rewrite t2s_s2t. cbn [String.eqb Ascii.eqb Bool.eqb negb].
    unfold parametric_save. rewrite newlines_line by apply plain_name, N. rewrite nextline_line by apply plain_name, N.
    rewrite newlines_line by apply plain_repr, w_zmat. rewrite nextline_line by apply plain_repr, w_zmat. rewrite literal_eval_repr by apply w_zmat. cbn [bind].
    rewrite <- (map_map (map Z.of_nat) ints), as_zmat_ok. cbn [bind].
    rewrite newlines_line by apply plain_repr, w_strs. rewrite nextline_line by apply plain_repr, w_strs. rewrite literal_eval_repr by apply w_strs. cbn [bind]. rewrite as_strs_ok. cbn [bind].
    rewrite newlines_line by apply plain_dict, Wv. rewrite nextline_line by apply plain_dict, Wv. rewrite (eval_dict_repr (NK := NK)) by assumption. cbn [bind].
    fold (cells (K := K) (pc_ind m)). rewrite newlines_line by apply plain_repr, w_cells. rewrite nextline_line by apply plain_repr, w_cells. rewrite literal_eval_repr by apply w_cells. cbn [bind]. rewrite as_cells_ok. cbn [bind].
    rewrite newlines_line by apply plain_repr, w_strs. rewrite nextline_line by apply plain_repr, w_strs. rewrite literal_eval_repr by apply w_strs. cbn [bind]. rewrite as_strs_ok. cbn [bind].
    rewrite <- (app_nil_r (line (repr (strs (map show_expr (pc_expr m)))))). rewrite newlines_line by apply plain_repr, w_strs. rewrite nextline_line by apply plain_repr, w_strs. rewrite literal_eval_repr by apply w_strs. cbn [bind]. rewrite as_strs_ok. cbn [bind].
    assert (MF : mmap sympify (map show_expr (pc_expr m)) = Err ValueError).
    { clear -I R. induction (pc_expr m) as [|a l IH]; [destruct I|]. cbn [map mmap]. unfold sympify at 1. destruct (read_expr (show_expr a)) as [a'|] eqn:E; [|reflexivity].
      cbn [bind]. destruct I as [->|I]; [destruct (R a'); exact E|]. rewrite IH by exact I. reflexivity. }
    rewrite MF. reflexivity.
  Qed.

  (** Another first line: ValueError. *)
  Theorem C119_other_file : forall h r, plain (s2t h) -> h <> "PCTMC"%string -> loadPCTMC (line (s2t h) ++ r) = Err ValueError.
  Proof.
    intros h r P N. unfold loadPCTMC. rewrite newlines_line by exact P. rewrite nextline_line by exact P. rewrite t2s_s2t. destruct (String.eqb_spec h "PCTMC"); [contradiction|reflexivity].
  Qed.
End Load.
Print Assumptions C119_save_load.
Print Assumptions C119_identity.
Print Assumptions C119_unreadable.
Print Assumptions C119_other_file.

(** ** Examples over the rationals *)
#[local] Instance QText : Text Q := {
  show := fun q => (NilZero.string_of_int (Z.to_int (Qfloor (q * 1000))) ++ "e-3")%string;
  read := fun s => let t := s2t s in match read_int (firstn (length t - 3) t) with Some z => Some (Qred (z # 1000)) | None => None end }.
(** Constants, names and products of a constant and a name. *)
#[local] Instance QSym : Sym Q := {
  show_expr := fun e => match e with EConst c => show c | EVar x => x | EMul (EConst c) (EVar x) => (show c ++ "*" ++ x)%string | _ => "?"%string end;
  read_expr := fun s => let (a, b) := span (fun c => negb (ceq c "*")) (s2t s) in
    match b with
    | [] => match read (t2s a) with Some c => Some (EConst c) | None => if String.eqb s "?" then None else Some (EVar s) end
    | _ :: b => match read (t2s a) with Some c => Some (EMul (EConst c) (EVar (t2s b))) | None => None end
    end }.
Definition pQ : pctmc Q := mkPC [[0; 1; 0]; [2; 0; 3]; [3; 0; 0]]%nat ["a"; "it's"; "init"]%string [EConst 0; EVar "x"; EMul (EConst 2) (EVar "y"); EConst (1 # 2)]%Q
  [("x"%string, 3 # 2); ("y"%string, 1)]%Q [[(0, 1)%Z]; [(1, 0)%Z]] ["x"; "y"]%string [0; 0; 1]%Q "p q".
Lemma pQ_constructed : constructed pQ.
Proof.
  split; [repeat constructor; cbn; intros I; repeat (destruct I as [I|I]; [discriminate|]); exact I|].
  exists [[0; 1; 0]; [2; 0; 3]; [3; 0; 0]]%Z, (pc_lab pQ), (pc_expr pQ), [], (pc_ind pQ), (pc_par pQ), "p q"%string, []. vm_compute. reflexivity.
Qed.
Lemma pQ_savable : savable pQ.
Proof.
  split; [one|]. intros x v [[= <- <-]|[[= <- <-]|[]]]; (repeat split; [discriminate|intros c I; vm_compute in I |- *; tauto]).
Qed.
Example C119_instance : loadPCTMC (pctmc_save (pQ, None)) = Ok (pQ, None).
Proof. apply C119_identity; [exact pQ_constructed|exact pQ_savable|]. intros e [<-|[<-|[<-|[<-|[]]]]]; vm_compute; reflexivity. Qed.
(** A rate that is not read: here any sum. *)
Example C119_unreadable_instance : let m := with_exprs pQ [EConst 0; EVar "x"; EAdd (EVar "x") (EVar "y"); EConst (1 # 2)]%Q in loadPCTMC (pctmc_save (m, None)) = Err ValueError.
Proof.
  intros m. apply (C119_unreadable m None (EAdd (EVar "x") (EVar "y"))).
  - split; [exact (proj1 pQ_constructed)|]. exists [[0; 1; 0]; [2; 0; 3]; [3; 0; 0]]%Z, (pc_lab pQ), (pc_expr m), [], (pc_ind pQ), (pc_par pQ), "p q"%string, []. vm_compute. reflexivity.
  - exact pQ_savable.
  - right; right; left; reflexivity.
  - intros e' E. vm_compute in E. discriminate.
Qed.
Example C119_other_file_instance : loadPCTMC (K := Q) (line (s2t "CTMC") ++ s2t "x") = Err ValueError.
Proof. apply C119_other_file; [apply plain_lit; reflexivity|discriminate]. Qed.

(** The synchronous transitions are lost: the model saved and loaded does not
    compose as the model that was saved. *)
Definition sM : pctmc Q := mkPC [[0; 1; 0]; [1; 0; 0]; [1; 0; 0]]%nat ["a"; "b"; "init"]%string [EConst 0; EConst 1]%Q [] [] [] [0; 0; 1]%Q "A".
Definition sN : pctmc Q := mkPC [[0; 0]; [1; 0]]%nat ["c"; "init"]%string [EConst 0; EConst 1]%Q [] [] [] [0; 1]%Q "N".
Theorem C119_synchronous_refuted : exists (m n : pctmc Q) own on m' own' c c' d d',
  constructed m /\ savable m /\ (forall e, In e (pc_expr m) -> reread e e) /\ loadPCTMC (pctmc_save (m, own)) = Ok (m', own') /\
  synchronousCompositionPCTMCs [(m, own); (n, on)] [] [[]] "C" = (Ok c, d) /\ evaluateTransition c 0 1 None = Some (7 # 1)%Q /\
  synchronousCompositionPCTMCs [(m', own'); (n, on)] [] [[]] "C" = (Ok c', d') /\ evaluateTransition c' 0 1 None = Some (1 # 1)%Q.
Proof.
  exists sM, sN, (Some [(0, "go"%string, 1, 2%Q)]), (Some [(0, "go"%string, 0, 3%Q)]), sM, None. do 4 eexists.
  assert (C : constructed sM). { split; [constructor|]. exists [[0; 1; 0]; [1; 0; 0]; [1; 0; 0]]%Z, (pc_lab sM), (pc_expr sM), [], [], [], "A"%string, []. vm_compute. reflexivity. }
  assert (S : savable sM) by (split; [one|intros x v []]).
  assert (R : forall e, In e (pc_expr sM) -> reread e e) by (intros e [<-|[<-|[]]]; vm_compute; reflexivity).
  split; [exact C|]. split; [exact S|]. split; [exact R|]. split; [apply C119_identity; assumption|].
  split; [vm_compute; reflexivity|]. split; [vm_compute; reflexivity|]. split; [vm_compute; reflexivity|]. vm_compute; reflexivity.
Qed.
Print Assumptions C119_synchronous_refuted.

(** Functions of the model on finite numbers give finite numbers: the embedding
    [XF] of R in the numbers with infinities and nan commutes with them. *)
From Coq Require Import String ZArith Bool Reals List Lia Lra.
From Verif Require Import Num Py SNum LSum MSet MModels MLik MBW MExt.
Import ListNotations.
Local Open Scope R_scope.

#[export] Existing Instance XNum.
#[export] Existing Instance XTrans.

Definition xten (t : list (list (list R))) : list (list (list xr)) := map xmat t.

Lemma xdiv_fin x y : y <> 0 -> ndiv (XF x) (XF y) = XF (x / y).
Proof. intros E. cbn. destruct (Req_EM_T y 0); [contradiction|reflexivity]. Qed.
Lemma xdiv_one x : ndiv (XF x) n1 = XF (x / 1).
Proof. apply xdiv_fin. lra. Qed.
Lemma xget v i : vget (xvec v) i = XF (vget v i).
Proof. unfold vget, xvec. exact (map_nth XF v 0 i). Qed.
Lemma xrow m i : nth i (xmat m) [] = xvec (nth i m []).
Proof. exact (map_nth xvec m [] i). Qed.
Lemma xmget m i j : mget (xmat m) i j = XF (mget m i j).
Proof. unfold mget. rewrite xrow. apply xget. Qed.
Lemma xlay t i : nth i (xten t) [] = xmat (nth i t []).
Proof. exact (map_nth xmat t [] i). Qed.
Lemma xvec_length v : length (xvec v) = length v. Proof. apply map_length. Qed.
Lemma xmat_length m : length (xmat m) = length m. Proof. apply map_length. Qed.
Lemma xten_length t : length (xten t) = length t. Proof. apply map_length. Qed.
Lemma xnsum l : nsum (xvec l) = XF (nsum l).
Proof. induction l as [|x l IH]; [reflexivity|]. change (nadd (XF x) (nsum (xvec l)) = XF (nadd x (nsum l))). rewrite IH. reflexivity. Qed.
Lemma xzip {A B C} (f : A -> A -> A) (F : B -> B -> B) (e : A -> B) (u : C) (l m : list A) :
  (forall x y, F (e x) (e y) = e (f x y)) -> zipwith F (map e l) (map e m) = map e (zipwith f l m).
Proof. intros E. revert m. induction l as [|x l IH]; intros [|y m]; try reflexivity. cbn. rewrite E, IH. reflexivity. Qed.
Lemma xmulv l m : zipwith nmul (xvec l) (xvec m) = xvec (zipwith nmul l m).
Proof. apply (xzip _ _ XF tt). reflexivity. Qed.
Lemma xaddv l m : vadd (xvec l) (xvec m) = xvec (vadd l m).
Proof. apply (xzip _ _ XF tt). reflexivity. Qed.
Lemma xaddm l m : madd (xmat l) (xmat m) = xmat (madd l m).
Proof. apply (xzip _ _ xvec tt). exact xaddv. Qed.
Lemma xaddt l m : tadd (xten l) (xten m) = xten (tadd l m).
Proof. apply (xzip _ _ xmat tt). exact xaddm. Qed.
Lemma xdot l m : ndot (xvec l) (xvec m) = XF (ndot l m).
Proof. unfold ndot. rewrite xmulv. apply xnsum. Qed.
Lemma map_seq_ext {A} n (f g : nat -> A) : (forall s, (s < n)%nat -> f s = g s) -> vbuild n f = vbuild n g.
Proof. intros E. apply map_ext_in. intros s Hs. apply in_seq in Hs. apply E. lia. Qed.
Lemma xbuild n f g : (forall s, (s < n)%nat -> f s = XF (g s)) -> vbuild n f = xvec (vbuild n g).
Proof. intros E. rewrite (map_seq_ext n f (fun s => XF (g s)) E). unfold xvec, vbuild. symmetry. apply map_map. Qed.
Lemma xbuildm n f g : (forall s, (s < n)%nat -> f s = xvec (g s)) -> vbuild n f = xmat (vbuild n g).
Proof. intros E. rewrite (map_seq_ext n f (fun s => xvec (g s)) E). unfold xmat, vbuild. symmetry. apply map_map. Qed.
Lemma xbuildt n f g : (forall s, (s < n)%nat -> f s = xmat (g s)) -> vbuild n f = xten (vbuild n g).
Proof. intros E. rewrite (map_seq_ext n f (fun s => xmat (g s)) E). unfold xten, vbuild. symmetry. apply map_map. Qed.
Lemma xmapv {A} (l : list A) f g : (forall s, f s = XF (g s)) -> map f l = xvec (map g l).
Proof. intros E. unfold xvec. rewrite map_map. apply map_ext. exact E. Qed.
Lemma xmapm {A} (l : list A) f g : (forall s, f s = xvec (g s)) -> map f l = xmat (map g l).
Proof. intros E. unfold xmat. rewrite map_map. apply map_ext. exact E. Qed.
Lemma xscale (k : R) l : map (fun x => nmul x (XF k)) (xvec l) = xvec (map (fun x => nmul x k) l).
Proof. unfold xvec. rewrite !map_map. reflexivity. Qed.
Lemma xones n : vones n = xvec (vones n).
Proof. unfold vones, xvec. induction n; cbn; [reflexivity|]. f_equal. exact IHn. Qed.
Lemma xlast m : last (xmat m) [] = xvec (last m []).
Proof. induction m as [|x [|y m] IH]; [reflexivity|reflexivity|exact IH]. Qed.
Lemma xbut m : removelast (xmat m) = xmat (removelast m).
Proof. induction m as [|x [|y m] IH]; [reflexivity|reflexivity|]. cbn in *. f_equal. exact IH. Qed.
Lemma xhd m : hd [] (xmat m) = xvec (hd [] m).
Proof. destruct m; reflexivity. Qed.
Lemma xtl m : tl (xmat m) = xmat (tl m).
Proof. destruct m; reflexivity. Qed.

(** Weights that are finite between states. *)
Definition fin_w (n : nat) (w : nat -> nat -> xr) (w' : nat -> nat -> R) : Prop :=
  forall i j, (i < n)%nat -> (j < n)%nat -> w i j = XF (w' i j).

Lemma xfstep n a w w' : fin_w n w w' -> fstep n (xvec a) w = xvec (fstep n a w').
Proof.
  intros E. apply xbuild. intros s Hs. rewrite (xbuild n _ (fun ss => w' ss s)) by (intros ss Hss; apply E; assumption). apply xdot.
Qed.
Lemma xfold n ws ws' : Forall2 (fin_w n) ws ws' -> forall a, fold_left (fstep n) ws (xvec a) = xvec (fold_left (fstep n) ws' a).
Proof. induction 1 as [|w w' ws ws' E F IH]; intros a; [reflexivity|]. cbn. rewrite (xfstep n a w w' E). apply IH. Qed.
Lemma xalphas n ws ws' : Forall2 (fin_w n) ws ws' -> forall a, bw_alphas n (xvec a) ws = xmat (bw_alphas n a ws').
Proof. induction 1 as [|w w' ws ws' E F IH]; intros a; [reflexivity|]. cbn [bw_alphas]. rewrite (xfstep n a w w' E), IH. reflexivity. Qed.
Lemma xbetas n ws ws' f : Forall2 (fin_w n) ws ws' -> bw_betas n (xvec f) ws = xmat (bw_betas n f ws').
Proof.
  induction 1 as [|w w' ws ws' E F IH]; [reflexivity|]. cbn [bw_betas]. rewrite IH, xhd.
  change (xmat (?x :: ?l)) with (xvec x :: xmat l). f_equal.
  apply xbuild. intros s Hs. rewrite (xbuild n _ (fun ss => w' s ss)) by (intros ss Hss; apply E; assumption). apply xdot.
Qed.
Lemma fin_map {O} n (l : list O) (w : O -> nat -> nat -> xr) (w' : O -> nat -> nat -> R) :
  (forall o, In o l -> fin_w n (w o) (w' o)) -> Forall2 (fin_w n) (map w l) (map w' l).
Proof. induction l as [|o l IH]; intros E; [constructor|]. cbn. constructor; [apply E; left; reflexivity|]. apply IH. intros o' I. apply E. right. exact I. Qed.
Lemma xmask mask al : mask_last (xvec mask) (xmat al) = xmat (mask_last mask al).
Proof. unfold mask_last. rewrite xbut, xlast, xmulv. unfold xmat. rewrite map_app. reflexivity. Qed.
Lemma xproba al : proba_of (xmat al) = XF (proba_of al).
Proof. unfold proba_of. rewrite xlast. apply xnsum. Qed.
Lemma xcol m s : map (fun r => vget r s) (xmat m) = xvec (map (fun r => vget r s) m).
Proof. unfold xmat, xvec. rewrite !map_map. apply map_ext. intros r. apply xget. Qed.
Lemma xcoli m s : col_init (xmat m) s = xvec (col_init m s).
Proof. unfold col_init. rewrite xbut. apply xcol. Qed.
Lemma xcolt m s : col_tail (xmat m) s = xvec (col_tail m s).
Proof. unfold col_tail. rewrite xtl. apply xcol. Qed.
Lemma xstat_den al be k s : stat_den (xmat al) (xmat be) (XF k) s = XF (stat_den al be k s).
Proof. unfold stat_den. rewrite !xcoli, xmulv, xscale. apply xnsum. Qed.
Lemma xstat_num al be p k s ss : stat_num (xmat al) (xmat be) (xvec p) (XF k) s ss = XF (stat_num al be p k s ss).
Proof. unfold stat_num. rewrite xcoli, xcolt, !xmulv, xscale. apply xnsum. Qed.
Lemma xsum_all l : vsum_all (map xvec l) = xvec (vsum_all l).
Proof. destruct l as [|x l]; [reflexivity|]. cbn [map vsum_all]. revert x. induction l as [|y l IH]; intros x; [reflexivity|]. cbn. rewrite xaddv. apply IH. Qed.
Lemma xmsum_all l : msum_all (map xmat l) = xmat (msum_all l).
Proof. destruct l as [|x l]; [reflexivity|]. cbn [map msum_all]. revert x. induction l as [|y l IH]; intros x; [reflexivity|]. cbn. rewrite xaddm. apply IH. Qed.
Lemma xtsum_all l : tsum_all (map xten l) = xten (tsum_all l).
Proof. destruct l as [|x l]; [reflexivity|]. cbn [map tsum_all]. revert x. induction l as [|y l IH]; intros x; [reflexivity|]. cbn. rewrite xaddt. apply IH. Qed.
Lemma xeqb_fin x y : neqb (XF x) (XF y) = Reqb x y. Proof. reflexivity. Qed.
Lemma xnew_row n den num old : new_row n (XF den) (xvec num) (xvec old) = xvec (new_row n den num old).
Proof.
  unfold new_row. change (neqb (XF den) n0) with (Reqb den 0). change (neqb den n0) with (Reqb den 0).
  destruct (Reqb den 0) eqn:E; apply xbuild; intros j Hj; rewrite xget; [apply xdiv_one|]. apply xdiv_fin. apply Reqb_false. exact E.
Qed.
Lemma xnew_matrix n den num old : new_matrix n (xvec den) (xmat num) (xmat old) = xmat (new_matrix n den num old).
Proof. apply xbuildm. intros s Hs. rewrite xget, !xrow. apply xnew_row. Qed.
Lemma xlog_lik pt : log_lik (map (fun x => (XF (fst x), snd x)) pt) = XF (log_lik pt).
Proof. unfold log_lik. rewrite map_map. cbn [fst snd]. rewrite (xmapv pt _ (fun x => nmul (nln (fst x)) (nofZ (snd x)))) by (intros; reflexivity). apply xnsum. Qed.

(** Results. *)
Definition xres {A B} (f : A -> B) (r : res (A * R)) : res (B * xr) :=
  match r with Ok (a, x) => Ok (f a, XF x) | Err e => Err e end.
Lemma xrun {S T U} (f : T -> U) processes (work : S -> Z -> option T) (work' : S -> Z -> option U) set :
  (forall s t, In (s, t) set -> work' s t = option_map f (work s t)) ->
  runProcesses processes work' set = map (option_map f) (runProcesses processes work set).
Proof.
  intros E. unfold runProcesses.
  assert (M : map (fun st => work' (fst st) (snd st)) set = map (option_map f) (map (fun st => work (fst st) (snd st)) set)).
  { rewrite map_map. apply map_ext_in. intros [s t] I. apply E. exact I. }
  rewrite M. destruct (1 <? processes)%nat; [|reflexivity].
  generalize (map (fun st => work (fst st) (snd st)) set). intros l. induction l as [|[x|] l IH]; cbn; [reflexivity| |exact IH]. f_equal. exact IH.
Qed.
Lemma xunwrap {T U} (f : T -> U) (l : list (option T)) :
  unwrap (map (option_map f) l) = match unwrap l with Ok r => Ok (map f r) | Err e => Err e end.
Proof.
  unfold unwrap. induction l as [|[x|] l IH]; [reflexivity| |reflexivity]. cbn in *. rewrite IH. destruct (mmap _ l); reflexivity.
Qed.

(** Model of tslearn/clustering/kmeans.py [TimeSeriesKMeans] with
    [metric="softdtw"], on extended reals.
    State and helpers are those of ClusterModel.v (the same lines of the class); the
    functions below are the branches that the soft-DTW metric takes.  What scipy's
    optimiser reports, the order in which joblib's threads finish and the contents of
    numpy's uninitialised arrays are arguments ([engine]), as in SoftBaryModel.v.
    Printing is not modelled; the centres drawn by "k-means++" or "random" are a
    parameter ([km_init]). *)
From Coq Require Import Bool List Arith ZArith QArith Reals.
From Verif Require Import Num Py Series Masks DtwModel Dataset RList SoftModel GakModel PaaModel PreModel BaryModel SoftBaryModel ClusterModel KInitModel.
Import ListNotations.
Local Open Scope nat_scope.

(** constructor arguments (l.601-627); [metric_params] is its effect: the same four
    entries reach [_cdist_soft_dtw] and [softdtw_barycenter], whose defaults agree
    (gamma 1.0, no constraint) *)
Record soft_params := {
  sk_clusters : nat; sk_max_iter : nat; sk_tol : xr; sk_n_init : nat; sk_max_bary : nat; sk_dtw_inertia : bool;
  sk_gamma : R; sk_gc : gc_name; sk_radius : option Z; sk_slope : option Q }.
(** what the libraries decide; the threads' order may depend on the number of series *)
Record engine := {
  en_minimize : (list xr -> res (xr * list xr)) -> list xr -> res (list xr);
  en_order : nat -> list nat;
  en_garbage : nat -> mat xr }.

(** l.728-735 [_transform] *)
Definition soft_transform (p : soft_params) (C X : array3) : res (list (list xr)) :=
  cdist_soft_rows (sk_gamma p) (sk_gc p) (sk_radius p) (sk_slope p) X C.
(** l.742-757 [_assign]; [self._squared_inertia] is True for every metric (l.815) *)
Definition soft_assign (p : soft_params) (X : array3) : meth (list nat) := fun s =>
  match cluster_centers_ s with
  | None => (s, Err AttributeError)
  | Some C =>
    match soft_transform p C X with
    | Err e => (s, Err e)
    | Ok dists =>
      let labels := map argmin dists in
      let s := set_labels labels s in
      if no_empty_cluster labels (sk_clusters p) then
        match (if sk_dtw_inertia p then cdist_dtw_rows GcNone None None X C else Ok dists) with
        | Err e => (s, Err e)
        | Ok idists => (set_inertia (compute_inertia idists labels) s, Ok labels)
        end
      else (s, Err EmptyClusterError)
    end
  end.
(** l.771-778: no weights, [init] the present centre *)
Definition soft_center (en : engine) (p : soft_params) (X : array3) (labels : list nat) (k : nat) (c : series Xnum) : res (series Xnum) :=
  let Y := members X labels k in
  softdtw_barycenter (en_minimize en) (map Raw2 Y) (sk_gamma p) None (sk_max_bary p) (Some c)
    (sk_gc p) (sk_radius p) (sk_slope p) (en_order en (length Y)) (en_garbage en).
(** l.759-782 [_update_centroids] *)
Fixpoint soft_update (en : engine) (p : soft_params) (X : array3) (ks : list nat) : meth unit := fun s =>
  match ks with
  | [] => (s, Ok tt)
  | k :: ks =>
    match cluster_centers_ s, labels_ s with
    | Some C, Some labels =>
      match soft_center en p X labels k (nth k C []) with
      | Err e => (s, Err e)
      | Ok c => soft_update en p X ks (set_centers (replace_nth k c C) s)
      end
    | _, _ => (s, Err AttributeError)
    end
  end.
(** l.694-708 *)
Fixpoint soft_lloyd (en : engine) (p : soft_params) (X : array3) (it more : nat) (old_inertia : xr) : meth unit :=
  match more with
  | O => fun s => (set_iter it s, Ok tt)
  | S more =>
    seqm (soft_assign p X) (fun _ =>
    seqm (soft_update en p X (seq 0 (sk_clusters p))) (fun _ s =>
      if xltb (xabs (xsub old_inertia (inertia_ s))) (sk_tol p) then (set_iter (S it) s, Ok tt)
      else soft_lloyd en p X (S it) more (inertia_ s) s))
  end.
(** l.642-710 [_fit_one_init] *)
Definition soft_one_init (en : engine) (p : soft_params) (X : array3) (init : res array3) : meth unit := fun s =>
  match init with
  | Err e => (s, Err e)
  | Ok C0 =>
    let s := set_centers C0 s in
    match check_full_length C0 with
    | Err e => (s, Err e)
    | Ok C =>
      let s := set_centers C s in
      if sk_max_iter p =? 0 then (s, Err UnboundLocalError) else soft_lloyd en p X 0 (sk_max_iter p) XInf s
    end
  end.
(** l.837-854 *)
Fixpoint soft_attempts (en : engine) (p : soft_params) (X : array3) (draw : nat -> res array3) (n remaining n_successful : nat)
    (best : option array3) (min_inertia : xr) : meth (option array3 * xr) := fun s =>
  match remaining with
  | O => (s, Ok (best, min_inertia))
  | S remaining =>
    if sk_n_init p <=? n_successful then (s, Ok (best, min_inertia))
    else
      match soft_one_init en p X (draw n) s with
      | (s, Ok _) =>
        if xltb (inertia_ s) min_inertia
        then soft_attempts en p X draw (S n) remaining (S n_successful) (cluster_centers_ s) (inertia_ s) (set_n_iter (iter_ s) s)
        else soft_attempts en p X draw (S n) remaining (S n_successful) best min_inertia s
      | (s, Err EmptyClusterError) => soft_attempts en p X draw (S n) remaining n_successful best min_inertia s
      | (s, Err e) => (s, Err e)
      end
  end.
(** utils.py l.227-235 [_post_fit] *)
Definition soft_post_fit (p : soft_params) (X : array3) (centroids : option array3) (inertia : xr) : meth unit := fun s =>
  match xisfinite inertia, centroids with
  | true, Some C =>
    match soft_assign p X (set_centers C s) with
    | (s, Ok _) => (set_features (arr_d X) (set_inertia inertia (set_X_fit (Some X) s)), Ok tt)
    | (s, Err e) => (s, Err e)
    end
  | _, _ => (set_features (arr_d X) (set_X_fit None s), Ok tt)
  end.
(** the checks of l.796-809 and of [_check_initial_guess] only ask whether the metric
    is "euclidean": they are those of ClusterModel.v for any other metric *)
Definition other_metric (p : soft_params) : km_params :=
  {| n_clusters := sk_clusters p; max_iter := sk_max_iter p; tol := sk_tol p; n_init := sk_n_init p;
     km_met := KmDtw None None None; dtw_inertia := sk_dtw_inertia p |}.
(** l.784-856 [fit] *)
Definition soft_fit (en : engine) (p : soft_params) (i : km_init) (X : array3) : meth unit := fun s =>
  match fit_input (other_metric p) i X with
  | Err e => (s, Err e)
  | Ok X =>
    let s := reset s in
    match variable_length X with
    | Err e => (s, Err e)
    | Ok X =>
      match check_initial_guess (other_metric p) i with
      | Err e => (s, Err e)
      | Ok _ =>
        seqm (soft_attempts en p X (draws i) 0 (Nat.max (sk_n_init p) 10) 0 None XInf)
             (fun r => soft_post_fit p X (fst r) (snd r)) s
      end
    end
  end.
(** l.881-906 [predict] *)
Definition soft_predict (p : soft_params) (s : km_state) (X : array3) : res (list nat) :=
  do X <- check_arr X ;;
  if check_values (other_metric p) X then
    match cluster_centers_ s with
    | None => Err AttributeError
    | Some C => if arr_d C =? arr_d X then do D <- soft_transform p C X ;; Ok (map argmin D) else Err ValueError
    end
  else Err ValueError.

(** Model of tslearn/clustering/kmeans.py [TimeSeriesKMeans] (metrics "euclidean"
    and "dtw") and of clustering/utils.py, on extended reals.
    The estimator is a record of its attributes; a method maps the state before to
    the state after and a result, so the state left behind by an exception is
    visible.  Random initialisations are a parameter: the centres drawn at each
    attempt.  Metric "softdtw" (scipy's optimiser), printing and joblib are not
    modelled. *)
From Coq Require Import Bool List Arith ZArith QArith Reals.
From Verif Require Import Num Py Series Masks DtwModel Dataset RList SoftModel GakModel PaaModel PreModel BaryModel.
Import ListNotations.
Local Open Scope nat_scope.

(** [metric] with the entries of [metric_params] that concern DTW; [gc] is [None]
    when the key "global_constraint" is missing *)
Inductive km_metric := KmEuclidean | KmDtw (gc : option gc_name) (radius : option Z) (slope : option Q).
(** constructor arguments *)
Record km_params := {
  n_clusters : nat; max_iter : nat; tol : xr; n_init : nat; km_met : km_metric; dtw_inertia : bool }.
(** attributes set by [fit]; [None] is Python's None *)
Record km_state := {
  labels_ : option (list nat); inertia_ : xr; cluster_centers_ : option array3;
  iter_ : nat; n_iter_ : nat; X_fit_ : option array3; n_features_in_ : option nat }.
Definition set_labels (l : list nat) (s : km_state) : km_state :=
  {| labels_ := Some l; inertia_ := inertia_ s; cluster_centers_ := cluster_centers_ s; iter_ := iter_ s;
     n_iter_ := n_iter_ s; X_fit_ := X_fit_ s; n_features_in_ := n_features_in_ s |}.
Definition set_inertia (v : xr) (s : km_state) : km_state :=
  {| labels_ := labels_ s; inertia_ := v; cluster_centers_ := cluster_centers_ s; iter_ := iter_ s;
     n_iter_ := n_iter_ s; X_fit_ := X_fit_ s; n_features_in_ := n_features_in_ s |}.
Definition set_centers (c : array3) (s : km_state) : km_state :=
  {| labels_ := labels_ s; inertia_ := inertia_ s; cluster_centers_ := Some c; iter_ := iter_ s;
     n_iter_ := n_iter_ s; X_fit_ := X_fit_ s; n_features_in_ := n_features_in_ s |}.
Definition set_iter (n : nat) (s : km_state) : km_state :=
  {| labels_ := labels_ s; inertia_ := inertia_ s; cluster_centers_ := cluster_centers_ s; iter_ := n;
     n_iter_ := n_iter_ s; X_fit_ := X_fit_ s; n_features_in_ := n_features_in_ s |}.
Definition set_n_iter (n : nat) (s : km_state) : km_state :=
  {| labels_ := labels_ s; inertia_ := inertia_ s; cluster_centers_ := cluster_centers_ s; iter_ := iter_ s;
     n_iter_ := n; X_fit_ := X_fit_ s; n_features_in_ := n_features_in_ s |}.
Definition set_X_fit (x : option array3) (s : km_state) : km_state :=
  {| labels_ := labels_ s; inertia_ := inertia_ s; cluster_centers_ := cluster_centers_ s; iter_ := iter_ s;
     n_iter_ := n_iter_ s; X_fit_ := x; n_features_in_ := n_features_in_ s |}.
Definition set_features (d : nat) (s : km_state) : km_state :=
  {| labels_ := labels_ s; inertia_ := inertia_ s; cluster_centers_ := cluster_centers_ s; iter_ := iter_ s;
     n_iter_ := n_iter_ s; X_fit_ := X_fit_ s; n_features_in_ := Some d |}.
(** a method: state before -> state after, value or exception *)
Definition meth (A : Type) : Type := km_state -> km_state * res A.
Definition raise {A} (e : exn) : meth A := fun s => (s, Err e).
Definition seqm {A B} (m : meth A) (f : A -> meth B) : meth B :=
  fun s => match m s with (s', Ok a) => f a s' | (s', Err e) => (s', Err e) end.

(** numpy's [argmin]: index of the first NaN if any, else of the first least value *)
Fixpoint argmin_from (l : list xr) (i best : nat) (v : xr) : nat :=
  match l with
  | [] => best
  | x :: l' => if negb (xisnan v) && (xisnan x || xltb x v) then argmin_from l' (S i) i x else argmin_from l' (S i) best v
  end.
Definition argmin (l : list xr) : nat := match l with [] => 0 | x :: l' => argmin_from l' 1 0 x end.

(** scipy's [cdist(a, b, "euclidean")] of flattened series: one width for all *)
Definition euclid (a b : series Xnum) : xr := xsqrt (xsum (sq_diffs a b)).
Definition cdist_euclid (X C : array3) : res (list (list xr)) :=
  if forallb (fun x => forallb (fun c => length (concat x) =? length (concat c)) C) X
  then Ok (map (fun x => map (euclid x) C) X) else Err ValueError.
(** [_cdist_dtw(X, C, **metric_params)] (metrics/_dtw.py l.769-793) as rows *)
Definition table {A} (n m : nat) (f : mat A) : list (list A) := map (fun i => map (f i) (seq 0 m)) (seq 0 n).
Definition cdist_dtw_rows (g : gc_name) (r : option Z) (s : option Q) (X C : array3) : res (list (list xr)) :=
  do c <- gc_code g ;;
  do M <- cdist_generic (N:=Xnum) (fun s1 s2 => elastic_generic (N:=Xnum) comb_dtw s1 s2 c r s) X (Some C) false Sequential ;;
  Ok (table (length X) (length C) M).
Definition name_or_none (gc : option gc_name) : gc_name := match gc with Some g => g | None => GcNone end.
(** kmeans.py l.712-740 [_transform] *)
Definition transform_ (p : km_params) (C X : array3) : res (list (list xr)) :=
  match km_met p with
  | KmEuclidean => cdist_euclid X C
  | KmDtw gc r s => cdist_dtw_rows (name_or_none gc) r s X C
  end.

(** clustering/utils.py l.31-37 *)
Definition no_empty_cluster (labels : list nat) (k : nat) : bool :=
  forallb (fun j => existsb (Nat.eqb j) labels) (seq 0 k).
(** clustering/utils.py l.51-67 [_compute_inertia], [squared=True] *)
Definition compute_inertia (D : list (list xr)) (labels : list nat) : xr :=
  xdiv (xsum (map (fun p => let v := nth (snd p) (fst p) XNaN in xmul v v) (combine D labels))) (XR (INR (length D))).

(** l.742-757 [_assign] with [update_class_attributes=True] *)
Definition is_dtw (m : km_metric) : bool := match m with KmDtw _ _ _ => true | KmEuclidean => false end.
Definition assign_ (p : km_params) (X : array3) : meth (list nat) := fun s =>
  match cluster_centers_ s with
  | None => (s, Err AttributeError)
  | Some C =>
    match transform_ p C X with
    | Err e => (s, Err e)
    | Ok dists =>
      let labels := map argmin dists in
      let s := set_labels labels s in
      if no_empty_cluster labels (n_clusters p) then
        match (if dtw_inertia p && negb (is_dtw (km_met p)) then cdist_dtw_rows GcNone None None X C else Ok dists) with
        | Err e => (s, Err e)
        | Ok idists => (set_inertia (compute_inertia idists labels) s, Ok labels)
        end
      else (s, Err EmptyClusterError)
    end
  end.

(** l.759-782 [_update_centroids].  [members] is [X[self.labels_ == k]]; the
    constraint name goes to the barycenter function as it is (see BaryModel). *)
Definition members (X : array3) (labels : list nat) (k : nat) : array3 :=
  map fst (filter (fun p => snd p =? k) (combine X labels)).
Definition mean_series (X : array3) : series Xnum :=
  map (fun t => map (fun f => xmean (map (fun s => nth f (nth t s []) XNaN) X)) (seq 0 (arr_d X))) (seq 0 (arr_sz X)).
Definition dba_params (gc : option gc_name) (r : option Z) (s : option Q) : metric_params :=
  {| mp_gc := match gc with None => KeyAbsent | Some g => KeyName g end; mp_radius := r; mp_slope := s |}.
Definition new_center (p : km_params) (X : array3) (labels : list nat) (k : nat) (c : series Xnum) : res (series Xnum) :=
  match km_met p with
  | KmEuclidean => Ok (mean_series (members X labels k))
  | KmDtw gc r s => dba_petitjean (members X labels k) None (Some c) 30 (XR (1 / 100000)) None (dba_params gc r s)
  end.
(** [self.cluster_centers_[k] = ...]: the new centre has the shape of the old one *)
Definition replace_nth {A} (k : nat) (v : A) (l : list A) : list A := mapi (fun i x => if i =? k then v else x) l.
Fixpoint update_centroids_ (p : km_params) (X : array3) (ks : list nat) : meth unit := fun s =>
  match ks with
  | [] => (s, Ok tt)
  | k :: ks =>
    match cluster_centers_ s, labels_ s with
    | Some C, Some labels =>
      match new_center p X labels k (nth k C []) with
      | Err e => (s, Err e)
      | Ok c => update_centroids_ p X ks (set_centers (replace_nth k c C) s)
      end
    | _, _ => (s, Err AttributeError)
    end
  end.

(** l.694-708: [it] is the number of iterations done, [more] the number left *)
Fixpoint lloyd (p : km_params) (X : array3) (it more : nat) (old_inertia : xr) : meth unit :=
  match more with
  | O => fun s => (set_iter it s, Ok tt)
  | S more =>
    seqm (assign_ p X) (fun _ =>
    seqm (update_centroids_ p X (seq 0 (n_clusters p))) (fun _ s =>
      if xltb (xabs (xsub old_inertia (inertia_ s))) (tol p) then (set_iter (S it) s, Ok tt)
      else lloyd p X (S it) more (inertia_ s) s))
  end.
(** utils.py l.40-48 [_check_full_length]: a resampler of the centroids' own size *)
Definition check_full_length (C : array3) : res array3 :=
  do d <- fit_features C ;; resample (Z.of_nat (arr_sz C)) d C.
(** l.642-710 [_fit_one_init]; [init] is the array copied or drawn at l.645-690.
    With [max_iter = 0] the variable [it] is unbound at l.708. *)
Definition fit_one_init (p : km_params) (X : array3) (init : res array3) : meth unit := fun s =>
  match init with
  | Err e => (s, Err e)
  | Ok C0 =>
    let s := set_centers C0 s in
    match check_full_length C0 with
    | Err e => (s, Err e)
    | Ok C =>
      let s := set_centers C s in
      if max_iter p =? 0 then (s, Err UnboundLocalError) else lloyd p X 0 (max_iter p) XInf s
    end
  end.

(** l.837-854: [remaining] bounds the attempts; [draw n] are the centres of attempt [n].
    Result: the best centroids and their inertia. *)
Fixpoint attempts (p : km_params) (X : array3) (draw : nat -> res array3) (n : nat) (remaining : nat) (n_successful : nat)
    (best : option array3) (min_inertia : xr) : meth (option array3 * xr) := fun s =>
  match remaining with
  | O => (s, Ok (best, min_inertia))
  | S remaining =>
    if n_init p <=? n_successful then (s, Ok (best, min_inertia))
    else
      match fit_one_init p X (draw n) s with
      | (s, Ok _) =>
        if xltb (inertia_ s) min_inertia
        then attempts p X draw (S n) remaining (S n_successful) (cluster_centers_ s) (inertia_ s) (set_n_iter (iter_ s) s)
        else attempts p X draw (S n) remaining (S n_successful) best min_inertia s
      | (s, Err EmptyClusterError) => attempts p X draw (S n) remaining n_successful best min_inertia s
      | (s, Err e) => (s, Err e)
      end
  end.
(** utils.py l.227-235 [_post_fit] *)
Definition xisfinite (x : xr) : bool := match x with XR _ => true | _ => false end.
Definition post_fit (p : km_params) (X : array3) (centroids : option array3) (inertia : xr) : meth unit := fun s =>
  match xisfinite inertia, centroids with
  | true, Some C =>
    match assign_ p X (set_centers C s) with
    | (s, Ok _) => (set_features (arr_d X) (set_inertia inertia (set_X_fit (Some X) s)), Ok tt)
    | (s, Err e) => (s, Err e)
    end
  | _, _ => (set_features (arr_d X) (set_X_fit None s), Ok tt)
  end.

(** the argument [init]: an array, or the centres drawn by "k-means++"/"random" *)
Inductive km_init := InitArray (C : array3) | InitDrawn (draw : nat -> res array3).
Definition draws (i : km_init) : nat -> res array3 :=
  match i with InitArray C => fun _ => Ok C | InitDrawn draw => draw end.
(** sklearn's [check_array] (l.796-801): one shape, at least one sample, no NaN
    (Euclidean) or no infinity *)
Definition check_values (p : km_params) (X : array3) : bool :=
  forallb (fun x => match x with XR _ => true | XNaN => is_dtw (km_met p) | _ => false end) (concat (concat X)).
Definition fit_input (p : km_params) (i : km_init) (X : array3) : res array3 :=
  do X <- check_arr X ;;
  if check_values p X then
    match i with
    | InitArray C =>
      if (arr_d C =? arr_d X) && (is_dtw (km_met p) || (arr_sz C =? arr_sz X)) then Ok X else Err ValueError
    | InitDrawn _ => Ok X
    end
  else Err ValueError.
(** clustering/utils.py l.218-222 *)
Definition check_initial_guess (p : km_params) (i : km_init) : res unit :=
  match i with
  | InitArray C => if length C =? n_clusters p then Ok tt else Err AssertionError
  | InitDrawn _ => Ok tt
  end.
(** l.784-856 [fit] *)
Definition reset (s : km_state) : km_state :=
  {| labels_ := None; inertia_ := XInf; cluster_centers_ := None; iter_ := iter_ s; n_iter_ := 0; X_fit_ := None;
     n_features_in_ := n_features_in_ s |}.
Definition fit (p : km_params) (i : km_init) (X : array3) : meth unit := fun s =>
  match fit_input p i X with
  | Err e => (s, Err e)
  | Ok X =>
    let s := reset s in
    match variable_length X with
    | Err e => (s, Err e)
    | Ok X =>
      match check_initial_guess p i with
      | Err e => (s, Err e)
      | Ok _ =>
        seqm (attempts p X (draws i) 0 (Nat.max (n_init p) 10) 0 None XInf)
             (fun r => post_fit p X (fst r) (snd r)) s
      end
    end
  end.
(** a new estimator has none of these attributes; their values are never read *)
Definition fresh : km_state :=
  {| labels_ := None; inertia_ := XInf; cluster_centers_ := None; iter_ := 0; n_iter_ := 0; X_fit_ := None; n_features_in_ := None |}.
(** l.858-906 [predict]; [check_is_fitted] only looks for the attribute
    [cluster_centers_], which exists, possibly None, after any [fit] *)
Definition predict (p : km_params) (s : km_state) (X : array3) : res (list nat) :=
  do X <- check_arr X ;;
  if check_values p X then
    match cluster_centers_ s with
    | None => Err AttributeError
    | Some C =>
      if (arr_d C =? arr_d X) && (is_dtw (km_met p) || (arr_sz C =? arr_sz X)) then
        do D <- transform_ p C X ;; Ok (map argmin D)
      else Err ValueError
    end
  else Err ValueError.

(** Model of tslearn/clustering/kmeans.py [KernelKMeans] (l.226-455) and of
    tslearn/metrics/_gak.py [sigma_gak] (l.73-96), on real numbers (exact arithmetic). *)
From Coq Require Import Bool List Arith ZArith Reals.
From Verif Require Import Num Py RList PreModel.
Import ListNotations.
Local Open Scope R_scope.

(** ** [sigma_gak] *)
(** scipy's pdist: distances of the pairs (a, b) with a before b, in order *)
Definition euclid_pts (a b : list R) : R := sqrt (rsum (map (fun p => (fst p - snd p) * (fst p - snd p)) (combine a b))).
Fixpoint pdist (l : list (list R)) : list R :=
  match l with [] => [] | a :: l' => map (euclid_pts a) l' ++ pdist l' end.
(** numpy's median: middle entry, or the mean of the two middle entries, of the sorted array *)
Fixpoint insert_r (x : R) (l : list R) : list R :=
  match l with [] => [x] | y :: l' => if Rltb y x then y :: insert_r x l' else x :: l end.
Fixpoint sort_r (l : list R) : list R := match l with [] => [] | x :: l' => insert_r x (sort_r l') end.
Definition median (l : list R) : R :=
  let s := sort_r l in let n := length l in (nth ((n - 1) / 2) s 0 + nth (n / 2) s 0) / 2.
(** rows kept by the mask of l.81-82: those whose sum is finite, i.e. without NaN or infinity *)
Fixpoint finite_row (r : list xr) : option (list R) :=
  match r with
  | [] => Some []
  | XR x :: r' => match finite_row r' with Some v => Some (x :: v) | None => None end
  | _ :: _ => None
  end.
Definition finite_points (ds : list (list (list xr))) : list (list R) :=
  flat_map (fun r => match finite_row r with Some v => [v] | None => [] end) (concat ds).
(** _gak.py l.73-96.  [idx] are the indices drawn by [choice] (l.87-91): [n_samples] of them, each below the
    number of valid points; drawing from no point raises ValueError. *)
Definition sigma_gak (ds : list (list (list xr))) (idx : list nat) : res R :=
  let sz := match ds with s :: _ => length s | [] => 0%nat end in
  let pts := finite_points ds in
  match pts with
  | [] => Err ValueError
  | _ => Ok (median (pdist (map (fun i => nth i pts []) idx)) * sqrt (INR sz))
  end.

(** ** the clustering loop.  [K] is the kernel matrix, [sw] the sample weights. *)
(** numpy's argmin on numbers *)
Fixpoint rargmin_from (l : list R) (i best : nat) (v : R) : nat :=
  match l with
  | [] => best
  | x :: l' => if Rltb x v then rargmin_from l' (S i) i x else rargmin_from l' (S i) best v
  end.
Definition rargmin (l : list R) : nat := match l with [] => 0%nat | x :: l' => rargmin_from l' 1 0 x end.
(** [a[mask]] with [mask = labels == j] *)
Definition masked {A} (labels : list nat) (j : nat) (a : list A) : list A :=
  map snd (filter (fun p => fst p =? j)%nat (combine labels a)).
(** clustering/utils.py l.31-37 [_check_no_empty_cluster] *)
Definition covers (labels : list nat) (k : nat) : bool := forallb (fun j => existsb (Nat.eqb j) labels) (seq 0 k).
(** l.390-407 [_compute_dist]: rows of [dist].  Simplification: the weights of a cluster do not sum to 0. *)
Definition kdist_entry (sw : list R) (labels : list nat) (row : list R) (j : nat) : R :=
  2 - 2 * rsum (map (fun p => fst p * snd p) (combine (masked labels j sw) (masked labels j row))) / rsum (masked labels j sw).
Definition compute_dist (k : nat) (sw : list R) (labels : list nat) (K : list (list R)) : res (list (list R)) :=
  if covers labels k then Ok (map (fun row => map (kdist_entry sw labels row) (seq 0 k)) K) else Err EmptyClusterError.
(** l.409-411 *)
Definition kinertia (dist : list (list R)) : R := rsum (map rmin dist).

Record kk_params := { kk_clusters : nat; kk_max_iter : nat; kk_tol : R; kk_n_init : nat }.
(** attributes written by the loop *)
Record kk_state := { kk_labels : list nat; kk_inertia : R; kk_iter : nat }.
(** l.302-317.  [old] is [None] for infinity.  The labels are stored before the emptiness check. *)
Fixpoint kk_loop (p : kk_params) (sw : list R) (K : list (list R)) (it more : nat) (old : option R) (s : kk_state)
  : kk_state * res unit :=
  match more with
  | O => ({| kk_labels := kk_labels s; kk_inertia := kk_inertia s; kk_iter := it |}, Ok tt)
  | S more =>
    match compute_dist (kk_clusters p) sw (kk_labels s) K with
    | Err e => (s, Err e)
    | Ok dist =>
      let labels := map rargmin dist in
      if covers labels (kk_clusters p) then
        let v := kinertia dist in
        if match old with Some o => Rltb (Rabs (o - v)) (kk_tol p) | None => false end
        then ({| kk_labels := labels; kk_inertia := v; kk_iter := S it |}, Ok tt)
        else kk_loop p sw K (S it) more (Some v) {| kk_labels := labels; kk_inertia := v; kk_iter := kk_iter s |}
      else ({| kk_labels := labels; kk_inertia := kk_inertia s; kk_iter := kk_iter s |}, Err EmptyClusterError)
    end
  end.
(** l.294-319; [labels] is drawn by [rs.randint]; [max_iter = 0] leaves [it] unbound at l.317 *)
Definition kk_one_init (p : kk_params) (sw : list R) (K : list (list R)) (labels : list nat) (s : kk_state) : kk_state * res unit :=
  let s := {| kk_labels := labels; kk_inertia := kk_inertia s; kk_iter := kk_iter s |} in
  if (kk_max_iter p =? 0)%nat then (s, Err UnboundLocalError) else kk_loop p sw K 0 (kk_max_iter p) None s.

(** l.365-382: best labels, inertia and number of iterations so far ([None]: none yet) *)
Definition best_run : Type := option (list nat * R * nat).
Fixpoint kk_attempts (p : kk_params) (sw : list R) (K : list (list R)) (draw : nat -> list nat)
    (n remaining n_successful : nat) (best : best_run) (s : kk_state) : res (best_run * kk_state) :=
  match remaining with
  | O => Ok (best, s)
  | S remaining =>
    if (kk_n_init p <=? n_successful)%nat then Ok (best, s)
    else
      match kk_one_init p sw K (draw n) s with
      | (s, Ok _) =>
        let better := match best with Some (_, m, _) => Rltb (kk_inertia s) m | None => true end in
        kk_attempts p sw K draw (S n) remaining (S n_successful)
          (if better then Some (kk_labels s, kk_inertia s, kk_iter s) else best) s
      | (s, Err EmptyClusterError) => kk_attempts p sw K draw (S n) remaining n_successful best s
      | (_, Err e) => Err e
      end
  end.
(** l.352-388.  Result: the labels, inertia and iterations reported, [None] when no attempt succeeded
    (then [_X_fit] is None and [predict] fails). *)
Definition kk_fit (p : kk_params) (sw : list R) (K : list (list R)) (draw : nat -> list nat) : res best_run :=
  do r <- kk_attempts p sw K draw 0 (Nat.max (kk_n_init p) 10) 0 None
            {| kk_labels := []; kk_inertia := 0; kk_iter := 0 |} ;;
  Ok (fst r).
(** l.435-455 [predict]; [Kp] is the kernel matrix of the new series against the training series *)
Definition kk_predict (p : kk_params) (sw : list R) (labels : list nat) (Kp : list (list R)) : res (list nat) :=
  do dist <- compute_dist (kk_clusters p) sw labels Kp ;; Ok (map rargmin dist).

(** ** hyper-parameters across calls (l.257-265, l.343-350, l.267-278) *)
Inductive sigma_value := SigmaAuto | SigmaNum (x : R) | SigmaNone.
(** the estimator and the dictionary the user passed as [kernel_params] (same object, hence mutable):
    [kk_dict] is [None] for [kernel_params=None], else the entry "sigma" if present; [kk_sigma] is the
    attribute [sigma_gak_] if it exists; [kk_gak] says whether [kernel == "gak"] *)
Record kk_object := { kk_gak : bool; kk_dict : option (option sigma_value); kk_sigma : option sigma_value }.
(** l.257-265: the entry "sigma" of the dictionary returned, and the object after the call *)
Definition get_kernel_params (o : kk_object) : option sigma_value * kk_object :=
  let entry := match kk_dict o with Some e => e | None => None end in
  match kk_gak o, kk_sigma o with
  | true, Some s =>
    (Some s, {| kk_gak := kk_gak o; kk_dict := match kk_dict o with Some _ => Some (Some s) | None => None end; kk_sigma := kk_sigma o |})
  | _, _ => (entry, o)
  end.
Definition set_sigma (s : sigma_value) (o : kk_object) : kk_object :=
  {| kk_gak := kk_gak o; kk_dict := kk_dict o; kk_sigma := Some s |}.
(** l.343-361: [fit] up to the computation of the kernel matrix.  [auto] is what [sigma_gak] returns on the
    training set.  Result: the value of sigma given to [_cdist_gak] ([None] for the other kernels). *)
Definition fit_sigma (auto : res R) (o : kk_object) : kk_object * res (option sigma_value) :=
  let '(entry, o) := get_kernel_params o in
  if kk_gak o then
    let s := match entry with Some s => s | None => SigmaNum 1 end in
    let o := set_sigma s o in
    match s with
    | SigmaAuto =>
      match auto with
      | Err e => (o, Err e)
      | Ok x => let o := set_sigma (SigmaNum x) o in let '(e, o) := get_kernel_params o in (o, Ok e)
      end
    | _ => let '(e, o) := get_kernel_params o in (o, Ok e)
    end
  else
    let o := set_sigma SigmaNone o in (o, Ok None).
(** calls made on an estimator: [fit] on a training set for which [sigma_gak] gives [auto]; or
    [set_params(kernel=...)] *)
Inductive kk_call := CallFit (auto : res R) | CallKernel (gak : bool).
Definition run_call (o : kk_object) (c : kk_call) : kk_object :=
  match c with
  | CallFit auto => fst (fit_sigma auto o)
  | CallKernel g => {| kk_gak := g; kk_dict := kk_dict o; kk_sigma := kk_sigma o |}
  end.
Definition run_calls (o : kk_object) (l : list kk_call) : kk_object := fold_left run_call l o.

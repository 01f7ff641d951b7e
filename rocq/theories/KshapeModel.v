(** Model of tslearn/clustering/kshape.py, on series of real numbers (exact
    arithmetic), all of one shape [sz] x [d]. *)
From Coq Require Import Bool List Arith ZArith Reals.
From Verif Require Import Num Py RList CyccModel KernelModel.
Import ListNotations.
Local Open Scope R_scope.

(** ** TimeSeriesScalerMeanVariance(mu=0, std=1) on numbers (preprocessing.py
    l.355-408; PreModel is the general model): per series and feature, a standard
    deviation of 0 is replaced by 1 *)
Definition mean_r (l : list R) : R := rsum l / INR (length l).
Definition std_r (l : list R) : R := sqrt (mean_r (map (fun x => (x - mean_r l) * (x - mean_r l)) l)).
Definition scale_of (l : list R) : R := if Req_EM_T (std_r l) 0 then 1 else std_r l.
Definition col_of (k : nat) (s : rseries) : list R := map (fun r => nth k r 0) s.
Definition standardise (d : nat) (s : rseries) : rseries :=
  map (fun r => map (fun k => (nth k r 0 - mean_r (col_of k s)) / scale_of (col_of k s)) (seq 0 d)) s.

(** ** cycc.py l.71-95 [cdist_normalized_cc] with [self_similarity=False], for
    norm arrays of any length.  The compiled code does not check bounds: reading
    entry [i] outside [norms1] gives [junk i], whatever is in memory there. *)
Definition read_norm (junk : nat -> R) (norms : list R) (i : nat) : R :=
  if (i <? length norms)%nat then nth i norms 0 else junk i.
Definition cdist_ncc_rows (d : nat) (junk : nat -> R) (ds1 ds2 : list rseries) (norms1 norms2 : list R) : list (list R) :=
  let norms1 := fill_norms norms1 ds1 in
  let norms2 := fill_norms norms2 ds2 in
  map (fun i => map (fun j =>
      rmax (normalized_cc d (nth i ds1 []) (nth j ds2 []) (read_norm junk norms1 i) (nth j norms2 0)))
    (seq 0 (length ds2))) (seq 0 (length ds1)).

(** constructor arguments; [ks_eig] stands for [numpy.linalg.eigh(M)[1][:, -1]] *)
Record ks_params := { ks_clusters : nat; ks_max_iter : nat; ks_tol : R; ks_n_init : nat; ks_eig : list (list R) -> list R }.
(** attributes; [ks_inertia = None] is infinity *)
Record ks_state := { ks_labels : list nat; ks_inertia : option R; ks_centers : list rseries; ks_norms : list R; ks_norms_c : list R; ks_iter : nat }.
Definition put_assign (l : list nat) (v : option R) (s : ks_state) : ks_state :=
  {| ks_labels := l; ks_inertia := v; ks_centers := ks_centers s; ks_norms := ks_norms s; ks_norms_c := ks_norms_c s; ks_iter := ks_iter s |}.
Definition put_centers (c : list rseries) (n : list R) (s : ks_state) : ks_state :=
  {| ks_labels := ks_labels s; ks_inertia := ks_inertia s; ks_centers := c; ks_norms := ks_norms s; ks_norms_c := n; ks_iter := ks_iter s |}.
Definition put_iter (n : nat) (s : ks_state) : ks_state :=
  {| ks_labels := ks_labels s; ks_inertia := ks_inertia s; ks_centers := ks_centers s; ks_norms := ks_norms s; ks_norms_c := ks_norms_c s; ks_iter := n |}.

(** l.153-157 [_cross_dists] *)
Definition cross_dists (d : nat) (junk : nat -> R) (s : ks_state) (X : list rseries) : list (list R) :=
  map (map (fun c => 1 - c)) (cdist_ncc_rows d junk X (ks_centers s) (ks_norms s) (ks_norms_c s)).
(** clustering/utils.py l.51-67 [_compute_inertia], squared *)
Definition ks_compute_inertia (D : list (list R)) (labels : list nat) : R :=
  rsum (map (fun p => let v := nth (snd p) (fst p) 0 in v * v) (combine D labels)) / INR (length D).
(** l.159-163 [_assign] *)
Definition ks_assign (p : ks_params) (d : nat) (junk : nat -> R) (X : list rseries) (s : ks_state) : ks_state * res unit :=
  let D := cross_dists d junk s X in
  let labels := map rargmin D in
  if covers labels (ks_clusters p)
  then (put_assign labels (Some (ks_compute_inertia D labels)) s, Ok tt)
  else (put_assign labels (ks_inertia s) s, Err EmptyClusterError).

(** l.119-143 [_shape_extraction] *)
Definition rdot (a b : list R) : R := rsum (map (fun p => fst p * snd p) (combine a b)).
(** l.127-129: Q^T S Q for feature [f] *)
Definition shape_matrix (sz f : nat) (Xp : list rseries) : list (list R) :=
  let S a b := rsum (map (fun x => at2 x a f * at2 x b f) Xp) in
  let Q a b : R := (if (a =? b)%nat then 1 else 0) - 1 / INR sz in
  map (fun a => map (fun b => rsum (map (fun u => Q u a * rsum (map (fun v => S u v * Q v b) (seq 0 sz))) (seq 0 sz))) (seq 0 sz)) (seq 0 sz).
(** l.136-137: [mu_k] has one column, subtracted from every feature *)
Definition shape_dist (sgn : R) (mu : list R) (Xp : list rseries) : R :=
  rsum (map (fun x => sqrt (rsum (map (fun p => rsum (map (fun v => (v - sgn * snd p) * (v - sgn * snd p)) (fst p))) (combine x mu)))) Xp).
Definition signed (mu : list R) (Xp : list rseries) : list R :=
  if Rltb (shape_dist (-1) mu Xp) (shape_dist 1 mu Xp) then map (fun x => x * -1) mu else mu.
Definition shape_extraction (p : ks_params) (sz d : nat) (X : list rseries) (s : ks_state) (k : nat) : rseries :=
  let Xp := y_shifted d (nth k (ks_centers s) []) (masked (ks_labels s) k X) (-1) (masked (ks_labels s) k (ks_norms s)) in
  let mus := map (fun f => signed (ks_eig p (shape_matrix sz f Xp)) Xp) (seq 0 d) in
  map (fun t => map (fun mu => nth t mu 0) mus) (seq 0 sz).
(** l.145-151 [_update_centroids]; centre [k] is extracted with the centres before [k] already replaced,
    but only centre [k] itself is read *)
Definition ks_update (p : ks_params) (sz d : nat) (X : list rseries) (s : ks_state) : ks_state :=
  let C := map (fun k => standardise d (shape_extraction p sz d X s k)) (seq 0 (ks_clusters p)) in
  put_centers C (map frob C) s.

(** l.179-196 *)
Fixpoint ks_loop (p : ks_params) (sz d : nat) (junk : nat -> R) (X : list rseries) (it more : nat) (old : option R) (s : ks_state)
  : ks_state * res unit :=
  match more with
  | O => (put_iter it s, Ok tt)
  | S more =>
    let old_centers := ks_centers s in
    match ks_assign p d junk X (ks_update p sz d X s) with
    | (s, Err e) => (s, Err e)
    | (s, Ok _) =>
      let stop := match old, ks_inertia s with
        | Some o, Some v => Rltb (Rabs (o - v)) (ks_tol p) || Rltb (o - v) 0
        | _, _ => false end in
      if stop then
        (* the norms stay those of the new centres *)
        match ks_assign p d junk X (put_centers old_centers (ks_norms_c s) s) with
        | (s, Ok _) => (put_iter (S it) s, Ok tt)
        | (s, Err e) => (s, Err e)
        end
      else ks_loop p sz d junk X (S it) more (ks_inertia s) s
    end
  end.
(** l.165-198 [_fit_one_init] from the centres [C0]; [max_iter=0] leaves [it] unbound *)
Definition ks_one_init (p : ks_params) (sz d : nat) (junk : nat -> R) (X C0 : list rseries) (s : ks_state) : ks_state * res unit :=
  match ks_assign p d junk X (put_centers C0 (map frob C0) s) with
  | (s, Err e) => (s, Err e)
  | (s, Ok _) => if (ks_max_iter p =? 0)%nat then (s, Err UnboundLocalError) else ks_loop p sz d junk X 0 (ks_max_iter p) None s
  end.
(** l.235-252; [init a] are the centres of attempt [a] *)
Fixpoint ks_attempts (p : ks_params) (sz d : nat) (junk : nat -> R) (X : list rseries) (init : nat -> list rseries)
    (n remaining ok : nat) (best : option (list rseries * R * nat)) (s : ks_state) : ks_state * res (option (list rseries * R * nat)) :=
  match remaining with
  | O => (s, Ok best)
  | S remaining =>
    if (ks_n_init p <=? ok)%nat then (s, Ok best)
    else
      match ks_one_init p sz d junk X (init n) s with
      | (s, Ok _) =>
        let best := match ks_inertia s, best with
          | Some v, None => Some (ks_centers s, v, ks_iter s)
          | Some v, Some (_, m, _) => if Rltb v m then Some (ks_centers s, v, ks_iter s) else best
          | None, _ => best end in
        ks_attempts p sz d junk X init (S n) remaining (S ok) best s
      | (s, Err EmptyClusterError) => ks_attempts p sz d junk X init (S n) remaining ok best s
      | (s, Err e) => (s, Err e)
      end
  end.
(** l.200-256 [fit] with [_post_fit] (clustering/utils.py l.227-235); [array] says whether [init] is an array.
    Result: whether a clustering was found ([_X_fit] is not None). *)
Definition ks_fresh (X : list rseries) : ks_state :=
  {| ks_labels := []; ks_inertia := None; ks_centers := []; ks_norms := map frob X; ks_norms_c := []; ks_iter := 0 |}.
Definition ks_fit (p : ks_params) (sz d : nat) (junk : nat -> R) (array : bool) (init : nat -> list rseries) (X : list rseries) : ks_state * res bool :=
  match ks_attempts p sz d junk X init 0 (if array then 1 else Nat.max (ks_n_init p) 10)%nat 0 None (ks_fresh X) with
  | (s, Err e) => (s, Err e)
  | (s, Ok best) =>
    let s := put_centers (ks_centers s) (map frob (ks_centers s)) s in
    match best with
    | None => (s, Ok false)
    | Some (C, v, _) =>
      match ks_assign p d junk X (put_centers C (ks_norms_c s) s) with
      | (s, Err e) => (s, Err e)
      | (s, Ok _) => (put_assign (ks_labels s) (Some v) s, Ok true)
      end
    end
  end.
(** l.280-300 [predict] *)
Definition ks_predict (d : nat) (junk : nat -> R) (s : ks_state) (X : list rseries) : list nat :=
  map rargmin (cross_dists d junk s (map (standardise d) X)).

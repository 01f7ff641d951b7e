(** Model of tslearn/clustering/dbscan.py (TimeSeriesDBSCAN).  Two functions of scikit-learn
    are modelled from their source: [dbscan_inner] (sklearn/cluster/_dbscan_inner.pyx) and
    [radius_neighbors] for a precomputed matrix. *)
From Coq Require Import Bool List Arith ZArith QArith Reals.
From Verif Require Import Num Py Series DtwModel Dataset SoftModel PaaModel PreModel.
Import ListNotations.
Local Open Scope nat_scope.

(** labels: [None] is -1 *)
Definition labelling := nat -> option nat.
Definition set_label (lab : labelling) (i c : nat) : labelling := fun k => if k =? i then Some c else lab k.
Definition unlabelled (lab : labelling) (i : nat) : bool := match lab i with None => true | Some _ => false end.

(** dbscan_inner: the [while True] loop.  The head of [work] is the current sample, the
    rest is the stack (its top first): [push_back] of the neighbours in order puts the
    last one on top.  [fuel] bounds the number of iterations. *)
Fixpoint expand (fuel : nat) (core : nat -> bool) (nb : nat -> list nat) (c : nat) (work : list nat) (lab : labelling) : labelling :=
  match fuel, work with
  | S fuel, i :: stack =>
      if unlabelled lab i then
        let lab := set_label lab i c in
        expand fuel core nb c (if core i then rev (filter (unlabelled lab) (nb i)) ++ stack else stack) lab
      else expand fuel core nb c stack lab
  | _, _ => lab
  end.
(** each sample enters the stack at most once per sample it is a neighbour of *)
Definition iterations (n : nat) (nb : nat -> list nat) : nat := 1 + list_sum (map (fun i => length (nb i)) (seq 0 n)).
(** dbscan_inner: the [for i] loop *)
Fixpoint scan (fuel : nat) (core : nat -> bool) (nb : nat -> list nat) (samples : list nat) (lab : labelling) (label_num : nat) : labelling :=
  match samples with
  | [] => lab
  | i :: samples =>
      if negb (unlabelled lab i) || negb (core i) then scan fuel core nb samples lab label_num
      else scan fuel core nb samples (expand fuel core nb label_num [i] lab) (S label_num)
  end.
Definition dbscan_inner (n : nat) (core : nat -> bool) (nb : nat -> list nat) : labelling :=
  scan (iterations n nb) core nb (seq 0 n) (fun _ => None) 0.

(** radius_neighbors, metric "precomputed": a matrix with an infinite, undefined or
    negative entry is refused; then [np.where(row <= radius)] for each row *)
Definition nonneg (x : xr) : bool := match x with XR r => if Rle_dec 0 r then true else false | _ => false end.
Definition at_most (eps : R) (x : xr) : bool := match x with XR r => if Rle_dec r eps then true else false | _ => false end.
Definition radius_neighbors (n : nat) (D : nat -> nat -> xr) (eps : R) : res (nat -> list nat) :=
  if forallb (fun i => forallb (fun j => nonneg (D i j)) (seq 0 n)) (seq 0 n)
  then Ok (fun i => filter (fun j => at_most eps (D i j)) (seq 0 n))
  else Err ValueError.

Record dbscan_result := { core_ts_indices : list nat; ts_labels : list Z }.
(** l.160-183, from the matrix of distances between the [n] series *)
Definition dbscan_fit (n : nat) (D : nat -> nat -> xr) (eps : R) (min_ts : Z) : res dbscan_result :=
  do nb <- radius_neighbors n D eps ;;
  let core := fun i => (min_ts <=? Z.of_nat (length (nb i)))%Z in
  let lab := dbscan_inner n core nb in
  Ok {| core_ts_indices := filter core (seq 0 n);
        ts_labels := map (fun i => match lab i with Some c => Z.of_nat c | None => (-1)%Z end) (seq 0 n) |}.
(** l.111-193 [fit] with metric "dtw" and the parameters of [cdist_dtw]; the series come
    from [to_time_series_dataset] *)
Definition dbscan_dtw (ds : list (raw Xnum)) (eps : R) (min_ts : Z) (g : gc_name) (radius : option Z) (slope : option Q) (j : jobs) : res dbscan_result :=
  do M <- cdist_dtw (N:=Xnum) ds None g radius slope j ;;
  dbscan_fit (length ds) M eps min_ts.

(** Model of the k-means++ initialisation of [TimeSeriesKMeans] for the metrics "dtw"
    and "softdtw": tslearn/clustering/kmeans.py l.46-126 [_k_init_metric] and its call
    l.658-687, on extended reals.  The random numbers are arguments: [first] is the
    value of [random_state.randint] (l.92), [u c t] the number [t] of
    [random_state.random_sample] in round [c] (l.103).  Metric "euclidean" uses
    scikit-learn's own function and is not modelled here. *)
From Coq Require Import Bool List Arith ZArith QArith Reals.
From Verif Require Import Num Py Series Masks DtwModel Dataset RList SoftModel PaaModel PreModel ClusterModel.
Import ListNotations.
Local Open Scope nat_scope.

(** numpy: [D ** 2], [cumsum], [minimum] (NaN propagates) *)
Definition squared (row : list xr) : list xr := map (fun v => xmul v v) row.
Fixpoint cumsum_from (acc : xr) (l : list xr) : list xr :=
  match l with [] => [] | x :: l => let a := xadd acc x in a :: cumsum_from a l end.
Definition cumsum (l : list xr) : list xr := cumsum_from (XR 0) l.
Definition xminimum (a b : xr) : xr := if xisnan a then a else if xisnan b then b else if xltb b a then b else a.
Definition minimum (a b : list xr) : list xr := map (fun p => xminimum (fst p) (snd p)) (combine a b).
(** numpy's [searchsorted(a, v)], side "left", on a sorted array (a cumulated sum of
    squares is one): the first index whose value is not below [v]; NaN counts as largest *)
Definition before (a v : xr) : bool := xltb a v || (negb (xisnan a) && xisnan v).
Fixpoint searchsorted (l : list xr) (v : xr) : nat :=
  match l with [] => 0 | a :: l => if before a v then S (searchsorted l v) else 0 end.
(** l.89: [2 + int(numpy.log(n_clusters))], for [n_clusters >= 1] *)
Definition n_local_trials (n_clusters : nat) : nat := 2 + Z.to_nat (Int_part (ln (INR n_clusters))).

Section KInit.
Variable cdist_metric : array3 -> array3 -> res (list (list xr)).
Variable X : array3.
Variable u : nat -> nat -> R.
Definition pick (i : nat) : series Xnum := nth i X [].
(** l.103-106: the candidates of a round *)
Definition candidates (c trials : nat) (closest : list xr) (pot : xr) : list nat :=
  map (fun t => Nat.min (searchsorted (cumsum closest) (xmul (XR (u c t)) pot)) (length closest - 1)) (seq 0 trials).
(** l.100-124: rounds [c .. c + more - 1]; result: the centres added *)
Fixpoint rounds (trials more c : nat) (closest : list xr) (pot : xr) : res (list (series Xnum)) :=
  match more with
  | O => Ok []
  | S more =>
    let ids := candidates c trials closest pot in
    do D <- cdist_metric (map pick ids) X ;;                                   (* l.109 *)
    let dist := map (fun row => minimum closest (squared row)) D in            (* l.112-114 *)
    let pots := map xsum dist in                                               (* l.115 *)
    let b := argmin pots in                                                    (* l.118 *)
    do rest <- rounds trials more (S c) (nth b dist []) (nth b pots XNaN) ;;   (* l.119-120 *)
    Ok (pick (nth b ids 0) :: rest)                                            (* l.121-124 *)
  end.
(** l.80-126.  [numpy.log(0)] is -inf and [int] of it an OverflowError; without a
    sample [randint(0)] is a ValueError. *)
Definition k_init_metric (n_clusters first : nat) : res (list (series Xnum)) :=
  match n_clusters with
  | O => Err OtherError
  | S more =>
    if length X =? 0 then Err ValueError
    else
      do D <- cdist_metric [pick first] X ;;                                   (* l.96 *)
      let closest := squared (hd [] D) in
      do rest <- rounds (n_local_trials n_clusters) more 1 closest (xsum closest) ;;
      Ok (pick first :: rest)
  end.
End KInit.

(** l.658-678: the two metrics.  [_cdist_soft_dtw] is metrics/_soft_dtw.py l.901-940 *)
Definition cdist_soft_rows (gamma : R) (g : gc_name) (r : option Z) (s : option Q) (X C : array3) : res (list (list xr)) :=
  do M <- cdist_soft_dtw_generic BNumpy X (Some C) gamma g r s Sequential ;;
  Ok (table (length X) (length C) M).
Definition kpp_dtw (gc : option gc_name) (r : option Z) (s : option Q) (X : array3) := k_init_metric (cdist_dtw_rows (name_or_none gc) r s) X.
Definition kpp_softdtw (gamma : R) (gc : option gc_name) (r : option Z) (s : option Q) (X : array3) :=
  k_init_metric (cdist_soft_rows gamma (name_or_none gc) r s) X.

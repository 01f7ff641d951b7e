(** Model of [silhouette_score] (tslearn/clustering/utils.py l.70-215) with the functions of
    scikit-learn it calls, modelled from their source (sklearn/metrics/cluster/_unsupervised.py):
    [silhouette_score], [silhouette_samples] and [_silhouette_reduce].
    Simplifications: scikit-learn's blocks of rows are independent and not modelled (with a
    callable metric, one block is assumed); arrays are of 64-bit floats, in exact arithmetic. *)
From Coq Require Import Bool List Arith ZArith QArith Reals.
From Verif Require Import Num Py Series DtwModel Dataset SoftModel GakModel PaaModel PreModel ClusterModel DbscanModel.
Import ListNotations.
Local Open Scope nat_scope.

Definition label_at (labels : list Z) (i : nat) : Z := nth i labels 0%Z.
(** [_silhouette_reduce]: [np.bincount(labels, weights=D[i])], here for the original labels:
    the encoding by [LabelEncoder] only renames them *)
Definition members (labels : list Z) (c : Z) : list nat := filter (fun j => Z.eqb (label_at labels j) c) (seq 0 (length labels)).
Definition clust_dist (D : mat xr) (labels : list Z) (i : nat) (c : Z) : xr := xsum (map (D i) (members labels c)).
Definition freq (labels : list Z) (c : Z) : nat := length (members labels c).
Definition classes (labels : list Z) : list Z := nodup Z.eq_dec labels.
(** [clust_dists.min(axis=1)] where the own cluster is infinite *)
Definition inter (D : mat xr) (labels : list Z) (i : nat) : xr :=
  fold_right (fun c m => if Z.eqb c (label_at labels i) then m
                         else let v := xdiv (clust_dist D labels i c) (XR (INR (freq labels c))) in
                              if xisnan v then v else if xltb v m then v else m) XInf (classes labels).
Definition intra (D : mat xr) (labels : list Z) (i : nat) : xr :=
  xdiv (clust_dist D labels i (label_at labels i)) (XR (INR (freq labels (label_at labels i)) - 1)).
(** [np.nan_to_num] *)
Definition dbl_max : R := (2 - / 2 ^ 52) * 2 ^ 1023.
Definition nan_to_num (x : xr) : xr :=
  match x with XNaN => XR 0 | XInf => XR dbl_max | XNInf => XR (- dbl_max) | XR _ => x end.
Definition sil_sample (D : mat xr) (labels : list Z) (i : nat) : xr :=
  let a := intra D labels i in let b := inter D labels i in
  nan_to_num (xdiv (xsub b a) (if xisnan a then a else if xisnan b then b else pymax (N:=Xnum) a b)).
(** [check_number_of_labels] and [np.mean(silhouette_samples(...))] *)
Definition label_count_ok (labels : list Z) : bool :=
  (1 <? length (classes labels)) && (length (classes labels) <? length labels).
Definition sil_mean (D : mat xr) (labels : list Z) : xr :=
  xdiv (xsum (map (sil_sample D labels) (seq 0 (length labels)))) (XR (INR (length labels))).

(** [check_X_y]: a non-empty matrix of finite numbers, one label per row *)
Definition finite_x (x : xr) : bool := match x with XR _ => true | _ => false end.
Definition check_X_y (X : list (list xr)) (labels : list Z) : bool :=
  negb (length X =? 0) && negb (length (hd [] X) =? 0) && forallb (forallb finite_x) X && (length X =? length labels).
Definition entry_of (X : list (list xr)) : mat xr := fun i j => nth j (nth i X []) XNaN.
(** the diagonal of a matrix of distances may differ from zero by 100 eps *)
Definition diag_tol : R := 100 * / 2 ^ 52.
Definition small (x : xr) : bool := match x with XR r => if Rle_dec (Rabs r) diag_tol then true else false | _ => false end.
(** [silhouette_samples] of a matrix of distances and the mean *)
Definition sil_precomputed (X : list (list xr)) (labels : list Z) : res xr :=
  let n := length X in let w := length (hd [] X) in
  if negb (check_X_y X labels) then Err ValueError
  else if negb (forallb (fun i => small (entry_of X i i)) (seq 0 (Nat.min n w))) then Err ValueError
  else if negb (label_count_ok labels) then Err ValueError
  else if negb (w =? n) then Err ValueError
  else if negb (forallb (forallb nonneg) X) then Err ValueError
  else Ok (sil_mean (entry_of X) labels).
(** [sample]: the first [sample_size] entries of a random permutation, if [sample_size] is given *)
Definition silhouette_precomputed (X : list (list xr)) (labels : list Z) (sample : option (list nat)) : res xr :=
  match sample with
  | None => sil_precomputed X labels
  | Some idx =>
      if negb (check_X_y X labels) then Err ValueError
      else if negb (forallb (fun i => i <? length (hd [] X)) idx) then Err IndexError
      else sil_precomputed (map (fun i => map (fun j => entry_of X i j) idx) idx) (map (label_at labels) idx)
  end.

(** l.180-188: metric "dtw" or None *)
Definition silhouette_dtw (ds : list (raw Xnum)) (labels : list Z) (g : gc_name) (radius : option Z) (slope : option Q) (j : jobs)
    (sample : option (list nat)) : res xr :=
  do M <- cdist_dtw (N:=Xnum) ds None g radius slope j ;;
  silhouette_precomputed (table (length ds) (length ds) M) labels sample.
(** l.189-191: metric "softdtw"; [n_jobs] is not handed over *)
Definition silhouette_softdtw (ds : list (raw Xnum)) (labels : list Z) (gamma : R) (g : gc_name) (radius : option Z) (slope : option Q)
    (sample : option (list nat)) : res xr :=
  do M <- cdist_soft_dtw_normalized BNumpy ds None gamma g radius slope Sequential Sequential ;;
  silhouette_precomputed (table (length ds) (length ds) M) labels sample.
(** l.192-195: metric "euclidean" *)
Definition silhouette_euclidean (ds : list (raw Xnum)) (labels : list Z) (sample : option (list nat)) : res xr :=
  do X <- to_dataset (N:=Xnum) ds ;;
  do M <- cdist_euclid X X ;;
  silhouette_precomputed M labels sample.
(** l.196-215: a callable metric with optional parameters of type [A].  [metric_params] is
    not used at l.202, [kwds] is handed to scikit-learn, which calls
    [sklearn_metric(x, y, **kwds)].  scikit-learn computes the pairs i < j and the diagonal. *)
Definition silhouette_callable {A} (ds : list (raw Xnum)) (labels : list Z) (metric : option A -> series Xnum -> series Xnum -> xr)
    (metric_params : option A) (kwds : option A) : res xr :=
  do X <- to_dataset (N:=Xnum) ds ;;
  if negb (check_X_y (map (fun s : series Xnum => @List.concat xr s) X) labels) then Err ValueError
  else if negb (label_count_ok labels) then Err ValueError
  else match kwds with
  | Some _ => Err TypeError
  | None =>
      let ts := fun i => to_time_series (N:=Xnum) true (Raw2 (nth i X [])) in
      Ok (sil_mean (fun i j => metric None (ts (Nat.min i j)) (ts (Nat.max i j))) labels)
  end.

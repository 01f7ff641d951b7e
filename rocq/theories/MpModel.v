(** Model of tslearn/matrix_profile/matrix_profile.py ([implementation="numpy"]) on the extended reals.  A dataset is the 3-d
    array of [check_array] and [check_dims], missing values are NaN.
    Not modelled: the stumpy back ends, [check_array] on other types. *)
From Coq Require Import Bool List Arith ZArith Reals.
From Verif Require Import Num Py Series Dataset RList SoftModel GakModel PaaModel PreModel.
Import ListNotations.
Local Open Scope nat_scope.

(** l.25-66 [_series_to_segments], one series: segment [i] holds the rows [i .. i + segment_size - 1].  Simplification: the array
    is contiguous, so that the strided view holds these rows. *)
Definition to_segments (s : series Xnum) (segment_size : nat) : array3 :=
  map (fun i => slice i (i + segment_size) s) (seq 0 (length s + 1 - segment_size)).
(** l.187, l.192 [TimeSeriesScalerMeanVariance().fit_transform(segments)] with the default arguments *)
Definition mp_scaler : mv_params := {| mv_mu := 0; mv_std := 1; mv_per_ts := true; mv_per_feat := true |}.
Definition mp_scale (segs : array3) : res array3 := do st <- mv_fit mp_scaler segs ;; mv_transform mp_scaler st segs.
(** l.195 [squareform(pdist(segments_2d, "euclidean"))]: scipy computes the pairs [i < j], mirrors them and puts 0 on the diagonal *)
Definition seg_dist (a b : series Xnum) : xr := xsqrt (xsum (sq_diffs a b)).
Definition square_dist (segs : array3) (i j : nat) : xr :=
  match Nat.compare i j with
  | Eq => XR 0
  | Lt => seg_dist (nth i segs []) (nth j segs [])
  | Gt => seg_dist (nth j segs []) (nth i segs []) end.
(** l.196-199: [numpy.tri(n, n, k)[i, j]] is [j <= i + k] *)
Definition np_tri (k : Z) (i j : nat) : bool := (Z.of_nat j <=? Z.of_nat i + k)%Z.
(** l.188 [int(np.ceil(subsequence_length / 4))] *)
Definition band_width (m : nat) : nat := (m + 3) / 4.
Definition band (m i j : nat) : bool :=
  let w := Z.of_nat (band_width m) in np_tri w i j && negb (np_tri (- (w + 1)) i j).
(** [numpy.min] of a non-empty array: NaN as soon as there is one *)
Definition np_min (l : list xr) : xr :=
  if existsb xisnan l then XNaN else fold_left (fun a b => if xltb b a then b else a) l XInf.
(** l.189-201, one series *)
Definition mp_series (scale : bool) (m : nat) (s : series Xnum) : res (list xr) :=
  let segs := to_segments s m in
  do segs <- (if scale then mp_scale segs else Ok segs) ;;
  let n := length segs in
  Ok (map (fun i => np_min (map (fun j => if band m i j then XInf else square_dist segs i j) (seq 0 n))) (seq 0 n)).
(** l.155-212 [_transform]: [np.empty] (l.164) refuses a negative size, [reshape] (l.194) a zero-sized segment.  Simplification:
    the case [subsequence_length = sz + 1] (no segment at all) is an error of scipy, here ValueError. *)
Definition mp_transform (scale : bool) (m : nat) (X : array3) : res (list (list xr)) :=
  if 1 <? arr_d X then Err OtherError (* NotImplementedError *)
  else if (m =? 0) || (arr_sz X <? m) then Err ValueError
  else mapM (mp_series scale m) X.

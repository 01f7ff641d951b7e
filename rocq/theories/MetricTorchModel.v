(** Model of tslearn/backend/pytorch_backend.py l.177-190 [pairwise_distances], of tslearn/metrics/_dtw.py l.602-636
    [dtw_path_from_metric] and of tslearn/metrics/dtw_variants.py l.1769-1812 [lcss_path_from_metric] with the PyTorch back end, a metric
    other than "precomputed" and tensors of dtype float64.  The matrix of a callable metric is made at l.185 by
    [torch.zeros(X.shape[0], Y.shape[0])], without a dtype: a float32 tensor, so each distance is rounded when it is stored, and the
    costs are accumulated in the dtype of the matrix (metrics/utils.py l.206).
    Simplified: the arithmetic on float64 is exact; no signed zero; the default dtype of torch is float32. *)
From Coq Require Import Bool List Arith ZArith QArith Reals.
From Verif Require Import Num Py Series Masks DtwModel VariantModel BackendModel SubTorchModel.
Import ListNotations.

Inductive metric :=
| Euclidean
| SqEuclidean
| Callable (f : list xr -> list xr -> xr)
| Named.                                        (* any other string *)
(** l.177-190; [kwds] tells whether the caller passes additional arguments: the function takes none *)
Definition torch_pairwise (m : metric) (kwds : bool) (X Y : series Xnum) : res (dtype * mat xr) :=
  if kwds then Err TypeError else
  match m with
  | Euclidean => Ok (F64, fun i j => xsqrt (sq_dists (N:=Xnum) X Y i j))
  | SqEuclidean => Ok (F64, fun i j => sq_dists (N:=Xnum) X Y i j)
  | Callable f => Ok (F32, fun i j => stored (f (nth i X []) (nth j Y [])))
  | Named => Err ValueError
  end.
(** _dtw.py l.602-636 *)
Definition torch_dtw_path_from_metric (m : metric) (kwds : bool) (x1 x2 : raw Xnum) (g : gc_name) (radius : option Z) (slope : option Q)
    : res (list (nat * nat) * xr) :=
  let s1 := to_time_series (N:=Xnum) true x1 in
  let s2 := to_time_series (N:=Xnum) true x2 in
  do code <- gc_code g ;;
  do mask <- compute_mask (length s1) (length s2) code radius slope ;;
  do D <- torch_pairwise m kwds s1 s2 ;;
  match fst D with
  | F32 => elastic_path_precomputed (N:=Snum) comb_dtw (length s1) (length s2) (snd D) g radius slope
  | F64 => elastic_path_precomputed (N:=Xnum) comb_dtw (length s1) (length s2) (snd D) g radius slope
  end.
(** dtw_variants.py l.1769-1812; the comparison with [eps] is exact in both dtypes *)
Definition torch_lcss_path_from_metric (fuel : nat) (m : metric) (kwds : bool) (x1 x2 : raw Xnum) (eps : xr) (g : gc_name) (radius : option Z) (slope : option Q)
    : res (option (list (nat * nat) * Q)) :=
  let s1 := to_time_series (N:=Xnum) true x1 in
  let s2 := to_time_series (N:=Xnum) true x2 in
  do code <- gc_code g ;;
  do mask <- compute_mask (length s1) (length s2) code radius slope ;;
  do D <- torch_pairwise m kwds s1 s2 ;;
  lcss_path_precomputed (N:=Xnum) false fuel (length s1) (length s2) (snd D) eps g radius slope.

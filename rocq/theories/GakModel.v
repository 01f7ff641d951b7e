(** Model of the global alignment kernel (tslearn/metrics/_gak.py) on the extended
    reals: exact arithmetic, exp and log on finite numbers. *)
From Coq Require Import Bool List Arith ZArith QArith Reals.
From Verif Require Import Num Py Series Masks DtwModel Dataset Fill SoftModel.
Import ListNotations.
Local Open Scope nat_scope.

(** IEEE division; the sign of a zero divisor is not modelled *)
Definition xdiv (a b : xr) : xr :=
  match b with
  | XR r => if Req_EM_T r 0 then
              match a with XR x => if Rltb 0 x then XInf else if Rltb x 0 then XNInf else XNaN | _ => a end
            else xdivr a r
  | XInf | XNInf => match a with XR _ => XR 0 | _ => XNaN end
  | XNaN => XNaN
  end.

(** l.248-250: gram = exp(g - log(2 - exp g)), g = -d/(2 sigma^2) *)
Definition gak_local (sigma : R) (d : xr) : xr :=
  let g := xdivr (xopp d) (2 * sigma * sigma) in
  let g := xsub g (xln (xsub (XR 2) (xexp g))) in
  xexp g.
(** l.265-274: bordered table of zeros with a one in the corner, row by row *)
Definition gak_init : mat xr := fun i j => match i, j with O, O => XR 1 | _, _ => XR 0 end.
Definition gak_cell (gram : mat xr) (cum : mat xr) (ci cj : nat) : xr :=
  xmul (xadd (xadd (cum (ci - 1) cj) (cum ci (cj - 1))) (cum (ci - 1) (cj - 1))) (gram (ci - 1) (cj - 1)).
Definition gak_from_gram (l1 l2 : nat) (gram : mat xr) : xr :=
  fill (gak_cell gram) (grid 1 l1 1 l2) gak_init l1 l2.
(** l.247-254 [_unnormalized_gak].  [backend.cdist] rejects different numbers of
    columns.  Simplification: an array without rows matches any number of columns. *)
Definition same_columns (s1 s2 : series Xnum) : bool :=
  match s1, s2 with [], _ | _, [] => true | _, _ => ncols s1 =? ncols s2 end.
Definition unnormalized_gak_ (s1 s2 : series Xnum) (sigma : R) : res xr :=
  if same_columns s1 s2 then
    Ok (gak_from_gram (length s1) (length s2) (fun i j => gak_local sigma (sq_dists (N:=Xnum) s1 s2 i j)))
  else Err ValueError.
(** l.237-244; the tolerance of [isclose(sigma, 0.0)] is relative only *)
Definition unnormalized_gak (x1 x2 : raw Xnum) (sigma : R) : res xr :=
  if is_zero sigma then Err ZeroDivisionError
  else unnormalized_gak_ (to_time_series (N:=Xnum) true x1) (to_time_series (N:=Xnum) true x2) sigma.
(** l.162-175 *)
Definition gak (x1 x2 : raw Xnum) (sigma : R) : res xr :=
  if is_zero sigma then Err ZeroDivisionError
  else
    let s1 := to_time_series (N:=Xnum) true x1 in
    let s2 := to_time_series (N:=Xnum) true x2 in
    do k11 <- unnormalized_gak_ s1 s1 sigma ;;
    do k22 <- unnormalized_gak_ s2 s2 sigma ;;
    let denom := xmul (xsqrt k11) (xsqrt k22) in
    do k12 <- unnormalized_gak_ s1 s2 sigma ;;
    Ok (xdiv k12 denom).

(** [diag(v)] and [A @ B] with inner dimension [n] *)
Definition diag_mat (v : nat -> xr) : mat xr := fun i j => if i =? j then v i else XR 0.
Definition matmul (n : nat) (A B : mat xr) : mat xr :=
  fun i j => fold_left xadd (map (fun k => xmul (A i k) (B k j)) (seq 0 n)) (XR 0).
(** l.361-427 [cdist_gak], [_cdist_gak]; the tasks of the three batches run under
    [j], [j1] and [j2] *)
Definition cdist_gak (ds1 : list (raw Xnum)) (ds2 : option (list (raw Xnum))) (sigma : R) (j j1 j2 : jobs)
  : res (mat xr) :=
  do d <- to_datasets ds1 ds2 ;;
  if is_zero sigma then Err ZeroDivisionError
  else
    do M <- cdist_generic (N:=Xnum) (fun s1 s2 => unnormalized_gak_ s1 s2 sigma) (fst d) (snd d) true j ;;
    let n1 := length (fst d) in
    match snd d with
    | None =>
        let D := diag_mat (fun i => xsqrt (xdiv (XR 1) (M i i))) in
        Ok (matmul n1 (matmul n1 D M) D)
    | Some d2 =>
        let self := fun s : series Xnum =>
          let t := to_time_series (N:=Xnum) true (Raw2 s) in unnormalized_gak_ t t sigma in
        do l <- run_jobs j1 self (fst d) ;;
        do r <- run_jobs j2 self d2 ;;
        let n2 := length d2 in
        let L := diag_mat (fun i => xdiv (XR 1) (xsqrt (nth i l XNaN))) in
        let Rt := diag_mat (fun i => xdiv (XR 1) (xsqrt (nth i r XNaN))) in
        Ok (matmul n2 (matmul n1 L M) Rt)
    end.

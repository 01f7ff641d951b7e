(** Model of tslearn/metrics/dtw_variants.py l.433-470 [_subsequence_cost_matrix], l.549-597 [_subsequence_path] and l.714-720
    [dtw_subsequence_path] with the PyTorch back end and tensors of dtype float64.  The table of accumulated costs is made at l.461
    by [be.full((l1 + 1, l2 + 1), be.inf)], without a dtype: [torch.full] then gives a tensor of the default dtype, float32.  So l.466
    rounds each local cost when it is stored, and l.467 adds in single precision.
    Simplified: the local costs themselves are exact (in the code they have the much smaller rounding errors of binary64); there is no
    signed zero; the default dtype of torch is float32 (it can be changed by [torch.set_default_dtype]); [torch.argmin] gives the first
    of several least values. *)
From Coq Require Import Bool List Arith ZArith Reals.
From Flocq Require Import Core.
From Verif Require Import Num Py Series DtwModel VariantModel BackendModel.
Import ListNotations.

(** a number stored in a float32 cell *)
Definition stored (x : xr) : xr :=
  match x with
  | XR r => if Rltb (Rabs (single r)) (bpow radix2 128) then XR (single r) else if Rltb 0 r then XInf else XNInf
  | _ => x
  end.
(** binary32: the exact result, stored *)
Definition Snum : num :=
  Num xr (fun a b => stored (xadd a b)) (fun a b => stored (xsub a b)) (fun a b => stored (xmul a b)) (fun a => stored (xsqrt a))
    xleb xltb (XR 0) XInf XNaN xisnan.
(** l.461-470 *)
Definition torch_subsequence_cost_matrix (q s : list (list xr)) : mat Snum :=
  sub_matrix (N:=Snum) (fun i j => stored (sq_dists (N:=Xnum) q s i j)) (length q) (length s).
(** l.714-720, l.549-597 *)
Definition torch_dtw_subsequence_path (xq xl : raw Xnum) : res (list (nat * nat) * xr) :=
  let q := to_time_series (N:=Xnum) true xq in
  let s := to_time_series (N:=Xnum) true xl in
  let l1 := length q in let l2 := length s in
  if l1 =? 0 then Err IndexError
  else if l2 =? 0 then Err IndexError                              (* torch.argmin of an empty tensor *)
  else
    let acc := torch_subsequence_cost_matrix q s in
    let e := argmin (N:=Snum) (map (acc (l1 - 1)) (seq 0 l2)) in
    match sub_backtrack (N:=Snum) (l1 + l2) acc (l1 - 1) e [(l1 - 1, e)] with
    | Some p => Ok (p, nsqrt (n:=Snum) (acc (l1 - 1) e))
    | None => Err OtherError
    end.

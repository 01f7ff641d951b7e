(** Model of the two scalers of tslearn/preprocessing/preprocessing.py (l.141-419) in binary64
    arithmetic, for one group of entries that are reduced together (for instance one feature of
    one series).  The same code with exact arithmetic, on whole arrays, is in PreModel. *)
From Coq Require Import Bool List Floats Uint63 ZArith Permutation.
From Verif Require Import Num.
Import ListNotations.
Local Open Scope float_scope.

Definition numbers_of (l : list float) : list float := filter (fun x => negb (is_nan x)) l.
(** [numpy.nanmin], [numpy.nanmax]; the sign of a zero is not specified by numpy, here the first one *)
Definition fnanmin (l : list float) : float :=
  match numbers_of l with [] => nan | x :: l' => fold_left (fun a b => if b <? a then b else a) l' x end.
Definition fnanmax (l : list float) : float :=
  match numbers_of l with [] => nan | x :: l' => fold_left (fun a b => if a <? b then b else a) l' x end.
(** l.265-268 *)
Definition fmm_value (lo hi mn mx x : float) : float :=
  let range_t := mx - mn in
  let range_t := if range_t =? 0 then 1 else range_t in
  let nomin := (x - mn) * (hi - lo) in
  nomin / range_t + lo.
(** l.254-269 for a group; [None]: ValueError *)
Definition fmm_group (lo hi : float) (l : list float) : option (list float) :=
  if hi <=? lo then None else Some (map (fmm_value lo hi (fnanmin l) (fnanmax l)) l).

(** numpy's sum adds the entries in an order that depends on the memory layout: any order *)
Inductive added : list float -> float -> Prop :=
| added_nil : added [] 0
| added_one x : added [x] x
| added_app l1 l2 l a b : added l1 a -> added l2 b -> Permutation l (l1 ++ l2) -> added l (a + b).
Section Sums.
Variable sum : list float -> float.
Definition fcount (l : list float) : float := of_uint63 (of_Z (Z.of_nat (length l))).
(** [numpy.nanmean] *)
Definition fnanmean (l : list float) : float := let g := numbers_of l in sum g / fcount g.
(** [numpy.nanstd] *)
Definition fnanstd (l : list float) : float :=
  let g := numbers_of l in
  let avg := fnanmean l in
  PrimFloat.sqrt (sum (map (fun x => (x - avg) * (x - avg)) g) / fcount g).
(** l.355-366 and l.407 *)
Definition fmv_value (mu std mean_ std_ x : float) : float := (x - mean_) * std / std_ + mu.
Definition fmv_group (mu std : float) (l : list float) : list float :=
  let mean_ := fnanmean l in
  let std_ := fnanstd l in
  let std_ := if std_ =? 0 then 1 else std_ in
  map (fmv_value mu std mean_ std_) l.
End Sums.

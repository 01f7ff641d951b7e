(** Model of LB_Keogh (tslearn/metrics/dtw_variants.py l.721-836) in binary64 arithmetic.  The same
    code with exact arithmetic is in LbModel.  Simplifications: as there, and [** 2] is the rounded
    product. *)
From Coq Require Import Bool List Floats Arith.
From Verif Require Import Num Py RList FloatScalerModel.
Import ListNotations.
Local Open Scope float_scope.

(** l.825-836 *)
Definition fwindow (ts : list float) (radius i : nat) : list float :=
  let sz := length ts in
  let min_idx := (i - radius)%nat in
  let max_idx := if (sz <? i + radius + 1)%nat then sz else (i + radius + 1)%nat in
  slice min_idx max_idx ts.
(** [numpy.min], [numpy.max] of a window without NaN: as [nanmin], [nanmax] *)
Definition flb_envelope (ts : list float) (radius : nat) : list float * list float :=
  (map (fun i => fnanmin (fwindow ts radius i)) (seq 0 (length ts)),
   map (fun i => fnanmax (fwindow ts radius i)) (seq 0 (length ts))).
Section Sum.
(** the order in which [numpy.linalg.norm] adds the squares *)
Variable sum : list float -> float.
Definition fnorm (l : list float) : float := PrimFloat.sqrt (sum (map (fun x => x * x) l)).
(** l.792-798 *)
Definition flb_keogh (q c : list float) (radius : nat) : res float :=
  let (down, up) := flb_envelope c radius in
  if negb (length q =? length c)%nat then Err (if ((length q =? 1) || (length c =? 1))%nat%bool then IndexError else ValueError)
  else
    let above := filter (fun p => snd p <? fst p) (combine q up) in
    let below := filter (fun p => fst p <? snd p) (combine q down) in
    let n1 := fnorm (map (fun p => fst p - snd p) above) in
    let n2 := fnorm (map (fun p => fst p - snd p) below) in
    Ok (PrimFloat.sqrt (n1 * n1 + n2 * n2)).
End Sum.

(** Model of LB_Keogh (tslearn/metrics/dtw_variants.py l.721-1000), on exact reals.
    Simplifications: the radius is a natural number; one feature column at a time
    (the loop over [di] treats the columns independently); series without NaN. *)
From Coq Require Import Reals List Arith.
From Verif Require Import Num Py RList.
Import ListNotations.
Local Open Scope R_scope.

(** l.825-836: window of index [i], clipped to the series *)
Definition env_window (ts : list R) (radius i : nat) : list R :=
  let sz := length ts in
  let min_idx := (i - radius)%nat in
  let max_idx := if (sz <? i + radius + 1)%nat then sz else (i + radius + 1)%nat in
  slice min_idx max_idx ts.
Definition lb_envelope (ts : list R) (radius : nat) : list R * list R :=
  (map (fun i => rmin (env_window ts radius i)) (seq 0 (length ts)),
   map (fun i => rmax (env_window ts radius i)) (seq 0 (length ts))).

Definition norm (l : list R) : R := sqrt (rsum (map (fun x => x * x) l)).
(** l.791-798.  Comparing arrays of different lengths fails (ValueError, or
    IndexError when one of them has length 1 and is broadcast). *)
Definition lb_keogh (q c : list R) (radius : nat) : res R :=
  let (down, up) := lb_envelope c radius in
  if negb (length q =? length c)%nat then Err (if ((length q =? 1) || (length c =? 1))%nat%bool then IndexError else ValueError)
  else
    let above := filter (fun p => Rltb (snd p) (fst p)) (combine q up) in
    let below := filter (fun p => Rltb (fst p) (snd p)) (combine q down) in
    let n1 := norm (map (fun p => fst p - snd p) above) in
    let n2 := norm (map (fun p => fst p - snd p) below) in
    Ok (sqrt (n1 * n1 + n2 * n2)).

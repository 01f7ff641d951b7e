(** Model of tslearn/metrics/soft_dtw_loss_pytorch.py on extended reals.
    Simplifications: torch's element-wise operations and the chain rule of autograd are
    taken by their documented meaning in exact arithmetic; devices and types are not
    modelled, in particular not the rounding to single precision by [torch.Tensor]
    (l.94, l.108); numba's [prange] runs independent iterations and is a [map]. *)
From Coq Require Import Bool List Arith ZArith QArith Reals.
From Verif Require Import Num Py Series Masks DtwModel Dataset Fill SoftModel GakModel PaaModel PreModel BaryModel SoftBaryModel.
Import ListNotations.
Local Open Scope nat_scope.

(** a tensor of shape [(length b_items, b_len, b_dim)] *)
Record batch : Type := mkBatch { b_len : nat; b_dim : nat; b_items : list (series Xnum) }.
(** a tensor of shape [(length d_mats, d_rows, d_cols)] *)
Record dist_tensor : Type := mkDist { d_rows : nat; d_cols : nat; d_mats : list (mat xr) }.

(** l.262-283 [_euclidean_squared_dist] *)
Definition euclidean_squared_dist (x y : batch) : dist_tensor :=
  mkDist (b_len x) (b_len y) (map (fun p => sq_dists (N:=Xnum) (fst p) (snd p)) (combine (b_items x) (b_items y))).

(** l.36-96 [_SoftDTWLossPyTorch.forward] with [_njit_soft_dtw_batch] (l.334-344): the
    values and the tensors [D] and [R] saved for the backward pass.  The first saved
    tensor is the argument [D] itself, in which l.90 has overwritten the entries
    outside the mask.  An empty table has no entry [-1, -1]. *)
Definition fn_forward (gamma : R) (code : nat) (radius : option Z) (slope : option Q) (D : dist_tensor)
  : res (list xr * (dist_tensor * list (mat xr))) :=
  let m := d_rows D in let n := d_cols D in
  do mask <- compute_mask m n code radius slope ;;
  let Ds := map (fun (A : mat xr) i j => if mask i j then A i j else XInf) (d_mats D) in
  let Rs := map (fun A => soft_acc0 gamma m n A mask) Ds in
  if (m =? 0) || (n =? 0) then Err IndexError
  else Ok (map (fun A : mat xr => A (m - 1) (n - 1)) Rs, (mkDist m n Ds, Rs)).

(** l.98-109 [_SoftDTWLossPyTorch.backward] with [_njit_soft_dtw_grad_batch]
    (l.347-353), where the gradient table starts with zeros *)
Definition fn_backward (gamma : R) (saved : dist_tensor * list (mat xr)) (grad_output : list xr) : list (mat xr) :=
  let D := fst saved in
  map (fun p i j => xmul (fst p)
        (soft_grad gamma (d_rows D) (d_cols D) (fst (snd p)) (snd (snd p)) (fun _ _ => XR 0) i j))
    (combine grad_output (combine (d_mats D) (snd saved))).

(** l.242-260: the attributes of a loss *)
Record loss : Type := mkLoss {
  l_gamma : R; l_normalize : bool; l_dist : batch -> batch -> dist_tensor;
  l_constraint : gc_name; l_radius : option Z; l_slope : option Q }.
(** l.305-311, 315-321, 322-328 *)
Definition loss_apply (L : loss) (D : dist_tensor) : res (list xr * (dist_tensor * list (mat xr))) :=
  do code <- gc_code (l_constraint L) ;;
  fn_forward (l_gamma L) code (l_radius L) (l_slope L) D.

(** l.285-331 [forward] *)
Definition loss_forward (L : loss) (x y : batch) : res (list xr) :=
  if negb (length (b_items x) =? length (b_items y)) then Err AssertionError
  else if negb (b_dim x =? b_dim y) then Err AssertionError
  else
    do xy <- loss_apply L (l_dist L x y) ;;
    if l_normalize L then
      do xx <- loss_apply L (l_dist L x x) ;;
      do yy <- loss_apply L (l_dist L y y) ;;
      Ok (map (fun p => xsub (fst p) (xmul (XR (/ 2)) (xadd (fst (snd p)) (snd (snd p)))))
            (combine (fst xy) (combine (fst xx) (fst yy))))
    else Ok (fst xy).

(** ** backward pass of [forward] with the default distance *)
(** gradient of [torch.pow(x - y, 2).sum(3)] (l.281-283) in its second argument; in the
    first one it is [jacobian_product] *)
Definition jacobian_product2 (d : nat) (X Y : series Xnum) (E : mat xr) : list (list xr) :=
  map (fun j => map (fun k =>
    fold_left (fun g i =>
        xsub g (xmul (xmul (E i j) (XR 2)) (xsub (nth k (nth i X []) XNaN) (nth k (nth j Y []) XNaN))))
      (seq 0 (length X)) (XR 0)) (seq 0 d)) (seq 0 (length Y)).
Definition zip3 {A B C} (a : list A) (b : list B) (c : list C) : list (A * (B * C)) := combine a (combine b c).
Definition add_all (a b : list (list (list xr))) : list (list (list xr)) := map (fun p => add_rows (fst p) (snd p)) (combine a b).
(** what autograd accumulates in [x.grad] and [y.grad] when [grad_output] arrives at the
    result of [forward]; the tensors [x] and [y] are different *)
Definition loss_backward (L : loss) (x y : batch) (grad_output : list xr)
  : res (list (list (list xr)) * list (list (list xr))) :=
  let d := b_dim x in
  let first a b Es := map (fun p => jacobian_product d (fst p) (fst (snd p)) (snd (snd p))) (zip3 (b_items a) (b_items b) Es) in
  let second a b Es := map (fun p => jacobian_product2 d (fst p) (fst (snd p)) (snd (snd p))) (zip3 (b_items a) (b_items b) Es) in
  do xy <- loss_apply L (euclidean_squared_dist x y) ;;
  let Exy := fn_backward (l_gamma L) (snd xy) grad_output in
  if l_normalize L then
    do xx <- loss_apply L (euclidean_squared_dist x x) ;;
    do yy <- loss_apply L (euclidean_squared_dist y y) ;;
    let half := map (fun w => xmul (XR (/ 2)) (xopp w)) grad_output in
    let Exx := fn_backward (l_gamma L) (snd xx) half in
    let Eyy := fn_backward (l_gamma L) (snd yy) half in
    Ok (add_all (first x y Exy) (add_all (first x x Exx) (second x x Exx)),
        add_all (second x y Exy) (add_all (first y y Eyy) (second y y Eyy)))
  else Ok (first x y Exy, second x y Exy).

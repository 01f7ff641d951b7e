(** Model of [sigma_gak] (tslearn/metrics/_gak.py l.73-96) with the PyTorch back end, on exact reals: [be.median] is [torch.median]
    (backend/pytorch_backend.py l.78), which returns the lower one of two middle entries; everything else is as in KernelModel
    ([be.pdist], pytorch_backend.py l.193-195, returns the same distances in the same order).  Simplification: [be.sqrt(sz)] is exact
    (torch computes it in float32). *)
From Coq Require Import Bool List Arith Reals.
From Verif Require Import Num Py RList KernelModel.
Import ListNotations.
Local Open Scope R_scope.

Definition torch_median (l : list R) : R := nth ((length l - 1) / 2) (sort_r l) 0.
Definition sigma_gak_torch (ds : list (list (list xr))) (idx : list nat) : res R :=
  let sz := match ds with s :: _ => length s | [] => 0%nat end in
  let pts := finite_points ds in
  match pts with
  | [] => Err ValueError
  | _ => Ok (torch_median (pdist (map (fun i => nth i pts []) idx)) * sqrt (INR sz))
  end.

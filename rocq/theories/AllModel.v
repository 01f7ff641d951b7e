(** Model of [PyTorchBackend.all], tslearn/backend/pytorch_backend.py l.89-104.  A tensor is a
    shape and a function from indices to entries; an entry is its truth value ([x.bool()]).
    Taken from PyTorch's documentation: [torch.all] over one dimension, its numbering of
    dimensions, [Tensor.ndim] is an integer.  The conversion of lists to tensors (l.90-91) is
    not represented. *)
From Coq Require Import Bool List Arith ZArith.
From Verif Require Import Py.
Import ListNotations.
Local Open Scope nat_scope.

Record tensor := { shape : list nat; item : list nat -> bool }.

(** all indices of a shape *)
Fixpoint indices (sh : list nat) : list (list nat) :=
  match sh with
  | [] => [[]]
  | n :: sh => flat_map (fun v => map (cons v) (indices sh)) (seq 0 n)
  end.
(** [x.all()] *)
Definition tensor_all (x : tensor) : tensor :=
  {| shape := []; item := fun _ => forallb (item x) (indices (shape x)) |}.
(** the dimension that an integer names; a scalar has the dimensions 0 and -1 *)
Definition dimension (n : nat) (axis : Z) : res nat :=
  let m := Z.of_nat (Nat.max n 1) in
  if ((- m <=? axis) && (axis <? m))%Z then Ok (Z.to_nat (if (axis <? 0)%Z then m + axis else axis)%Z) else Err IndexError.
(** [torch.all(x, axis)] *)
Definition torch_all (x : tensor) (axis : Z) : res tensor :=
  do a <- dimension (length (shape x)) axis ;;
  match shape x with
  | [] => Ok x
  | _ => Ok {| shape := firstn a (shape x) ++ skipn (S a) (shape x);
               item := fun ix => forallb (fun v => item x (firstn a ix ++ v :: skipn a ix)) (seq 0 (nth a (shape x) 0)) |}
  end.

Inductive axes := AxNone | AxInt (a : Z) | AxTuple (l : list Z).
(** the built-in [all], which the name [all] denotes inside the static method: two arguments
    are a TypeError *)
Definition builtin_all_2 (x : tensor) (axis : list Z) : res tensor := Err TypeError.
(** [axis[i_axis] = x.ndim() + one_axis], l.99-101: an integer is called *)
Fixpoint wrap_axes (l : list Z) : res (list Z) :=
  match l with
  | [] => Ok []
  | a :: l => if (a <? 0)%Z then Err TypeError else do l <- wrap_axes l ;; Ok (a :: l)
  end.
(** l.89-104 *)
Definition pytorch_all (x : tensor) (axis : axes) : res tensor :=
  match axis with
  | AxNone => Ok (tensor_all x)
  | AxInt a => torch_all x a
  | AxTuple [a] => torch_all x a
  | AxTuple l =>
      do l <- wrap_axes l ;;
      match l with
      | [] => Err IndexError                      (* [axis[0]] *)
      | a :: l => do y <- torch_all x a ;; builtin_all_2 y (map (fun k => if (0 <=? k)%Z then (k - 1)%Z else k) l)
      end
  end.

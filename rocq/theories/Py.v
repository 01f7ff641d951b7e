(** Python-level vocabulary shared by the models: exceptions as values, slices,
    matrices filled by loops, loops over index ranges. *)
From Coq Require Import Bool List Arith ZArith Lia.
Import ListNotations.

Inductive exn : Type :=
| ValueError | KeyError | IndexError | TypeError | AttributeError | AssertionError
| ZeroDivisionError | RuntimeWarningExn | NotFittedError | EmptyClusterError
| FileExistsError | UnboundLocalError | RuntimeError | OtherError.

Inductive res (A : Type) : Type := Ok (a : A) | Err (e : exn).
Arguments Ok {A} a. Arguments Err {A} e.

Definition bind {A B} (r : res A) (f : A -> res B) : res B :=
  match r with Ok a => f a | Err e => Err e end.
Notation "'do' x <- r ;; k" := (bind r (fun x => k))
  (at level 200, x pattern, r at level 100, k at level 200, right associativity).

(** A matrix a loop fills: a total function of the two indices.  Every model that
    reads or writes outside the allocated shape says so explicitly. *)
Definition mat (A : Type) : Type := nat -> nat -> A.
Definition upd {A} (m : mat A) (i j : nat) (v : A) : mat A :=
  fun i' j' => if (i' =? i) && (j' =? j) then v else m i' j'.

(** Membership of index [k] in the Python slice [lo:hi] of a sequence of length
    [sz]: negative bounds count from the end, out-of-range bounds are clipped. *)
Definition slice_bound (sz : nat) (b : Z) : Z :=
  if (b <? 0)%Z then Z.max 0 (b + Z.of_nat sz) else Z.min b (Z.of_nat sz).
Definition in_slice (sz : nat) (lo hi : Z) (k : nat) : bool :=
  ((slice_bound sz lo <=? Z.of_nat k) && (Z.of_nat k <? slice_bound sz hi))%Z.

(** [for i in range(n1): for j in range(n2)] *)
Definition row_major (n1 n2 : nat) : list (nat * nat) :=
  flat_map (fun i => map (fun j => (i, j)) (seq 0 n2)) (seq 0 n1).

(** [dict.get]-style lookup of the three constraint names accepted by
    GLOBAL_CONSTRAINT_CODE (tslearn/metrics/_masks.py l.10). *)
Inductive gc_name : Type := GcNone | GcEmpty | GcItakura | GcSakoeChiba | GcOther.
Definition gc_code (g : gc_name) : res nat :=
  match g with
  | GcNone => Ok 0 | GcEmpty => Ok 0 | GcItakura => Ok 1 | GcSakoeChiba => Ok 2
  | GcOther => Err KeyError
  end.

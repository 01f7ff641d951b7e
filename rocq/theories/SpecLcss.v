(** Specification of LCSS: chains of matching index pairs. *)
From Coq Require Import Bool List Arith ZArith QArith.
From Verif Require Import Spec.
Import ListNotations.
Local Open Scope nat_scope.

(** both indices increase *)
Definition before (a b : cell) : Prop := fst a < fst b /\ snd a < snd b.
(** a common subsequence of two series of lengths [n], [m]: index pairs increasing in
    both indices, each allowed by the constraint and matching *)
Definition chain (n m : nat) (ok : nat -> nat -> bool) (p : list cell) : Prop :=
  linked before p /\ forall i j, In (i, j) p -> i < n /\ j < m /\ ok i j = true.
(** [k] is the length of a longest one *)
Definition longest (n m : nat) (ok : nat -> nat -> bool) (k : nat) : Prop :=
  (exists p, chain n m ok p /\ length p = k) /\ (forall p, chain n m ok p -> length p <= k).

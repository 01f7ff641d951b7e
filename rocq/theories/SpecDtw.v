(** Which cells a call's constraint arguments allow, as documented. *)
From Coq Require Import Bool List Arith ZArith QArith.
From Verif Require Import Num Py Masks Spec.
Import ListNotations.

Definition or_default {A} (o : option A) (d : A) : A := match o with Some a => a | None => d end.

(** [constraint n m name radius slope allowed]: for series of lengths [n], [m] the
    arguments select the set [allowed] of cells.  The radius defaults to 1 and the
    slope to 2; radii are non-negative.  For an Itakura constraint, [allowed] is
    whatever the public function [itakura_mask] returns (see C15 and C16). *)
Definition constraint (n m : nat) (g : gc_name) (radius : option Z) (slope : option Q)
    (allowed : nat -> nat -> bool) : Prop :=
  match g with
  | GcNone | GcEmpty =>
      match radius, slope with
      | None, None => allowed = everywhere
      | Some r, None => (0 <= r)%Z /\ allowed = band n m r
      | None, Some s => itakura_mask n m s = Ok allowed
      | Some _, Some _ => False
      end
  | GcSakoeChiba => (0 <= or_default radius 1)%Z /\ allowed = band n m (or_default radius 1%Z)
  | GcItakura => itakura_mask n m (or_default slope 2%Q) = Ok allowed
  | GcOther => False
  end.

(** constraint arguments that do not involve the Itakura parallelogram *)
Definition not_itakura (g : gc_name) (slope : option Q) : Prop :=
  g <> GcItakura /\ (g = GcSakoeChiba \/ slope = None).

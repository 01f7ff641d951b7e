(** Specification vocabulary for alignments.  Nothing here mentions the models. *)
From Coq Require Import Bool List Arith ZArith.
From Verif Require Import Num.
Import ListNotations.

Definition cell : Type := (nat * nat)%type.

(** allowed moves of a warping path: (1,0), (0,1) or (1,1) *)
Definition move (a b : cell) : Prop :=
  (fst b = S (fst a) /\ snd b = snd a) \/
  (fst b = fst a /\ snd b = S (snd a)) \/
  (fst b = S (fst a) /\ snd b = S (snd a)).

(** consecutive elements are related *)
Fixpoint linked {A} (R : A -> A -> Prop) (p : list A) : Prop :=
  match p with
  | [] => True
  | a :: t => match t with [] => True | b :: _ => R a b /\ linked R t end
  end.

Definition first_is {A} (p : list A) (a : A) : Prop := nth_error p 0 = Some a.
Definition last_is {A} (p : list A) (a : A) : Prop := nth_error p (length p - 1) = Some a.

(** A warping path between series of lengths [n] and [m] whose cells all satisfy
    the global constraint [allowed]. *)
Definition warping_path (n m : nat) (allowed : nat -> nat -> bool) (p : list cell) : Prop :=
  first_is p (0, 0) /\ last_is p (n - 1, m - 1) /\ linked move p /\
  (forall i j, In (i, j) p -> allowed i j = true).

(** Cost of a path: combine the local costs from the first cell to the last,
    starting from 0.  [op := nadd] is the DTW cost, [op := nmax] the Frechet cost. *)
Definition path_cost {N : num} (op : N -> N -> N) (D : nat -> nat -> N) (p : list cell) : N :=
  fold_left (fun acc c => op (D (fst c) (snd c)) acc) p nzero.
Definition nmax {N : num} (a b : N) : N := if nleb a b then b else a.

(** [v] is the least cost over a set of paths, [ninf] if the set is empty. *)
Definition least_cost {N : num} (paths : list cell -> Prop) (cost : list cell -> N) (v : N) : Prop :=
  (forall p, paths p -> nleb v (cost p) = true) /\
  ((exists p, paths p /\ cost p = v) \/ ((forall p, ~ paths p) /\ v = ninf)).

(** squared Euclidean distance of two feature vectors *)
Definition sq_euclid {N : num} (x y : list N) : N :=
  fold_left nadd (map (fun p => nmul (nsub (fst p) (snd p)) (nsub (fst p) (snd p))) (combine x y)) nzero.
(** local cost matrix of two series *)
Definition local_costs {N : num} (s1 s2 : list (list N)) (i j : nat) : N :=
  sq_euclid (nth i s1 []) (nth j s2 []).

(** a series of finite numbers with [d >= 1] features *)
Definition finite_series {N : num} (fin : N -> Prop) (d : nat) (s : list (list N)) : Prop :=
  0 < d /\ s <> [] /\ forall r, In r s -> length r = d /\ (forall x, In x r -> fin x).

(** The Sakoe-Chiba band of radius [r] for series of lengths [n] and [m]: the
    offset [j - i] may exceed the offsets between 0 and [m - n] by at most [r]. *)
Definition band (n m : nat) (r : Z) (i j : nat) : bool :=
  let off := (Z.of_nat j - Z.of_nat i)%Z in
  let diff := (Z.of_nat m - Z.of_nat n)%Z in
  ((Z.min 0 diff - r <=? off) && (off <=? Z.max 0 diff + r))%Z.

Definition everywhere : nat -> nat -> bool := fun _ _ => true.

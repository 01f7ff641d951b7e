(** Model of tslearn/generators/generators.py in exact arithmetic.  A numpy RandomState is the
    sequence of the normal numbers it will return and the number of those already returned. *)
From Coq Require Import List Arith Reals.
From Verif Require Import Py.
Import ListNotations.
Local Open Scope R_scope.

Record random_state := mkState { normals : nat -> R; drawn : nat }.
(** [rs.randn(n, sz, d)], filled in C order *)
Definition randn (rs : random_state) (n sz d : nat) : list (list (list R)) * random_state :=
  (map (fun i => map (fun t => map (fun k => normals rs (drawn rs + ((i * sz + t) * d + k))%nat) (seq 0 d)) (seq 0 sz)) (seq 0 n),
   mkState (normals rs) (drawn rs + n * sz * d)).
(** [a * std + mu] *)
Definition affine (std mu : R) (a : list (list (list R))) : list (list (list R)) := map (map (map (fun z => z * std + mu))) a.
(** l.51-53: the rows of one series; the loops over the series are independent *)
Definition add_row (a b : list R) : list R := map (fun p => fst p + snd p) (combine a b).
Definition walk (rnd : list (list R)) : list (list R) :=
  fold_left (fun ts t => ts ++ [add_row (nth (t - 1) ts []) (nth t rnd [])]) (seq 1 (length rnd - 1)) [nth 0 rnd []].
(** l.7-54 [random_walks]; without a time step, [ts[:, 0, :]] is out of bounds *)
Definition random_walks (n_ts sz d : nat) (mu std : R) (rs : random_state) : res (list (list (list R)) * random_state) :=
  let (z, rs) := randn rs n_ts sz d in
  let rnd := affine std mu z in
  if (sz =? 0)%nat then Err IndexError else Ok (map walk rnd, rs).
(** [numpy.repeat(a, repeats, axis=0)] *)
Definition repeat_each {A} (repeats : nat) (a : list A) : list A := flat_map (fun x => repeat x repeats) a.
Definition add_series (a b : list (list R)) : list (list R) := map (fun p => add_row (fst p) (snd p)) (combine a b).
(** l.57-112 [random_walk_blobs] *)
Definition random_walk_blobs (n_ts_per_blob sz d n_blobs : nat) (noise_level : R) (rs : random_state)
  : res (list (list (list R)) * list nat * random_state) :=
  do r <- random_walks n_blobs sz d 0 1 rs ;;
  let (base_ts, rs) := r : list (list (list R)) * random_state in
  let (z, rs) := randn rs (n_ts_per_blob * n_blobs) sz d in
  let rnd := map (map (map (fun x => x * noise_level))) z in
  let ts := repeat_each n_ts_per_blob base_ts in
  let y := repeat_each n_ts_per_blob (seq 0 n_blobs) in
  Ok (map (fun p => add_series (fst p) (snd p)) (combine ts rnd), y, rs).

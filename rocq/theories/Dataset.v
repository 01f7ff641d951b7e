(** Model of [to_time_series_dataset] (tslearn/utils/utils.py) and of
    [_cdist_generic] (tslearn/metrics/utils.py) with its DTW/Frechet callers. *)
From Coq Require Import Bool List Arith ZArith QArith.
From Verif Require Import Num Py Series Masks DtwModel.
Import ListNotations.
Local Open Scope nat_scope.

(** [map] in the exception monad: list comprehensions and loops that append *)
Fixpoint mapM {A B} (f : A -> res B) (l : list A) : res (list B) :=
  match l with
  | [] => Ok []
  | a :: l' => do b <- f a ;; do r <- mapM f l' ;; Ok (b :: r)
  end.

Section WithNum.
Variable N : num.

(** numpy assignment of a row of [k] values to a slice of [d] values: equal sizes
    are copied, a single value is broadcast, anything else is a ValueError. *)
Definition broadcast_row (d : nat) (row : list N) : res (list N) :=
  if length row =? d then Ok row
  else match row with [x] => Ok (repeat x d) | _ => Err ValueError end.

(** [to_time_series(ts).shape[1]]: 1 for a 1-d input; for a 2-d input the number
    of columns.  Simplification: a 2-d array with no row is given 0 columns. *)
Definition raw_ncols (x : raw N) : nat := match x with Raw1 _ => 1 | Raw2 l => ncols l end.

(** utils.py l.262-286 on a Python list of array-likes.  A flat list of numbers is
    wrapped as [[dataset]] by the code (l.274), i.e. it is [[Raw1 dataset]] here.
    An empty list gives the (0,0,0) array, here []. *)
Definition padded (d max_sz : nat) (x : raw N) : res (series N) :=
  let ts := to_time_series true x in
  do rows <- mapM (broadcast_row d) ts ;;
  Ok (rows ++ repeat (repeat nnan d) (max_sz - length ts)).
Definition max_size (ds : list (raw N)) : nat :=
  fold_left Nat.max (map (fun x => ts_size (reshape x)) ds) 0.
Definition to_dataset (ds : list (raw N)) : res (list (series N)) :=
  match ds with
  | [] => Ok []
  | x0 :: _ => mapM (padded (raw_ncols x0) (max_size ds)) ds
  end.

(** ** metrics/utils.py l.57-189 [_cdist_generic] *)
(** loop order [for i in range(n) for j in range(i or i+1, n)], which is also the
    order of [triu_indices] *)
Definition triu (n : nat) (diag : bool) : list (nat * nat) :=
  flat_map (fun i => let st := if diag then i else S i in map (fun j => (i, j)) (seq st (n - st))) (seq 0 n).
Definition tril1 (n : nat) : list (nat * nat) :=
  flat_map (fun i => map (fun j => (i, j)) (seq 0 i)) (seq 0 n).
(** [matrix[indices] = values] *)
Definition assign {A} (m : mat A) (idx : list (nat * nat)) (vals : list A) : mat A :=
  fold_left (fun m p => upd m (fst (fst p)) (snd (fst p)) (snd p)) (combine idx vals) m.

(** joblib.Parallel: the tasks run in an arbitrary order [sched] (a permutation of
    the task numbers); each stores its result in its own slot; the result list is
    in task order.  The first failing task in the schedule aborts the call. *)
Definition slots (A : Type) : Type := nat -> option A.
Fixpoint run_tasks {A} (task : nat -> res A) (sched : list nat) (st : slots A) : res (slots A) :=
  match sched with
  | [] => Ok st
  | k :: sched' =>
      do v <- task k ;; run_tasks task sched' (fun k' => if k' =? k then Some v else st k')
  end.
Fixpoint collect {A} (st : slots A) (n : nat) : option (list A) :=
  match n with
  | O => Some []
  | S n' => match collect st n', st n' with Some l, Some v => Some (l ++ [v]) | _, _ => None end
  end.
Definition parallel {A B} (f : A -> res B) (args : list A) (sched : list nat) : res (list B) :=
  do st <- run_tasks (fun k => match nth_error args k with Some a => f a | None => Err IndexError end)
                     sched (fun _ => None) ;;
  match collect st (length args) with Some l => Ok l | None => Err OtherError end.

(** how the list of results is produced: sequentially ([n_jobs] in [None, 1]) or by
    joblib under some schedule *)
Inductive jobs : Type := Sequential | Threads (sched : list nat).
Definition run_jobs {A B} (j : jobs) (f : A -> res B) (args : list A) : res (list B) :=
  match j with Sequential => mapM f args | Threads sched => parallel f args sched end.

Definition cdist_self {A} (dist : A -> A -> res N) (ds : list A) (def : A) (compute_diagonal : bool) (j : jobs)
  : res (mat N) :=
  let n := length ds in
  let idx := triu n compute_diagonal in
  do vals <- run_jobs j (fun ij => dist (nth (fst ij) ds def) (nth (snd ij) ds def)) idx ;;
  let m := assign (fun _ _ => nzero) idx vals in
  Ok (assign m (tril1 n) (map (fun ij => m (snd ij) (fst ij)) (tril1 n))).
Definition cdist_cross {A} (dist : A -> A -> res N) (ds1 ds2 : list A) (def : A) (j : jobs) : res (mat N) :=
  let n1 := length ds1 in let n2 := length ds2 in
  do vals <- run_jobs j (fun ij => dist (nth (fst ij) ds1 def) (nth (snd ij) ds2 def)) (row_major n1 n2) ;;
  Ok (fun i k => nth (i * n2 + k) vals nzero).          (* reshape(n1, n2) *)

Definition cdist_generic (dist : series N -> series N -> res N) (ds1 : list (series N))
    (ds2 : option (list (series N))) (compute_diagonal : bool) (j : jobs) : res (mat N) :=
  let strip := fun s : series N => to_time_series true (Raw2 s) in
  let dist' := fun a b => dist (strip a) (strip b) in
  match ds2 with
  | None => cdist_self dist' ds1 [] compute_diagonal j
  | Some ds2 => cdist_cross dist' ds1 ds2 [] j
  end.

(** common front end: cdist_dtw l.752-766 / cdist_frechet: both datasets are
    converted; no validation of emptiness or of matching feature sizes. *)
Definition cdist_elastic (comb : N -> N -> N) (code : res nat) (ds1 : list (raw N))
    (ds2 : option (list (raw N))) (radius : option Z) (slope : option Q) (j : jobs) : res (mat N) :=
  do d1 <- to_dataset ds1 ;;
  do d2 <- match ds2 with None => Ok None | Some ds2 => do d2 <- to_dataset ds2 ;; Ok (Some d2) end ;;
  do c <- code ;;
  cdist_generic (fun s1 s2 => elastic_generic comb s1 s2 c radius slope) d1 d2 false j.

(** _dtw.py l.779-793: the name is translated by GLOBAL_CONSTRAINT_CODE. *)
Definition cdist_dtw ds1 ds2 (g : gc_name) radius slope j :=
  cdist_elastic comb_dtw (gc_code g) ds1 ds2 radius slope j.
(** _frechet.py l.780-804: the name itself (or None) is passed where the mask
    computation expects a code; it equals none of 0, 1, 2.  The value 3 stands for
    any such object. *)
Definition raw_name_as_code (g : gc_name) : res nat := Ok 3.
Definition cdist_frechet ds1 ds2 (g : gc_name) radius slope j :=
  cdist_elastic comb_frechet (raw_name_as_code g) ds1 ds2 radius slope j.
End WithNum.
Arguments broadcast_row {N}. Arguments raw_ncols {N}. Arguments padded {N}. Arguments max_size {N}.
Arguments to_dataset {N}. Arguments cdist_self {N A}. Arguments cdist_cross {N A}.
Arguments cdist_generic {N}. Arguments cdist_elastic {N}. Arguments cdist_dtw {N}. Arguments cdist_frechet {N}.

(** Model of tslearn/utils/utils.py: time series as 2-d arrays. *)
From Coq Require Import Bool List Arith.
From Verif Require Import Num Py.
Import ListNotations.

(** A 2-d array [sz x d]: list of rows. *)
Definition series (N : num) : Type := list (list N).

(** What a user may pass: a 1-d or a 2-d array-like. *)
Inductive raw (N : num) : Type := Raw1 (l : list N) | Raw2 (l : list (list N)).
Arguments Raw1 {N} l. Arguments Raw2 {N} l.

(** [backend.all(backend.isnan(row))] *)
Definition nan_row {N : num} (r : list N) : bool := forallb nisnan r.

(** utils.py l.511-518 [_ts_size]: strip all-NaN rows from the end.  The loop
    [while sz > 0 and all(isnan(ts[sz-1]))] walks the reversed row list. *)
Fixpoint skip_nan {N : num} (rv : list (list N)) : list (list N) :=
  match rv with
  | [] => []
  | r :: rv' => if nan_row r then skip_nan rv' else rv
  end.
Definition ts_size {N : num} (ts : series N) : nat := length (skip_nan (rev ts)).

(** utils.py l.204-212 [_to_time_series]: 1-d input becomes one column; with
    [remove_nans] the rows beyond [_ts_size] are dropped. *)
Definition reshape {N : num} (x : raw N) : series N :=
  match x with Raw1 l => map (fun v => [v]) l | Raw2 l => l end.
Definition to_time_series {N : num} (remove_nans : bool) (x : raw N) : series N :=
  let ts := reshape x in
  if remove_nans then firstn (ts_size ts) ts else ts.

(** [ts.shape[1]] of a non-empty 2-d array *)
Definition ncols {N : num} (ts : series N) : nat := length (hd [] ts).

(** well-formed array: all rows have the same length *)
Definition rect {N : num} (d : nat) (ts : series N) : Prop :=
  Forall (fun r => length r = d) ts.

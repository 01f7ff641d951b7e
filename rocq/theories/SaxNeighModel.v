(** Model of the "sax" metric of the nearest-neighbour estimators, tslearn/neighbors/neighbors.py.
    Simplifications: the datasets are the arrays after [check_array], [to_time_series_dataset] and [check_dims] (all
    series of one shape); [metric_params] holds the three parameters of [_sax_preprocess] and nothing else; the
    attributes [metric] and [_ts_metric] are those of NeighModel.v and left out here. *)
From Coq Require Import Bool List Arith Reals.
From Verif Require Import Num Py Series Dataset PaaModel.
Import ListNotations.
Local Open Scope nat_scope.

(** the parameters of [_sax_preprocess], l.31-32 *)
Record sax_params := { sp_segments : nat; sp_alphabet : nat; sp_scale : bool }.
Definition sax_defaults : sax_params := {| sp_segments := 10; sp_alphabet := 4; sp_scale := false |}.

(** [self._ts_fit]: integers after [_sax_preprocess], numbers otherwise *)
Inductive stored := Symbols (T : list (list (list nat))) | Raw (X : array3).
(** [self._sax] (only its parameters outlive a call, the rest is recomputed by [fit_transform]) and [self._ts_fit];
    [None]: no such attribute *)
Record sn_state := { sn_sax : option sax_params; sn_ts_fit : option stored }.
Definition sn_new : sn_state := {| sn_sax := None; sn_ts_fit := None |}.

(** l.31-42: [self._sax] is created when missing, and fitted to [X] in every call *)
Definition the_sax (p : sax_params) (s : sn_state) : sax_params := match sn_sax s with None => p | Some q => q end.
Definition keep_sax (p : sax_params) (s : sn_state) : sn_state := {| sn_sax := Some (the_sax p s); sn_ts_fit := sn_ts_fit s |}.
(** piecewise.py l.385-400 [fit_transform] *)
Definition sax_fit_transform (ppf : R -> R) (p : sax_params) (X : array3) : res (sax_state * list (list (list nat))) :=
  do st <- sax_fit ppf (sp_segments p) (sp_alphabet p) (sp_scale p) X ;;
  do T <- sax_transform_ st X ;; Ok (st, T).
Definition sax_preprocess (ppf : R -> R) (p : sax_params) (s : sn_state) (X : array3) : sn_state * res (sax_state * list (list (list nat))) :=
  let s := keep_sax p s in (s, sax_fit_transform ppf (the_sax p s) X).

(** [fit]: KNeighborsTimeSeriesClassifier l.539-581 transforms the training series, KNeighborsTimeSeriesRegressor
    l.700-735 does not *)
Inductive sn_class := SClassifier | SRegressor.
Definition sn_fit (ppf : R -> R) (c : sn_class) (p : sax_params) (s : sn_state) (X : array3) : sn_state * res unit :=
  let s := {| sn_sax := sn_sax s; sn_ts_fit := Some (Raw X) |} in
  match c with
  | SRegressor => (s, Ok tt)
  | SClassifier =>
      match sax_preprocess ppf p s X with
      | (s, Ok (_, T)) => ({| sn_sax := sn_sax s; sn_ts_fit := Some (Symbols T) |}, Ok tt)
      | (s, Err e) => (s, Err e)
      end
  end.

(** metrics/sax.py l.85-106 [_cdist_sax] with a second dataset.  [cydist_sax] is compiled by numba for the types of its
    arguments; with an array of floats the breakpoints are indexed by a float, which is a typing error. *)
Definition cdist_sax (T : list (list (list nat))) (bps : list R) (original_size : nat) (other : stored) : res (list (list R)) :=
  match other with
  | Symbols U => mapM (fun t => mapM (fun u => cydist_sax t u bps original_size) U) T
  | Raw _ => Err OtherError
  end.
(** l.58-99 [_precompute_cross_dist] for "sax", with [other_X] the attribute [_ts_fit] *)
Definition sn_cross (ppf : R -> R) (p : sax_params) (s : sn_state) (Q : array3) : sn_state * res (list (list R)) :=
  match sn_ts_fit s with
  | None => (s, Err AttributeError)
  | Some other =>
      match sax_preprocess ppf p s Q with
      | (s, Ok (st, T)) => (s, cdist_sax T (s_bp st) (p_sz (s_paa st)) other)
      | (s, Err e) => (s, Err e)
      end
  end.
(** last dimension of [self._ts_fit] *)
Definition stored_features (t : stored) : nat :=
  match t with Symbols T => length (hd [] (hd [] T)) | Raw X => arr_d X end.
(** the distances behind [predict] and [predict_proba]: [_predict_generic], l.204-226 *)
Definition sn_predict_distances (ppf : R -> R) (p : sax_params) (s : sn_state) (Q : array3) : sn_state * res (list (list R)) :=
  match sn_ts_fit s with
  | None => (s, Err NotFittedError)
  | Some other =>
      match check_features (stored_features other) Q with
      | Ok _ => sn_cross ppf p s Q
      | Err e => (s, Err e)
      end
  end.

(** Model of tslearn/neural_network/neural_network.py: the attributes of TimeSeriesMLPClassifier and
    TimeSeriesMLPRegressor (the same code) through histories of [fit], [partial_fit], [predict].
    sklearn's perceptron is a parameter (what it learns from a 2-d array and targets, starting from nothing or from its
    weights, and what it answers); the validation around it is modelled from sklearn's source:
    [_fit] takes a first pass when it has no weights or neither [warm_start] nor [partial_fit] is used; a first pass sets
    [n_features_in_] to the number of columns, another one compares them and raises ValueError; weights of another
    number of inputs raise ValueError in the matrix product.  Simplifications: [partial_fit] exists (solver not lbfgs),
    training does not raise otherwise. *)
From Coq Require Import Bool List Arith.
From Verif Require Import Py.
Import ListNotations.

Record perceptron (A Y W O : Type) := { finite : A -> bool; learn : option W -> list (list A) -> Y -> W; infer : W -> list (list A) -> O }.
Arguments finite {A Y W O} _ _. Arguments learn {A Y W O} _ _ _ _. Arguments infer {A Y W O} _ _ _.

(** arguments: 2-d or 3-d arrays *)
Inductive input (A : Type) := In2 (X : list (list A)) | In3 (X : list (list (list A))).
Arguments In2 {A} _. Arguments In3 {A} _.
Definition dim1 {A} (X : list (list (list A))) : nat := length (hd [] X).
Definition dim2 {A} (X : list (list (list A))) : nat := length (hd [] (hd [] X)).
(** as a 3-d array of one feature: [to_time_series_dataset] in [fit] (nothing to strip or pad: every value is finite) and
    [check_dims(extend=True)], utils.py l.125-131 *)
Definition extend {A} (X : input A) : list (list (list A)) :=
  match X with In2 X => map (map (fun v => [v])) X | In3 X => X end.
(** utils [check_array(X, force_all_finite=True, allow_nd=True)]: a rectangular non-empty array of finite values.
    Simplification: arrays with a zero dimension are all rejected. *)
Definition check_input {A Y W O} (P : perceptron A Y W O) (X : input A) : res (list (list (list A))) :=
  let X := extend X in
  if (negb (length X =? 0) && negb (dim1 X =? 0) && negb (dim2 X =? 0) &&
      forallb (fun s => (length s =? dim1 X) && forallb (fun r => (length r =? dim2 X) && forallb (finite P) r) s) X)%bool
  then Ok X else Err ValueError.
(** [X_.reshape((X_.shape[0], -1))] *)
Definition flat {A} (X : list (list (list A))) : list (list A) := map (@List.concat A) X.
Definition ncolumns {A} (X : list (list A)) : nat := length (hd [] X).

(** attributes [_X_fit_dims] (without the number of series), [n_features_in_], [coefs_] with its number of inputs *)
Record mlp (W : Type) := { m_dims : option (nat * nat); m_nfeat : option nat; m_coefs : option (W * nat) }.
Arguments m_dims {W} _. Arguments m_nfeat {W} _. Arguments m_coefs {W} _.
Definition mlp_new {W} : mlp W := {| m_dims := None; m_nfeat := None; m_coefs := None |}.
Definition set_dims {W} (v : nat * nat) (s : mlp W) : mlp W := {| m_dims := Some v; m_nfeat := m_nfeat s; m_coefs := m_coefs s |}.
Definition set_nfeat {W} (v : option nat) (s : mlp W) : mlp W := {| m_dims := m_dims s; m_nfeat := v; m_coefs := m_coefs s |}.
Definition set_coefs {W} (v : W * nat) (s : mlp W) : mlp W := {| m_dims := m_dims s; m_nfeat := m_nfeat s; m_coefs := Some v |}.

(** sklearn [_fit]; [y_ok]: the targets pass validation, which comes before the number of features *)
Definition sk_fit {A Y W O} (P : perceptron A Y W O) (continue y_ok : bool) (X : list (list A)) (y : Y) (s : mlp W) : mlp W * res unit :=
  if negb y_ok then (s, Err ValueError)
  else match m_coefs s with
    | Some (w, width) =>
        if continue then
          if negb (match m_nfeat s with Some n => n =? ncolumns X | None => true end) then (s, Err ValueError)
          else if negb (width =? ncolumns X) then (s, Err ValueError)
          else (set_coefs (learn P (Some w) X y, width) s, Ok tt)
        else (set_coefs (learn P None X y, ncolumns X) (set_nfeat (Some (ncolumns X)) s), Ok tt)
    | None => (set_coefs (learn P None X y, ncolumns X) (set_nfeat (Some (ncolumns X)) s), Ok tt)
    end.
(** sklearn [predict]: the number of features is compared, then the weights are used *)
Definition sk_predict {A Y W O} (P : perceptron A Y W O) (X : list (list A)) (s : mlp W) : res O :=
  if negb (match m_nfeat s with Some n => n =? ncolumns X | None => true end) then Err ValueError
  else match m_coefs s with
    | None => Err AttributeError
    | Some (w, width) => if width =? ncolumns X then Ok (infer P w X) else Err ValueError
    end.
(** bases.py l.55-63 [_patch_attribute("n_features_in_", v)]: the old value comes back whatever happens; AttributeError
    when there is none *)
Definition patched {W B} (v : nat) (body : mlp W -> mlp W * res B) (s : mlp W) : mlp W * res B :=
  match m_nfeat s with
  | None => (s, Err AttributeError)
  | Some old => let '(t, r) := body (set_nfeat (Some v) s) in (set_nfeat (Some old) t, r)
  end.
(** utils.py l.120-151 [check_dims(X_, self._X_fit_dims, extend=True)] on the extended array *)
Definition check_same {A W} (X : list (list (list A))) (s : mlp W) : res unit :=
  match m_dims s with
  | None => Err AttributeError
  | Some (sz, d) => if (dim1 X =? sz) && (dim2 X =? d) then Ok tt else Err ValueError
  end.

(** l.39-60 and 159-180 *)
Definition mlp_fit {A Y W O} (P : perceptron A Y W O) (warm_start y_ok : bool) (X : input A) (y : Y) (s : mlp W) : mlp W * res unit :=
  match check_input P X with
  | Err e => (s, Err e)
  | Ok X =>
      let s := set_dims (dim1 X, dim2 X) s in
      match sk_fit P warm_start y_ok (flat X) y s with
      | (s, Ok _) => (set_nfeat (Some (dim2 X)) s, Ok tt)
      | (s, Err e) => (s, Err e)
      end
  end.
(** l.62-90 and 182-210 *)
Definition mlp_partial_fit {A Y W O} (P : perceptron A Y W O) (y_ok : bool) (X : input A) (y : Y) (s : mlp W) : mlp W * res unit :=
  match check_input P X with
  | Err e => (s, Err e)
  | Ok X =>
      let prepared := match m_dims s with
        | Some _ => match check_same X s with Ok _ => Ok s | Err e => Err e end
        | None => Ok (set_nfeat (Some (dim2 X)) (set_dims (dim1 X, dim2 X) s))
        end in
      match prepared with
      | Err e => (s, Err e)
      | Ok s => patched (ncolumns (flat X)) (sk_fit P true y_ok (flat X) y) s
      end
  end.
(** l.92-110, 112-130, 212-230 ([predict_proba] is the same with another answer).  [check_is_fitted(self)] asks for an
    attribute ending with "_": [n_features_in_] or [coefs_]. *)
Definition mlp_predict {A Y W O} (P : perceptron A Y W O) (X : input A) (s : mlp W) : mlp W * res O :=
  match m_nfeat s, m_coefs s with
  | None, None => (s, Err NotFittedError)
  | _, _ =>
      match check_input P X with
      | Err e => (s, Err e)
      | Ok X =>
          match check_same X s with
          | Err e => (s, Err e)
          | Ok _ => patched (ncolumns (flat X)) (fun s => (s, sk_predict P (flat X) s)) s
          end
      end
  end.

(** histories *)
Inductive mlp_call (A Y : Type) := MFit (y_ok : bool) (X : input A) (y : Y) | MPartial (y_ok : bool) (X : input A) (y : Y) | MPredict (X : input A).
Arguments MFit {A Y} _ _ _. Arguments MPartial {A Y} _ _ _. Arguments MPredict {A Y} _.
Definition mlp_step {A Y W O} (P : perceptron A Y W O) (warm_start : bool) (c : mlp_call A Y) (s : mlp W) : mlp W :=
  match c with
  | MFit ok X y => fst (mlp_fit P warm_start ok X y s)
  | MPartial ok X y => fst (mlp_partial_fit P ok X y s)
  | MPredict X => fst (mlp_predict P X s)
  end.
Definition mlp_run {A Y W O} (P : perceptron A Y W O) (warm_start : bool) (l : list (mlp_call A Y)) : mlp W :=
  fold_left (fun s c => mlp_step P warm_start c s) l mlp_new.

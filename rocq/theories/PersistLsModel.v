(** Model of the persistence of LearningShapelets (tslearn/shapelets/shapelets.py l.909-990), on top of PersistModel.v.
    Simplifications: the optimizer is a string, which keras' serialisation leaves unchanged; the network is represented by what
    [_get_model_params] saves of it ("model_": its architecture as a string, "model_weights_": the list of its weights), which
    [model_from_json] and [set_weights] restore exactly. *)
From Coq Require Import Bool List Arith ZArith Reals Ascii String DecimalString.
From Verif Require Import Num Py PersistModel.
Import ListNotations.
Local Open Scope string_scope.
Local Open Scope list_scope.

(** Python's [int(sz)] on a key *)
Definition int_of_key (k : key) : res Z :=
  match k with
  | KInt z => Ok z
  | KStr s => match NilZero.int_of_string s with Some i => Ok (Z.of_int i) | None => Err ValueError end
  end.
(** [{int(sz): nb for sz, nb in d.items()}] *)
Fixpoint int_keys (d acc : dict) : res dict :=
  match d with DNil => Ok acc | DCons k v d => do z <- int_of_key k ;; int_keys d (assign (KInt z) v acc) end.
Definition with_int_keys (v : val) : res val := match v with VDict d => do d <- int_keys d DNil ;; Ok (VDict d) | _ => Err AttributeError end.
(** [if hyper_params["n_shapelets_per_size"]:] *)
Definition truthy (v : val) : bool :=
  match v with VNone | VDict DNil | VList LNil | VTuple LNil | VBool false => false | VInt z => negb (Z.eqb z 0) | VStr s => negb (String.eqb s "") | _ => true end.
(** [tuple(a)]: the elements of an array of integers are numpy integers *)
Definition to_tuple (v : val) : res val :=
  match v with
  | VTuple l | VList l => Ok (VTuple l)
  | VArr [_] (AInt l) => Ok (VTuple (vals_of (map VNpInt l)))
  | VArr [_] (AFloat l) => Ok (VTuple (vals_of (map VFloat l)))
  | _ => Err TypeError
  end.
(** l.927-984 [_organize_model] *)
Definition ls_organize (signature hyper params : dict) : res (dict * dict) :=
  match lookup (KStr "n_shapelets_per_size") hyper with
  | None => Err KeyError
  | Some v =>
    do hyper <- (if truthy v then do v <- with_int_keys v ;; Ok (assign (KStr "n_shapelets_per_size") v hyper) else Ok hyper) ;;
    do inst <- construct signature hyper ;;
    do params <- match lookup (KStr "n_shapelets_per_size_") params with
                 | Some v => do v <- with_int_keys v ;; Ok (assign (KStr "n_shapelets_per_size_") v params)
                 | None => Ok params
                 end ;;
    match lookup (KStr "_X_fit_dims") params with
    | None => Err AttributeError
    | Some v => do v <- to_tuple v ;; Ok (inst, assign (KStr "_X_fit_dims") v params)
    end
  end.
(** bases.py l.272-305 and 320-336 with this [_organize_model] *)
Definition ls_from_json (signature m : dict) : res (dict * dict) :=
  do hyper <- sub m "hyper_params" ;; do params <- sub m "model_params" ;;
  ls_organize signature (map_values json_entry (byte2string hyper)) (map_values json_entry (byte2string params)).
Definition ls_from_pickle (signature hyper params : dict) : res (dict * dict) := ls_organize signature (byte2string hyper) (byte2string params).

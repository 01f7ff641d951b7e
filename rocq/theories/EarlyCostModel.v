(** Model of tslearn/early_classification/early_classification.py l.379-397, l.453-572, l.600-625:
    probabilities and the cost of an early classifier, on real numbers.  [proba t] is
    [classifiers_[t].predict_proba([ts])[0]]; scikit-learn's [accuracy_score] is the
    fraction of equal labels. *)
From Coq Require Import Bool List Arith Reals.
From Verif Require Import Num Py RList PreModel Dataset KernelModel EarlyModel.
Import ListNotations.
Local Open Scope R_scope.

(** l.379-397 [_predict_single_series_proba] *)
Definition predict_single_proba {L} (M : ec L) (proba : nat -> ecseries -> res (list R)) (Xi : ecseries) : res (list R * nat) :=
  do t <- prediction_time M Xi ;;
  match t with
  | None => Err KeyError
  | Some t => do pred <- proba t (firstn t Xi) ;; Ok (pred, t)
  end.
(** l.453-489 [predict_proba_and_earliness] *)
Definition predict_proba_and_earliness {L} (M : ec L) (proba : nat -> ecseries -> res (list R)) (X : list ecseries) : res (list (list R * nat)) :=
  mapM (predict_single_proba M proba) X.
(** l.745-769 [_early_predict(X, predict_proba=True)]; [None]: a row of NaN, one for each of the [n_classes] classes *)
Definition early_one_proba {L} (M : ec L) (n_classes : nat) (proba : nat -> ecseries -> res (list R)) (ts : ecseries) : res (list (option R) * option nat) :=
  if (length ts <? ec_min_t M)%nat then Ok (repeat None n_classes, None)
  else do pred <- proba (length ts) ts ;; do tau <- tau_star M ts ;; Ok (map Some pred, Some tau).
Definition early_predict_proba {L} (M : ec L) (n_classes : nat) (proba : nat -> ecseries -> res (list R)) (X : list ecseries) : res (list (list (option R) * option nat)) :=
  if (ec_sz M <? length (hd [] X))%nat then Err ValueError else mapM (early_one_proba M n_classes proba) X.
(** [accuracy_score] *)
Definition accuracy {L} (eqb : L -> L -> bool) (y y_pred : list L) : res R :=
  if (length y =? length y_pred)%nat
  then Ok (INR (length (filter (fun p => eqb (fst p) (snd p)) (combine y y_pred))) / INR (length y))
  else Err ValueError.
(** l.517-572 [early_classification_cost]; [check_array] refuses an empty [X] *)
Definition early_cost {L} (eqb : L -> L -> bool) (M : ec L) (X : list ecseries) (y : list L) : res R :=
  match X with
  | [] => Err ValueError
  | _ =>
    do pred <- predict_class_and_earliness M X ;;
    do acc <- accuracy eqb y (map fst pred) ;;
    let times := map (fun p => INR (snd p) * ec_time M) pred in
    Ok ((1 - acc) + rsum times / INR (length times))
  end.
(** the same fitted model with another [cost_time_parameter] *)
Definition with_time {L} (M : ec L) (a : R) : ec L :=
  {| ec_min_t := ec_min_t M; ec_lamb := ec_lamb M; ec_time := a; ec_sz := ec_sz M; ec_d := ec_d M; ec_centers := ec_centers M;
     ec_pyhatyck := ec_pyhatyck M; ec_pyck := ec_pyck M; ec_clf := ec_clf M |}.

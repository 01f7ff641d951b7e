(** Model of AutoVARIMA's choice of the differencing order on data (tslearn/forecasting/_arima.py l.535-570, 613-648).
    The kpss test of statsmodels is a parameter: the p-value of a sample, or an exception. *)
From Coq Require Import Bool List Arith ZArith Reals.
From Verif Require Import Num Py RList ArimaModel.
Import ListNotations.
Local Open Scope R_scope.

(** [X[i, :, k]] of the array: [None] is NaN *)
Definition feature (k : nat) (X : list orow) : list (option R) := map (option_map (fun r => nth k r 0)) X.
(** [x[:z]]: a negative bound counts from the end *)
Definition upto {A} (z : Z) (l : list A) : list A :=
  if (z <? 0)%Z then firstn (length l - Z.to_nat (- z)) l else firstn (Z.to_nat z) l.
(** l.618 and 626-636: what kpss is given for feature [k] of the series [X]; [s] is the seasonal period, 0 for None *)
Definition kpss_sample (s d k : nat) (X : list orow) : list (option R) :=
  upto (Z.of_nat (ts_size X) - Z.of_nat s - Z.of_nat d) (feature k (diffs d (seasonal s X))).
(** [all(...)] of a generator: stops at the first False, or at an exception *)
Fixpoint all_lazy {A} (f : A -> res bool) (l : list A) : res bool :=
  match l with [] => Ok true | x :: l => do b <- f x ;; if b then all_lazy f l else Ok false end.
(** l.613-624 [_is_stationary] *)
Definition is_stationary (kpss : list (option R) -> res R) (m s : nat) (Xs : list (list orow)) (d : nat) : res bool :=
  all_lazy (fun kx => do p <- kpss (kpss_sample s d (fst kx) (snd kx)) ;; Ok (Rltb (1 / 20) p)) (list_prod (seq 0 m) Xs).
(** l.626-648 [_determine_d]; [more] = max_d - d *)
Fixpoint determine_data (stationary : nat -> res bool) (default : option nat) (more d : nat) : res nat :=
  do b <- stationary d ;;
  if b then Ok d
  else match more with
       | O => match default with Some d => Ok d | None => Err ValueError end
       | S more => determine_data stationary default more (S d)
       end.
(** l.551-563 [fit], up to the order [d] *)
Definition auto_d (kpss : list (option R) -> res R) (m s max_d : nat) (default : option nat) (Xs : list (list orow)) : res nat :=
  if existsb (fun X => (ts_size X <? s)%nat) Xs then Err ValueError
  else determine_data (is_stationary kpss m s Xs) default max_d 0.

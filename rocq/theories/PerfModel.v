(** Model of tslearn/metrics/performance.py on extended reals.  scikit-learn's
    mean_absolute_error and mean_squared_error are taken by their documented meaning
    with [multioutput="raw_values"]; the numpy back end is used. *)
From Coq Require Import Bool List Arith ZArith QArith Reals.
From Verif Require Import Num Py Series DtwModel Dataset RList SoftModel GakModel PaaModel PreModel BaryModel CastModel SoftBaryModel.
Import ListNotations.
Local Open Scope nat_scope.

(** [Y.reshape(n, m)] of a dataset *)
Definition reshape2 (n m : nat) (Y : array3) : res (list (list xr)) :=
  let flat := concat (map (@concat xr) Y) in
  if length flat =? n * m then Ok (chunks n m flat) else Err ValueError.

(** [np.average(rows, axis=0, weights=w)] for rows of length [m] *)
Definition average (m : nat) (rows : list (list xr)) (w : option (list xr)) : res (list xr) :=
  match w with
  | None => Ok (map (fun c => xmean (map (fun r => nth c r XNaN) rows)) (seq 0 m))
  | Some w =>
      if negb (length w =? length rows) then Err ValueError
      else
        let scl := xsum w in
        if is_xzero scl then Err ZeroDivisionError
        else Ok (map (fun c => xdiv (xsum (map (fun p => xmul (nth c (fst p) XNaN) (snd p)) (combine rows w))) scl) (seq 0 m))
  end.
(** sklearn: non-finite values, no sample and no column are refused *)
Definition sk_errors (err : xr -> xr -> xr) (m : nat) (a b : list (list xr)) (w : option (list xr)) : res (list xr) :=
  if (length a =? 0) || (m =? 0) || negb (forallb (forallb finite) a) || negb (forallb (forallb finite) b) then Err ValueError
  else average m (map (fun p => map (fun q => err (fst q) (snd q)) (combine (fst p) (snd p))) (combine a b)) w.
Definition abs_err (a b : xr) : xr := xabs (xsub b a).
Definition sq_err (a b : xr) : xr := xmul (xsub a b) (xsub a b).

(** [v @ rows / v.sum()] for a matrix with [d] columns, and [v @ x / v.sum()] for a vector *)
Definition weighted_rows (d : nat) (v : list xr) (rows : list (list xr)) : res (list xr) :=
  if length v =? length rows then
    Ok (map (fun k => xdiv (xsum (map (fun p => xmul (fst p) (nth k (snd p) XNaN)) (combine v rows))) (xsum v)) (seq 0 d))
  else Err ValueError.
Definition weighted_entries (v x : list xr) : res xr :=
  if length v =? length x then Ok (xdiv (xsum (map (fun p => xmul (fst p) (snd p)) (combine v x))) (xsum v)) else Err ValueError.

(** the argument [multioutput]: the two strings with a meaning, any other string, or a
    list (for a numpy array the comparison with a string on l.208 is elementwise and not
    modelled) *)
Inductive multioutput := UniformAverage | RawValues | OtherString | FeatureWeights (u : list xr).
Inductive score := Number (x : xr) | PerFeature (l : list xr).

(** l.11-80 [mae] and l.83-150 [mse]: [err] is the only difference *)
Definition forecast_error (err : xr -> xr -> xr) (y_true y_pred : list (raw Xnum)) (ts_weights timestamps_weights : option (list xr))
    (mo : multioutput) : res score :=
  do T <- to_dataset y_true ;;
  do P <- to_dataset y_pred ;;
  let n := length T in let sz := arr_sz T in let d := arr_d T in
  do A <- reshape2 n (sz * d) T ;;
  do B <- reshape2 n (sz * d) P ;;
  do e <- sk_errors err (sz * d) A B ts_weights ;;
  let e := chunks sz d e in
  do e <- match timestamps_weights with
          | Some v => weighted_rows d v e
          | None => Ok (map (fun k => xmean (map (fun r => nth k r XNaN) e)) (seq 0 d))
          end ;;
  match mo with
  | UniformAverage => Ok (Number (xmean e))
  | RawValues | OtherString => Ok (PerFeature e)
  | FeatureWeights u => do x <- weighted_entries u e ;; Ok (Number x)
  end.
Definition mae := forecast_error abs_err.
Definition mse := forecast_error sq_err.

(** l.153-214 [mase].  [train[:, :-p] - train[:, p:]] for p > 0; for p = 0 the first
    slice is empty, which broadcasts only against a single time step. *)
Definition seasonal_diffs (p : nat) (X : array3) : res array3 :=
  if (p =? 0) && negb (arr_sz X <=? 1) then Err ValueError
  else
    let m := if p =? 0 then 0 else arr_sz X - p in
    Ok (map (fun s => map (fun t => map (fun k => xabs (xsub (nth k (nth t s []) XNaN) (nth k (nth (t + p) s []) XNaN)))
                                       (seq 0 (arr_d X))) (seq 0 m)) X).
Definition mase (y_true y_pred train : list (raw Xnum)) (seasonal_period : nat) (ts_weights timestamps_weights : option (list xr))
    (mo : multioutput) : res score :=
  do X <- to_dataset train ;;
  do e <- mae y_true y_pred ts_weights timestamps_weights mo ;;
  do D <- seasonal_diffs seasonal_period X ;;
  let all := concat (map (@concat xr) D) in
  match mo, e with
  | RawValues, PerFeature l =>
      let scale := map (fun k => xmean (map (fun r => nth k r XNaN) (concat D))) (seq 0 (arr_d X)) in
      if (length l =? length scale) || (length scale =? 1) || (length l =? 1) then
        Ok (PerFeature (map (fun k => xdiv (nth (if length l =? 1 then 0 else k) l XNaN)
                                           (nth (if length scale =? 1 then 0 else k) scale XNaN)) (seq 0 (Nat.max (length l) (length scale)))))
      else Err ValueError
  | _, Number x => Ok (Number (xdiv x (xmean all)))
  | _, PerFeature l => Ok (PerFeature (map (fun x => xdiv x (xmean all)) l))
  end.

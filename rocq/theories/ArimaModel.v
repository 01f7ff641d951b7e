(** Model of tslearn/forecasting/_arima.py on real numbers (exact arithmetic).  One series at a time: the code treats the series
    of a dataset independently except in the likelihood and in the average of start values.  A row of a series is [None] when it
    is NaN (padding of shorter series); a row of finite numbers otherwise.  Parameters: [numpy.linalg.lstsq] and the
    Nelder-Mead optimiser (their results are arbitrary), the kpss test. *)
From Coq Require Import Bool List Arith Reals.
From Verif Require Import Num Py RList.
Import ListNotations.
Local Open Scope R_scope.

Definition row := list R.
Definition orow := option row.
Definition vadd (a b : row) : row := map (fun p => fst p + snd p) (combine a b).
Definition vsub (a b : row) : row := map (fun p => fst p - snd p) (combine a b).
Definition vscal (c : R) (a : row) : row := map (Rmult c) a.
Definition vzero (m : nat) : row := repeat 0 m.
(** numpy.dot of a row and a matrix with [m] columns *)
Definition vmat (m : nat) (x : row) (A : list row) : row := map (fun j => rsum (map (fun p => fst p * nth j (snd p) 0) (combine x A))) (seq 0 m).
Definition oadd (a b : orow) : orow := match a, b with Some a, Some b => Some (vadd a b) | _, _ => None end.
Definition osub (a b : orow) : orow := match a, b with Some a, Some b => Some (vsub a b) | _, _ => None end.
Definition omap (f : row -> row) (a : orow) : orow := match a with Some a => Some (f a) | None => None end.

(** ** differencing *)
(** [X[s:] - X[:-s]], s >= 1 ([combine] drops the last s rows of its second argument) *)
Definition lag_diff (s : nat) (X : list orow) : list orow := map (fun p => osub (fst p) (snd p)) (combine (skipn s X) X).
(** l.257-264 [_seasonal_differencing]; 0 stands for None *)
Definition seasonal (s : nat) (X : list orow) : list orow := if (s =? 0)%nat then X else lag_diff s X.
(** [np.diff(X, n=d, axis=1)] *)
Fixpoint diffs (d : nat) (X : list orow) : list orow := match d with O => X | S d => diffs d (lag_diff 1 X) end.

(** [scipy.special.binom] on natural numbers *)
Fixpoint binom (n k : nat) : nat := match n, k with _, O => 1 | O, S _ => 0 | S n, S k => (binom n k + binom n (S k))%nat end.
(** l.341-349 [_undifference]; the coefficient is [(-(1 ** (j + 1))) * binom(j + 1, d)] *)
Definition undiff_coef (d j : nat) : R := (- (1 ^ (j + 1))) * INR (binom (j + 1) d).
Definition undifference (m d : nat) (init : list orow) (prediction : orow) : orow :=
  osub prediction (fold_left (fun acc j => oadd acc (omap (vscal (undiff_coef d j)) (nth (length init - d + j) init None))) (seq 0 d) (Some (vzero m))).

(** ** the model *)
Record coefs := { c_const : row (* [] without constant *); c_ar : list (list row); c_ma : list (list row) }.
(** l.96-108 [_varma_next] *)
Definition varma_next (m : nat) (C : coefs) (X : list orow) (residuals : list row) : orow :=
  let ar := fold_left (fun acc k => oadd acc (omap (fun x => vmat m x (nth k (c_ar C) [])) (nth (length X - k - 1) X None))) (seq 0 (length (c_ar C))) (Some (vzero m)) in
  let ma := fold_left (fun acc k => vadd acc (vmat m (nth k residuals []) (nth k (c_ma C) []))) (seq 0 (length (c_ma C))) (vzero m) in
  let const := if (length (c_const C) =? 0)%nat then vzero m else c_const C in
  oadd (oadd ar (Some ma)) (Some const).
(** l.62-92 [_loss], the residuals of one series *)
Definition residual_step (m : nat) (C : coefs) (X : list orow) (residuals : list row) (i : nat) : list row :=
  let start := Nat.max (length (c_ar C)) (length (c_ma C)) in
  match osub (nth i X None) (varma_next m C (slice (i - start) i X) residuals) with
  | Some err => if (0 <? length (c_ma C))%nat then tl residuals ++ [err] else residuals
  | None => residuals
  end.
Definition loss_residuals (m : nat) (C : coefs) (X : list orow) : list row :=
  let start := Nat.max (length (c_ar C)) (length (c_ma C)) in
  fold_left (residual_step m C X) (seq start (length X - start)) (repeat (vzero m) (length (c_ma C))).

Record spec := { v_p : nat; v_d : nat; v_q : nat; v_s : nat; v_m : nat; v_C : coefs }.
(** [_ts_size]: rows after the last finite row do not count *)
Fixpoint trim (X : list orow) : list orow :=
  match X with [] => [] | x :: X => match x, trim X with None, [] => [] | _, X => x :: X end end.
Definition ts_size (X : list orow) : nat := length (trim X).
(** l.266-277 [_get_last_timestamps].  First component: X after the call, which rolls it in place *)
Definition rolled (V : spec) (X : list orow) : list orow :=
  if (Nat.max (Nat.max (v_p V) (v_q V)) (Nat.max (v_d V) (v_s V)) =? 0)%nat then X else skipn (ts_size X) X ++ firstn (ts_size X) X.
Definition last_timestamps (V : spec) (X : list orow) : list orow :=
  if (Nat.max (Nat.max (v_p V) (v_q V)) (Nat.max (v_d V) (v_s V)) =? 0)%nat then []
  else let keep := (v_s V + v_d V + v_p V)%nat in
       if (keep =? 0)%nat then rolled V X else skipn (length X - keep) (rolled V X).
Definition min_samples (V : spec) : nat := v_p V + v_q V + v_d V + 1 + v_s V.

(** l.398-429: the loop of [predict] for one series; [multi] is [n > 1] *)
Fixpoint forecast (V : spec) (multi : bool) (n : nat) (dd : list orow) (res : list row) (sd last : list orow) : list orow :=
  match n with
  | O => []
  | S n =>
    let e := varma_next (v_m V) (v_C V) dd res in
    let dd := if (0 <? v_p V)%nat && multi then tl dd ++ [e] else dd in
    let res := if (0 <? v_q V)%nat && multi then tl res ++ [vzero (v_m V)] else res in
    let e := if (0 <? v_d V)%nat then undifference (v_m V) (v_d V) sd e else e in
    let sd := if (0 <? v_d V)%nat && multi then tl sd ++ [e] else sd in
    let e := if (0 <? v_s V)%nat then oadd e (nth (length last - v_s V) last None) else e in
    let last := if (0 <? v_s V)%nat && multi then tl last ++ [e] else last in
    e :: forecast V multi n dd res sd last
  end.
Definition predict_from (V : spec) (n : nat) (last : list orow) (res : list row) : list orow :=
  forecast V (1 <? n)%nat n (diffs (v_d V) (seasonal (v_s V) last)) res (seasonal (v_s V) last) last.
(** [fit(X); predict(n=n)] once the coefficients are known: l.214-217, 237-238, 371-373 *)
Definition predict_fitted (V : spec) (X : list orow) (n : nat) : list orow :=
  predict_from V n (last_timestamps V X) (loss_residuals (v_m V) (v_C V) (diffs (v_d V) (seasonal (v_s V) X))).
(** [predict(X, n)], l.376-391: the residuals are computed after [_get_last_timestamps] has rolled X *)
Definition predict_given (V : spec) (X : list orow) (n : nat) : res (list orow) :=
  if (ts_size X <? min_samples V)%nat then Err ValueError
  else Ok (predict_from V n (last_timestamps V X) (loss_residuals (v_m V) (v_C V) (diffs (v_d V) (seasonal (v_s V) (rolled V X))))).

(** ** start values, l.279-324 (with q = 0 they are the coefficients) *)
(** [A.T.ravel()] for a matrix with [m] columns *)
Definition ravel_t (m : nat) (A : list row) : list R := concat (map (fun j => map (fun r => nth j r 0) A) (seq 0 m)).
(** [np.mean(params, axis=0)] over the series of the dataset *)
Definition mean_params (len : nat) (ps : list (list R)) : list R := map (fun j => rsum (map (fun p => nth j p 0) ps) / INR (length ps)) (seq 0 len).
(** [params[: m * (m * p)].reshape(p, m, m)] *)
Definition reshape3 (p m : nat) (l : list R) : list (list row) :=
  map (fun k => map (fun i => slice ((k * m + i) * m) ((k * m + i + 1) * m) l) (seq 0 m)) (seq 0 p).
(** [ar_coeffs_] of a fit with q = 0 and without constant.  [lstsq]: one matrix of p*m rows and m columns for each series; rows
    k*m .. k*m+m-1 are the coefficients of lag k+1, l.42-54. *)
Definition ar_of_lstsq (p m : nat) (lstsq : list (list row)) : list (list row) :=
  reshape3 p m (mean_params (m * (m * p)) (map (ravel_t m) lstsq)).

(** ** AutoVARIMA *)
(** l.626-648 [_determine_d]; [more] = max_d - d *)
Fixpoint determine_from (stationary : nat -> bool) (default : option nat) (more d : nat) : res nat :=
  if stationary d then Ok d
  else match more with
       | O => match default with Some d => Ok d | None => Err ValueError end
       | S more => determine_from stationary default more (S d)
       end.
Definition determine_d (stationary : nat -> bool) (max_d : nat) (default : option nat) : res nat := determine_from stationary default max_d 0.

(** p, q, with_constant *)
Definition hp := (nat * nat * bool)%type.
Definition hp_eqb (a b : hp) : bool :=
  match a, b with (p, q, c), (p', q', c') => (p =? p')%nat && (q =? q')%nat && Bool.eqb c c' end.
Definition mem (h : hp) (l : list hp) : bool := existsb (hp_eqb h) l.
Definition set_add (l : list hp) (h : hp) : list hp := if mem h l then l else l ++ [h].
(** l.650-710 [_init_models] *)
Definition init_models (max_p max_q d : nat) : list hp :=
  let c := (d <? 2)%nat in
  [(0, 0, c)]%nat
  ++ (if (0 <? max_p)%nat then [(1, 0, c)]%nat else [])
  ++ (if (0 <? max_q)%nat then [(0, 1, c)]%nat else [])
  ++ (if (1 <? max_p)%nat && (1 <? max_q)%nat then [(2, 2, c)]%nat else [])
  ++ (if (d <=? 1)%nat then [(0, 0, false)]%nat else []).
(** l.712-751 [_compute_model_variations] *)
Definition around (max x : nat) : list nat := [x] ++ (if (max <? x + 1)%nat then [] else [x + 1]%nat) ++ (if (1 <=? x)%nat then [x - 1]%nat else []).
Definition variations (max_p max_q : nat) (best : hp) (computed : list hp) : list hp :=
  let '(p, q, c) := best in
  let eligible := fold_left set_add (flat_map (fun p => map (fun q => (p, q, c)) (around max_q q)) (around max_p p)) [(p, q, negb c)] in
  filter (fun h => negb (mem h computed)) eligible.
(** l.762-783.  [aic h]: the AIC of the fitted model; ValueError: the model is skipped *)
Fixpoint test_models (aic : hp -> res xr) (models : list hp) (best : option (hp * xr)) (computed : list hp) : res (option (hp * xr) * list hp) :=
  match models with
  | [] => Ok (best, computed)
  | h :: models =>
    let computed := computed ++ [h] in
    match aic h with
    | Err ValueError => test_models aic models best computed
    | Err e => Err e
    | Ok a => let minimal := match best with Some (_, b) => b | None => XInf end in
              test_models aic models (if xltb a minimal then Some (h, a) else best) computed
    end
  end.
(** l.753-789 [_get_best_model_for_given_d].  [order]: iteration order of the set in each round.  [None]: not finished after
    [fuel] rounds.  Result: the best model and the models tested, in order. *)
Fixpoint search (aic : hp -> res xr) (order : nat -> list hp -> list hp) (max_p max_q fuel round : nat) (models : list hp) (best : option (hp * xr)) (computed : list hp)
  : option (res (hp * list hp)) :=
  match models, best with
  | [], Some (b, _) => Some (Ok (b, computed))
  | [], None => Some (Err AttributeError) (* [self.best_estimator_.n_ts_] of None; not reached, there is always a first model *)
  | _, _ =>
    match fuel with
    | O => None
    | S fuel =>
      match test_models aic (order round models) best computed with
      | Err e => Some (Err e)
      | Ok (None, _) => Some (Err AttributeError) (* [current_best_model.p] of None *)
      | Ok (Some (b, a), computed) => search aic order max_p max_q fuel (S round) (variations max_p max_q b computed) (Some (b, a)) computed
      end
    end
  end.
Definition best_model (aic : hp -> res xr) (order : nat -> list hp -> list hp) (max_p max_q d fuel : nat) : option (res (hp * list hp)) :=
  search aic order max_p max_q fuel 0 (init_models max_p max_q d) None [].

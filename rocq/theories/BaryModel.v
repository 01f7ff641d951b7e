(** Model of tslearn/barycenters: dba.py, euclidean.py and utils.py, on extended
    reals.  numba's compilation, joblib and printing are not modelled. *)
From Coq Require Import Bool List Arith ZArith QArith Reals.
From Verif Require Import Num Py Series Masks DtwModel Dataset RList SoftModel GakModel PaaModel PreModel.
Import ListNotations.
Local Open Scope nat_scope.

(** [metric_params]: keyword arguments of [_njit_dtw_path].  The value under
    "global_constraint" may be missing, a code, or a name (or None). *)
Inductive gc_key := KeyAbsent | KeyCode (code : nat) | KeyName (g : gc_name).
Record metric_params := { mp_gc : gc_key; mp_radius : option Z; mp_slope : option Q }.
Definition no_params : metric_params := {| mp_gc := KeyAbsent; mp_radius := None; mp_slope := None |}.
(** _masks.py l.326-349 compares the value with 0, 1 and 2; a name (or None) is
    equal to none of them, like the code 3.  No name is translated on this path. *)
Definition key_code (k : gc_key) : nat :=
  match k with KeyAbsent => 0 | KeyCode c => c | KeyName _ => 3 end.
(** _dtw.py l.425-435 [_njit_dtw_path]; result: path, distance *)
Definition njit_dtw_path (mp : metric_params) (s1 s2 : series Xnum) : res (list (nat * nat) * xr) :=
  elastic_path_generic (N:=Xnum) comb_dtw s1 s2 (key_code (mp_gc mp)) (mp_radius mp) (mp_slope mp).
(** [_to_time_series(x, True, backend)] *)
Definition strip (s : series Xnum) : series Xnum := to_time_series (N:=Xnum) true (Raw2 s).

(** barycenters/utils.py l.7-13 *)
Definition set_weights (w : option (list xr)) (n : nat) : list xr :=
  match w with
  | Some w => if length w =? n then w else repeat (XR 1) n
  | None => repeat (XR 1) n
  end.

(** dba.py l.23-31 [_init_avg].  scipy's [interp1d] interpolates linearly and
    raises outside of the abscissae, which happens when there is only one. *)
Definition array_nanmean (X : array3) : series Xnum :=
  map (fun t => map (fun k => nanmean (map (fun s => nth k (nth t s []) XNaN) X)) (seq 0 (arr_d X))) (seq 0 (arr_sz X)).
Definition init_avg (X : array3) (barycenter_size : nat) : res (series Xnum) :=
  let avg := array_nanmean X in
  if arr_sz X =? barycenter_size then Ok avg
  else if (arr_sz X <=? 1) && (1 <? barycenter_size) then Err ValueError
  else
    do cols <- mapM (fun k => interp (linspace01 barycenter_size) (linspace01 (arr_sz X)) (column k avg)) (seq 0 (arr_d X)) ;;
    Ok (of_columns barycenter_size cols).

(** ** majorize-minimize variant *)
(** l.231-307 [_mm_assignment]: weighted mean of squared distances *)
Definition weighted_cost (l : list (list (nat * nat) * xr)) (w : list xr) : xr :=
  xdiv (xsum (map (fun p => xmul (xmul (snd (fst p)) (snd (fst p))) (snd p)) (combine l w))) (xsum w).
Definition mm_assignment (X : array3) (b : series Xnum) (w : list xr) (mp : metric_params)
  : res (list (list (nat * nat)) * xr) :=
  do l <- mapM (fun x => njit_dtw_path mp b (strip x)) X ;;
  Ok (map fst l, weighted_cost l w).

(** l.310-354 [_subgradient_valence_warping], one series: the 0/1 matrix of the
    path times the weight, and its row sums.  The matrix has [last j + 1] columns. *)
Definition on_path (p : list (nat * nat)) (i j : nat) : xr :=
  if existsb (fun c => (fst c =? i) && (snd c =? j)) p then XR 1 else XR 0.
Definition path_width (p : list (nat * nat)) : nat := snd (last p (0, 0)) + 1.
Definition warping (p : list (nat * nat)) (w : xr) (i j : nat) : xr := xmul (on_path p i j) w.
Definition valence (p : list (nat * nat)) (w : xr) (i : nat) : xr :=
  xmul (xsum (map (on_path p i) (seq 0 (path_width p)))) w.
(** [w_k.dot(x_k)]: shapes must agree *)
Definition warped (d : nat) (p : list (nat * nat)) (w : xr) (x : series Xnum) : res (nat -> nat -> xr) :=
  if path_width p =? length x then
    Ok (fun i k => xsum (map (fun j => xmul (warping p w i j) (nth k (nth j x []) XNaN)) (seq 0 (length x))))
  else Err ValueError.
(** l.357-436 [_mm_valence_warping], [_mm_update_barycenter] *)
Definition mm_update (X : array3) (paths : list (list (nat * nat))) (barycenter_size : nat) (w : list xr)
  : res (series Xnum) :=
  let d := arr_d X in
  let diag := map (fun i => xsum (map (fun pw => valence (fst pw) (snd pw) i) (combine paths w))) (seq 0 barycenter_size) in
  do ws <- mapM (fun pwx => warped d (fst (fst pwx)) (snd (fst pwx)) (strip (snd pwx))) (combine (combine paths w) X) ;;
  let sum_w_x := fun i k => xsum (map (fun m : nat -> nat -> xr => m i k) ws) in
  Ok (map (fun i => map (fun k =>
       xsum (map (fun s => xmul (if s =? i then xdiv (XR 1) (nth s diag XNaN) else XR 0) (sum_w_x s k)) (seq 0 barycenter_size)))
     (seq 0 d)) (seq 0 barycenter_size)).

(** one iteration *)
Definition mm_step (X : array3) (b : series Xnum) (bs : nat) (w : list xr) (mp : metric_params) : res (series Xnum * xr) :=
  do pc <- mm_assignment X b w mp ;;
  do b' <- mm_update X (fst pc) bs w ;;
  Ok (b', snd pc).

(** the loops at l.722-742 and l.214-227; [it] counts the remaining iterations *)
Definition xabs (x : xr) : xr := match x with XR r => XR (Rabs r) | XInf | XNInf => XInf | XNaN => XNaN end.
Fixpoint dba_loop (step : series Xnum -> res (series Xnum * xr)) (tol : xr) (it : nat)
    (b : series Xnum) (cost_prev cost : xr) : res (series Xnum * xr) :=
  match it with
  | O => Ok (b, cost)
  | S it =>
    do bc <- step b ;;
    let (b, cost) := (bc : series Xnum * xr) in
    if xltb (xabs (xsub cost_prev cost)) tol then Ok (b, cost)
    else if xltb cost_prev cost then Ok (b, cost)
    else dba_loop step tol it b cost cost
  end.

(** l.706-720 (also l.198-212): dataset, size, weights, initial barycenter *)
Definition dba_start (X : array3) (barycenter_size : option nat) (init : option (series Xnum)) (w : option (list xr))
  : res (array3 * nat * list xr * series Xnum) :=
  do X_ <- variable_length X ;;
  let bs := match barycenter_size with Some n => n | None => arr_sz X_ end in
  let w := set_weights w (length X_) in
  match init with
  | None => do b <- init_avg X_ bs ;; Ok (X_, bs, w, b)
  | Some b => Ok (X_, length b, w, strip b)
  end.
(** l.625-743 [dtw_barycenter_averaging_one_init] *)
Definition dba_one_init (X : array3) (barycenter_size : option nat) (init : option (series Xnum))
    (max_iter : nat) (tol : xr) (w : option (list xr)) (mp : metric_params) : res (series Xnum * xr) :=
  do st <- dba_start X barycenter_size init w ;;
  let '(X_, bs, w, b) := (st : array3 * nat * list xr * series Xnum) in
  dba_loop (fun b => mm_step X_ b bs w mp) tol max_iter b XInf XInf.
(** l.487-622 [dtw_barycenter_averaging]; [None] is Python's None *)
Fixpoint dba_attempts (one : res (series Xnum * xr)) (n_init : nat) (best_cost : xr) (best : option (series Xnum))
  : res (option (series Xnum)) :=
  match n_init with
  | O => Ok best
  | S n =>
    do bl <- one ;;
    if xltb (snd bl) best_cost then dba_attempts one n (snd bl) (Some (fst bl))
    else dba_attempts one n best_cost best
  end.
Definition dba (X : array3) (barycenter_size : option nat) (init : option (series Xnum)) (max_iter : nat) (tol : xr)
    (w : option (list xr)) (mp : metric_params) (n_init : nat) : res (option (series Xnum)) :=
  dba_attempts (dba_one_init X barycenter_size init max_iter tol w mp) n_init XInf None.

(** ** Petitjean variant *)
(** l.34-81: [assign[0][t]] and [assign[1][t]] list the series and the time steps
    aligned with barycenter step [t]; here as one list of pairs *)
Definition petitjean_assignment (X : array3) (b : series Xnum) (w : list xr) (mp : metric_params)
  : res ((nat -> list (nat * nat)) * xr) :=
  do l <- mapM (fun x => njit_dtw_path mp (strip x) b) X ;;
  let assign := fun t => concat (mapi (fun i pd =>
     map (fun c => (i, fst c)) (filter (fun c : nat * nat => snd c =? t) (fst (pd : list (nat * nat) * xr)))) l) in
  Ok (assign, weighted_cost l w).
(** [numpy.average(..., axis=0, weights=...)] of rows *)
Definition average_rows (d : nat) (rows : list (list xr)) (w : list xr) : res (list xr) :=
  let scl := xsum w in
  if is_xzero scl then Err ZeroDivisionError
  else Ok (map (fun k => xdiv (xsum (map (fun p => xmul (nth k (fst p) XNaN) (snd p)) (combine rows w))) scl) (seq 0 d)).
(** l.84-89 *)
Definition petitjean_update (X : array3) (assign : nat -> list (nat * nat)) (barycenter_size : nat) (w : list xr)
  : res (series Xnum) :=
  mapM (fun t => average_rows (arr_d X) (map (fun a => nth (snd a) (nth (fst a) X []) []) (assign t))
                   (map (fun a => nth (fst a) w XNaN) (assign t))) (seq 0 barycenter_size).
Definition petitjean_step (X : array3) (b : series Xnum) (bs : nat) (w : list xr) (mp : metric_params) : res (series Xnum * xr) :=
  do ac <- petitjean_assignment X b w mp ;;
  do b' <- petitjean_update X (fst ac) bs w ;;
  Ok (b', snd ac).
(** l.92-228 [dtw_barycenter_averaging_petitjean] *)
Definition dba_petitjean (X : array3) (barycenter_size : option nat) (init : option (series Xnum))
    (max_iter : nat) (tol : xr) (w : option (list xr)) (mp : metric_params) : res (series Xnum) :=
  do st <- dba_start X barycenter_size init w ;;
  let '(X_, bs, w, b) := (st : array3 * nat * list xr * series Xnum) in
  do bc <- dba_loop (fun b => petitjean_step X_ b bs w mp) tol max_iter b XInf XInf ;;
  Ok (fst bc).

(** ** stochastic subgradient variant *)
(** l.439-484 for one series: barycenter - 2 eta / weights_sum * (v * barycenter - W.dot(x)) *)
Definition subgradient_update (d : nat) (x : series Xnum) (p : list (nat * nat)) (wi : xr) (b : series Xnum) (eta : xr)
  : res (series Xnum) :=
  do wx <- warped d p wi (strip x) ;;
  Ok (mapi (fun i row => mapi (fun k v =>
        xsub v (xmul (xdiv (xmul (XR 2) eta) wi)
                     (xsub (xadd (XR 0) (xmul (valence p wi i) v)) (wx i k)))) row) b).
(** l.867-883: the cost is computed with [weights[0]] and the sum of all weights *)
Fixpoint subgradient_epoch (X : array3) (w : list xr) (mp : metric_params) (first : bool) (decay : xr)
    (idxs : list nat) (b : series Xnum) (eta cost : xr) : res (series Xnum * xr * xr) :=
  match idxs with
  | [] => Ok (b, eta, cost)
  | i :: idxs =>
    let x := nth i X [] in
    do pc <- mm_assignment [x] b w mp ;;
    do b' <- subgradient_update (arr_d X) x (nth 0 (fst pc) []) (nth i w XNaN) b eta ;;
    subgradient_epoch X w mp first decay idxs b' (if first then xsub eta decay else eta) (snd pc)
  end.
(** l.862-892; [perm it] is the permutation drawn at iteration [it] *)
Fixpoint subgradient_loop (X : array3) (w : list xr) (mp : metric_params) (tol decay : xr) (perm : nat -> list nat)
    (it more : nat) (b : series Xnum) (eta cost_prev cost : xr) : res (series Xnum) :=
  match more with
  | O => Ok b
  | S more =>
    do r <- subgradient_epoch X w mp (it =? 0) decay (perm it) b eta cost ;;
    let '(b, eta, cost) := (r : series Xnum * xr * xr) in
    if xltb (xabs (xsub cost_prev cost)) tol then Ok b
    else if xltb cost_prev cost then Ok b
    else subgradient_loop X w mp tol decay perm (S it) more b eta cost cost
  end.
(** l.746-861: unlike the other variants, [barycenter_size] is the stripped size *)
Definition dba_subgradient (X : array3) (barycenter_size : option nat) (init : option (series Xnum)) (max_iter : nat)
    (initial_step final_step tol : xr) (perm : nat -> list nat) (w : option (list xr)) (mp : metric_params)
  : res (series Xnum) :=
  do st <- dba_start X barycenter_size init w ;;
  let '(X_, bs, w, b) := (st : array3 * nat * list xr * series Xnum) in
  subgradient_loop X_ w mp tol (xdiv (xsub initial_step final_step) (XR (INR (length X_)))) perm 0 max_iter b
    initial_step XInf XInf.

(** ** euclidean.py l.9-44: weighted mean over series *)
Definition euclidean_barycenter (X : array3) (w : option (list xr)) : res (series Xnum) :=
  do X_ <- variable_length X ;;
  let w := set_weights w (length X_) in
  mapM (fun t => average_rows (arr_d X_) (map (fun s => nth t s []) X_) w) (seq 0 (arr_sz X_)).

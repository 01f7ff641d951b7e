(** Model of tslearn/preprocessing/preprocessing.py and _synchronizer.py on the
    extended reals.  An argument is the 3-d array [X_] obtained by
    [to_time_series_dataset] (Dataset.v): a list of series of one shape, missing
    values are NaN.  That conversion always allocates a new array, so in-place
    writes below do not reach the caller's data. *)
From Coq Require Import Bool List Arith ZArith Reals.
From Verif Require Import Num Py Series Dataset RList SoftModel GakModel PaaModel.
Import ListNotations.
Local Open Scope nat_scope.

Definition mapi {A B} (f : nat -> A -> B) (l : list A) : list B :=
  map (fun p => f (fst p) (snd p)) (combine (seq 0 (length l)) l).

(** numpy.nanmin / nanmax of a 1-d array; NaN if there is no number *)
Definition nanmin (l : list xr) : xr :=
  match not_nan l with [] => XNaN | x :: l' => fold_left (fun a b => if xltb b a then b else a) l' x end.
Definition nanmax (l : list xr) : xr :=
  match not_nan l with [] => XNaN | x :: l' => fold_left (fun a b => if xltb a b then b else a) l' x end.

(** the entries reduced together with entry [(i, _, k)] by [axis=(1,)], plus axis 2
    unless [per_feature], plus axis 0 unless [per_timeseries] *)
Definition group (per_ts per_feat : bool) (X : array3) (i k : nat) : list xr :=
  let base := if per_ts then nth i X [] else concat X in
  if per_feat then column k base else concat base.

(** apply [f i k] to every entry [(i, t, k)] *)
Definition map_entries (f : nat -> nat -> xr -> xr) (X : array3) : array3 :=
  mapi (fun i s => map (mapi (f i)) s) X.

(** ** TimeSeriesScalerMinMax *)
Record mm_params := { mm_lo : R; mm_hi : R; mm_per_ts : bool; mm_per_feat : bool }.
Record mm_state := { mm_d : nat; mm_stats : nat -> nat -> xr * xr }.
(** l.226-236 [_process] *)
Definition mm_process (p : mm_params) (X : array3) (i k : nat) : xr * xr :=
  let g := group (mm_per_ts p) (mm_per_feat p) X i k in (nanmin g, nanmax g).
(** l.188-209.  [mm_stats] is only read when not [per_timeseries]. *)
Definition mm_fit (p : mm_params) (X : array3) : res mm_state :=
  do X <- check_arr X ;; Ok {| mm_d := arr_d X; mm_stats := mm_process p X |}.
(** l.238-269 *)
Definition mm_value (p : mm_params) (mn mx x : xr) : xr :=
  let range_t := xsub mx mn in
  let range_t := if is_xzero range_t then XR 1 else range_t in
  let nomin := xmul (xsub x mn) (XR (mm_hi p - mm_lo p)) in
  xadd (xdiv nomin range_t) (XR (mm_lo p)).
Definition mm_transform (p : mm_params) (st : mm_state) (X : array3) : res array3 :=
  if Rleb (mm_hi p) (mm_lo p) then Err ValueError
  else
    do X <- check_arr X ;;
    do X <- check_features (mm_d st) X ;;
    let stats := if mm_per_ts p then mm_process p X else mm_stats st in
    Ok (map_entries (fun i k x => mm_value p (fst (stats i k)) (snd (stats i k)) x) X).

(** ** TimeSeriesScalerMeanVariance *)
Record mv_params := { mv_mu : R; mv_std : R; mv_per_ts : bool; mv_per_feat : bool }.
(** l.355-366 *)
Definition mv_process (p : mv_params) (X : array3) (i k : nat) : xr * xr :=
  let g := group (mv_per_ts p) (mv_per_feat p) X i k in
  let sd := nanstd g in (nanmean g, if is_xzero sd then XR 1 else sd).
Definition mv_fit (p : mv_params) (X : array3) : res mm_state :=
  do X <- check_arr X ;; Ok {| mm_d := arr_d X; mm_stats := mv_process p X |}.
(** l.383-408 *)
Definition mv_value (p : mv_params) (mean std x : xr) : xr :=
  xadd (xdiv (xmul (xsub x mean) (XR (mv_std p))) std) (XR (mv_mu p)).
Definition mv_transform (p : mv_params) (st : mm_state) (X : array3) : res array3 :=
  do X <- check_arr X ;;
  do X <- check_features (mm_d st) X ;;
  let stats := if mv_per_ts p then mv_process p X else mm_stats st in
  Ok (map_entries (fun i k x => mv_value p (fst (stats i k)) (snd (stats i k)) x) X).

(** ** numpy.interp *)
(** [numpy.linspace(0, 1, n)] *)
Definition linspace01 (n : nat) : list R := map (fun i => (INR i / INR (n - 1))%R) (seq 0 n).
(** One value.  [xp] is increasing; numpy's search returns the last index [j] with
    [xp[j] <= x] (-1 and len(xp) outside), here [count - 1]. *)
Definition Reqb (a b : R) : bool := if Req_EM_T a b then true else false.
Definition xeqb (a b : xr) : bool := xleb a b && xleb b a.
Definition count_le (x : R) (xp : list R) : nat := length (filter (fun a => Rleb a x) xp).
Definition interp1 (xp : list R) (fp : list xr) (x : R) : xr :=
  let n := length xp in
  let c := count_le x xp in
  if c =? 0 then nth 0 fp XNaN
  else if c =? n then nth (n - 1) fp XNaN
  else
    let j := c - 1 in
    let xj := nth j xp 0%R in let xj1 := nth (j + 1) xp 0%R in
    let fj := nth j fp XNaN in let fj1 := nth (j + 1) fp XNaN in
    if Reqb xj x then fj
    else
      let slope := xdiv (xsub fj1 fj) (XR (xj1 - xj)) in
      let r := xadd (xmul slope (XR (x - xj))) fj in
      if xisnan r then
        let r := xadd (xmul slope (XR (x - xj1))) fj1 in
        if xisnan r && xeqb fj fj1 then fj else r
      else r.
Definition interp (x xp : list R) (fp : list xr) : res (list xr) :=
  match xp with [] => Err ValueError | _ => Ok (map (interp1 xp fp) x) end.

(** The array [n x d] whose columns are given *)
Definition of_columns (n : nat) (cols : list (list xr)) : series Xnum :=
  map (fun t => map (fun c => nth t c XNaN) cols) (seq 0 n).

(** ** TimeSeriesResampler, l.23-127.  [to_dataset] is [check_variable_length_input]. *)
Definition variable_length (X : array3) : res array3 := to_dataset (map Raw2 X).
Definition fit_features (X : array3) : res nat := do X <- variable_length X ;; Ok (arr_d X).
Definition all_equal_size (X : array3) : bool :=
  match X with [] => true | s :: X' => forallb (fun t => ts_size (N:=Xnum) t =? ts_size (N:=Xnum) s) X' end.
Definition unit_sz (X : array3) : array3 :=
  map (fun s => [map (fun k => nanmean (column k s)) (seq 0 (arr_d X))]) X.
Definition resample_series (target : nat) (sz d : nat) (s : series Xnum) : res (series Xnum) :=
  do cols <- mapM (fun k => interp (linspace01 target) (linspace01 sz) (column k (firstn sz s))) (seq 0 d) ;;
  Ok (of_columns target cols).
Definition resample (sz : Z) (d_fit : nat) (X : array3) : res array3 :=
  do X <- variable_length X ;;
  do X <- check_features d_fit X ;;
  let target := if (0 <? sz)%Z then Z.to_nat sz else arr_sz X in
  if target =? 1 then Ok (unit_sz X)
  else
    let equal_size := all_equal_size X in
    mapM (fun s => resample_series target (if equal_size then arr_sz X else ts_size (N:=Xnum) s) (arr_d X) s) X.

(** ** TimeSeriesImputer, l.422-647 *)
Inductive impute_method := Constant (value : xr) | Mean | Median | Linear | Ffill | Bfill | Unknown.
(** [numpy.nanmedian] *)
Fixpoint insert (x : xr) (l : list xr) : list xr :=
  match l with [] => [x] | y :: l' => if xleb x y then x :: l else y :: insert x l' end.
Definition xsort (l : list xr) : list xr := fold_right insert [] l.
Definition nanmedian (l : list xr) : xr :=
  let s := xsort (not_nan l) in
  let n := length s in
  if n =? 0 then XNaN
  else xmean (if Nat.even n then [nth (n / 2 - 1) s XNaN; nth (n / 2) s XNaN] else [nth (n / 2) s XNaN]).
(** [numpy.where(numpy.isnan(c), v, c)] *)
Definition fill_with (v : xr) (c : list xr) : list xr := map (fun x => if xisnan x then v else x) c.
(** l.531-540 *)
Definition observed_at (c : list xr) : list nat := filter (fun t => negb (xisnan (nth t c XNaN))) (seq 0 (length c)).
Definition linear_col (c : list xr) : res (list xr) :=
  match observed_at c with
  | [] => Err ValueError
  | obs => Ok (mapi (fun t x => if xisnan x then interp1 (map INR obs) (not_nan c) (INR t) else x) c)
  end.
(** l.543-558: [idx] is the running maximum of (t where observed, else 0) *)
Definition ffill_idx (c : list xr) (t : nat) : nat :=
  fold_left Nat.max (map (fun s => if xisnan (nth s c XNaN) then 0 else s) (seq 0 (S t))) 0.
Definition ffill_col (c : list xr) : list xr :=
  mapi (fun t x => if xisnan x then nth (ffill_idx c t) c XNaN else x) c.
(** l.561-577: running minimum, from the end, of (t where observed, else n - 1) *)
Definition bfill_idx (c : list xr) (t : nat) : nat :=
  fold_left Nat.min (map (fun s => if xisnan (nth s c XNaN) then length c - 1 else s) (rev (seq t (length c - t)))) (length c - 1).
Definition bfill_col (c : list xr) : list xr :=
  mapi (fun t x => if xisnan x then nth (bfill_idx c t) c XNaN else x) c.
Definition impute_col (m : impute_method) (c : list xr) : res (list xr) :=
  match m with
  | Constant v => Ok (fill_with v c)
  | Mean => Ok (fill_with (nanmean c) c)
  | Median => Ok (fill_with (nanmedian c) c)
  | Linear => linear_col c
  | Ffill => Ok (ffill_col c)
  | Bfill => Ok (bfill_col c)
  | Unknown => Err ValueError
  end.
Definition impute_ts (m : impute_method) (d : nat) (ts : series Xnum) : res (series Xnum) :=
  do cols <- mapM (fun k => impute_col m (column k ts)) (seq 0 d) ;; Ok (of_columns (length ts) cols).
(** l.612-647; the method is a string, not a callable *)
Definition impute_series (m : impute_method) (keep_trailing_nans : bool) (d : nat) (ts : series Xnum) : res (series Xnum) :=
  if keep_trailing_nans then
    let stop_index := ts_size (N:=Xnum) ts in
    do a <- impute_ts m d (firstn stop_index ts) ;; Ok (a ++ skipn stop_index ts)
  else impute_ts m d ts.
Definition impute (m : impute_method) (keep_trailing_nans : bool) (d_fit : nat) (X : array3) : res array3 :=
  do X <- variable_length X ;;
  do X <- check_features d_fit X ;;
  match m with
  | Unknown => Err ValueError
  | _ => do Y <- mapM (impute_series m keep_trailing_nans (arr_d X)) X ;; variable_length Y
  end.

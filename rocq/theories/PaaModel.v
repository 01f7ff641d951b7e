(** Model of tslearn/piecewise/piecewise.py and tslearn/metrics/cysax.py (PAA, SAX,
    1d-SAX) on the extended reals: exact arithmetic, NaN padding kept.
    Simplifications: a dataset is the list of its series, all of one shape [sz x d]
    (what [check_array] accepts); sizes and numbers of segments are natural numbers;
    [scipy.stats.norm.ppf] is a parameter. *)
From Coq Require Import Bool List Arith Reals.
From Verif Require Import Num Py Series RList SoftModel GakModel.
Import ListNotations.
Local Open Scope nat_scope.

Definition array3 := list (series Xnum).
Definition arr_sz (X : array3) : nat := length (hd [] X).
Definition arr_d (X : array3) : nat := ncols (hd [] X).
(** [check_array]: one shape for all, at least one sample *)
Definition check_arr (X : array3) : res array3 :=
  match X with
  | [] => Err ValueError
  | _ => if forallb (fun s => (length s =? arr_sz X) && forallb (fun r => length r =? arr_d X) s) X
         then Ok X else Err ValueError
  end.
(** utils.py l.135-142 [check_dims(X, X_fit_dims, check_n_features_only=True)] *)
Definition check_features (d : nat) (X : array3) : res array3 :=
  if arr_d X =? d then Ok X else Err ValueError.

(** [a.mean()] of a 1-d array; NaN for an empty one *)
Definition xsum (l : list xr) : xr := fold_left xadd l (XR 0).
Definition xmean (l : list xr) : xr := xdiv (xsum l) (XR (INR (length l))).
Definition column (k : nat) (s : series Xnum) : list xr := map (fun r => nth k r XNaN) s.

(** ** PAA *)
Record paa_state := { p_nseg : nat; p_sz : nat; p_d : nat }.
(** piecewise.py l.125-145 [_fit], [fit] *)
Definition paa_fit (n_segments : nat) (X : array3) : res paa_state :=
  do X <- check_arr X ;; Ok {| p_nseg := n_segments; p_sz := arr_sz X; p_d := arr_d X |}.
(** l.147-157 [_transform] *)
Definition paa_segment (s : series Xnum) (d start stop : nat) : list xr :=
  map (fun k => xmean (column k (slice start stop s))) (seq 0 d).
Definition paa_series (n : nat) (d : nat) (s : series Xnum) : series Xnum :=
  let sz_segment := ts_size (N:=Xnum) s / n in
  map (fun i_seg => let start := i_seg * sz_segment in
                    let stop := start + sz_segment in
                    paa_segment s d start stop) (seq 0 n).
Definition paa_transform_ (n : nat) (X : array3) : res array3 :=
  if n =? 0 then Err ZeroDivisionError else Ok (map (paa_series n (arr_d X)) X).
(** l.159-176 *)
Definition paa_transform (st : paa_state) (X : array3) : res array3 :=
  do X <- check_arr X ;; do X <- check_features (p_d st) X ;; paa_transform_ (p_nseg st) X.
(** l.195-217.  Simplification: both arguments have the same shape. *)
Definition sq_diffs (a b : series Xnum) : list xr :=
  map (fun p => let e := xsub (fst p) (snd p) in xmul e e) (combine (concat a) (concat b)).
Definition distance_paa (st : paa_state) (p1 p2 : series Xnum) : xr :=
  xmul (xsqrt (xsum (sq_diffs p1 p2))) (XR (sqrt (INR (p_sz st) / INR (p_nseg st)))).
(** l.219-240: [transform([ts1, ts2])] *)
Definition paa_distance (st : paa_state) (ts1 ts2 : series Xnum) : res xr :=
  do p <- paa_transform st [ts1; ts2] ;; Ok (distance_paa st (nth 0 p []) (nth 1 p [])).

(** An array [rows x d] under construction: row number to row. *)
Definition rows_of (n : nat) (out : nat -> list xr) : series Xnum := map out (seq 0 n).
(** [out[t0 : t0 + len, :] = row] *)
Definition write_rows (out : nat -> list xr) (t0 len : nat) (row : list xr) : nat -> list xr :=
  fun u => if (t0 <=? u) && (u <? t0 + len) then row else out u.
(** cysax.py l.11-34 [inv_transform_paa], one series; the rows stay inside the array *)
Definition inv_paa_series (original_size d : nat) (p : series Xnum) : series Xnum :=
  let seg_sz := original_size / length p in
  rows_of original_size
    (fold_left (fun out t => write_rows out (t * seg_sz) seg_sz (nth t p []))
       (seq 0 (length p)) (fun _ => repeat (XR 0) d)).
(** piecewise.py l.242-259 *)
Definition paa_inverse (st : paa_state) (P : array3) : res array3 :=
  do P <- check_arr P ;;
  if arr_sz P =? 0 then Err ZeroDivisionError
  else Ok (map (inv_paa_series (p_sz st) (arr_d P)) P).

(** ** SAX *)
(** l.17-33 [_paa_to_symbols], one value: the first breakpoint above it.  [None] is
    the initial symbol -1. *)
Definition symbol_step (x : xr) (acc : option nat) (ib : nat * R) : option nat :=
  match acc with
  | None => if xltb x (XR (snd ib)) then Some (fst ib) else None
  | Some _ => acc
  end.
Definition to_symbol (bps : list R) (x : xr) : nat :=
  match fold_left (symbol_step x) (combine (seq 0 (length bps)) bps) None with
  | Some k => k
  | None => length bps + 1 - 1
  end.
Definition paa_to_symbols (bps : list R) (X : array3) : list (list (list nat)) :=
  map (map (map (to_symbol bps))) X.
(** l.36-58 *)
Definition breakpoints (ppf : R -> R) (n_bins : nat) (scale : R) : list R :=
  map (fun a => (ppf (INR a / INR n_bins) * scale)%R) (seq 1 (n_bins - 1)).
Definition bin_medians (ppf : R -> R) (n_bins : nat) (scale : R) : list R :=
  map (fun k => (ppf (INR (2 * k + 1) / INR (2 * n_bins)) * scale)%R) (seq 0 n_bins).

Record sax_state := { s_paa : paa_state; s_bp : list R; s_mid : list R;
                      s_scaling : option (list xr * list xr) }.
(** [nanmean], [nanstd] *)
Definition not_nan (l : list xr) : list xr := filter (fun v => negb (xisnan v)) l.
Definition nanmean (l : list xr) : xr := xmean (not_nan l).
Definition nanstd (l : list xr) : xr :=
  let m := nanmean l in xsqrt (xmean (map (fun v => xmul (xsub v m) (xsub v m)) (not_nan l))).
Definition is_xzero (v : xr) : bool := match v with XR r => is_zero r | _ => false end.
(** l.355-383 *)
Definition sax_fit (ppf : R -> R) (n_segments alphabet : nat) (scale : bool) (X : array3) : res sax_state :=
  do st <- paa_fit n_segments X ;;
  let flat := concat X in
  let cols := map (fun k => column k flat) (seq 0 (arr_d X)) in
  Ok {| s_paa := st;
        s_bp := breakpoints ppf alphabet 1;
        s_mid := bin_medians ppf alphabet 1;
        s_scaling := if scale then
            Some (map nanmean cols,
                  map (fun c => let sd := nanstd c in if is_xzero sd then XR 1 else sd) cols)
          else None |}.
(** l.402-418 *)
Definition scale_row (mu sd row : list xr) : list xr :=
  map (fun p => xdiv (xsub (fst p) (fst (snd p))) (snd (snd p))) (combine row (combine mu sd)).
Definition unscale_row (mu sd row : list xr) : list xr :=
  map (fun p => xadd (xmul (fst p) (snd (snd p))) (fst (snd p))) (combine row (combine mu sd)).
Definition sax_scale (st : sax_state) (X : array3) : array3 :=
  match s_scaling st with None => X | Some (mu, sd) => map (map (scale_row mu sd)) X end.
Definition sax_unscale (st : sax_state) (X : array3) : array3 :=
  match s_scaling st with None => X | Some (mu, sd) => map (map (unscale_row mu sd)) X end.
(** l.420-442 *)
Definition sax_transform_ (st : sax_state) (X : array3) : res (list (list (list nat))) :=
  let X := sax_scale st X in
  do P <- paa_transform_ (p_nseg (s_paa st)) X ;; Ok (paa_to_symbols (s_bp st) P).
Definition sax_transform (st : sax_state) (X : array3) : res (list (list (list nat))) :=
  do X <- check_arr X ;; do X <- check_features (p_d (s_paa st)) X ;; sax_transform_ st X.
(** cysax.py l.38-74; symbols index the breakpoints from 0 *)
Definition sax_term (bps : list R) (a b : nat) : R :=
  if (1 <? a - b) || (1 <? b - a) then
    let e := (nth (Nat.max a b - 1) bps 0 - nth (Nat.min a b) bps 0)%R in (e * e)%R
  else 0%R.
Definition same_shape {A B} (a : list (list A)) (b : list (list B)) : bool :=
  (length a =? length b) && forallb (fun p => length (fst p) =? length (snd p)) (combine a b).
Definition cydist_sax (sax1 sax2 : list (list nat)) (bps : list R) (original_size : nat) : res R :=
  if negb (same_shape sax1 sax2) then Err AssertionError
  else if length sax1 =? 0 then Err ZeroDivisionError
  else
    let s := rsum (map (fun p => sax_term bps (fst p) (snd p)) (combine (concat sax1) (concat sax2))) in
    Ok (sqrt (s * INR original_size / INR (length sax1)))%R.
(** l.444-491 *)
Definition sax_distance (st : sax_state) (ts1 ts2 : series Xnum) : res R :=
  do sy <- sax_transform st [ts1; ts2] ;;
  cydist_sax (nth 0 sy []) (nth 1 sy []) (s_bp st) (p_sz (s_paa st)).
(** cysax.py l.78-103 [inv_transform_sax], one series *)
Definition inv_sax_series (mid : list R) (original_size d : nat) (p : list (list nat)) : series Xnum :=
  let seg_sz := original_size / length p in
  rows_of original_size
    (fold_left (fun out t => write_rows out (t * seg_sz) seg_sz (map (fun a => XR (nth a mid 0%R)) (nth t p [])))
       (seq 0 (length p)) (fun _ => repeat (XR 0) d)).
(** piecewise.py l.493-516.  The argument is an array [n_ts x n_seg x d] of valid
    symbols with as many features as the training data. *)
Definition sax_inverse (st : sax_state) (sy : list (list (list nat))) : res array3 :=
  if length (hd [] sy) =? 0 then Err ZeroDivisionError
  else Ok (sax_unscale st (map (inv_sax_series (s_mid st) (p_sz (s_paa st)) (p_d (s_paa st))) sy)).

(** ** 1d-SAX *)
Record sax1d_state := { o_sax : sax_state; o_bp : list R; o_mid : list R }.
(** l.627-658; [sz_segment = 0] makes the default [0.03 / sz_segment] fail *)
Definition sax1d_fit (ppf : R -> R) (n_segments alphabet alphabet_slope : nat) (sigma_l : option R)
  (scale : bool) (X : array3) : res sax1d_state :=
  do st <- sax_fit ppf n_segments alphabet scale X ;;
  if n_segments =? 0 then Err ZeroDivisionError
  else
    let sz_segment := arr_sz X / n_segments in
    do sigma <- match sigma_l with
                | Some s => Ok s
                | None => if sz_segment =? 0 then Err ZeroDivisionError
                          else Ok (sqrt (3 / 100 / INR sz_segment)) end ;;
    Ok {| o_sax := st; o_bp := breakpoints ppf alphabet_slope sigma;
          o_mid := bin_medians ppf alphabet_slope sigma |}.
(** cysax.py l.107-131: coefficient of the least-squares line through
    [(t0, y0), (t0+1, y1), ...]; scikit-learn rejects an empty sample and non-finite
    values, and a single point gets the least-norm solution 0. *)
Definition as_real (v : xr) : res R := match v with XR r => Ok r | _ => Err ValueError end.
Fixpoint as_reals (l : list xr) : res (list R) :=
  match l with [] => Ok [] | v :: l' => do r <- as_real v ;; do rs <- as_reals l' ;; Ok (r :: rs) end.
Definition rmean (l : list R) : R := (rsum l / INR (length l))%R.
Definition ls_slope (t0 : nat) (ys : list R) : R :=
  let ts := map INR (seq t0 (length ys)) in
  if length ys =? 1 then 0%R
  else (rsum (map (fun p => (fst p - rmean ts) * (snd p - rmean ys)) (combine ts ys)) /
        rsum (map (fun t => (t - rmean ts) * (t - rmean ts)) ts))%R.
Definition cyslope (t0 : nat) (ys : list xr) : res R :=
  match ys with [] => Err ValueError | _ => do rs <- as_reals ys ;; Ok (ls_slope t0 rs) end.
(** l.679-687; the segments are those of the padded array *)
Fixpoint mapr {A B} (f : A -> res B) (l : list A) : res (list B) :=
  match l with [] => Ok [] | a :: l' => do b <- f a ;; do bs <- mapr f l' ;; Ok (b :: bs) end.
Definition slopes_series (n d sz : nat) (s : series Xnum) : res (list (list R)) :=
  let sz_segment := sz / n in
  mapr (fun i_seg => let start := i_seg * sz_segment in
                     let stop := start + sz_segment in
                     mapr (fun k => cyslope start (column k (slice start stop s))) (seq 0 d)) (seq 0 n).
Definition get_slopes (n : nat) (X : array3) : res (list (list (list R))) :=
  mapr (slopes_series n (arr_d X) (arr_sz X)) X.
(** l.689-704: averages of [SymbolicAggregateApproximation._transform(self, X)] on the
    already scaled [X] *)
Definition join_rows (a b : list (list nat)) : list (list nat) := map (fun p => fst p ++ snd p) (combine a b).
Definition sax1d_transform_ (st : sax1d_state) (X : array3) : res (list (list (list nat))) :=
  let X := sax_scale (o_sax st) X in
  do A <- sax_transform_ (o_sax st) X ;;
  do sl <- get_slopes (p_nseg (s_paa (o_sax st))) X ;;
  let B := paa_to_symbols (o_bp st) (map (map (map XR)) sl) in
  Ok (map (fun p => join_rows (fst p) (snd p)) (combine A B)).
Definition sax1d_transform (st : sax1d_state) (X : array3) : res (list (list (list nat))) :=
  do X <- check_arr X ;; do X <- check_features (p_d (s_paa (o_sax st))) X ;; sax1d_transform_ st X.
(** cysax.py l.135-185 [cydist_1d_sax] *)
Definition line1d (avg slope t t_middle : R) : R := (avg + slope * (t - t_middle))%R.
Definition cydist_1d_sax (sax1 sax2 : list (list nat)) (mid_avg mid_slope : list R) (original_size : nat) : res R :=
  if negb (same_shape sax1 sax2) then Err AssertionError
  else if length sax1 =? 0 then Err ZeroDivisionError
  else
    let sz := length sax1 in
    let d := length (hd [] sax1) / 2 in
    let seg_sz := original_size / sz in
    Ok (sqrt (rsum (flat_map (fun t =>
      let t0 := t * seg_sz in
      let t_middle := (INR t0 + 1 / 2 * INR seg_sz)%R in
      flat_map (fun di =>
        let sym (s : list (list nat)) k := nth k (nth t s []) 0 in
        let avg1 := nth (sym sax1 di) mid_avg 0%R in
        let avg2 := nth (sym sax2 di) mid_avg 0%R in
        let slope1 := nth (sym sax1 (di + d)) mid_slope 0%R in
        let slope2 := nth (sym sax2 (di + d)) mid_slope 0%R in
        map (fun tt => let e := (line1d avg1 slope1 (INR tt) t_middle - line1d avg2 slope2 (INR tt) t_middle)%R in
                       (e * e)%R) (seq t0 seg_sz)) (seq 0 d)) (seq 0 sz)))).
Definition distance_1d_sax (st : sax1d_state) (sax1 sax2 : list (list nat)) : res R :=
  cydist_1d_sax sax1 sax2 (s_mid (o_sax st)) (o_mid st) (p_sz (s_paa (o_sax st))).
Definition sax1d_distance (st : sax1d_state) (ts1 ts2 : series Xnum) : res R :=
  do sy <- sax1d_transform st [ts1; ts2] ;; distance_1d_sax st (nth 0 sy []) (nth 1 sy []).
(** cysax.py l.189-223 [inv_transform_1d_sax], one series.  The array comes from
    [np.empty]: [junk] is whatever it contains. *)
Definition inv_1d_series (mid_avg mid_slope : list R) (original_size d : nat) (junk : nat -> list xr)
  (p : list (list nat)) : series Xnum :=
  let seg_sz := original_size / length p in
  rows_of original_size
    (fold_left (fun out t =>
       let t0 := t * seg_sz in
       let t_middle := (INR t0 + 1 / 2 * (INR seg_sz - 1))%R in
       fun tt => if (t0 <=? tt) && (tt <? seg_sz * (t + 1)) then
           map (fun di =>
             let avg := nth (nth di (nth t p []) 0) mid_avg 0%R in
             let slope := nth (nth (di + d) (nth t p []) 0) mid_slope 0%R in
             XR (line1d avg slope (INR tt) t_middle)) (seq 0 d)
         else out tt)
       (seq 0 (length p)) junk).
(** piecewise.py l.779-803, on an array of valid symbols with [2 d] features *)
Definition sax1d_inverse (st : sax1d_state) (junk : nat -> nat -> list xr) (sy : list (list (list nat))) : res array3 :=
  if length (hd [] sy) =? 0 then Err ZeroDivisionError
  else Ok (sax_unscale (o_sax st)
             (map (fun ip => inv_1d_series (s_mid (o_sax st)) (o_mid st) (p_sz (s_paa (o_sax st)))
                               (p_d (s_paa (o_sax st))) (junk (fst ip)) (snd ip))
                  (combine (seq 0 (length sy)) sy))).

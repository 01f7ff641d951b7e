(** Model of tslearn/preprocessing/_synchronizer.py, TimeSeriesFeatureSynchronizer, in exact arithmetic. *)
From Coq Require Import Bool List Arith ZArith Reals.
From Verif Require Import Num Py Series Dataset PaaModel PreModel.
Import ListNotations.

(** A [numpy.datetime64] is a number of time units, or NaT.  Simplification: [astype("float64")] is exact (in the
    code it rounds numbers of units from 2^53 on) and sends NaT to NaN. *)
Notation stamp := (option Z).
Definition stamp_float (s : stamp) : xr := match s with Some z => XR (IZR z) | None => XNaN end.
(** The argument [timestamps]: an array of shape (n_ts, sz, d), or nested lists with the same content *)
Inductive stamps_arg := StampArray (a : list (list (list stamp))) | StampList (a : list (list (list stamp))).
Definition content (ts : stamps_arg) : list (list (list stamp)) := match ts with StampArray a => a | StampList a => a end.

Definition same_shape (X Y : array3) : bool :=
  (length X =? length Y) && (arr_sz X =? arr_sz Y) && (arr_d X =? arr_d Y).

(** l.115-118.  [numpy.ma.diff] masks a difference with a masked operand; the masked differences do not count in
    [numpy.ma.all], which returns [masked] (false) when there are differences and all of them are masked. *)
Definition stamp_at (a : list (list (list stamp))) (i t k : nat) : stamp := nth k (nth t (nth i a []) []) None.
Definition diffs (a : list (list (list stamp))) : list (option Z) :=
  flat_map (fun s => flat_map (fun p => map (fun q => match q with (Some x, Some y) => Some (y - x)%Z | _ => None end)
                                            (combine (fst p) (snd p)))
                              (combine s (tl s))) a.
Definition masked_all_positive (ds : list (option Z)) : bool :=
  let valid := flat_map (fun o => match o with Some z => [z] | None => [] end) ds in
  match ds, valid with
  | [], _ => true
  | _, [] => false
  | _, _ => forallb (fun z => (0 <? z)%Z) valid
  end.

Section Sync.
(** [numpy.interp] where some data point has a NaN coordinate: left open *)
Variable nan_interp : list stamp -> list xr -> stamp -> xr.

(** l.142-146 with timestamps: [numpy.interp]; a NaN evaluation point gives NaN *)
Definition known (l : list stamp) : option (list R) :=
  fold_right (fun s acc => match s, acc with Some z, Some l => Some (IZR z :: l) | _, _ => None end) (Some []) l.
Definition interp_stamps (x xp : list stamp) (fp : list xr) : res (list xr) :=
  match xp with
  | [] => Err ValueError
  | _ => Ok (map (fun a => match a, known xp with
                           | None, _ => XNaN
                           | Some z, Some xp => interp1 xp fp (IZR z)
                           | Some z, None => nan_interp xp fp (Some z)
                           end) x)
  end.
(** [_ts_size(ts[..., k])] *)
Definition col_size (c : list xr) : nat := ts_size (N:=Xnum) (map (fun x => [x]) c).
(** l.133-147: one feature, given the column and how to interpolate its [feature_size] first values *)
Definition sync_col (ref_size max_ref : nat) (values : list xr) (c : list xr) : list xr :=
  mapi (fun t x => if (ref_size <=? t) && (t <? max_ref) then XNaN else x) (values ++ skipn ref_size c).
Definition sync_series (ref max_ref d : nat) (stamps : option (list (list stamp))) (ts : series Xnum) : res (series Xnum) :=
  let ref_size := col_size (column ref ts) in
  let stamp_column := fun (a : list (list stamp)) n k => map (fun r => nth k r None) (firstn n a) in
  do cols <- mapM (fun k =>
      let c := column k ts in
      let feature_size := col_size c in
      do values <- match stamps with
                   | None => interp (linspace01 ref_size) (linspace01 feature_size) (firstn feature_size c)
                   | Some a => interp_stamps (stamp_column a ref_size ref) (stamp_column a feature_size k) (firstn feature_size c)
                   end ;;
      Ok (sync_col ref_size max_ref values c)) (seq 0 d) ;;
  Ok (firstn max_ref (of_columns (length ts) cols)).

(** l.78-148 [transform] after [fit] on [d_fit] features; the index of the reference feature is not negative.
    A nested list cannot be indexed by a tuple (l.128). *)
Definition synchronize (ref : nat) (d_fit : nat) (timestamps : option stamps_arg) (X : array3) : res array3 :=
  do X <- variable_length X ;;
  do X <- check_features d_fit X ;;
  do _ <- match timestamps with
          | None => Ok tt
          | Some ts =>
              do T <- variable_length (map (map (map stamp_float)) (content ts)) ;;
              if negb (same_shape T X) then Err ValueError
              else if negb (masked_all_positive (diffs (content ts))) then Err ValueError
              else Ok tt
          end ;;
  if arr_d X <=? ref then Err IndexError
  else
    match X with
    | [] => Err ValueError
    | _ =>
        let max_ref := fold_left Nat.max (map (fun s => col_size (column ref s)) X) 0 in
        match timestamps with
        | Some (StampList _) => Err TypeError
        | Some (StampArray a) => mapM (fun p => sync_series ref max_ref (arr_d X) (Some (snd p)) (fst p)) (combine X a)
        | None => mapM (sync_series ref max_ref (arr_d X) None) X
        end
    end.
End Sync.

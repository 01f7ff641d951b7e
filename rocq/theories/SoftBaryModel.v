(** Model of tslearn/barycenters/softdtw.py on extended reals.  scipy's optimiser is
    an argument; numba's compilation (fastmath) and joblib's threads are not modelled
    beyond the order in which results arrive. *)
From Coq Require Import Bool List Arith ZArith QArith Reals.
From Verif Require Import Num Py Series Masks DtwModel Dataset Fill SoftModel GakModel PaaModel PreModel BaryModel.
Import ListNotations.
Local Open Scope nat_scope.

(** softdtw.py l.96-112, soft_dtw_fast.py l.317-341 and l.343-365: product of the
    Jacobian of the squared Euclidean distances with [E]; [d] is [X.shape[1]] *)
Definition jacobian_product (d : nat) (X Y : series Xnum) (E : mat xr) : list (list xr) :=
  map (fun i => map (fun k =>
    fold_left (fun g j =>
        xadd g (xmul (xmul (E i j) (XR 2)) (xsub (nth k (nth i X []) XNaN) (nth k (nth j Y []) XNaN))))
      (seq 0 (length Y)) (XR 0)) (seq 0 d)) (seq 0 (length X)).

(** l.72-93 [_softdtw_func] and [_njit_softdtw_func_from_distance_matrix]:
    [scipy.spatial.distance.cdist(Z, X) ** 2] is taken as the squared distance;
    [garbage] is the uninitialised gradient table *)
Definition softdtw_func (d : nat) (Z X : series Xnum) (weight : xr) (gamma : R) (code : nat)
    (radius : option BinNums.Z) (slope : option Q) (garbage : mat xr) : res (xr * list (list xr)) :=
  let m := length Z in let n := length X in
  do mask <- compute_mask m n code radius slope ;;
  let D : mat xr := fun i j => if mask i j then sq_dists (N:=Xnum) Z X i j else XInf in
  let R := soft_acc0 gamma m n D mask in
  let E := soft_grad gamma m n D R garbage in
  Ok (xmul weight (R (m - 1) (n - 1)), map (map (xmul weight)) (jacobian_product d Z X E)).

(** [Z.reshape(-1, d)] of a vector *)
Fixpoint chunks (fuel d : nat) (l : list xr) : list (list xr) :=
  match fuel with
  | O => []
  | S fuel => match l with [] => [] | _ => firstn d l :: chunks fuel d (skipn d l) end
  end.
Definition reshape_rows (d : nat) (l : list xr) : res (series Xnum) :=
  if d =? 0 then Err ValueError
  else if length l mod d =? 0 then Ok (chunks (length l) d l) else Err ValueError.

(** l.24-69 [_acc_softdtw_func].  [order] lists the indices of the series in the order
    in which their results are added: increasing without jobs, arbitrary with
    ["generator_unordered"]. *)
Definition add_rows (G H : list (list xr)) : list (list xr) :=
  map (fun p => map (fun q => xadd (fst q) (snd q)) (combine (fst p) (snd p))) (combine G H).
Definition acc_softdtw_func (flat : list xr) (X : list (series Xnum)) (weights : list xr) (gamma : R) (code : nat)
    (radius : option BinNums.Z) (slope : option Q) (order : list nat) (garbage : nat -> mat xr) : res (xr * list xr) :=
  match X with
  | [] => Err IndexError
  | x0 :: _ =>
      let d := ncols x0 in
      do Z <- reshape_rows d flat ;;
      do parts <- mapM (fun i => softdtw_func d Z (nth i X []) (nth i weights XNaN) gamma code radius slope (garbage i)) order ;;
      let start : xr * list (list xr) := (XR 0, map (map (fun _ => XR 0)) Z) in
      let total := fold_left (fun acc p => (xadd (fst acc) (fst p), add_rows (snd acc) (snd p))) parts start in
      Ok (fst total, concat (snd total))
  end.

(** l.193-200: the weighted mean of the series, resampled first if their lengths differ *)
Definition softdtw_start (X_ : array3) (w : list xr) (init : option (series Xnum)) : res (series Xnum) :=
  match init with
  | Some b => Ok b
  | None =>
      do Y <- (if all_equal_size X_ then Ok X_ else do d <- fit_features X_ ;; resample (-1) d X_) ;;
      mapM (fun t => average_rows (arr_d Y) (map (fun s => nth t s []) Y) w) (seq 0 (arr_sz Y))
  end.
(** l.115-215 [softdtw_barycenter].  [minimize f x] is the solution scipy reports;
    the vector is cut again into rows of the shape of the start. *)
Definition softdtw_barycenter (minimize : (list xr -> res (xr * list xr)) -> list xr -> res (list xr))
    (X : list (raw Xnum)) (gamma : R) (weights : option (list xr)) (max_iter : nat) (init : option (series Xnum))
    (g : gc_name) (radius : option BinNums.Z) (slope : option Q) (order : list nat) (garbage : nat -> mat xr)
  : res (series Xnum) :=
  do X_ <- to_dataset X ;;
  let w := set_weights weights (length X_) in
  do b <- softdtw_start X_ w init ;;
  do code <- gc_code g ;;
  if 0 <? max_iter then
    let ts := map strip X_ in
    do x <- minimize (fun z => acc_softdtw_func z ts w gamma code radius slope order garbage) (concat b) ;;
    Ok (chunks (length b) (ncols b) x)
  else Ok b.

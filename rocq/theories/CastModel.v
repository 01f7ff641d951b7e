(** Model of tslearn/utils/cast.py (l.21-777) and of [check_dataset] (utils/utils.py l.548-621): datasets in the formats of other packages.
    A float array of shape (n, sz, d) is a list of n series of sz rows of d values.  Arrays that may have no row carry their number of columns.
    pandas frames are lists of columns or of rows; pandas, cesium and sklearn's check_array are modelled by their documented meaning. *)
From Coq Require Import Bool List Arith String Decimal DecimalString.
From Verif Require Import Num Py Series Dataset.
Import ListNotations.
Local Open Scope nat_scope.

(** a 2-d array *)
Record array2 := { cols : nat; rows : series Xnum }.
Definition transpose (d : nat) (m : list (list xr)) : list (list xr) := map (fun k => map (fun r => nth k r XNaN) m) (seq 0 d).
(** [X_.shape[2]] of [to_time_series_dataset(X)] *)
Definition dim (X : list (raw Xnum)) : nat := match X with [] => 0 | x :: _ => raw_ncols x end.
(** utils.py l.453-461 [_check_equal_size] *)
Definition equal_size (D : list (series Xnum)) : bool :=
  match D with [] => true | x :: l => forallb (fun y => ts_size y =? ts_size x) l end.
(** utils.py l.548-621 *)
Definition check_dataset (univariate equal_length single : bool) (X : list (raw Xnum)) : res (list (series Xnum)) :=
  do D <- to_dataset (N:=Xnum) X ;;
  if univariate && negb (dim X =? 1) then Err ValueError
  else if equal_length && negb (equal_size D) then Err ValueError
  else if single && negb (List.length D =? 1) then Err ValueError
  else Ok D.
(** [_to_time_series(Xi, True)] *)
Definition strip (s : series Xnum) : series Xnum := to_time_series true (Raw2 s).
(** [to_time_series_dataset] of a list of 2-d arrays (utils.py l.262-286) *)
Definition from_arrays (l : list array2) : res (list (series Xnum)) :=
  match l with
  | [] => Ok []
  | a :: _ => mapM (padded (cols a) (max_size (map (fun a => Raw2 (rows a)) l))) (map (fun a => Raw2 (rows a)) l)
  end.

(** ** l.21-61 [to_sklearn_dataset]: the 2-d array and d *)
Definition to_sklearn (X : list (raw Xnum)) : res (list (list xr) * nat) := do D <- to_dataset (N:=Xnum) X ;; Ok (map (@List.concat xr) D, dim X).

(** ** pyts, l.64-138 *)
Inductive pyts := P2 (m : list (list xr)) | P3 (m : list (list (list xr))).
Definition to_pyts (X : list (raw Xnum)) : res pyts :=
  do D <- check_dataset false true false X ;;
  Ok (if dim X =? 1 then P2 (map (@List.concat xr) D) else P3 (map (transpose (dim X)) D)).
Definition finite (x : xr) : bool := match x with XR _ => true | _ => false end.
(** [check_array(X, ensure_2d=False, allow_nd=True)] refuses NaN, infinities, no sample and (2-d) no feature *)
Definition from_pyts (P : pyts) : res (list (series Xnum)) :=
  match P with
  | P2 m => if negb (forallb (forallb finite) m) || (List.length m =? 0) || (List.length (hd [] m) =? 0) then Err ValueError
            else Ok (map (map (fun x => [x])) m)
  | P3 m => if negb (forallb (forallb (forallb finite)) m) || (List.length m =? 0) then Err ValueError
            else Ok (map (transpose (List.length (hd [] (hd [] m)))) m)
  end.

(** ** seglearn, l.141-211 *)
Definition to_seglearn (X : list (raw Xnum)) : res (list array2) :=
  do D <- check_dataset false false false X ;; Ok (map (fun s => {| cols := dim X; rows := strip s |}) D).
Definition from_seglearn (l : list array2) : res (list (series Xnum)) := from_arrays l.

(** ** stumpy, l.214-285: 1-d arrays, or arrays of shape (d, sz) *)
Inductive channels := Flat (l : list xr) | Channels (sz : nat) (m : list (list xr)).
Definition transpose_or_flatten (a : array2) : channels :=
  if cols a =? 1 then Flat (List.concat (rows a)) else Channels (List.length (rows a)) (transpose (cols a) (rows a)).
Definition to_stumpy (X : list (raw Xnum)) : res (list channels) :=
  do D <- check_dataset false false false X ;; Ok (map (fun s => transpose_or_flatten {| cols := dim X; rows := strip s |}) D).
Definition transpose_or_expand (c : channels) : array2 :=
  match c with
  | Flat l => {| cols := 1; rows := map (fun x => [x]) l |}
  | Channels sz m => {| cols := List.length m; rows := transpose sz m |}
  end.
Definition from_stumpy (l : list channels) : res (list (series Xnum)) := from_arrays (map transpose_or_expand l).

(** ** cesium, l.655-777: a TimeSeries keeps its measurements; sorting leaves equally spaced times as they are *)
Definition to_cesium (X : list (raw Xnum)) : res (list channels) := to_stumpy X.
(** l.752-770: the entries [tslearn_ts[:sz, di] = data[di]] of an array of NaN *)
Definition format_to_tslearn (c : channels) : res array2 :=
  let data := match c with Flat l => [l] | Channels _ m => m end in
  if List.length data =? 0 then Err ValueError
  else
    let max_sz := fold_left Nat.max (map (@List.length xr) data) 0 in
    Ok {| cols := List.length data; rows := map (fun t => map (fun row => nth t row XNaN) data) (seq 0 max_sz) |}.
Definition from_cesium (l : list channels) : res (list (series Xnum)) := do a <- mapM format_to_tslearn l ;; from_arrays a.

(** ** sktime, l.288-406: a frame of columns of series *)
Definition dim_name (k : nat) : string := String.append "dim_" (NilZero.string_of_uint (Nat.to_uint k)).
Definition frame := list (string * list (list xr)).
Definition to_sktime (X : list (raw Xnum)) : res frame :=
  do D <- check_dataset false false false X ;;
  Ok (map (fun k => (dim_name k, map (fun s : series Xnum => map (fun r : list xr => nth k r XNaN) (firstn (ts_size s) s)) D)) (seq 0 (dim X))).
(** [X[name]] *)
Fixpoint column (f : frame) (name : string) : res (list (list xr)) :=
  match f with [] => Err KeyError | (n, c) :: f => if String.eqb n name then Ok c else column f name end.
(** l.389: the two sorted lists of names are equal: as multisets *)
Definition count (s : string) (l : list string) : nat := List.length (filter (String.eqb s) l).
Definition same_names (a b : list string) : bool := forallb (fun s => count s a =? count s b) (a ++ b).
Definition from_sktime (f : frame) : res (list (series Xnum)) :=
  let names := filter (String.prefix "dim_") (map fst f) in
  let d := List.length names in
  let ordered := map dim_name (seq 0 d) in
  if negb (same_names ordered names) then Err ValueError
  else
    do c0 <- column f "dim_0" ;;
    let n := List.length c0 in
    do cs <- mapM (column f) ordered ;;
    (* n is not 0: otherwise max_sz is -1 and numpy.empty fails *)
    if n =? 0 then Err ValueError
    else
      let max_sz := fold_left Nat.max (List.concat (map (fun c => map (fun i => List.length (nth i c [])) (seq 0 n)) cs)) 0 in
      Ok (map (fun i => map (fun t => map (fun c => nth t (nth i c []) XNaN) cs) (seq 0 max_sz)) (seq 0 n)).

(** ** tsfresh, l.527-652: a frame of rows (id, time, values); [names] are the other columns, in order *)
Record long_frame := { value_names : list string; records : list (nat * nat * list xr) }.
Definition to_tsfresh (X : list (raw Xnum)) : res long_frame :=
  do D <- check_dataset false false false X ;;
  (* [pd.concat] of no frame *)
  if List.length D =? 0 then Err ValueError
  else Ok {| value_names := map dim_name (seq 0 (dim X));
             records := List.concat (map (fun p : nat * series Xnum => let s := strip (snd p) in map (fun t => (fst p, t, nth t s [])) (seq 0 (List.length s)))
                                    (combine (seq 0 (List.length D)) D)) |}.
(** [ids] is the set of the ids, in the order in which Python's set iterates over it.  The column "time" is not used. *)
Definition from_tsfresh (ids : list nat) (f : long_frame) : res (list (series Xnum)) :=
  let of_id i := map snd (filter (fun r : nat * nat * list xr => fst (fst r) =? i) (records f)) in
  let d := List.length (value_names f) in
  match ids with
  | [] => Err ValueError  (* numpy.empty((0, -1, d)) *)
  | _ =>
      let max_sz := fold_left Nat.max (map (fun i => List.length (of_id i)) ids) 0 in
      Ok (map (fun i => map (fun t => match nth_error (of_id i) t with Some v => map (fun k => nth k v XNaN) (seq 0 d) | None => repeat XNaN d end) (seq 0 max_sz)) ids)
  end.

(** ** pyflux, l.409-524: a frame of columns of numbers.  l.455 takes [X[0]] and not [X_[0]]. *)
Definition to_pyflux (X : list (raw Xnum)) : res (list (string * list xr)) :=
  do D <- check_dataset false true true X ;;
  match X with
  | [] => Err IndexError
  | x :: _ => let s : list (list xr) := reshape x in Ok (map (fun k => (dim_name k, map (fun r => nth k r XNaN) s)) (seq 0 (dim X)))
  end.
Definition from_pyflux (f : list (string * list xr)) : res (list (series Xnum)) :=
  match f with
  | [] => Err ValueError  (* numpy.empty((1, -1, 0)) *)
  | _ => let max_sz := fold_left Nat.max (map (fun c => List.length (snd c)) f) 0 in
         Ok [map (fun t => map (fun c => nth t (snd c) XNaN) f) (seq 0 max_sz)]
  end.

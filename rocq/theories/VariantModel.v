(** Model of tslearn/metrics/dtw_variants.py: limited warping length, subsequence
    DTW, LCSS.  (LB_Keogh, on exact reals, is in [LbModel.v].) *)
From Coq Require Import Bool List Arith ZArith QArith.
From Verif Require Import Num Py Series Masks DtwModel Fill.
Import ListNotations.
Local Open Scope nat_scope.

(** [numpy.argmin] on a NaN-free sequence: first index of a least element *)
Fixpoint argmin_from {N : num} (best : N) (bi k : nat) (l : list N) : nat :=
  match l with
  | [] => bi
  | x :: l' => if nltb x best then argmin_from x k (S k) l' else argmin_from best bi (S k) l'
  end.
Definition argmin {N : num} (l : list N) : nat :=
  match l with [] => 0 | x :: l' => argmin_from x 0 1 l' end.

Section WithNum.
Variable N : num.

(** ** l.70-156: costs by path length *)
(** [dict_costs[i, j]]: keys are numbers of moves, in insertion order *)
Definition dict : Type := list (nat * N).
Fixpoint dget (d : dict) (s : nat) : option N :=
  match d with [] => None | (k, v) :: d' => if k =? s then Some v else dget d' s end.
(** [.get(s, inf)], also with a negative key *)
Definition dget_inf (d : dict) (s : Z) : N :=
  if (s <? 0)%Z then ninf else match dget d (Z.to_nat s) with Some v => v | None => ninf end.

(** l.70-98 [_max_steps] called with [max_length - 1] *)
Definition max_steps (i j max_length l1 l2 : nat) : nat :=
  Nat.min (i + j) (max_length - Nat.max (l1 - i - 1) (l2 - j - 1)).

(** l.136-142: first column and first row *)
Fixpoint col_cost (D : mat N) (i : nat) : N :=
  match i with O => D 0 0 | S i' => nadd (col_cost D i') (D i 0) end.
Fixpoint row_cost (D : mat N) (j : nat) : N :=
  match j with O => D 0 0 | S j' => nadd (row_cost D j') (D 0 j) end.
Definition lim_init (D : mat N) : mat dict :=
  fun i j => if j =? 0 then [(i, col_cost D i)] else if i =? 0 then [(j, row_cost D j)] else [].
(** l.147-155 *)
Definition lim_cell (D : mat N) (max_length l1 l2 : nat) (m : mat dict) (i j : nat) : dict :=
  let min_s := Nat.max i j in
  let max_s := max_steps i j (max_length - 1) l1 l2 in
  map (fun s =>
        let p := (Z.of_nat s - 1)%Z in
        (s, nadd (D i j) (pymin3 (dget_inf (m i (j - 1)) p) (dget_inf (m (i - 1) j) p)
                                 (dget_inf (m (i - 1) (j - 1)) p))))
      (seq min_s (max_s + 1 - min_s)).
Definition lim_costs (D : mat N) (max_length l1 l2 : nat) : mat dict :=
  fill (lim_cell D max_length l1 l2) (grid 1 (l1 - 1) 1 (l2 - 1)) (lim_init D).

(** Python's [min] of the values of a dict *)
Definition min_values (d : dict) : res N :=
  match map snd d with [] => Err ValueError | v :: vs => Ok (fold_left (fun a b => pymin a b) vs v) end.

(** l.226-239.  Simplification: both series have the same number of features. *)
Definition dtw_limited (x1 x2 : raw N) (max_length : Z) : res N :=
  let s1 := to_time_series true x1 in
  let s2 := to_time_series true x2 in
  if (max_length <? Z.of_nat (Nat.max (length s1) (length s2)))%Z then Err ValueError
  else if (length s1 =? 0) || (length s2 =? 0) then Err IndexError      (* s1[0] *)
  else
    let costs := lim_costs (sq_dists s1 s2) (Z.to_nat max_length) (length s1) (length s2) in
    do v <- min_values (costs (length s1 - 1) (length s2 - 1)) ;;
    Ok (nsqrt v).

(** l.272-297; fuel [i + j + 1] *)
Fixpoint lim_backtrack (fuel : nat) (acc : mat dict) (i j : nat) (cur : Z) (path : list (nat * nat))
  : option (list (nat * nat)) :=
  match fuel with
  | O => None
  | S f =>
    match i, j with
    | O, O => Some path
    | O, S j' => lim_backtrack f acc 0 j' cur ((0, j') :: path)
    | S i', O => lim_backtrack f acc i' 0 cur ((i', 0) :: path)
    | S i', S j' =>
        let g := fun d => dget_inf d (cur - 1)%Z in
        match argmin3 (g (acc i' j')) (g (acc i' j)) (g (acc i j')) with
        | 0 => lim_backtrack f acc i' j' (cur - 1) ((i', j') :: path)
        | 1 => lim_backtrack f acc i' j (cur - 1) ((i', j) :: path)
        | _ => lim_backtrack f acc i j' (cur - 1) ((i, j') :: path)
        end
    end
  end.
(** l.390-395: scan of the items, strict comparison, starting from (-1, inf) *)
Definition best_item (d : dict) : Z * N :=
  fold_left (fun b kv => if nltb (snd kv) (snd b) then (Z.of_nat (fst kv), snd kv) else b) d ((-1)%Z, ninf).
(** l.378-399 *)
Definition dtw_path_limited (x1 x2 : raw N) (max_length : Z) : res (list (nat * nat) * N) :=
  let s1 := to_time_series true x1 in
  let s2 := to_time_series true x2 in
  if (max_length <? Z.of_nat (Nat.max (length s1) (length s2)))%Z then Err ValueError
  else if (length s1 =? 0) || (length s2 =? 0) then Err IndexError
  else
    let l1 := length s1 in let l2 := length s2 in
    let costs := lim_costs (sq_dists s1 s2) (Z.to_nat max_length) l1 l2 in
    let (k, v) := best_item (costs (l1 - 1) (l2 - 1)) in
    match lim_backtrack (l1 + l2) costs (l1 - 1) (l2 - 1) k [(l1 - 1, l2 - 1)] with
    | Some p => Ok (p, nsqrt v)
    | None => Err OtherError
    end.

(** ** l.419-430: subsequence cost matrix (row 0 of the bordered table is 0) *)
Definition sub_init : mat N := fun i j => if i =? 0 then nzero else ninf.
Definition sub_cell (D : mat N) (m : mat N) (ci cj : nat) : N :=
  nadd (D (ci - 1) (cj - 1)) (pymin3 (m (ci - 1) cj) (m ci (cj - 1)) (m (ci - 1) (cj - 1))).
Definition sub_cum (D : mat N) (l1 l2 : nat) : mat N := fill (sub_cell D) (grid 1 l1 1 l2) sub_init.
Definition sub_matrix (D : mat N) (l1 l2 : nat) : mat N := fun i j => sub_cum D l1 l2 (S i) (S j).

(** l.524-547; fuel [i + j + 1] *)
Fixpoint sub_backtrack (fuel : nat) (acc : mat N) (i j : nat) (path : list (nat * nat))
  : option (list (nat * nat)) :=
  match fuel with
  | O => None
  | S f =>
    match i, j with
    | O, _ => Some path
    | S i', O => sub_backtrack f acc i' 0 ((i', 0) :: path)
    | S i', S j' =>
        match argmin3 (acc i' j') (acc i' j) (acc i j') with
        | 0 => sub_backtrack f acc i' j' ((i', j') :: path)
        | 1 => sub_backtrack f acc i' j ((i', j) :: path)
        | _ => sub_backtrack f acc i j' ((i, j') :: path)
        end
    end
  end.
(** l.714-720 with l.496-501 *)
Definition dtw_subsequence_path (xq xl : raw N) : res (list (nat * nat) * N) :=
  let q := to_time_series true xq in
  let s := to_time_series true xl in
  let l1 := length q in let l2 := length s in
  if l1 =? 0 then Err IndexError                                   (* acc_cost_mat[-1, :] *)
  else if l2 =? 0 then Err ValueError                              (* argmin of an empty row *)
  else
    let acc := sub_matrix (sq_dists q s) l1 l2 in
    let e := argmin (map (acc (l1 - 1)) (seq 0 l2)) in
    match sub_backtrack (l1 + l2) acc (l1 - 1) e [(l1 - 1, e)] with
    | Some p => Ok (p, nsqrt (acc (l1 - 1) e))
    | None => Err OtherError
    end.

(** ** l.968-982 and l.1564-1577: LCSS table; [close i j] is the test
    [sqrt(dist) <= eps] (l.975) or [dist_matrix[i,j] <= eps] (l.1570) *)
Definition lcss_cell (close : mat bool) (mask : mask_t) (m : mat nat) (ci cj : nat) : nat :=
  if mask (ci - 1) (cj - 1) then
    if close (ci - 1) (cj - 1) then 1 + m (ci - 1) (cj - 1)
    else Nat.max (m ci (cj - 1)) (m (ci - 1) cj)
  else m ci cj.
Definition lcss_table (close : mat bool) (mask : mask_t) (l1 l2 : nat) : mat nat :=
  fill (lcss_cell close mask) (grid 1 l1 1 l2) (fun _ _ => 0).
Definition within (s1 s2 : series N) (eps : N) : mat bool :=
  fun i j => nleb (nsqrt (sq_dists s1 s2 i j)) eps.
(** [float(acc[-1][-1]) / min([l1, l2])], as an exact fraction *)
Definition lcss_ratio (k l1 l2 : nat) : Q := inject_Z (Z.of_nat k) / inject_Z (Z.of_nat (Nat.min l1 l2)).

(** l.1200-1214.  No validation: an empty series divides by zero. *)
Definition lcss (x1 x2 : raw N) (eps : N) (g : gc_name) (radius : option Z) (slope : option Q) : res Q :=
  let s1 := to_time_series true x1 in
  let s2 := to_time_series true x2 in
  let l1 := length s1 in let l2 := length s2 in
  do code <- gc_code g ;;
  do mask <- compute_mask l1 l2 code radius slope ;;
  if Nat.min l1 l2 =? 0 then Err ZeroDivisionError
  else Ok (lcss_ratio (lcss_table (within s1 s2 eps) mask l1 l2 l1 l2) l1 l2).

(** l.1296-1312 [_return_lcss_path] and l.1397-1409: one turn of the while loop per
    unit of fuel; [None] = the loop is still running.  [guard] is the [if] around
    the whole loop body: the mask, or [isfinite(mask)] (always true) in the
    compiled version l.1344-1356. *)
Fixpoint lcss_walk (fuel : nat) (close : mat bool) (guard : mat bool) (acc : mat nat) (i j : nat)
    (path : list (nat * nat)) : option (list (nat * nat)) :=
  match fuel with
  | O => None
  | S f =>
    match i, j with
    | S i', S j' =>
        if guard i' j' then
          if close i' j' then lcss_walk f close guard acc i' j' ((i', j') :: path)
          else if acc i j' <? acc i' j then lcss_walk f close guard acc i' j path
          else lcss_walk f close guard acc i j' path
        else lcss_walk f close guard acc i j path
    | _, _ => Some path
    end
  end.
(** l.1520-1542 [lcss_path]; [fuel] bounds the number of loop turns *)
Definition lcss_path (fuel : nat) (x1 x2 : raw N) (eps : N) (g : gc_name) (radius : option Z) (slope : option Q)
  : res (option (list (nat * nat) * Q)) :=
  let s1 := to_time_series true x1 in
  let s2 := to_time_series true x2 in
  let l1 := length s1 in let l2 := length s2 in
  do code <- gc_code g ;;
  do mask <- compute_mask l1 l2 code radius slope ;;
  let acc := lcss_table (within s1 s2 eps) mask l1 l2 in
  match lcss_walk fuel (within s1 s2 eps) mask acc l1 l2 [] with
  | None => Ok None
  | Some p => if Nat.min l1 l2 =? 0 then Err ZeroDivisionError else Ok (Some (p, lcss_ratio (acc l1 l2) l1 l2))
  end.
(** l.1769-1812 with metric="precomputed".  [compiled] is [be.is_numpy]. *)
Definition lcss_path_precomputed (compiled : bool) (fuel : nat) (sz1 sz2 : nat) (D : mat N) (eps : N) (g : gc_name)
    (radius : option Z) (slope : option Q) : res (option (list (nat * nat) * Q)) :=
  do code <- gc_code g ;;
  do mask <- compute_mask sz1 sz2 code radius slope ;;
  let close := fun i j => nleb (D i j) eps in
  let acc := lcss_table close mask sz1 sz2 in
  match lcss_walk fuel close (if compiled then full_mask else mask) acc sz1 sz2 [] with
  | None => Ok None
  | Some p => if Nat.min sz1 sz2 =? 0 then Err ZeroDivisionError else Ok (Some (p, lcss_ratio (acc sz1 sz2) sz1 sz2))
  end.
End WithNum.
Arguments dget {N}. Arguments dget_inf {N}. Arguments col_cost {N}. Arguments row_cost {N}.
Arguments lim_init {N}. Arguments lim_cell {N}. Arguments lim_costs {N}. Arguments min_values {N}.
Arguments dtw_limited {N}. Arguments lim_backtrack {N}. Arguments best_item {N}. Arguments dtw_path_limited {N}.
Arguments sub_init {N}. Arguments sub_cell {N}. Arguments sub_cum {N}. Arguments sub_matrix {N}.
Arguments sub_backtrack {N}. Arguments dtw_subsequence_path {N}.
Arguments within {N}. Arguments lcss {N}. Arguments lcss_path {N}. Arguments lcss_path_precomputed {N}.

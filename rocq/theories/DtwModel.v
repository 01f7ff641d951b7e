(** Model of tslearn/metrics/_dtw.py, _frechet.py and the shared parts of
    tslearn/metrics/utils.py. *)
From Coq Require Import Bool List Arith ZArith QArith.
From Verif Require Import Num Py Series Masks.
Import ListNotations.

Local Open Scope nat_scope.

Section WithNum.
Variable N : num.

(** _dtw.py l.334-337 (also dtw_variants.py l.31-35): squared distance of two
    feature vectors, accumulated from 0.0 in index order.  The code indexes both
    by [range(s1[i].shape[0])]; callers guarantee equal lengths. *)
Definition local_sq_dist (x y : list N) : N :=
  fold_left (fun dist p => nadd dist (nmul (nsub (fst p) (snd p)) (nsub (fst p) (snd p))))
            (combine x y) nzero.

(** distance matrix of two series: entry [i,j] as computed inside the loops *)
Definition sq_dists (s1 s2 : series N) : mat N :=
  fun i j => local_sq_dist (nth i s1 []) (nth j s2 []).

(** What differs between DTW (_dtw.py l.338-343) and Frechet (_frechet.py
    l.341-346): how a local distance is combined with the best predecessor. *)
Definition comb_dtw (dist best : N) : N := nadd dist best.
Definition comb_frechet (dist best : N) : N := pymax dist best.

(** _dtw.py l.328-344, _frechet.py l.331-348 and the _from_dist_matrix versions:
    [cum_sum] has a border row and column of infinities with 0 in the corner. *)
Definition cum_init : mat N :=
  fun i j => if (i =? 0)%nat && (j =? 0)%nat then nzero else ninf.
Definition cum_step (comb : N -> N -> N) (D : mat N) (mask : mask_t)
    (cum : mat N) (ij : nat * nat) : mat N :=
  let (i, j) := ij in
  if mask i j then
    upd cum (S i) (S j)
      (comb (D i j) (pymin3 (cum i (S j)) (cum (S i) j) (cum i j)))
  else cum.
Definition cum_matrix (comb : N -> N -> N) (l1 l2 : nat) (D : mat N) (mask : mask_t) : mat N :=
  fold_left (cum_step comb D mask) (row_major l1 l2) cum_init.
(** [return cum_sum[1:, 1:]] *)
Definition acc_matrix (comb : N -> N -> N) (l1 l2 : nat) (D : mat N) (mask : mask_t) : mat N :=
  fun i j => cum_matrix comb l1 l2 D mask (S i) (S j).

(** utils.py l.200-230 [_torch_acc_matrix_from_dist_matrix]: masked distances are
    set to infinity, then one vectorised update per anti-diagonal [k]; all
    predecessors of a diagonal are read before the diagonal is written. *)
Definition torch_diag_step (comb : N -> N -> N) (l1 l2 : nat) (D' : mat N)
    (cum : mat N) (k : nat) : mat N :=
  let i_start := (k - (l2 - 1))%nat in          (* max(0, k - l2 + 1), l2 >= 1 *)
  let i_end := (Nat.min (l1 - 1) k + 1)%nat in
  fun ci cj =>
    let i := (ci - 1)%nat in let j := (cj - 1)%nat in
    if (1 <=? ci) && (1 <=? cj) && (i_start <=? i) && (i <? i_end) && (i + j =? k) then
      comb (D' i j) (pymin3 (cum (ci - 1)%nat cj) (cum ci (cj - 1)%nat) (cum (ci - 1)%nat (cj - 1)%nat))
    else cum ci cj.
Definition torch_acc_matrix (comb : N -> N -> N) (l1 l2 : nat) (D : mat N) (mask : mask_t) : mat N :=
  let D' : mat N := fun i j => if mask i j then D i j else ninf in
  let cum := fold_left (torch_diag_step comb l1 l2 D') (seq 0 (l1 + l2 - 1)) cum_init in
  fun i j => cum (S i) (S j).

(** utils.py l.20-44 [_compute_path_generic]: walk back from the last cell; the
    Python list grows at its end and is reversed before returning, which is the
    same as consing.  [None] = out of fuel. *)
Fixpoint backtrack (fuel : nat) (acc : mat N) (i j : nat) (path : list (nat * nat))
  : option (list (nat * nat)) :=
  match fuel with
  | O => None
  | S f =>
    match i, j with
    | O, O => Some path
    | O, S j' => backtrack f acc 0 j' ((0, j') :: path)
    | S i', O => backtrack f acc i' 0 ((i', 0) :: path)
    | S i', S j' =>
        match argmin3 (acc i' j') (acc i' j) (acc i j') with
        | 0 => backtrack f acc i' j' ((i', j') :: path)
        | 1 => backtrack f acc i' j ((i', j) :: path)
        | _ => backtrack f acc i j' ((i, j') :: path)
        end
    end
  end.
Definition compute_path (sz1 sz2 : nat) (acc : mat N) : option (list (nat * nat)) :=
  backtrack (sz1 + sz2) acc (sz1 - 1) (sz2 - 1) [(sz1 - 1, sz2 - 1)]%nat.

(** _dtw.py l.391-400 [_dtw_generic] / _frechet.py l.398-407 [_frechet_generic] *)
Definition elastic_generic (comb : N -> N -> N) (s1 s2 : series N) (code : nat)
    (radius : option Z) (slope : option Q) : res N :=
  let l1 := length s1 in let l2 := length s2 in
  do mask <- compute_mask l1 l2 code radius slope ;;
  Ok (nsqrt (acc_matrix comb l1 l2 (sq_dists s1 s2) mask (l1 - 1) (l2 - 1))).

(** _dtw.py l.425-435 / _frechet.py l.432-442: distance and path.  Out of fuel is
    reported as [OtherError]; theorems show it does not happen. *)
Definition elastic_path_generic (comb : N -> N -> N) (s1 s2 : series N) (code : nat)
    (radius : option Z) (slope : option Q) : res (list (nat * nat) * N) :=
  let l1 := length s1 in let l2 := length s2 in
  do mask <- compute_mask l1 l2 code radius slope ;;
  let acc := acc_matrix comb l1 l2 (sq_dists s1 s2) mask in
  match compute_path l1 l2 acc with
  | Some p => Ok (p, nsqrt (acc (l1 - 1) (l2 - 1)))%nat
  | None => Err OtherError
  end.

(** _dtw.py l.145-163 [dtw] / _frechet.py [frechet]: conversion and validation. *)
Definition validated {A} (x1 x2 : raw N) (k : series N -> series N -> res A) : res A :=
  let s1 := to_time_series true x1 in
  let s2 := to_time_series true x2 in
  if (length s1 =? 0)%nat || (length s2 =? 0)%nat then Err ValueError
  else if negb (ncols s1 =? ncols s2)%nat then Err ValueError
  else k s1 s2.

Definition elastic (comb : N -> N -> N) (x1 x2 : raw N) (g : gc_name)
    (radius : option Z) (slope : option Q) : res N :=
  validated x1 x2 (fun s1 s2 =>
    do code <- gc_code g ;; elastic_generic comb s1 s2 code radius slope).
Definition elastic_path (comb : N -> N -> N) (x1 x2 : raw N) (g : gc_name)
    (radius : option Z) (slope : option Q) : res (list (nat * nat) * N) :=
  validated x1 x2 (fun s1 s2 =>
    do code <- gc_code g ;; elastic_path_generic comb s1 s2 code radius slope).

Definition dtw := elastic comb_dtw.
Definition dtw_path := elastic_path comb_dtw.
Definition frechet := elastic comb_frechet.
Definition frechet_path := elastic_path comb_frechet.

(** _dtw.py l.602-636 [dtw_path_from_metric] / _frechet.py l.610-644 with
    metric="precomputed": the argument is the [sz1 x sz2] distance matrix and the
    score is the raw accumulated cost (no square root). *)
Definition elastic_path_precomputed (comb : N -> N -> N) (sz1 sz2 : nat) (D : mat N) (g : gc_name)
    (radius : option Z) (slope : option Q) : res (list (nat * nat) * N) :=
  do code <- gc_code g ;;
  do mask <- compute_mask sz1 sz2 code radius slope ;;
  let acc := acc_matrix comb sz1 sz2 D mask in
  match compute_path sz1 sz2 acc with
  | Some p => Ok (p, acc (sz1 - 1) (sz2 - 1))%nat
  | None => Err OtherError
  end.
(** the same with a metric: [pairwise] stands for be.pairwise_distances of two
    feature vectors (scipy/sklearn, external) *)
Definition elastic_path_metric (comb : N -> N -> N) (pairwise : list N -> list N -> N)
    (x1 x2 : raw N) (g : gc_name) (radius : option Z) (slope : option Q)
    : res (list (nat * nat) * N) :=
  let s1 := to_time_series true x1 in
  let s2 := to_time_series true x2 in
  elastic_path_precomputed comb (length s1) (length s2)
    (fun i j => pairwise (nth i s1 []) (nth j s2 [])) g radius slope.

End WithNum.
Arguments local_sq_dist {N}. Arguments sq_dists {N}.
Arguments comb_dtw {N}. Arguments comb_frechet {N}.
Arguments cum_init {N}. Arguments cum_step {N}. Arguments cum_matrix {N}.
Arguments acc_matrix {N}. Arguments torch_diag_step {N}. Arguments torch_acc_matrix {N}.
Arguments backtrack {N}. Arguments compute_path {N}.
Arguments elastic_generic {N}. Arguments elastic_path_generic {N}.
Arguments validated {N A}. Arguments elastic {N}. Arguments elastic_path {N}.
Arguments dtw {N}. Arguments dtw_path {N}. Arguments frechet {N}. Arguments frechet_path {N}.
Arguments elastic_path_precomputed {N}. Arguments elastic_path_metric {N}.

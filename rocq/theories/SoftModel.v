(** Model of soft-DTW (tslearn/metrics/_soft_dtw.py, soft_dtw_fast.py) on the
    extended reals: additions, divisions, exponentials and logarithms follow the
    IEEE rules for infinities and NaN but are exact on finite numbers. *)
From Coq Require Import Bool List Arith ZArith QArith Reals.
From Verif Require Import Num Py Series Masks DtwModel Dataset Fill.
Import ListNotations.
Local Open Scope nat_scope.

(** numpy.exp / numpy.log / division by a finite non-zero number *)
Definition xexp (a : xr) : xr :=
  match a with XR x => XR (exp x) | XInf => XInf | XNInf => XR 0 | XNaN => XNaN end.
Definition xln (a : xr) : xr :=
  match a with
  | XR x => if Rltb 0 x then XR (ln x) else if Rltb x 0 then XNaN else XNInf
  | XInf => XInf | XNInf => XNaN | XNaN => XNaN
  end.
Definition xdivr (a : xr) (g : R) : xr := xmul a (XR (/ g)).

(** soft_dtw_fast.py l.14-48 [_njit_softmin3] *)
Definition softmin3 (gamma : R) (a b c : xr) : xr :=
  let a := xdivr a (- gamma) in
  let b := xdivr b (- gamma) in
  let c := xdivr c (- gamma) in
  let mx := pymax (N:=Xnum) (pymax (N:=Xnum) a b) c in
  let tmp := xadd (xadd (xadd (XR 0) (xexp (xsub a mx))) (xexp (xsub b mx))) (xexp (xsub c mx)) in
  xmul (XR (- gamma)) (xadd (xln tmp) mx).

(** _soft_dtw.py l.375-376: [-gamma * torch.logsumexp(-predecessors/gamma, dim=0)].
    torch's logsumexp subtracts the maximum, or 0 if the maximum is infinite. *)
Definition lse3 (a b c : xr) : xr :=
  let mx := pymax (N:=Xnum) (pymax (N:=Xnum) a b) c in
  let mx := match mx with XInf | XNInf => XR 0 | _ => mx end in
  xadd (xln (xadd (xadd (xadd (XR 0) (xexp (xsub a mx))) (xexp (xsub b mx))) (xexp (xsub c mx)))) mx.
Definition torch_softmin3 (gamma : R) (a b c : xr) : xr :=
  xmul (XR (- gamma)) (lse3 (xdivr (xopp a) gamma) (xdivr (xopp b) gamma) (xdivr (xopp c) gamma)).

(** _soft_dtw.py l.349-370 [_njit_accumulated_matrix]: bordered table *)
Definition soft_init : mat xr := fun i j => match i, j with O, O => XR 0 | _, _ => XInf end.
Definition soft_cell (gamma : R) (D : mat xr) (mask : mask_t) (cum : mat xr) (ci cj : nat) : xr :=
  if mask (ci - 1) (cj - 1) then
    xadd (D (ci - 1) (cj - 1)) (softmin3 gamma (cum (ci - 1) cj) (cum ci (cj - 1)) (cum (ci - 1) (cj - 1)))
  else cum ci cj.
Definition soft_acc (gamma : R) (l1 l2 : nat) (D : mat xr) (mask : mask_t) : mat xr :=
  let cum := fill (soft_cell gamma D mask) (grid 1 l1 1 l2) soft_init in
  fun i j => cum (S i) (S j).

(** utils.py l.194-230 with the soft-DTW accumulation: masked distances are set to
    infinity, one simultaneous update per anti-diagonal. *)
Definition soft_diag_step (gamma : R) (l1 l2 : nat) (D' : mat xr) (cum : mat xr) (k : nat) : mat xr :=
  let i_start := k - (l2 - 1) in
  let i_end := Nat.min (l1 - 1) k + 1 in
  fun ci cj =>
    let i := ci - 1 in let j := cj - 1 in
    if (1 <=? ci) && (1 <=? cj) && (i_start <=? i) && (i <? i_end) && (i + j =? k) then
      xadd (D' i j) (torch_softmin3 gamma (cum (ci - 1) cj) (cum ci (cj - 1)) (cum (ci - 1) (cj - 1)))
    else cum ci cj.
Definition torch_soft_acc (gamma : R) (l1 l2 : nat) (D : mat xr) (mask : mask_t) : mat xr :=
  let D' : mat xr := fun i j => if mask i j then D i j else XInf in
  let cum := fold_left (soft_diag_step gamma l1 l2 D') (seq 0 (l1 + l2 - 1)) soft_init in
  fun i j => cum (S i) (S j).

(** the numerical backend of a call: numpy (compiled loops) or torch *)
Inductive backend : Type := BNumpy | BTorch.
Definition soft_acc_on (be : backend) : R -> nat -> nat -> mat xr -> mask_t -> mat xr :=
  match be with BNumpy => soft_acc | BTorch => torch_soft_acc end.

(** l.431-441 [_soft_dtw_generic] *)
Definition soft_dtw_generic (be : backend) (s1 s2 : series Xnum) (gamma : R) (code : nat)
    (radius : option Z) (slope : option Q) : res xr :=
  let l1 := length s1 in let l2 := length s2 in
  do mask <- compute_mask l1 l2 code radius slope ;;
  Ok (soft_acc_on be gamma l1 l2 (sq_dists (N:=Xnum) s1 s2) mask (l1 - 1) (l2 - 1)).

(** [math.isclose(gamma, 0.0)] has only a relative tolerance: true iff gamma = 0 *)
Definition is_zero (g : R) : bool := if Req_EM_T g 0 then true else false.

(** l.172-198 [soft_dtw].  For gamma = 0 both backends compute the same DTW (C06),
    of which the model takes the row-major version. *)
Definition soft_dtw (be : backend) (x1 x2 : raw Xnum) (gamma : R) (g : gc_name)
    (radius : option Z) (slope : option Q) : res xr :=
  validated (N:=Xnum) x1 x2 (fun s1 s2 =>
    do code <- gc_code g ;;
    if is_zero gamma then
      do d <- elastic_generic (N:=Xnum) comb_dtw s1 s2 code radius slope ;; Ok (xmul d d)
    else soft_dtw_generic be s1 s2 gamma code radius slope).

(** l.462-493 [_soft_dtw_normalized_generic] *)
Definition soft_dtw_normalized_generic (be : backend) (s1 s2 : series Xnum) (gamma : R) (code : nat)
    (radius : option Z) (slope : option Q) : res xr :=
  do v12 <- soft_dtw_generic be s1 s2 gamma code radius slope ;;
  do v11 <- soft_dtw_generic be s1 s1 gamma code radius slope ;;
  do v22 <- soft_dtw_generic be s2 s2 gamma code radius slope ;;
  Ok (xsub v12 (xmul (XR (/ 2)) (xadd v11 v22))).
(** l.320-346 [soft_dtw_normalized] *)
Definition soft_dtw_normalized (be : backend) (x1 x2 : raw Xnum) (gamma : R) (g : gc_name)
    (radius : option Z) (slope : option Q) : res xr :=
  validated (N:=Xnum) x1 x2 (fun s1 s2 =>
    do code <- gc_code g ;;
    if is_zero gamma then
      do d <- elastic_generic (N:=Xnum) comb_dtw s1 s2 code radius slope ;; Ok (xmul d d)
    else soft_dtw_normalized_generic be s1 s2 gamma code radius slope).

(** ** soft_dtw_alignment *)
(** l.386-407 [_njit_accumulated_matrix_from_distance_matrix]: unbordered table *)
Definition soft_cell0 (gamma : R) (D : mat xr) (mask : mask_t) (cum : mat xr) (i j : nat) : xr :=
  if mask i j then
    if i + j =? 0 then D i j
    else xadd (D i j) (softmin3 gamma
           (if i =? 0 then XInf else cum (i - 1) j)
           (if j =? 0 then XInf else cum i (j - 1))
           (if i * j =? 0 then XInf else cum (i - 1) (j - 1)))
  else cum i j.
Definition soft_acc0 (gamma : R) (l1 l2 : nat) (D : mat xr) (mask : mask_t) : mat xr :=
  fill (soft_cell0 gamma D mask) (grid 0 l1 0 l2) (fun _ _ => XInf).
Definition soft_acc0_on (be : backend) : R -> nat -> nat -> mat xr -> mask_t -> mat xr :=
  match be with BNumpy => soft_acc0 | BTorch => torch_soft_acc end.

Definition nan_to_zero (a : xr) : xr := if xisnan a then XR 0 else a.
(** l.704-722: one cell of the backward pass; the code's (i-1, j-1) is [(i, j)] here *)
Definition grad_cell (gamma : R) (m n : nat) (D R : mat xr) (E : mat xr) (i j : nat) : xr :=
  if (i =? m - 1) && (j =? n - 1) then E i j           (* continue *)
  else
    let last_i := i =? m - 1 in let last_j := j =? n - 1 in
    let r_down := if last_i then XNInf else R (S i) j in
    let r_right := if last_j then XNInf else R i (S j) in
    let r_diag := if last_i || last_j then XNInf else R (S i) (S j) in
    let d_down := if last_i then XR 0 else D (S i) j in
    let d_right := if last_j then XR 0 else D i (S j) in
    let d_diag := if last_i || last_j then XR 0 else D (S i) (S j) in
    let a := nan_to_zero (xexp (xdivr (xsub (xsub r_down (R i j)) d_down) gamma)) in
    let b := nan_to_zero (xexp (xdivr (xsub (xsub r_right (R i j)) d_right) gamma)) in
    let c := nan_to_zero (xexp (xdivr (xsub (xsub r_diag (R i j)) d_diag) gamma)) in
    let e_down := if last_i then XR 0 else E (S i) j in
    let e_right := if last_j then XR 0 else E i (S j) in
    let e_diag := if last_i || last_j then XR 0 else E (S i) (S j) in
    xadd (xadd (xmul e_down a) (xmul e_right b)) (xmul e_diag c).
(** l.692-724 [_soft_dtw_grad_generic]: columns from last to first, rows from last
    to first.  The array starts uninitialised: [garbage] is arbitrary. *)
Definition grad_order (m n : nat) : list (nat * nat) :=
  flat_map (fun j => map (fun i => (i, j)) (rev (seq 0 m))) (rev (seq 0 n)).
Definition soft_grad (gamma : R) (m n : nat) (D R : mat xr) (garbage : mat xr) : mat xr :=
  fill (grad_cell gamma m n D R) (grad_order m n) (upd garbage (m - 1) (n - 1) (XR 1)).

(** l.644-687 [soft_dtw_alignment].  [be.cdist(s1, s2) ** 2] is taken as the squared
    Euclidean distance. *)
Definition path_matrix (p : list (nat * nat)) : mat xr :=
  fun i j => if existsb (fun c => (fst c =? i) && (snd c =? j)) p then XR 1 else XR 0.
Definition soft_dtw_alignment (be : backend) (garbage : mat xr) (x1 x2 : raw Xnum) (gamma : R) (g : gc_name)
    (radius : option Z) (slope : option Q) : res (mat xr * xr) :=
  validated (N:=Xnum) x1 x2 (fun s1 s2 =>
    do code <- gc_code g ;;
    if is_zero gamma then
      do pd <- elastic_path_generic (N:=Xnum) comb_dtw s1 s2 code radius slope ;;
      Ok (path_matrix (fst pd), xmul (snd pd) (snd pd))
    else
      let m := length s1 in let n := length s2 in
      do mask <- compute_mask m n code radius slope ;;
      let D : mat xr := fun i j => if mask i j then sq_dists (N:=Xnum) s1 s2 i j else XInf in
      let R := soft_acc0_on be gamma m n D mask in
      Ok (soft_grad gamma m n D R garbage, R (m - 1) (n - 1))).

(** ** cdist *)
(** l.883-940 [cdist_soft_dtw], [_cdist_soft_dtw] *)
Definition to_datasets (ds1 : list (raw Xnum)) (ds2 : option (list (raw Xnum)))
  : res (list (series Xnum) * option (list (series Xnum))) :=
  do d1 <- to_dataset (N:=Xnum) ds1 ;;
  do d2 <- match ds2 with None => Ok None | Some ds2 => do d2 <- to_dataset (N:=Xnum) ds2 ;; Ok (Some d2) end ;;
  Ok (d1, d2).
Definition cdist_soft_dtw_generic (be : backend) (d1 : list (series Xnum)) (d2 : option (list (series Xnum)))
    (gamma : R) (g : gc_name) (radius : option Z) (slope : option Q) (j : jobs) : res (mat xr) :=
  if is_zero gamma then
    do code <- gc_code g ;;
    cdist_generic (N:=Xnum) (fun s1 s2 => elastic_generic (N:=Xnum) comb_dtw s1 s2 code radius slope) d1 d2 false j
  else
    do code <- gc_code g ;;
    cdist_generic (N:=Xnum) (fun s1 s2 => soft_dtw_generic be s1 s2 gamma code radius slope) d1 d2 true j.
Definition cdist_soft_dtw (be : backend) (ds1 : list (raw Xnum)) (ds2 : option (list (raw Xnum)))
    (gamma : R) (g : gc_name) (radius : option Z) (slope : option Q) (j : jobs) : res (mat xr) :=
  do d <- to_datasets ds1 ds2 ;;
  cdist_soft_dtw_generic be (fst d) (snd d) gamma g radius slope j.

(** l.1100-1193 [cdist_soft_dtw_normalized], [_cdist_soft_dtw_normalized].  With
    several jobs the two padded datasets are stacked (l.1186), which needs equal
    padded lengths and feature counts: [vstack] raises a ValueError otherwise.
    [j2] schedules the second batch of tasks. *)
Definition stackable (d1 d2 : list (series Xnum)) : bool :=
  (length (hd [] d1) =? length (hd [] d2)) && (ncols (hd [] d1) =? ncols (hd [] d2)).
Definition self_dists (be : backend) (d1 d2 : list (series Xnum)) (gamma : R) (code : nat)
    (radius : option Z) (slope : option Q) (j2 : jobs) : res (list xr * list xr) :=
  let f := fun s : series Xnum => let t := to_time_series (N:=Xnum) true (Raw2 s) in
             soft_dtw_generic be t t gamma code radius slope in
  match j2 with
  | Sequential => do a <- mapM f d1 ;; do b <- mapM f d2 ;; Ok (a, b)
  | Threads _ =>
      if stackable d1 d2 then
        do l <- run_jobs j2 f (d1 ++ d2) ;;
        Ok (firstn (length d1) l, skipn (length d1) l)
      else Err ValueError
  end.
Definition cdist_soft_dtw_normalized (be : backend) (ds1 : list (raw Xnum)) (ds2 : option (list (raw Xnum)))
    (gamma : R) (g : gc_name) (radius : option Z) (slope : option Q) (j j2 : jobs) : res (mat xr) :=
  do d <- to_datasets ds1 ds2 ;;
  do M <- cdist_soft_dtw_generic be (fst d) (snd d) gamma g radius slope j ;;
  if is_zero gamma then Ok M
  else match snd d with
  | None => Ok (fun i k => xadd (M i k) (xmul (XR (- / 2)) (xadd (M i i) (M k k))))
  | Some d2 =>
      do code <- gc_code g ;;
      do ab <- self_dists be (fst d) d2 gamma code radius slope j2 ;;
      Ok (fun i k => xadd (M i k) (xmul (XR (- / 2)) (xadd (nth i (fst ab) XNaN) (nth k (snd ab) XNaN))))
  end.

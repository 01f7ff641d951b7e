(** Model of tslearn/metrics/softdtw_variants.py: the classes [SoftDTW] and
    [SquaredEuclidean] and the deprecated functions built on them, with the kernels
    of tslearn/metrics/soft_dtw_fast.py.  Extended reals; numba's [fastmath] (which
    lets the compiler reorder sums) is not modelled.  The torch branches with
    [compute_with_backend] evaluate the same expressions and are not distinguished;
    tensors are on the CPU, where [to_numpy] shares memory. *)
From Coq Require Import Bool List Arith ZArith QArith Reals.
From Verif Require Import Num Py Series Masks DtwModel Dataset Fill SoftModel SoftBaryModel.
Import ListNotations.
Local Open Scope nat_scope.

(** softdtw_variants.py l.653-694: an object.  The attribute [R_] survives from call
    to call. *)
Record sdtw : Type := SDTW {
  sd_m : nat; sd_n : nat;            (* shape of D *)
  sd_D : mat xr;                     (* self.D *)
  sd_R : mat xr;                     (* self.R_, (m + 2) x (n + 2) *)
  sd_computed : bool;                (* self.computed *)
  sd_gamma : R }.
(** l.676-694 [__init__] *)
Definition sdtw_new (m n : nat) (D : mat xr) (gamma : R) : sdtw := SDTW m n D (fun _ _ => XR 0) false gamma.

(** soft_dtw_fast.py l.100-125 [_njit_soft_dtw], l.128-164 [_soft_dtw].  [border] is
    what the first row and column are filled with, DBL_MAX in the code.  [XR b] keeps
    it as a number; [XInf] is what it amounts to once exp(-DBL_MAX/gamma) underflows. *)
Definition class_init (border : xr) (m n : nat) (R0 : mat xr) : mat xr := fun i j =>
  if (i =? 0) && (j =? 0) then XR 0
  else if (i =? 0) && (j <? n + 1) then border
  else if (j =? 0) && (i <? m + 1) then border
  else R0 i j.
Definition class_cell (gamma : R) (D : mat xr) (T : mat xr) (i j : nat) : xr :=
  xadd (D (i - 1) (j - 1)) (softmin3 gamma (T (i - 1) j) (T (i - 1) (j - 1)) (T i (j - 1))).
Definition class_table (border : xr) (gamma : R) (m n : nat) (D R0 : mat xr) : mat xr :=
  fill (class_cell gamma D) (grid 1 m 1 n) (class_init border m n R0).
(** softdtw_variants.py l.696-720 [compute] *)
Definition sdtw_compute (border : xr) (o : sdtw) : xr * sdtw :=
  let T := class_table border (sd_gamma o) (sd_m o) (sd_n o) (sd_D o) (sd_R o) in
  (T (sd_m o) (sd_n o), SDTW (sd_m o) (sd_n o) (sd_D o) T true (sd_gamma o)).

(** soft_dtw_fast.py l.204-234 [_njit_soft_dtw_grad], l.237-275 [_soft_dtw_grad];
    [D1] is the distance matrix with one more row and column (softdtw_variants.py
    l.737-738) *)
Definition class_grad_R (border : xr) (m n : nat) (R : mat xr) : mat xr := fun i j =>
  if (i =? m + 1) && (j =? n + 1) then R m n
  else if (i =? m + 1) && (1 <=? j) && (j <=? n) then xopp border
  else if (j =? n + 1) && (1 <=? i) && (i <=? m) then xopp border
  else R i j.
Definition class_grad_D (m n : nat) (D : mat xr) : mat xr := fun i j =>
  if (i <? m) && (j <? n) then D i j else XR 0.
Definition class_grad_cell (gamma : R) (D1 R1 : mat xr) (E : mat xr) (i j : nat) : xr :=
  let a := xexp (xdivr (xsub (xsub (R1 (i + 1) j) (R1 i j)) (D1 i (j - 1))) gamma) in
  let b := xexp (xdivr (xsub (xsub (R1 i (j + 1)) (R1 i j)) (D1 (i - 1) j)) gamma) in
  let c := xexp (xdivr (xsub (xsub (R1 (i + 1) (j + 1)) (R1 i j)) (D1 i j)) gamma) in
  xadd (xadd (xmul (E (i + 1) j) a) (xmul (E i (j + 1)) b)) (xmul (E (i + 1) (j + 1)) c).
Definition class_grad_order (m n : nat) : list (nat * nat) :=
  flat_map (fun j => map (fun i => (i, j)) (rev (seq 1 m))) (rev (seq 1 n)).
Definition class_grad (gamma : R) (m n : nat) (D1 R1 : mat xr) : mat xr :=
  fill (class_grad_cell gamma D1 R1) (class_grad_order m n) (upd (fun _ _ => XR 0) (m + 1) (n + 1) (XR 1)).
(** softdtw_variants.py l.722-758 [grad]; the result is [E[1:-1, 1:-1]] *)
Definition sdtw_grad (border : xr) (o : sdtw) : res (mat xr) * sdtw :=
  if negb (sd_computed o) then (Err ValueError, o)
  else
    let m := sd_m o in let n := sd_n o in
    let R1 := class_grad_R border m n (sd_R o) in
    let E := class_grad (sd_gamma o) m n (class_grad_D m n (sd_D o)) R1 in
    (Ok (fun i j => E (i + 1) (j + 1)), SDTW m n (sd_D o) R1 true (sd_gamma o)).

(** a program using one object *)
Inductive sdtw_call : Type := CCompute | CGrad.
Inductive sdtw_result : Type := RValue (v : xr) | RGrad (r : res (mat xr)).
Fixpoint sdtw_run (border : xr) (o : sdtw) (calls : list sdtw_call) : list sdtw_result :=
  match calls with
  | [] => []
  | CCompute :: calls => let r := sdtw_compute border o in RValue (fst r) :: sdtw_run border (snd r) calls
  | CGrad :: calls => let r := sdtw_grad border o in RGrad (fst r) :: sdtw_run border (snd r) calls
  end.

(** l.761-801 [SquaredEuclidean].  numpy backend: [pairwise_euclidean_distances] is
    sklearn's [euclidean_distances], which refuses arrays without rows or columns,
    NaN and infinities, and different numbers of columns.  Its square is taken as
    the exact squared distance.  The series are not stripped of NaN. *)
Definition all_finite (s : series Xnum) : bool := forallb (forallb (fun x => match x with XR _ => true | _ => false end)) s.
Definition euclid_ok (s1 s2 : series Xnum) : bool :=
  negb (length s1 =? 0) && negb (length s2 =? 0) && negb (ncols s1 =? 0) && (ncols s1 =? ncols s2)
  && all_finite s1 && all_finite s2.
Definition sqeuclid_compute (s1 s2 : series Xnum) : res (mat xr) :=
  if euclid_ok s1 s2 then Ok (sq_dists (N:=Xnum) s1 s2) else Err ValueError.
(** l.803-835 [jacobian_product], with the kernel of SoftBaryModel *)
Definition sqeuclid_jacobian (s1 s2 : series Xnum) (E : mat xr) : list (list xr) :=
  jacobian_product (ncols s1) s1 s2 E.
(** [SoftDTW(SquaredEuclidean(x1, x2), gamma)] *)
Definition sdtw_of (x1 x2 : raw Xnum) (gamma : R) : res sdtw :=
  let s1 := to_time_series (N:=Xnum) false x1 in let s2 := to_time_series (N:=Xnum) false x2 in
  do D <- sqeuclid_compute s1 s2 ;; Ok (sdtw_new (length s1) (length s2) D gamma).

(** l.91-205 deprecated [soft_dtw] *)
Definition old_soft_dtw (border : xr) (x1 x2 : raw Xnum) (gamma : R) : res xr :=
  if is_zero gamma then do v <- dtw (N:=Xnum) x1 x2 GcNone None None ;; Ok (xmul v v)
  else
    do o <- sdtw_of (Raw2 (to_time_series (N:=Xnum) true x1)) (Raw2 (to_time_series (N:=Xnum) true x2)) gamma ;;
    Ok (fst (sdtw_compute border o)).
(** l.208-335 deprecated [soft_dtw_alignment] *)
Definition old_soft_dtw_alignment (border : xr) (x1 x2 : raw Xnum) (gamma : R) : res (mat xr * xr) :=
  if is_zero gamma then
    do pd <- dtw_path (N:=Xnum) x1 x2 GcNone None None ;;
    Ok (path_matrix (fst pd), xmul (snd pd) (snd pd))
  else
    do o <- sdtw_of (Raw2 (to_time_series (N:=Xnum) true x1)) (Raw2 (to_time_series (N:=Xnum) true x2)) gamma ;;
    let r := sdtw_compute border o in
    do E <- fst (sdtw_grad border (snd r)) ;;
    Ok (E, fst r).

(** utils.py l.453-461 [_check_equal_size] *)
Definition equal_sizes (ds : list (series Xnum)) : bool :=
  match ds with
  | [] => true
  | s :: ds => forallb (fun t => ts_size (N:=Xnum) t =? ts_size (N:=Xnum) s) ds
  end.
(** l.450-487 [_cdist_soft_dtw].  The two nested loops visit the pairs row by row and
    copy the entries below the diagonal for a self matrix. *)
Definition old_cdist_generic (border : xr) (d1 : list (series Xnum)) (d2 : option (list (series Xnum)))
    (gamma : R) : res (mat xr) :=
  let short := fun ds (s : series Xnum) => if equal_sizes ds then s else to_time_series (N:=Xnum) true (Raw2 s) in
  match d2 with
  | None => cdist_self (N:=Xnum) (fun s t => old_soft_dtw border (Raw2 (short d1 s)) (Raw2 (short d1 t)) gamma) d1 [] true Sequential
  | Some d2 => cdist_cross (N:=Xnum) (fun s t => old_soft_dtw border (Raw2 (short d1 s)) (Raw2 (short d2 t)) gamma) d1 d2 [] Sequential
  end.
(** l.338-447 deprecated [cdist_soft_dtw] *)
Definition old_cdist_soft_dtw (border : xr) (ds1 : list (raw Xnum)) (ds2 : option (list (raw Xnum))) (gamma : R)
  : res (mat xr) :=
  do d <- to_datasets ds1 ds2 ;; old_cdist_generic border (fst d) (snd d) gamma.
(** l.490-650 deprecated [cdist_soft_dtw_normalized] *)
Definition old_cdist_soft_dtw_normalized (border : xr) (ds1 : list (raw Xnum)) (ds2 : option (list (raw Xnum)))
    (gamma : R) : res (mat xr) :=
  do d <- to_datasets ds1 ds2 ;;
  do M <- old_cdist_generic border (fst d) (snd d) gamma ;;
  match snd d with
  | None => Ok (fun i k => xadd (M i k) (xmul (XR (- / 2)) (xadd (M i i) (M k k))))
  | Some d2 =>
      let f := fun s : series Xnum => let t := to_time_series (N:=Xnum) true (Raw2 s) in
                 old_soft_dtw border (Raw2 t) (Raw2 t) gamma in
      do a <- mapM f (fst d) ;; do b <- mapM f d2 ;;
      Ok (fun i k => xadd (M i k) (xmul (XR (- / 2)) (xadd (nth i a XNaN) (nth k b XNaN))))
  end.

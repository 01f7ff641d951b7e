(** Model of tslearn/metrics/cycc.py, on series of real numbers (exact
    arithmetic).  numpy's fft and ifft are external and taken to be the discrete
    Fourier transform and its inverse. *)
From Coq Require Import Bool List Arith ZArith Reals.
From Verif Require Import Num Py RList.
Import ListNotations.
Local Open Scope R_scope.

(** a 2-d array of reals, and its entry [t, c] *)
Definition rseries : Type := list (list R).
Definition at2 (s : rseries) (t c : nat) : R := nth c (nth t s []) 0.

(** ** complex numbers *)
Definition cpx : Type := R * R.
Definition cadd (a b : cpx) : cpx := (fst a + fst b, snd a + snd b).
Definition cmul (a b : cpx) : cpx := (fst a * fst b - snd a * snd b, fst a * snd b + snd a * fst b).
Definition cconj (a : cpx) : cpx := (fst a, - snd a).
Definition cscal (x : R) (a : cpx) : cpx := (x * fst a, x * snd a).
Definition csum (l : list cpx) : cpx := fold_right cadd (0, 0) l.
Definition cis (t : R) : cpx := (cos t, sin t).
(** np.fft.fft(x, n): [x] is cut or zero-padded to [n] entries *)
Definition dft (n : nat) (x : nat -> R) (m : nat) : cpx :=
  csum (map (fun t => cscal (x t) (cis (- (2 * PI * INR m * INR t / INR n)))) (seq 0 n)).
(** np.fft.ifft of an array of length [n] *)
Definition idft (n : nat) (z : nat -> cpx) (k : nat) : cpx :=
  cscal (/ INR n) (csum (map (fun m => cmul (z m) (cis (2 * PI * INR m * INR k / INR n))) (seq 0 n))).

(** np.linalg.norm of a 2-d array *)
Definition frob (s : rseries) : R := sqrt (rsum (map (fun row => rsum (map (fun x => x * x) row)) s)).

(** cycc.py l.28-29.  [int(np.log2(2 * sz - 1))] is taken to be the exact integer
    logarithm; [sz >= 1]. *)
Definition fft_size (sz : nat) : nat := (2 ^ (1 + Nat.log2 (2 * sz - 1)))%nat.

(** cycc.py l.40-47: row [k] of [cc], one entry per feature *)
Definition circ_cc (s1 s2 : rseries) (n : nat) (k c : nat) : R :=
  fst (idft n (fun m => cmul (dft n (fun t => at2 s1 t c) m) (cconj (dft n (fun t => at2 s2 t c) m))) k).

(** Python's [l[b:]] and [l[:b]] *)
Definition py_from {A} (b : Z) (l : list A) : list A := skipn (Z.to_nat (slice_bound (length l) b)) l.
Definition py_upto {A} (b : Z) (l : list A) : list A := firstn (Z.to_nat (slice_bound (length l) b)) l.

(** cycc.py l.26-50 [normalized_cc].  [d] is the number of features.  A product of
    norms below 1e-9 is replaced by infinity, and dividing a finite value by
    infinity gives 0. *)
Definition own_norm (norm : R) (s : rseries) : R := if Rltb norm 0 then frob s else norm.
Definition normalize (denom x : R) : R := if Rltb denom (1 / 10 ^ 9) then 0 else x / denom.
Definition normalized_cc (d : nat) (s1 s2 : rseries) (norm1 norm2 : R) : list R :=
  let sz := length s1 in
  let n := fft_size sz in
  let denom := own_norm norm1 s1 * own_norm norm2 s2 in
  let cc := map (fun k => map (circ_cc s1 s2 n k) (seq 0 d)) (seq 0 n) in
  let cc := py_from (- (Z.of_nat sz - 1)) cc ++ py_upto (Z.of_nat sz) cc in
  map (fun row => normalize denom (rsum row)) cc.

(** cycc.py l.76-81: if any norm is negative, all are recomputed *)
Definition fill_norms (norms : list R) (ds : list rseries) : list R :=
  if existsb (fun x => Rltb x 0) norms then map frob ds else norms.

(** cycc.py l.71-95 [cdist_normalized_cc].  The norm arrays have one entry per
    series (see KshapeModel for shorter ones). *)
Definition cdist_ncc (d : nat) (ds1 ds2 : list rseries) (norms1 norms2 : list R)
    (self_similarity : bool) : mat R :=
  let norms1 := fill_norms norms1 ds1 in
  let norms2 := fill_norms norms2 ds2 in
  let entry i j := rmax (normalized_cc d (nth i ds1 []) (nth j ds2 []) (nth i norms1 0) (nth j norms2 0)) in
  let dists : mat R := fun i j =>
    if self_similarity then (if (j <? i)%nat then entry i j else 0) else entry i j in
  if self_similarity then (fun i j => dists i j + dists j i) else dists.

(** numpy's argmax: index of the first largest value *)
Fixpoint argmax_from (l : list R) (i best : nat) (v : R) : nat :=
  match l with
  | [] => best
  | x :: l' => if Rltb v x then argmax_from l' (S i) i x else argmax_from l' (S i) best v
  end.
Definition argmax (l : list R) : nat := match l with [] => 0%nat | x :: l' => argmax_from l' 1 0 x end.

(** cycc.py l.131-138: shift by [k] time steps, entries moved in are 0 *)
Definition zero_row (d : nat) : list R := repeat 0 d.
Definition shift_series (d : nat) (k : Z) (s : rseries) : rseries :=
  let sz := length s in
  if (0 <? k)%Z then (* shifted[k:] = s[:-k] *)
    repeat (zero_row d) (Z.to_nat k) ++ py_upto (- k) s
  else if (k <? 0)%Z then (* shifted[:k] = s[-k:] *)
    py_from (- k) s ++ repeat (zero_row d) (Z.to_nat (- k))
  else s.

(** cycc.py l.117-140 [y_shifted_sbd_vec] *)
Definition y_shifted (d : nat) (ref : rseries) (ds : list rseries) (norm_ref : R) (norms : list R) : list rseries :=
  let norms := fill_norms norms ds in
  map (fun i =>
    let s := nth i ds [] in
    let cc := normalized_cc d ref s (own_norm norm_ref ref) (nth i norms 0) in
    shift_series d (Z.of_nat (argmax cc) + 1 - Z.of_nat (length s)) s) (seq 0 (length ds)).

(** Model of tslearn/metrics/ctw.py.

    Canonical correlation analysis (scikit-learn's CCA) is external: it is an
    arbitrary pair of functions [fit] and [transform] over an arbitrary type of
    fitted models, either of which may raise.  Values are extended reals. *)
From Coq Require Import Bool List Arith ZArith QArith Reals.
From Verif Require Import Num Py Series Masks DtwModel.
Import ListNotations.
Local Open Scope nat_scope.

(** ctw.py l.159-160: [s @ be.eye(d, n)], entry [k] of a row is the sum over [j]
    of [row[j] * (1 if j == k else 0)]. *)
Definition eye_entry (row : list xr) (k : nat) : xr :=
  fold_left xadd
    (map (fun j => xmul (nth j row XNaN) (XR (if (j =? k)%nat then 1 else 0))) (seq 0 (length row))) (XR 0).
Definition times_eye (n : nat) (s : series Xnum) : series Xnum :=
  map (fun row => map (eye_entry row) (seq 0 n)) s.

(** ctw.py l.12-43 [_get_warp_matrices] followed by l.177 [Wx @ s]: row [i] of
    [Wx] has its single 1 in column [path[i][0]], so the product lists the
    visited time steps.  (Exact for finite values.) *)
Definition warp_left (path : list (nat * nat)) (s : series Xnum) : series Xnum :=
  map (fun c => nth (fst c) s []) path.
Definition warp_right (path : list (nat * nat)) (s : series Xnum) : series Xnum :=
  map (fun c => nth (snd c) s []) path.

(** np.array_equal of two paths *)
Definition path_eqb (p q : list (nat * nat)) : bool :=
  if list_eq_dec (fun a b : nat * nat =>
       ltac:(decide equality; apply Nat.eq_dec) : {a = b} + {a <> b}) p q then true else false.

Section WithCca.
Variable cca : Type.
Variable fit : nat -> series Xnum -> series Xnum -> res cca.
Variable transform : cca -> series Xnum -> series Xnum -> res (series Xnum * series Xnum).

(** what ctw_path returns: path, the CCA object ([None]: not fitted), score *)
Definition ctw_out : Type := list (nat * nat) * option cca * xr.

(** ctw.py l.174-197.  [fuel] counts the remaining iterations of the for loop. *)
Fixpoint ctw_loop (fuel : nat) (n : nat) (s1 s2 : series Xnum) (g : gc_name) (radius : option Z)
    (slope : option Q) (current_path : list (nat * nat)) (model : option cca) (current_score : xr)
  : res ctw_out :=
  match fuel with
  | O => Ok (current_path, model, current_score)
  | S f =>
      do m <- fit n (warp_left current_path s1) (warp_right current_path s2) ;;
      do tr <- transform m s1 s2 ;;
      do r <- dtw_path (N:=Xnum) (Raw2 (fst tr)) (Raw2 (snd tr)) g radius slope ;;
      (* l.180: [current_path] is overwritten first, l.189 compares it with itself *)
      let current_path := fst r in
      if path_eqb current_path current_path then Ok (current_path, Some m, current_score)
      else ctw_loop f n s1 s2 g radius slope current_path (Some m) (snd r)
  end.

(** ctw.py l.146-197 *)
Definition ctw_path (x1 x2 : raw Xnum) (max_iter : Z) (n_components : option nat) (g : gc_name)
    (radius : option Z) (slope : option Q) : res ctw_out :=
  let s1 := to_time_series true x1 in
  let s2 := to_time_series true x2 in
  let n := match n_components with Some n => n | None => Nat.min (ncols s1) (ncols s2) end in
  do r <- dtw_path (N:=Xnum) (Raw2 (times_eye n s1)) (Raw2 (times_eye n s2)) g radius slope ;;
  ctw_loop (Z.to_nat (max_iter - 1)) n s1 s2 g radius slope (fst r) None (snd r).

(** ctw.py l.286-299: [ctw_path(...)[-1]] *)
Definition ctw (x1 x2 : raw Xnum) (max_iter : Z) (n_components : option nat) (g : gc_name)
    (radius : option Z) (slope : option Q) : res xr :=
  do r <- ctw_path x1 x2 max_iter n_components g radius slope ;; Ok (snd r).
End WithCca.
Arguments ctw_path {cca}. Arguments ctw {cca}. Arguments ctw_loop {cca}.

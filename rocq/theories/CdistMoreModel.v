(** Model of the matrix functions [cdist_ctw] (tslearn/metrics/ctw.py) and [cdist_sax] (tslearn/metrics/sax.py). *)
From Coq Require Import Bool List Arith ZArith QArith Reals.
From Verif Require Import Num Py Series Masks Dataset DtwModel CtwModel RList PaaModel.
Import ListNotations.
Local Open Scope nat_scope.

(** ** ctw.py l.302-454 *)
(** l.409-425 [cdist_ctw], l.428-454 [_cdist_ctw].  The canonical correlation analysis is a parameter as in CtwModel.v. *)
Definition cdist_ctw {cca} (fit : nat -> series Xnum -> series Xnum -> res cca)
    (transform : cca -> series Xnum -> series Xnum -> res (series Xnum * series Xnum))
    (ds1 : list (raw Xnum)) (ds2 : option (list (raw Xnum))) (max_iter : Z) (n_components : option nat)
    (g : gc_name) (radius : option Z) (slope : option Q) (j : jobs) : res (mat Xnum) :=
  do d1 <- to_dataset ds1 ;;
  do d2 <- match ds2 with None => Ok None | Some ds2 => do d2 <- to_dataset ds2 ;; Ok (Some d2) end ;;
  cdist_generic (N:=Xnum) (fun s1 s2 => ctw fit transform (Raw2 s1) (Raw2 s2) max_iter n_components g radius slope)
    d1 d2 false j.

(** ** sax.py l.10-82 *)
(** a word: a 2-d array of integers *)
Definition zword : Type := list (list Z).
(** 64-bit integers *)
Definition wrap64 (z : Z) : Z := ((z + 2 ^ 63) mod 2 ^ 64 - 2 ^ 63)%Z.

(** utils/utils.py l.215-286 with [dtype=int] and series of integers (no entry of an integer array is NaN, so nothing
    is stripped): [be.full((n_ts, max_sz, d), be.nan, dtype=int)] holds the integer [nan_int] NaN is converted to, which
    numpy leaves to the platform (the smallest integer on x86-64). *)
Definition zbroadcast (d : nat) (row : list Z) : res (list Z) :=
  if length row =? d then Ok row
  else match row with [v] => Ok (repeat v d) | _ => Err ValueError end.
Definition zpadded (nan_int : Z) (d max_sz : nat) (w : zword) : res zword :=
  do rows <- mapM (zbroadcast d) w ;; Ok (rows ++ repeat (repeat nan_int d) (max_sz - length w)).
Definition zmax_size (ws : list zword) : nat := fold_left Nat.max (map (@length (list Z)) ws) 0.
Definition zcols (w : zword) : nat := match w with [] => 0 | row :: _ => length row end.
Definition int_dataset (nan_int : Z) (ws : list zword) : res (list zword) :=
  match ws with [] => Ok [] | w0 :: _ => mapM (zpadded nan_int (zcols w0) (zmax_size ws)) ws end.

(** cysax.py l.38-74 as numba compiles it: integers wrap at 64 bits, a negative index counts once from the end, and no
    index is compared with the bounds of the array.  [junk i] is whatever is found at an address outside of it. *)
Definition read (bps : list R) (junk : Z -> R) (i : Z) : R :=
  let len := Z.of_nat (length bps) in
  let i := (if i <? 0 then i + len else i)%Z in
  if ((0 <=? i) && (i <? len))%Z then nth (Z.to_nat i) bps 0%R else junk i.
Definition zterm (bps : list R) (junk : Z -> R) (a b : Z) : R :=
  if (1 <? wrap64 (Z.abs (wrap64 (a - b))))%Z then
    let e := (read bps junk (wrap64 (Z.max a b - 1)) - read bps junk (Z.min a b))%R in (e * e)%R
  else 0%R.
Definition zdist_sax (bps : list R) (junk : Z -> R) (original_size : nat) (w1 w2 : zword) : res xr :=
  if negb (same_shape w1 w2) then Err AssertionError
  else if length w1 =? 0 then Err ZeroDivisionError
  else
    let s := rsum (map (fun p => zterm bps junk (fst p) (snd p)) (combine (concat w1) (concat w2))) in
    Ok (XR (sqrt (s * INR original_size / INR (length w1)))%R).

(** sax.py l.68-82 [cdist_sax], l.85-106 [_cdist_sax] *)
Definition public_cdist_sax (nan_int : Z) (junk : Z -> R) (ws1 : list zword) (bps : list R) (original_size : nat)
    (ws2 : option (list zword)) (j : jobs) : res (mat Xnum) :=
  do d1 <- int_dataset nan_int ws1 ;;
  match ws2 with
  | None => cdist_self (N:=Xnum) (zdist_sax bps junk original_size) d1 [] false j
  | Some ws2 => do d2 <- int_dataset nan_int ws2 ;; cdist_cross (N:=Xnum) (zdist_sax bps junk original_size) d1 d2 [] j
  end.

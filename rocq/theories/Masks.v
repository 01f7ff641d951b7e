(** Model of tslearn/metrics/_masks.py. *)
From Coq Require Import Bool List Arith ZArith QArith Qround.
From Verif Require Import Py.
Import ListNotations.

Definition mask_t : Type := mat bool.
Definition no_mask : mask_t := fun _ _ => false.          (* backend.full(.., False) *)
Definition full_mask : mask_t := fun _ _ => true.         (* backend.full(.., True) *)

(** [mask[lower:upper, i] = True] and [mask[i, lower:upper] = True] *)
Definition set_col (sz1 : nat) (m : mask_t) (lo hi : Z) (c : nat) : mask_t :=
  fun i j => if (j =? c) && in_slice sz1 lo hi i then true else m i j.
Definition set_row (sz2 : nat) (m : mask_t) (lo hi : Z) (r : nat) : mask_t :=
  fun i j => if (i =? r) && in_slice sz2 lo hi j then true else m i j.

(** _masks.py l.15-29 [_sakoe_chiba_mask_generic] (same code for both backends). *)
Definition sakoe_chiba_mask (sz1 sz2 : nat) (radius : Z) : mask_t :=
  if (sz2 <? sz1)%nat then
    let width := (Z.of_nat sz1 - Z.of_nat sz2 + radius)%Z in
    fold_left (fun m i =>
      let lower := Z.max 0 (Z.of_nat i - radius) in
      let upper := (Z.min (Z.of_nat sz1) (Z.of_nat i + width) + 1)%Z in
      set_col sz1 m lower upper i) (seq 0 sz2) no_mask
  else
    let width := (Z.of_nat sz2 - Z.of_nat sz1 + radius)%Z in
    fold_left (fun m i =>
      let lower := Z.max 0 (Z.of_nat i - radius) in
      let upper := (Z.min (Z.of_nat sz2) (Z.of_nat i + width) + 1)%Z in
      set_row sz2 m lower upper i) (seq 0 sz1) no_mask.

(** _masks.py l.118-140: mask from column bounds, then the check that no row and
    no column is empty. *)
Definition mask_from_bounds (sz1 sz2 : nat) (lb ub : nat -> Z) : mask_t :=
  fold_left (fun m i => set_col sz1 m (lb i) (ub i) i) (seq 0 sz2) no_mask.
Definition rows_ok (sz1 sz2 : nat) (m : mask_t) : bool :=
  forallb (fun i => existsb (fun j => m i j) (seq 0 sz2)) (seq 0 sz1).
Definition cols_ok (sz1 sz2 : nat) (m : mask_t) : bool :=
  forallb (fun j => existsb (fun i => m i j) (seq 0 sz1)) (seq 0 sz2).
Definition checked_mask (sz1 sz2 : nat) (lb ub : nat -> Z) : res mask_t :=
  let m := mask_from_bounds sz1 sz2 lb ub in
  if rows_ok sz1 sz2 m && cols_ok sz1 sz2 m then Ok m else Err RuntimeWarningExn.

(** [round(x, decimals=2)]: scale, round half to even, scale back (numpy/numba). *)
Definition Qround_half_even (q : Q) : Z :=
  let f := Qfloor q in
  let r := (q - inject_Z f)%Q in
  match (r ?= 1 # 2)%Q with
  | Lt => f
  | Gt => (f + 1)%Z
  | Eq => if Z.even f then f else (f + 1)%Z
  end.
Definition round2 (q : Q) : Q := (inject_Z (Qround_half_even (q * 100)) / 100)%Q.
Definition Qmax_ (a b : Q) : Q := if Qle_bool a b then b else a.
Definition Qmin_ (a b : Q) : Q := if Qle_bool a b then a else b.

(** _masks.py l.91-116, in exact rational arithmetic (the code uses binary64;
    [ItakuraFloat.v] repeats this definition on primitive floats). *)
Definition itakura_lower (sz1 sz2 : nat) (s : Q) (j : nat) : Z :=
  let n := inject_Z (Z.of_nat sz1) in let m := inject_Z (Z.of_nat sz2) in
  let min_slope := ((1 / s) * (n / m))%Q in
  let max_slope := (s * (n / m))%Q in
  let jj := inject_Z (Z.of_nat j) in
  Qceiling (Qmax_ (round2 (min_slope * jj))
                  (round2 ((n - 1) - max_slope * (m - 1) + max_slope * jj)))%Q.
Definition itakura_upper (sz1 sz2 : nat) (s : Q) (j : nat) : Z :=
  let n := inject_Z (Z.of_nat sz1) in let m := inject_Z (Z.of_nat sz2) in
  let min_slope := ((1 / s) * (n / m))%Q in
  let max_slope := (s * (n / m))%Q in
  let jj := inject_Z (Z.of_nat j) in
  Qfloor (Qmin_ (round2 (max_slope * jj))
                (round2 ((n - 1) - min_slope * (m - 1) + min_slope * jj)) + 1)%Q.
Definition itakura_mask (sz1 sz2 : nat) (s : Q) : res mask_t :=
  if Qeq_bool s 0 then Err ZeroDivisionError
  else if (sz2 =? 0)%nat then Err ZeroDivisionError
  else checked_mask sz1 sz2 (itakura_lower sz1 sz2 s) (itakura_upper sz1 sz2 s).

(** _masks.py l.318-351 [_compute_mask_generic].  [code] is what
    GLOBAL_CONSTRAINT_CODE gives for the constraint name. *)
Definition compute_mask (sz1 sz2 : nat) (code : nat) (radius : option Z) (slope : option Q)
  : res mask_t :=
  match radius, slope with
  | Some _, Some _ =>
      if (code =? 0)%nat then Err RuntimeWarningExn
      else if (code =? 2)%nat then
        Ok (sakoe_chiba_mask sz1 sz2 (match radius with Some r => r | None => 1%Z end))
      else if (code =? 1)%nat then
        itakura_mask sz1 sz2 (match slope with Some s => s | None => 2%Q end)
      else Ok full_mask
  | _, _ =>
      if (code =? 2)%nat
         || ((code =? 0)%nat && match radius with Some _ => true | None => false end) then
        Ok (sakoe_chiba_mask sz1 sz2 (match radius with Some r => r | None => 1%Z end))
      else if (code =? 1)%nat
         || ((code =? 0)%nat && match slope with Some _ => true | None => false end) then
        itakura_mask sz1 sz2 (match slope with Some s => s | None => 2%Q end)
      else Ok full_mask
  end.

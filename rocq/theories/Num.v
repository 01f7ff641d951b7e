(** Number systems used by the models.

    The numeric loops of tslearn run on IEEE-754 binary64 values.  The models are
    written once over the record [num] of operations and instantiated with
    - [Xnum]: extended real numbers (exact arithmetic, +oo, -oo, NaN), and
    - [Fnum]: Coq's primitive binary64 floats.
    [num_laws] collects the facts about non-negative values that hold in both. *)
From Coq Require Import Bool List Floats Reals.
Local Open Scope R_scope.

Record num : Type := Num {
  carrier :> Type;
  nadd : carrier -> carrier -> carrier;
  nsub : carrier -> carrier -> carrier;
  nmul : carrier -> carrier -> carrier;
  nsqrt : carrier -> carrier;
  nleb : carrier -> carrier -> bool;
  nltb : carrier -> carrier -> bool;
  nzero : carrier;
  ninf : carrier;
  nnan : carrier;
  nisnan : carrier -> bool
}.

Arguments nadd {n} _ _. Arguments nsub {n} _ _. Arguments nmul {n} _ _.
Arguments nsqrt {n} _. Arguments nleb {n} _ _. Arguments nltb {n} _ _.
Arguments nzero {n}. Arguments ninf {n}. Arguments nnan {n}.
Arguments nisnan {n} _.

(** Laws on the set [nn] of non-negative (possibly infinite) values and the set
    [fin] of finite values. *)
Record num_laws (N : num) (nn fin : N -> Prop) : Prop := NumLaws {
  nn_zero : nn (nzero (n:=N));
  nn_inf : nn ninf;
  nn_add : forall a b, nn a -> nn b -> nn (nadd a b);
  nn_notnan : forall a, nn a -> nisnan a = false;
  fin_notnan : forall a, fin a -> nisnan a = false;
  leb_refl : forall a, nn a -> nleb a a = true;
  leb_trans : forall a b c, nn a -> nn b -> nn c ->
      nleb a b = true -> nleb b c = true -> nleb a c = true;
  leb_total : forall a b, nn a -> nn b -> nleb a b = true \/ nleb b a = true;
  leb_antisym : forall a b, nn a -> nn b ->
      nleb a b = true -> nleb b a = true -> a = b;
  ltb_leb : forall a b, nn a -> nn b -> nltb a b = negb (nleb b a);
  leb_zero : forall a, nn a -> nleb nzero a = true;
  leb_inf : forall a, nn a -> nleb a ninf = true;
  add_mono : forall d a b, nn d -> nn a -> nn b ->
      nleb a b = true -> nleb (nadd d a) (nadd d b) = true;
  add_inf : forall d, nn d -> nadd d ninf = ninf;
  add_zero : forall d, nn d -> nadd d nzero = d;
  add_comm : forall a b, nn a -> nn b -> nadd a b = nadd b a;
  sq_nn : forall x y, fin x -> fin y -> nn (nmul (nsub x y) (nsub x y));
  sq_sym : forall x y, fin x -> fin y ->
      nmul (nsub x y) (nsub x y) = nmul (nsub y x) (nsub y x);
  sq_diag : forall x, fin x -> nmul (nsub x x) (nsub x x) = nzero;
  sqrt_nn : forall a, nn a -> nn (nsqrt a);
  sqrt_mono : forall a b, nn a -> nn b ->
      nleb a b = true -> nleb (nsqrt a) (nsqrt b) = true;
  sqrt_zero : nsqrt (n:=N) nzero = nzero;
  sqrt_inf : nsqrt (n:=N) ninf = ninf;
  sqrt_fin_inf : forall a, nn a -> nsqrt a = ninf -> a = ninf
}.

(** ** Extended reals *)
Inductive xr : Type := XR (r : R) | XInf | XNInf | XNaN.

Definition Rleb (a b : R) : bool := if Rle_dec a b then true else false.
Definition Rltb (a b : R) : bool := if Rlt_dec a b then true else false.

(** sign test used by the infinite cases of the product *)
Definition xscale_inf (r : R) (pos : bool) : xr :=
  if Rltb 0 r then (if pos then XInf else XNInf)
  else if Rltb r 0 then (if pos then XNInf else XInf) else XNaN.

Definition xadd (a b : xr) : xr :=
  match a, b with
  | XNaN, _ | _, XNaN => XNaN
  | XR x, XR y => XR (x + y)
  | XInf, XNInf | XNInf, XInf => XNaN
  | XInf, _ | _, XInf => XInf
  | XNInf, _ | _, XNInf => XNInf
  end.
Definition xopp (a : xr) : xr :=
  match a with XR x => XR (- x) | XInf => XNInf | XNInf => XInf | XNaN => XNaN end.
Definition xsub (a b : xr) : xr := xadd a (xopp b).
Definition xmul (a b : xr) : xr :=
  match a, b with
  | XNaN, _ | _, XNaN => XNaN
  | XR x, XR y => XR (x * y)
  | XInf, XInf | XNInf, XNInf => XInf
  | XInf, XNInf | XNInf, XInf => XNInf
  | XR x, XInf | XInf, XR x => xscale_inf x true
  | XR x, XNInf | XNInf, XR x => xscale_inf x false
  end.
Definition xsqrt (a : xr) : xr :=
  match a with
  | XR x => if Rleb 0 x then XR (sqrt x) else XNaN
  | XInf => XInf | XNInf => XNaN | XNaN => XNaN
  end.
Definition xleb (a b : xr) : bool :=
  match a, b with
  | XNaN, _ | _, XNaN => false
  | XNInf, _ | _, XInf => true
  | XR x, XR y => Rleb x y
  | _, _ => false
  end.
Definition xltb (a b : xr) : bool :=
  match a, b with
  | XNaN, _ | _, XNaN => false
  | XR x, XR y => Rltb x y
  | XNInf, XNInf | XInf, XInf => false
  | XNInf, _ | _, XInf => true
  | _, _ => false
  end.
Definition xisnan (a : xr) : bool := match a with XNaN => true | _ => false end.

Definition Xnum : num :=
  Num xr xadd xsub xmul xsqrt xleb xltb (XR 0) XInf XNaN xisnan.

(** ** binary64 *)
Definition Fnum : num :=
  Num PrimFloat.float PrimFloat.add PrimFloat.sub PrimFloat.mul PrimFloat.sqrt
      PrimFloat.leb PrimFloat.ltb PrimFloat.zero PrimFloat.infinity PrimFloat.nan
      PrimFloat.is_nan.

(** Python's [min(a, b, c)] / [max(a, b)]: the first smallest (largest) argument. *)
Definition pymin {N : num} (a b : N) : N := if nltb b a then b else a.
Definition pymin3 {N : num} (a b c : N) : N := pymin (pymin a b) c.
Definition pymax {N : num} (a b : N) : N := if nltb a b then b else a.

(** numpy's [argmin] of a three element array: index of the first smallest value. *)
Definition argmin3 {N : num} (a b c : N) : nat :=
  if nltb b a then (if nltb c b then 2 else 1)%nat
  else (if nltb c a then 2 else 0)%nat.

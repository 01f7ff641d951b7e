(** Model of tslearn/utils/utils.py l.289-419: series as text.  The format is the default one, "%.18e".  Python's formatting and numpy's reading
    of numbers are correctly rounded; both are modelled here on the characters.  The values are real numbers, infinities and NaN; the sign of
    zero is not represented. *)
From Coq Require Import Bool List Arith ZArith Reals String Ascii.
From Flocq Require Import Core.
From Verif Require Import Num Py Series Dataset.
Import ListNotations.
Local Open Scope string_scope.

(** ** Python's "%.18e" *)
Definition digit (d : Z) : ascii := ascii_of_nat (48 + Z.to_nat d).
(** the last [k] decimal digits of [m] *)
Fixpoint show_fixed (k : nat) (m : Z) : string :=
  match k with O => "" | S k => show_fixed k (m / 10) ++ String (digit (m mod 10)) "" end.
Fixpoint ndigits (fuel : nat) (m : Z) : nat :=
  match fuel with O => 1 | S fuel => if (m <? 10)%Z then 1 else S (ndigits fuel (m / 10)) end.
(** at least two digits *)
Definition show_exponent (e : Z) : string :=
  (if (e <? 0)%Z then "-" else "+") ++ show_fixed (Nat.max 2 (ndigits (Z.to_nat (Z.log2 (Z.abs e)) + 1) (Z.abs e))) (Z.abs e).
(** a decimal number of 19 digits: [m * 10^(e - 18)] *)
Definition show_decimal (neg : bool) (m e : Z) : string :=
  (if neg then "-" else "") ++ String (digit (m / 10 ^ 18)) "" ++ "." ++ show_fixed 18 m ++ "e" ++ show_exponent e.
Definition radix10 : radix := Build_radix 10 eq_refl.
Definition dec19 (x : R) : R := round radix10 (FLX_exp 19) ZnearestE x.
Definition show_real (x : R) : string :=
  let y := dec19 (Rabs x) in
  if Req_EM_T y 0 then show_decimal false 0 0
  else
    let e := (mag radix10 y - 1)%Z in
    show_decimal (if Rlt_dec x 0 then true else false) (Ztrunc (y * bpow radix10 (18 - e))) e.
Definition show (x : xr) : string :=
  match x with XR r => show_real r | XInf => "inf" | XNInf => "-inf" | XNaN => "nan" end.

(** ** reading a number *)
Definition digit_value (c : ascii) : option Z :=
  let n := nat_of_ascii c in if ((48 <=? n) && (n <=? 57))%nat then Some (Z.of_nat n - 48)%Z else None.
Fixpoint take_digits (s : string) (acc : Z) (n : nat) : Z * nat * string :=
  match s with
  | EmptyString => (acc, n, s)
  | String c s' => match digit_value c with Some d => take_digits s' (acc * 10 + d)%Z (S n) | None => (acc, n, s) end
  end.
Definition take_sign (s : string) : bool * string :=
  match s with
  | String c s' => if Ascii.eqb c "-" then (true, s') else if Ascii.eqb c "+" then (false, s') else (false, s)
  | EmptyString => (false, s)
  end.
(** the binary64 number nearest to a real number, infinite from 2^1024 on *)
Definition binary64 (r : R) : R := round radix2 (FLT_exp (-1074) 53) ZnearestE r.
Definition to_double (r : R) : xr := if Rlt_dec (Rabs (binary64 r)) (bpow radix2 1024) then XR (binary64 r) else if Rlt_dec r 0 then XNInf else XInf.
Definition read (s : string) : option xr :=
  let (neg, s) := take_sign s in
  if String.eqb s "nan" then Some XNaN
  else if String.eqb s "inf" then Some (if neg then XNInf else XInf)
  else
    let '(m, n, s) := take_digits s 0 0 in
    let '(m, nf, s) := match s with String c s' => if Ascii.eqb c "." then take_digits s' m 0 else (m, 0, s) | _ => (m, 0, s) end in
    if (n + nf =? 0)%nat then None
    else
      let value e := to_double ((if neg then -1 else 1) * IZR m * bpow radix10 (e - Z.of_nat nf))%R in
      match s with
      | EmptyString => Some (value 0%Z)
      | String c s =>
          if Ascii.eqb c "e" || Ascii.eqb c "E" then
            let (eneg, s) := take_sign s in
            let '(e, n, s) := take_digits s 0 0 in
            if (n =? 0)%nat then None else match s with EmptyString => Some (value (if eneg then - e else e)%Z) | _ => None end
          else None
      end.

(** ** l.289-320 [time_series_to_str] on a series of shape [sz x d]: numpy.savetxt writes a row per feature *)
Definition features (d : nat) (ts : series Xnum) : list (list xr) := map (fun k => map (fun r => nth k r XNaN) ts) (seq 0 d).
Fixpoint join_with (sep : string) (l : list string) : string :=
  match l with [] => "" | [x] => x | x :: l => x ++ sep ++ join_with sep l end.
Definition savetxt (rows : list (list xr)) : string := String.concat "" (map (fun row => join_with " " (map show row) ++ "|") rows).
Definition ts_to_str (ts : series Xnum) : string := let s := savetxt (features (ncols ts) ts) in substring 0 (String.length s - 1) s.
(** l.326-358 [str_to_time_series] *)
Fixpoint split_on (c : ascii) (s : string) : list string :=
  match s with
  | EmptyString => [""]
  | String x s => let r := split_on c s in
    if Ascii.eqb x c then "" :: r else match r with [] => [String x ""] | y :: r => String x y :: r end
  end.
Definition newline : ascii := ascii_of_nat 10.
Definition is_space (c : ascii) : bool := Ascii.eqb c " " || Ascii.eqb c newline.
(** the words of a text, separated by spaces *)
Fixpoint words (s : string) : list string :=
  match s with
  | EmptyString => []
  | String c s' => if is_space c then words s'
      else match s' with
           | String c' _ => if is_space c' then String c "" :: words s' else match words s' with [] => [String c ""] | w :: ws => String c w :: ws end
           | EmptyString => [String c ""]
           end
  end.
(** [numpy.fromstring(s, sep=" ")]: stops at the first word that is not a number *)
Fixpoint read_all (l : list string) : list xr := match l with [] => [] | w :: l => match read w with Some x => x :: read_all l | None => [] end end.
Definition fromstring (s : string) : list xr := read_all (words s).
(** [numpy.transpose] of a list of arrays, which must have one length *)
Definition from_features (rows : list (list xr)) : res (series Xnum) :=
  let n := List.length (hd [] rows) in
  if forallb (fun r => List.length r =? n)%nat rows then Ok (map (fun t => map (fun r => nth t r XNaN) rows) (seq 0 n)) else Err ValueError.
Definition str_to_ts (s : string) : res (series Xnum) := from_features (map fromstring (split_on "|" s)).
(** l.364-387 [save_time_series_txt]: the content of the file; l.393-419 [load_time_series_txt] *)
Definition save_txt (dataset : list (series Xnum)) : string := String.concat "" (map (fun ts => ts_to_str ts ++ String newline "") dataset).
(** [readlines]: the lines with their newline characters *)
Fixpoint readlines (s : string) : list string :=
  match s with
  | EmptyString => []
  | String c s' => if Ascii.eqb c newline then String c "" :: readlines s'
      else match readlines s' with [] => [String c ""] | l :: ls => String c l :: ls end
  end.
Definition load_txt (content : string) : res (list (series Xnum)) :=
  do l <- mapM str_to_ts (readlines content) ;;
  to_dataset (N:=Xnum) (map Raw2 l).

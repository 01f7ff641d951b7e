(** Model of the readers of tslearn/utils/utils.py l.624-703.  [numpy.loadtxt] gives the numbers
    of each line that is neither blank nor a comment; [scipy.io.arff.loadarff] gives the columns
    of the file.  The readings of single numbers are taken as given. *)
From Coq Require Import Bool String List Arith ZArith Reals.
From Flocq Require Import Core.
From Verif Require Import Num Py Series Dataset.
Import ListNotations.
Local Open Scope nat_scope.

(** ** text *)
(** [numpy.loadtxt] with [ndmin=0]: axes of length 1 are removed *)
Inductive table (A : Type) := T0 (x : A) | T1 (l : list A) | T2 (m : list (list A)).
Arguments T0 {A}. Arguments T1 {A}. Arguments T2 {A}.
Definition loadtxt {A} (lines : list (list A)) : res (table A) :=
  if forallb (fun r => length r =? length (hd [] lines)) lines
  then Ok (match lines with
           | [] => T1 []
           | [[x]] => T0 x
           | [r] => T1 r
           | _ => if length (hd [] lines) =? 1 then T1 (List.concat lines) else T2 lines
           end)
  else Err ValueError.
(** [astype(int)] truncates; what becomes of NaN and the infinities depends on the platform *)
Definition to_int (odd : Z) (x : xr) : Z := match x with XR r => Ztrunc r | _ => odd end.
(** l.680-703 [_load_txt_uea] *)
Definition load_txt (odd : Z) (lines : list (list xr)) : res (list (series Xnum) * list Z) :=
  do data <- loadtxt lines ;;
  match data with
  | T2 m =>
      do X <- to_dataset (N:=Xnum) (map (fun r => Raw1 (N:=Xnum) (tl r)) m) ;;
      Ok (X, map (fun r => to_int odd (hd XNaN r)) m)
  | _ => Err IndexError
  end.

(** ** ARFF *)
(** a column of the file: numbers, words, or for every example a relation with one line per channel;
    the relation has [len] attributes.  A column that is used as labels and is not one of words
    is not represented. *)
Inductive column (A : Type) := Numeric (l : list A) | Nominal (l : list string) | Relational (len : nat) (l : list (list (list A))).
Arguments Numeric {A}. Arguments Nominal {A}. Arguments Relational {A}.
Fixpoint numbers {A} (cs : list (column A)) : option (list (list A)) :=
  match cs with
  | [] => Some []
  | Numeric l :: cs => match numbers cs with Some r => Some (l :: r) | None => None end
  | _ => None
  end.
Section Arff.
Context {A : Type} (zero : A).
(** l.624-677 [_load_arff_uea] on the columns of a file of [n] examples; the last column is the class *)
Definition load_arff (n : nat) (cs : list (column A)) : res (list (list (list A)) * list string) :=
  match rev cs with
  | [] => Err IndexError
  | Nominal y :: _ =>
      if length cs =? 2
      then
        (* [x_.shape[1]] exists for a column of relations only *)
        match hd (Numeric []) cs with
        | Relational len ex =>
            if (length ex =? 0)%nat then Err IndexError
            else if forallb (fun e => length e =? length (hd [] ex)) ex
            then Ok (map (fun e => map (fun i => map (fun c => nth i c zero) e) (seq 0 len)) ex, y)
            else Err ValueError
        | _ => Err IndexError
        end
      else
        match numbers (removelast cs) with
        | None => Err ValueError   (* simplification: words that are numerals, and relations *)
        | Some cols => if n =? 0 then Err ValueError else Ok (map (fun i => map (fun c => [nth i c zero]) cols) (seq 0 n), y)
        end
  | _ => Err OtherError
  end.
End Arff.

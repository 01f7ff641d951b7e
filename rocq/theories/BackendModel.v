(** Model of tslearn/backend/backend.py and of the functions [array] and [tolist] that it
    uses.  Python objects are trees; numbers are real numbers.  The text of numbers, as
    printed by Python, numpy and torch, is a parameter ([show]).  Not represented: integer,
    boolean and complex data, [grad_fn] and devices, subclasses of the array types, names
    outside ASCII. *)
From Coq Require Import Bool String Ascii List Arith ZArith Reals.
From Flocq Require Import Core.
From Verif Require Import Py.
Import ListNotations.
Local Open Scope nat_scope.
Local Open Scope string_scope.

Inductive be := NumPy | PyTorch.
Inductive dtype := F32 | F64.
(** nested sequences of numbers; an array is one with a shape *)
Inductive nest := Leaf (x : R) | Node (l : list nest).
Inductive obj :=
| ONone
| OText (s : string)
| OFloat (x : R)
| OList (l : list obj)
| OTuple (l : list obj)
| OArray (t : dtype) (a : nest)                        (* numpy.ndarray *)
| OTensor (t : dtype) (grad : bool) (a : nest)         (* torch.Tensor, [requires_grad] *)
| OBackend (id : nat) (b : be).                        (* a Backend instance *)

Section Printing.
(** the numbers of an array or a scalar as text *)
Context (show : nest -> string).

(** [str(type(arg))] *)
Definition type_text (o : obj) : string :=
  match o with
  | ONone => "<class 'NoneType'>"
  | OText _ => "<class 'str'>"
  | OFloat _ => "<class 'float'>"
  | OList _ => "<class 'list'>"
  | OTuple _ => "<class 'tuple'>"
  | OArray _ _ => "<class 'numpy.ndarray'>"
  | OTensor _ _ _ => "<class 'torch.Tensor'>"
  | OBackend _ _ => "<class 'tslearn.backend.backend.Backend'>"
  end.
Fixpoint join (l : list string) : string :=
  match l with [] => "" | [s] => s | s :: l => s ++ ", " ++ join l end.
(** [repr]: numpy names a dtype that is not float64, torch one that is not float32 *)
Fixpoint repr (o : obj) : string :=
  match o with
  | ONone => "None"
  | OText s => "'" ++ s ++ "'"
  | OFloat x => show (Leaf x)
  | OList l => "[" ++ join (map repr l) ++ "]"
  | OTuple l => "(" ++ join (map repr l) ++ (match l with [_] => ",)" | _ => ")" end)
  | OArray F64 a => "array(" ++ show a ++ ")"
  | OArray F32 a => "array(" ++ show a ++ ", dtype=float32)"
  | OTensor t g a =>
      "tensor(" ++ show a ++ (match t with F32 => "" | F64 => ", dtype=torch.float64" end)
      ++ (if g then ", requires_grad=True)" else ")")
  | OBackend _ _ => "<tslearn.backend.backend.Backend object>"
  end.
(** [str(arg)] *)
Definition str (o : obj) : string :=
  match o with OText s => s | OArray _ a => show a | o => repr o end.

(** [str.lower] *)
Definition lower_char (c : ascii) : ascii :=
  let n := nat_of_ascii c in if ((65 <=? n) && (n <=? 90))%nat then ascii_of_nat (n + 32) else c.
Fixpoint lower (s : string) : string :=
  match s with EmptyString => "" | String c s => String (lower_char c) (lower s) end.
(** [w in s] *)
Fixpoint has (w s : string) : bool :=
  prefix w s || match s with EmptyString => false | String _ s => has w s end.

(** l.32-54 [select_backend]; without torch the constructor raises
    (pytorch_backend.py l.27-33) *)
Definition select_backend (torch : bool) (o : obj) : res be :=
  if has "torch" (lower (type_text o ++ str o)) then (if torch then Ok PyTorch else Err ValueError) else Ok NumPy.
(** a Backend that exists already, or a new one *)
Inductive chosen := Same (id : nat) | New (b : be).
(** l.69-70 *)
Definition new_backend (torch : bool) (name : string) : res chosen :=
  do b <- select_backend torch (OText name) ;; Ok (New b).
(** l.7-29 [instantiate_backend] *)
Fixpoint instantiate_backend (torch : bool) (args : list obj) : res chosen :=
  match args with
  | [] => new_backend torch "numpy"
  | OBackend id _ :: _ => Ok (Same id)
  | arg :: args =>
    let arg_string := lower (type_text arg ++ str arg) in
    if has "numpy" arg_string then new_backend torch "numpy"
    else if has "torch" arg_string then new_backend torch "pytorch"
    else instantiate_backend torch args
  end.

(** ** conversions *)
(** the shape of a nested sequence, if it has one *)
Fixpoint shape (a : nest) : option (list nat) :=
  match a with
  | Leaf _ => Some []
  | Node l =>
    match map shape l with
    | [] => Some [0]
    | Some s :: ss => if forallb (fun o => match o with Some s' => if list_eq_dec Nat.eq_dec s' s then true else false | None => false end) ss
                      then Some (S (List.length ss) :: s) else None
    | None :: _ => None
    end
  end.
(** the coarser dtype *)
Definition promote (t t' : dtype) : dtype := match t, t' with F32, F32 => F32 | _, _ => F64 end.
Fixpoint seqM {A} (l : list (res A)) : res (list A) :=
  match l with [] => Ok [] | r :: l => do a <- r ;; do l <- seqM l ;; Ok (a :: l) end.
Definition promote_all (ts : list dtype) : dtype :=
  match ts with [] => F64 | t :: ts => fold_left promote ts t end.
(** the numbers that [numpy.array] finds in an object; a tensor that requires a gradient
    refuses *)
Fixpoint numpy_read (o : obj) : res (dtype * nest) :=
  match o with
  | OFloat x => Ok (F64, Leaf x)
  | OArray t a => Ok (t, a)
  | OTensor t g a => if g then Err RuntimeError else Ok (t, a)
  | OList l | OTuple l =>
      do rs <- seqM (map numpy_read l) ;; Ok (promote_all (map fst rs), Node (map snd rs))
  | _ => Err OtherError
  end.
Definition numpy_array (o : obj) : res obj :=
  do r <- numpy_read o ;;
  match shape (snd r) with Some _ => Ok (OArray (fst r) (snd r)) | None => Err ValueError end.
(** the float32 nearest to a number (in the range of float32) *)
Definition single (x : R) : R := round radix2 (FLT_exp (-149) 24) ZnearestE x.
(** pytorch_backend.py l.106-123 [array] with dtype None: [torch.tensor] of a Python float
    is a float32, [torch.stack] needs tensors of one shape *)
Definition stack (ts : list (dtype * bool * nest)) : res (dtype * bool * nest) :=
  let a := Node (map snd ts) in
  match shape a with
  | Some _ => Ok (match ts with [] => F32 | t :: ts => fold_left promote (map (fun t => fst (fst t)) ts) (fst (fst t)) end,
                  existsb (fun t => snd (fst t)) ts, a)
  | None => Err RuntimeError
  end.
Fixpoint torch_read (o : obj) : res (dtype * bool * nest) :=
  match o with
  | OFloat x => Ok (F32, false, Leaf (single x))
  | OArray t a => Ok (t, false, a)
  | OTensor t g a => Ok (t, g, a)
  | OList l | OTuple l => do ts <- seqM (map torch_read l) ;; stack ts
  | _ => Err OtherError
  end.
Definition torch_array (o : obj) : res obj :=
  do r <- torch_read o ;; Ok (OTensor (fst (fst r)) (snd (fst r)) (snd r)).
(** [tolist] of an array *)
Fixpoint listed (a : nest) : obj :=
  match a with Leaf x => OFloat x | Node l => OList (map listed l) end.
Definition tolist (o : obj) : res obj :=
  match o with OArray _ a | OTensor _ _ a => Ok (listed a) | _ => Err AttributeError end.
(** l.91-116 [cast] *)
Definition cast (torch : bool) (o : obj) (array_type : string) : res obj :=
  let data_type_string := lower (type_text o) in
  let array_type := lower array_type in
  let array_type := if String.eqb array_type "pytorch" then "torch" else array_type in
  if has array_type data_type_string then Ok o
  else if String.eqb array_type "list" then tolist o
  else
    do b <- select_backend torch (OText array_type) ;;
    match b with NumPy => numpy_array o | PyTorch => torch_array o end.
End Printing.

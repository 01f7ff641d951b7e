(** Model of tslearn/datasets/cached.py.  The directory [.cached_datasets] is a list of files;
    names have no "/" and are not "." or "..".  An [.npz] file is a list of named arrays;
    every file can be read. *)
From Coq Require Import Bool String Ascii List.
From Verif Require Import Py.
Import ListNotations.
Local Open Scope string_scope.

Definition npz (A : Type) := list (string * A).
Definition directory (A : Type) := list (string * npz A).

(** a name cut at its last dot ([name.rfind(".")]) *)
Fixpoint last_dot (s : string) : option (string * string) :=
  match s with
  | "" => None
  | String c s =>
      match last_dot s with
      | Some (a, b) => Some (String c a, b)
      | None => if Ascii.eqb c "." then Some ("", s) else None
      end
  end.
(** [PurePath.suffix] of pathlib (Python up to 3.13): the part from the last dot, unless the dot is the first or the last character *)
Definition cut_suffix (s : string) : string * string :=
  match last_dot s with
  | Some (String c a, String e b) => (String c a, "." ++ String e b)
  | _ => (s, "")
  end.
Definition suffix (s : string) : string := snd (cut_suffix s).
(** [PurePath.with_suffix] *)
Definition with_suffix (new s : string) : string := fst (cut_suffix s) ++ new.

(** l.26-42 [list_datasets] *)
Definition list_datasets {A} (d : directory A) : list string :=
  map (fun f => with_suffix "" (fst f)) (filter (fun f => (suffix (fst f) =? ".npz")%string) d).

Fixpoint find {V} (k : string) (l : list (string * V)) : option V :=
  match l with [] => None | (k', v) :: l => if (k =? k')%string then Some v else find k l end.
(** [npzfile[key]] *)
Definition entry {A} (f : npz A) (k : string) : res A := match find k f with Some v => Ok v | None => Err KeyError end.
(** l.44-85 [load_dataset]; [OtherError] is FileNotFoundError, also for the empty name, which stands for
    [tslearn/.cached_datasets.npz] *)
Definition load_dataset {A} (d : directory A) (name : string) : res (A * A * A * A) :=
  match (if (name =? "")%string then None else find (with_suffix ".npz" name) d) with
  | None => Err OtherError
  | Some f =>
    do X_train <- entry f "X_train" ;;
    do X_test <- entry f "X_test" ;;
    do y_train <- entry f "y_train" ;;
    do y_test <- entry f "y_test" ;;
    Ok (X_train, y_train, X_test, y_test)
  end.

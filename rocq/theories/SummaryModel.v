(** Model of the dataset lists of UCR_UEA_datasets (tslearn/datasets/ucr_uea.py l.78-120 and l.175-235) and of
    [in_file_string_replace] (tslearn/datasets/datasets.py l.57-77). *)
From Coq Require Import Bool List Arith String Ascii.
From Verif Require Import Py BaselineModel.
Import ListNotations.

(** ** Python's [str.replace] with a non-empty [old]: from left to right, occurrences do not overlap *)
Section Replace.
Context {A : Type}.
Variable eqb : A -> A -> bool.
Fixpoint starts (w s : list A) : bool :=
  match w, s with [], _ => true | _, [] => false | x :: w, y :: s => eqb x y && starts w s end.
(** [skip]: characters of the occurrence found that are still to be passed over *)
Fixpoint replace_from (old new : list A) (skip : nat) (s : list A) : list A :=
  match s with
  | [] => []
  | c :: s' =>
      match skip with
      | S k => replace_from old new k s'
      | O => if starts old s then new ++ replace_from old new (List.length old - 1) s' else c :: replace_from old new 0 s'
      end
  end.
End Replace.
(** datasets.py l.72-77: what is in the file afterwards *)
Definition replace_string (old new s : string) : string :=
  string_of_list_ascii (replace_from Ascii.eqb (list_ascii_of_string old) (list_ascii_of_string new) 0 (list_ascii_of_string s)).

Local Open Scope string_scope.
(** ** the two summary files in the data directory, [None] if there is no such file *)
Record summaries := { multi_file : option string; uni_file : option string }.
(** what the constructor leaves: the files, and whether the attribute [_list_univariate_filename] exists ([_list_multivariate_filename]
    always does) *)
Record archive := { files : summaries; uni_known : bool }.
(** l.83-108.  [multi], [uni]: the answers of the server, [None] if [urlretrieve] raises; it then has not touched the file *)
Definition construct (multi uni : option string) (f : summaries) : archive :=
  match multi with
  | None => {| files := f; uni_known := false |}
  | Some m =>
      match uni with
      | None => {| files := {| multi_file := Some m; uni_file := uni_file f |}; uni_known := true |}
      | Some u =>
          let u := replace_string "CinCECGtorso" "CinCECGTorso" u in
          let u := replace_string "StarlightCurves" "StarLightCurves" u in
          {| files := {| multi_file := Some m; uni_file := Some u |}; uni_known := true |}
      end
  end.

Section Lists.
(** the lines of a file split into fields ([csv.reader]) *)
Variable fields : string -> list (list string).
(** [[d[column] for d in csv.DictReader(f)]] *)
Fixpoint column (name : string) (rows : list (list (option string * field))) : res (list field) :=
  match rows with
  | [] => Ok []
  | d :: rows => match dget okey_eqb d (Some name) with None => Err KeyError | Some c => do l <- column name rows ;; Ok (c :: l) end
  end.
(** a file that does not exist is FileNotFoundError, here [OtherError] *)
Definition read_column (name : string) (f : option string) : res (list field) :=
  match f with None => Err OtherError | Some text => column name (dict_rows (fields text)) end.
(** l.175-193 *)
Definition list_univariate (a : archive) : res (list field) :=
  if uni_known a then read_column "problem" (uni_file (files a)) else Err AttributeError.
(** l.195-213 *)
Definition list_multivariate (a : archive) : res (list field) := read_column "Problem" (multi_file (files a)).
(** l.215-235 *)
Definition list_datasets (a : archive) : res (list field) :=
  do u <- list_univariate a ;; do m <- list_multivariate a ;; Ok (u ++ m)%list.
End Lists.

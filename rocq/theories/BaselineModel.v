(** Model of [cache_all] and [baseline_accuracy] (tslearn/datasets/ucr_uea.py l.122-173 and l.377-385), on top of CacheModel. *)
From Coq Require Import Bool List Arith String.
From Verif Require Import Py PersistModel CacheModel.
Import ListNotations.
Local Open Scope string_scope.

(** l.377-385 for the names of [list_datasets], each with what the server answers when it is asked for it; every exception of
    [load_dataset] is caught, so that only the changes of the file system remain *)
Definition cache_all {D} (parse : string -> string -> option D) (data_dir : path) (use_cache : bool) (listed : list (string * download)) (f : fs) : fs :=
  fold_left (fun f e => performs f (fst (load_dataset parse data_dir use_cache (snd e) f (fst e)))) listed f.

(** ** [csv.DictReader]: dictionaries as association lists without repeated keys, in insertion order *)
Section Dict.
Context {K V : Type}.
Variable eqb : K -> K -> bool.
Fixpoint dget (d : list (K * V)) (k : K) : option V :=
  match d with [] => None | (k', v) :: d => if eqb k k' then Some v else dget d k end.
Fixpoint dset (d : list (K * V)) (k : K) (v : V) : list (K * V) :=
  match d with [] => [(k, v)] | (k', v') :: d => if eqb k k' then (k', v) :: d else (k', v') :: dset d k v end.
End Dict.
(** a field of a row: a string, nothing ([restval], the row is too short), or the list of surplus fields (under the key [None]) *)
Inductive field := Text (s : string) | NoField | Surplus (l : list string).
Definition okey_eqb (a b : option string) : bool := match a, b with Some a, Some b => String.eqb a b | None, None => true | _, _ => false end.
Definition row_dict (header row : list string) : list (option string * field) :=
  let d := fold_left (fun d e => dset okey_eqb d (Some (fst e)) (Text (snd e))) (combine header row) [] in
  if (List.length header <? List.length row)%nat then dset okey_eqb d None (Surplus (skipn (List.length header) row))
  else fold_left (fun d k => dset okey_eqb d (Some k) NoField) (skipn (List.length row) header) d.
(** the lines of the file, already split into fields; empty lines after the header are skipped *)
Definition dict_rows (lines : list (list string)) : list (list (option string * field)) :=
  match lines with [] => [] | header :: rows => map (row_dict header) (filter (fun r => negb (List.length r =? 0)%nat) rows) end.

(** ** l.161-173.  [number]: Python's [float] of a string, [None] for ValueError; anything but a string is a TypeError *)
Section Scores.
Context {V : Type}.
Variable number : string -> option V.
Definition asked (l : option (list string)) (s : string) : bool := match l with None => true | Some l => existsb (String.eqb s) l end.
(** l.167-172 *)
Fixpoint row_scores (methods : option (list string)) (d : list (option string * field)) (out : list (string * V)) : res (list (string * V)) :=
  match d with
  | [] => Ok out
  | (Some m, c) :: d =>
      if negb (String.eqb m "") && asked methods m then
        match c with
        | Text s => row_scores methods d (match number s with Some v => dset String.eqb out m v | None => out end)
        | _ => Err TypeError
        end
      else row_scores methods d out
  | (None, _) :: d => match methods with None => Err TypeError | Some _ => row_scores methods d out end
  end.
(** the name of the dataset: [perfs_dict[""]]; a name that is not a string is in no list of strings, and a key as any other *)
Inductive name := Name (s : string) | NoName.
Definition name_eqb (a b : name) : bool := match a, b with Name a, Name b => String.eqb a b | NoName, NoName => true | _, _ => false end.
Fixpoint table_scores (datasets methods : option (list string)) (rows : list (list (option string * field))) (out : list (name * list (string * V))) : res (list (name * list (string * V))) :=
  match rows with
  | [] => Ok out
  | d :: rows =>
      match dget okey_eqb d (Some "") with
      | None => Err KeyError
      | Some c =>
          let n := match c with Text s => Name s | _ => NoName end in
          if match n with Name s => asked datasets s | NoName => match datasets with None => true | Some _ => false end end then
            do s <- row_scores methods d [] ;;
            table_scores datasets methods rows (dset name_eqb out n s)
          else table_scores datasets methods rows out
      end
  end.
(** l.83-108: the constructor only keeps the name of the file with the scores, which is part of the package, if the server has answered
    both requests ([multi], [uni]); [open(None)] is a TypeError *)
Definition baseline_accuracy (multi uni : option string) (lines : list (list string)) (datasets methods : option (list string)) : res (list (name * list (string * V))) :=
  match multi, uni with Some _, Some _ => table_scores datasets methods (dict_rows lines) [] | _, _ => Err TypeError end.
End Scores.

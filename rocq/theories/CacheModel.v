(** Model of the dataset cache: tslearn/datasets/ucr_uea.py and tslearn/datasets/datasets.py.  The file system is a list of absolute paths
    with their nodes; every change is a list of elementary operations, so that the states at which the process can be killed are the states
    after each prefix of that list.  Not modelled: symbolic links, permissions, full disks, concurrent processes, Windows, and the temporary
    directory of the downloaded archive. *)
From Coq Require Import Bool List Arith String Ascii.
From Verif Require Import Py PersistModel.
Import ListNotations.
Local Open Scope string_scope.

(** ** File system *)
Definition path := list string.
Inductive node := Dir | File (content : string).
Definition fs := list (path * node).
Definition path_eqb (p q : path) : bool := if list_eq_dec string_dec p q then true else false.
Definition get (f : fs) (p : path) : option node := option_map snd (find (fun e => path_eqb (fst e) p) f).
Definition delete (f : fs) (p : path) : fs := filter (fun e => negb (path_eqb (fst e) p)) f.
Definition put (f : fs) (p : path) (n : node) : fs := (p, n) :: delete f p.
Definition prefixes (p : path) : list path := map (fun k => firstn k p) (seq 0 (S (List.length p))).
(** [MkDir]: [mkdir(parents=True, exist_ok=True)] *)
Inductive op := Remove (p : path) | MkDir (p : path) | Write (p : path) (content : string).
Definition perform (f : fs) (o : op) : fs :=
  match o with
  | Remove p => delete f p
  | MkDir p => fold_left (fun f q => match get f q with None => put f q Dir | Some _ => f end) (prefixes p) f
  | Write p c => put f p (File c)
  end.
Definition performs (f : fs) (ops : list op) : fs := fold_left perform ops f.
(** pathlib's [base / name]: an absolute [name] replaces the base, empty components and "." are dropped; ".." is resolved by the system *)
Definition join (base : path) (name : string) : path :=
  match name with String c _ => if Ascii.eqb c "/" then components name else (base ++ components name)%list | EmptyString => base end.
Fixpoint resolve (seen : path) (p : path) : path :=
  match p with [] => seen | c :: p => if String.eqb c ".." then resolve (removelast seen) p else resolve (seen ++ [c])%list p end.
Definition real_path (p : path) : path := resolve [] p.

(** ** ucr_uea.py l.113-120 *)
Definition real_name (n : string) : string :=
  if String.eqb n "AtrialFibrillation" then "AtrialFibrilation"
  else if String.eqb n "CinCECGtorso" then "CinCECGTorso"
  else if String.eqb n "MixedShapes" then "MixedShapesRegularTrain"
  else if String.eqb n "NonInvasiveFetalECGThorax1" then "NonInvasiveFatalECGThorax1"
  else if String.eqb n "NonInvasiveFetalECGThorax2" then "NonInvasiveFatalECGThorax2"
  else if String.eqb n "StarlightCurves" then "StarLightCurves"
  else n.
Definition file_path (data_dir : path) (n part ext : string) : path := real_path (join (join data_dir n) (n ++ "_" ++ part ++ "." ++ ext)).
(** l.346-375 [_has_files] *)
Definition has_ext (data_dir : path) (f : fs) (n ext : string) : bool :=
  let n := real_name n in
  match get f (file_path data_dir n "TRAIN" ext), get f (file_path data_dir n "TEST" ext) with Some _, Some _ => true | _, _ => false end.
Definition has_files (data_dir : path) (f : fs) (n : string) : bool := has_ext data_dir f n "txt" || has_ext data_dir f n "arff".

(** what the server answers: nothing ([urlretrieve] raises), something that is not a zip file, or an archive (relative paths, contents) *)
Inductive download := NoAnswer | NotZip | Archive (entries : list (path * string)).
Inductive outcome {D} := Raised | Nothing | Loaded (train test : D).
Arguments outcome : clear implicits.
(** l.317-344; [parse ext content]: the loader, [None] if it raises *)
Definition read_with {D} (parse : string -> string -> option D) (data_dir : path) (f : fs) (n ext : string) : outcome D :=
  match get f (file_path data_dir n "TRAIN" ext), get f (file_path data_dir n "TEST" ext) with
  | Some (File a), Some (File b) => match parse ext a, parse ext b with Some x, Some y => Loaded x y | _, _ => Nothing end
  | _, _ => Nothing
  end.
Definition read_files {D} (parse : string -> string -> option D) (data_dir : path) (f : fs) (n : string) : outcome D :=
  if has_ext data_dir f n "txt" then read_with parse data_dir f n "txt"
  else if has_ext data_dir f n "arff" then read_with parse data_dir f n "arff"
  else Nothing.
(** l.299-307; [shutil.rmtree] removes the entries one by one (the order is that of the list, which is arbitrary) *)
Definition clearing (f : fs) (full : path) : list op :=
  match get f full with
  | None => []
  | Some (File _) => [Remove full]
  | Some Dir => map (fun e => Remove (fst e)) (filter (fun e => prefixb full (fst e)) f)
  end.
(** datasets.py l.43-44 [extractall]: a file is created empty, then written *)
Definition extraction (full : path) (entries : list (path * string)) : list op :=
  flat_map (fun e => let p := (full ++ fst e)%list in [MkDir (removelast p); Write p ""; Write p (snd e)]) entries.
(** l.293-344 [load_dataset], with datasets.py l.36-54 [extract_from_zip_url]: the operations, in order, and the outcome *)
Definition load_dataset {D} (parse : string -> string -> option D) (data_dir : path) (use_cache : bool) (answer : download) (f : fs) (name : string) : list op * outcome D :=
  let n := real_name name in
  let full := real_path (join data_dir n) in
  if negb (has_files data_dir f n) || negb use_cache then
    let clear := clearing f full in
    match answer with
    | NoAnswer => (clear, Raised)
    | NotZip => (clear ++ [MkDir full], Nothing)%list
    | Archive entries =>
        let ops := (clear ++ MkDir full :: extraction full entries)%list in (ops, read_files parse data_dir (performs f ops) n)
    end
  else ([], read_files parse data_dir f n).

(** l.237-248 [list_cached_datasets] *)
Definition list_cached (data_dir : path) (f : fs) : list string :=
  flat_map (fun e => match snd e with
    | Dir => if path_eqb (removelast (fst e)) data_dir && (List.length (fst e) =? S (List.length data_dir))%nat then let n := last (fst e) "" in if String.eqb n "Data Descriptions" then [] else [n] else []
    | File _ => [] end) f.

(** ** l.78-120: the constructor.  [multi], [uni]: what the server answers for the two lists of datasets *)
Record archive := { multi_file : option path; uni_file : option path }.
Definition fetch_list (p : path) (answer : option string) : option (list op) := option_map (fun c => [Write p ""; Write p c]) answer.
(** [fix]: the two replacements of l.97-100, each of which rewrites the file *)
Definition construct_archive (fix1 fix2 : string -> string) (data_dir : path) (multi uni : option string) : list op * archive :=
  let pm := (data_dir ++ ["summaryMultivariate.csv"])%list in
  let pu := (data_dir ++ ["summaryUnivariate.csv"])%list in
  match fetch_list pm multi with
  | None => ([MkDir data_dir], {| multi_file := Some pm; uni_file := None |})
  | Some om =>
      match uni with
      | None => (MkDir data_dir :: om, {| multi_file := Some pm; uni_file := Some pu |})
      | Some c => (MkDir data_dir :: om ++ [Write pu ""; Write pu c; Write pu ""; Write pu (fix1 c); Write pu ""; Write pu (fix2 (fix1 c))], {| multi_file := Some pm; uni_file := Some pu |})%list
      end
  end.
(** l.175-213; [names]: the names in a CSV file *)
Definition list_names (names : string -> list string) (f : fs) (file : option path) : res (list string) :=
  match file with
  | None => Err AttributeError
  | Some p => match get f p with Some (File c) => Ok (names c) | _ => Err OtherError (* FileNotFoundError *) end
  end.
Definition list_datasets (names_uni names_multi : string -> list string) (f : fs) (a : archive) : res (list string) :=
  do u <- list_names names_uni f (uni_file a) ;;
  do m <- list_names names_multi f (multi_file a) ;;
  Ok (u ++ m)%list.

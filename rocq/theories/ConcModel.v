(** Model of several processes that use the dataset cache at the same time: tslearn/datasets/ucr_uea.py l.293-375 and
    tslearn/datasets/datasets.py l.36-54, as programs whose single file-system actions are interleaved.  [CacheModel] has
    the same code for one process.  Simplifications: [mkdir(parents=True)] is one action; [shutil.rmtree] lists the whole
    tree in one action and then removes the entries one by one, the deepest first; the content of a file is read and
    written in one action, and [Fill] writes to the file that has the name at that time.  Not modelled: symbolic links,
    permissions, full disks, Windows, and the temporary directory of the downloaded archive, which is a new one for every
    call. *)
From Coq Require Import Bool List Arith String Ascii.
From Verif Require Import Py PersistModel CacheModel.
Import ListNotations.
Local Open Scope string_scope.

Inductive action :=
| Look (p : path)          (* [exists], [open(..).read()] *)
| Unlink (p : path)        (* [unlink]: a directory stays *)
| Scan (p : path)          (* the entries of a directory, at all depths *)
| Drop (p : path)          (* [unlink] or [rmdir] with errors ignored: a directory that is not empty stays *)
| Mk (p : path)            (* [mkdir(parents=True, exist_ok=True)] *)
| Create (p : path)        (* [open(.., "wb")] *)
| Fill (p : path) (content : string).
Inductive reply := Found (o : option node) | Entries (l : list path) | Success (b : bool).
Definition is_file (f : fs) (p : path) : bool := match get f p with Some (File _) => true | _ => false end.
Definition deepest (l : list path) : list path :=
  flat_map (fun k => filter (fun p => (List.length p =? k)%nat) l) (rev (seq 0 (S (list_max (map (@List.length string) l))))).
Definition exec (f : fs) (a : action) : fs * reply :=
  match a with
  | Look p => (f, Found (get f p))
  | Unlink p => (if is_file f p then delete f p else f, Found (get f p))
  | Scan p => (f, Entries (deepest (map fst (filter (fun e : path * node => prefixb p (fst e)) f))))
  | Drop p =>
      (match get f p with
       | Some (File _) => delete f p
       | Some Dir => if existsb (fun e : path * node => prefixb p (fst e) && negb (path_eqb p (fst e))) f then f else delete f p
       | None => f
       end, Success true)
  | Mk p => if existsb (is_file f) (prefixes p) then (f, Success false) else (perform f (MkDir p), Success true)
  | Create p =>
      match get f (removelast p), get f p with
      | Some Dir, None | Some Dir, Some (File _) => (put f p (File ""), Success true)
      | _, _ => (f, Success false)
      end
  | Fill p c => (if is_file f p then put f p (File c) else f, Success true)
  end.

Inductive prog (D : Type) := Ret (o : outcome D) | Act (a : action) (k : reply -> prog D).
Arguments Ret {D}. Arguments Act {D}.
Section Programs.
Context {D : Type} (parse : string -> string -> option D) (data_dir : path).
Definition look (p : path) (k : option node -> prog D) : prog D := Act (Look p) (fun r => match r with Found o => k o | _ => Ret Raised end).
Definition try (a : action) (k : prog D) : prog D := Act a (fun r => match r with Success true => k | _ => Ret Raised end).
(** l.346-375 [_has_files]; the second file is looked for only if the first one exists *)
Definition has_ext_p (n ext : string) (k : bool -> prog D) : prog D :=
  look (file_path data_dir n "TRAIN" ext) (fun o => match o with
    | None => k false
    | Some _ => look (file_path data_dir n "TEST" ext) (fun o => k (match o with Some _ => true | None => false end))
    end).
Definition has_files_p (n : string) (k : bool -> prog D) : prog D :=
  has_ext_p n "txt" (fun b => if b then k true else has_ext_p n "arff" k).
(** l.317-344: an exception gives (None, None, None, None) *)
Definition load_p (n ext : string) : prog D :=
  look (file_path data_dir n "TRAIN" ext) (fun o => match o with
    | Some (File a) => match parse ext a with
      | Some x => look (file_path data_dir n "TEST" ext) (fun o => match o with
          | Some (File b) => match parse ext b with Some y => Ret (Loaded x y) | None => Ret Nothing end
          | _ => Ret Nothing end)
      | None => Ret Nothing end
    | _ => Ret Nothing
    end).
Definition read_p (n : string) : prog D :=
  has_ext_p n "txt" (fun b => if b then load_p n "txt" else has_ext_p n "arff" (fun b => if b then load_p n "arff" else Ret Nothing)).
(** l.299-307 *)
Fixpoint drop_p (l : list path) (k : prog D) : prog D := match l with [] => k | p :: l => Act (Drop p) (fun _ => drop_p l k) end.
Definition clear_p (full : path) (k : prog D) : prog D :=
  Act (Unlink full) (fun r => match r with
    | Found (Some Dir) => Act (Scan full) (fun r => match r with Entries l => drop_p l k | _ => Ret Raised end)
    | _ => k end).
(** datasets.py l.40-44; errors other than BadZipFile are raised *)
Fixpoint extract_p (full : path) (entries : list (path * string)) (k : prog D) : prog D :=
  match entries with
  | [] => k
  | e :: entries =>
      let p := (full ++ fst e)%list in
      try (Mk (removelast p)) (try (Create p) (try (Fill p (snd e)) (extract_p full entries k)))
  end.
Definition fetch_p (full : path) (answer : download) (k : prog D) : prog D :=
  match answer with
  | NoAnswer => Ret Raised
  | NotZip => try (Mk full) (Ret Nothing)
  | Archive entries => try (Mk full) (extract_p full entries k)
  end.
(** l.250-344 [load_dataset] *)
Record job := { job_name : string; job_cache : bool; job_answer : download }.
Definition program (j : job) : prog D :=
  let n := real_name (job_name j) in
  let full := real_path (join data_dir n) in
  has_files_p n (fun b => if negb b || negb (job_cache j) then clear_p full (fetch_p full (job_answer j) (read_p n)) else read_p n).
End Programs.

(** a process alone *)
Fixpoint finish {D} (p : prog D) (f : fs) : fs * outcome D :=
  match p with Ret o => (f, o) | Act a k => let (f', r) := exec f a in finish (k r) f' end.
(** one action of process [i]; a schedule is the list of the processes that act *)
Fixpoint replace {A} (l : list A) (i : nat) (x : A) : list A :=
  match l, i with [], _ => [] | _ :: l, 0 => x :: l | y :: l, S i => y :: replace l i x end.
Definition turn {D} (c : fs * list (prog D)) (i : nat) : fs * list (prog D) :=
  match nth_error (snd c) i with
  | Some (Act a k) => let (f', r) := exec (fst c) a in (f', replace (snd c) i (k r))
  | _ => c
  end.
Definition interleave {D} (schedule : list nat) (c : fs * list (prog D)) : fs * list (prog D) := fold_left turn schedule c.

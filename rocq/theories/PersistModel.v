(** Model of tslearn/bases/bases.py (persistence of estimators, patched attributes) and tslearn/hdftools/hdftools.py.
    Strings are sequences of bytes (the UTF-8 encoding of a Python string).  Floats are abstract numbers that h5py, json and
    pickle give back unchanged.  Not modelled: object arrays in HDF5, [raise_type_fail=False] (no caller in tslearn), keras. *)
From Coq Require Import Bool List Arith ZArith Reals Ascii String DecimalString.
From Verif Require Import Num Py.
Import ListNotations.
Local Open Scope string_scope.
Local Open Scope list_scope.

(** ** Python values *)
Inductive key := KStr (s : string) | KInt (z : Z).
(** contents of an array of any shape, row by row *)
Inductive adata := AFloat (l : list xr) | AInt (l : list Z) | AStr (width : nat) (l : list string).
Inductive val :=
| VNone | VBool (b : bool) | VInt (z : Z) | VFloat (x : xr) | VStr (s : string) | VBytes (s : string)
| VNpInt (z : Z) | VNpBool (b : bool) (* numpy scalars; numpy.float64 is a float *)
| VArr (shape : list nat) (a : adata)
| VList (l : vals) | VTuple (l : vals)
| VDict (d : dict)
| VObj (d : dict) (* any other object with a [__dict__], for instance a function *)
| VOpaque (* any other object without *)
with dict := DNil | DCons (k : key) (v : val) (d : dict)
with vals := LNil | LCons (v : val) (l : vals).

Definition key_eqb (a b : key) : bool :=
  match a, b with KStr a, KStr b => String.eqb a b | KInt a, KInt b => Z.eqb a b | _, _ => false end.
Fixpoint lookup (k : key) (d : dict) : option val :=
  match d with DNil => None | DCons k' v d => if key_eqb k k' then Some v else lookup k d end.
Fixpoint keys (d : dict) : list key := match d with DNil => [] | DCons k _ d => k :: keys d end.
(** [d[k] = v]: in place for a key already there *)
Fixpoint assign (k : key) (v : val) (d : dict) : dict :=
  match d with DNil => DCons k v DNil | DCons k' v' d => if key_eqb k k' then DCons k' v d else DCons k' v' (assign k v d) end.
(** [for k in d.keys(): d[k] = f(d[k])] *)
Fixpoint map_values (f : val -> val) (d : dict) : dict := match d with DNil => DNil | DCons k v d => DCons k (f v) (map_values f d) end.
Definition str_of_key (k : key) : string := match k with KStr s => s | KInt z => NilZero.string_of_int (Z.to_int z) end.

(** ** HDF5 files: the datasets with their paths.  h5py creates the groups on a path, so that the groups are the proper
    prefixes of the paths (the code creates no group itself). *)
Definition store := list (list string * val).
Fixpoint split_slash (s : string) : list string :=
  match s with
  | EmptyString => [""]
  | String c s => let r := split_slash s in
    if Ascii.eqb c "/"%char then "" :: r else match r with [] => [String c ""] | x :: r => String c x :: r end
  end.
(** HDF5 ignores empty components and "." *)
Definition components (path : string) : list string := filter (fun c => negb (String.eqb c "") && negb (String.eqb c ".")) (split_slash path).
Fixpoint prefixb (a b : list string) : bool :=
  match a, b with [], _ => true | x :: a, y :: b => String.eqb x y && prefixb a b | _, [] => false end.
Fixpoint has_nul (s : string) : bool := match s with EmptyString => false | String c s => Ascii.eqb c zero || has_nul s end.
Fixpoint is_ascii (s : string) : bool := match s with EmptyString => true | String c s => (nat_of_ascii c <? 128)%nat && is_ascii s end.
(** [h5file[path] = item]: refused if the name is taken, or a dataset is in the way; no strings with NUL (a NUL
    in the path itself is not modelled) *)
Definition write (f : store) (path : string) (v : val) : res store :=
  let c := components path in
  if (match c with [] => true | _ => false end) || existsb (fun e => prefixb (fst e) c || prefixb c (fst e)) f then Err ValueError
  else if (match v with VStr s => has_nul s | VArr _ (AStr _ l) => existsb has_nul l | _ => false end) then Err ValueError
  else Ok (f ++ [(c, v)]).
(** hdftools.py l.49-115 [_dicts_to_group] *)
Fixpoint dicts_to_group (path : string) (d : dict) (f : store) {struct d} : res store :=
  match d with
  | DNil => Ok f
  | DCons k v d => do f <- item_to_group path k v f ;; dicts_to_group path d f
  end
with item_to_group (path : string) (k : key) (v : val) (f : store) {struct v} : res store :=
  match v with
  | VArr _ _ | VBool _ | VInt _ | VFloat _ | VStr _ | VNpInt _ =>
    match k with KStr k => write f (path ++ k)%string v | KInt _ => Err TypeError (* [path + key] *) end
  | VDict d => dicts_to_group (path ++ str_of_key k ++ "/")%string d f
  | VObj d => dicts_to_group (path ++ str_of_key k ++ "/")%string d f
  | VNone | VBytes _ | VNpBool _ | VList _ | VTuple _ | VOpaque => Err TypeError
  end.
(** l.8-46 [save_dict].  [exists_]: the file is already there *)
Definition save_dict (exists_ : bool) (d : dict) (group : string) : res store :=
  if exists_ then Err FileExistsError else dicts_to_group (group ++ "/")%string d [].

(** [item[()]], with [astype] for arrays of strings: h5py 3 gives bytes for strings and numpy scalars for numbers; numpy decodes
    bytes as ASCII *)
Definition read (v : val) : res val :=
  match v with
  | VStr s => Ok (VBytes s)
  | VInt z | VNpInt z => Ok (VNpInt z)
  | VBool b => Ok (VNpBool b)
  | VArr _ (AStr _ l) => if forallb is_ascii l then Ok v else Err ValueError
  | _ => Ok v
  end.
(** the members of a group whose datasets have the relative paths given; h5py lists them in alphabetical order, which no
    property here depends on *)
Definition members (f : store) : list string := nodup string_dec (map (fun e => hd "" (fst e)) f).
Definition below (k : string) (f : store) : store := map (fun e => (tl (fst e), snd e)) (filter (fun e => prefixb [k] (fst e)) f).
Definition dataset (f : store) : option val := option_map snd (find (fun e => match fst e with [] => true | _ => false end) f).
(** l.140-150 [_dicts_from_group]; [fuel]: depth *)
Fixpoint dicts_from_group (fuel : nat) (f : store) : res dict :=
  fold_right (fun k r =>
    do v <- (match dataset (below k f) with
             | Some v => read v
             | None => match fuel with O => Ok (VDict DNil) | S fuel => do d <- dicts_from_group fuel (below k f) ;; Ok (VDict d) end
             end) ;;
    do r <- r ;; Ok (DCons (KStr k) v r)) (Ok DNil) (members f).
Definition depth (f : store) : nat := list_max (map (fun e => List.length (fst e)) f).
(** l.118-137 [load_dict], for a group name without slash *)
Definition load_dict (f : store) (group : string) : res dict :=
  match below group f with [] => Err KeyError | g => dicts_from_group (depth f) g end.

(** ** bases.py *)
(** l.142-148 [_none_to_str], l.203-208 [_byte2string] (for one of the two dictionaries), l.251-255 *)
Definition none_to_str (d : dict) : dict := map_values (fun v => match v with VNone => VStr "None" | _ => v end) d.
Definition byte2string (d : dict) : dict := map_values (fun v => match v with VBytes s => VStr s | _ => v end) d.
Definition str_to_none (d : dict) : dict := map_values (fun v => match v with VStr s => if String.eqb s "None" then VNone else v | _ => v end) d.

(** what a saved file holds: hyper-parameters ([get_params]) and model parameters ([_get_model_params]) *)
Definition package (hyper params : dict) : dict := DCons (KStr "hyper_params") (VDict hyper) (DCons (KStr "model_params") (VDict params) DNil).
Definition sub (d : dict) (name : string) : res dict := match lookup (KStr name) d with Some (VDict d) => Ok d | Some _ => Err AttributeError | None => Err KeyError end.
(** [cls( **hyper_params )] for a constructor with the given parameters and defaults; the result is what [get_params] returns *)
Definition construct (signature : dict) (hyper : dict) : res dict :=
  if forallb (fun k => match lookup k signature with Some _ => true | None => false end) (keys hyper)
  then Ok ((fix fill s := match s with DNil => DNil | DCons k v s => DCons k (match lookup k hyper with Some w => w | None => v end) (fill s) end) signature)
  else Err TypeError.
(** l.210-226 [to_hdf5], with l.110-139 [_to_dict]; the model is fitted *)
Definition to_hdf5 (exists_ : bool) (hyper params : dict) : res store := save_dict exists_ (package (none_to_str hyper) params) "data".
(** l.228-257 [from_hdf5], l.168-200 [_organize_model]: hyper-parameters and attributes set from the file *)
Definition from_hdf5 (signature : dict) (f : store) : res (dict * dict) :=
  do m <- load_dict f "data" ;;
  do hyper <- sub m "hyper_params" ;; do params <- sub m "model_params" ;;
  do inst <- construct signature (str_to_none (byte2string hyper)) ;;
  Ok (inst, byte2string params).
(** l.307-336: pickle gives the dictionaries back as they are *)
Definition pickle_roundtrip (signature hyper params : dict) : res (dict * dict) :=
  do inst <- construct signature (byte2string hyper) ;; Ok (inst, byte2string params).

(** ** JSON *)
Fixpoint vals_of (l : list val) : vals := match l with [] => LNil | v :: l => LCons v (vals_of l) end.
Fixpoint list_of (l : vals) : list val := match l with LNil => [] | LCons v l => v :: list_of l end.
Definition prod (shape : list nat) : nat := fold_right Nat.mul 1 shape.
Definition part {A} (w i : nat) (l : list A) : list A := firstn w (skipn (i * w) l).
(** [ndarray.tolist] *)
Fixpoint nest (shape : list nat) (xs : list val) : val :=
  match shape with
  | [] => hd VNone xs
  | n :: shape => VList (vals_of (map (fun i => nest shape (part (prod shape) i xs)) (seq 0 n)))
  end.
Definition elements (a : adata) : list val := match a with AFloat l => map VFloat l | AInt l => map VInt l | AStr _ l => map VStr l end.
Definition tolist (shape : list nat) (a : adata) : val := nest shape (elements a).
(** l.151-165 [_listify], one entry *)
Fixpoint tolist_all (l : vals) : res vals :=
  match l with
  | LNil => Ok LNil
  | LCons (VArr shape a) l => do l <- tolist_all l ;; Ok (LCons (tolist shape a) l)
  | LCons _ _ => Err AttributeError
  end.
Definition listify (v : val) : res val :=
  match v with
  | VArr shape a => Ok (tolist shape a)
  | VList LNil => Err IndexError (* [param[0]] *)
  | VList (LCons (VArr _ _) _ as l) => do l <- tolist_all l ;; Ok (VList l)
  | _ => Ok v
  end.
Fixpoint try_values (f : val -> res val) (d : dict) : res dict :=
  match d with DNil => Ok DNil | DCons k v d => do w <- f v ;; do d <- try_values f d ;; Ok (DCons k w d) end.
(** [json.load(json.dump(v))]: keys become strings (of equal strings the last one counts), tuples lists; json takes no bytes,
    arrays or numpy scalars *)
Fixpoint json_val (v : val) : res val :=
  match v with
  | VNone | VBool _ | VInt _ | VFloat _ | VStr _ => Ok v
  | VList l | VTuple l => do l <- json_vals l ;; Ok (VList l)
  | VDict d => do d <- json_dict d DNil ;; Ok (VDict d)
  | VBytes _ | VNpInt _ | VNpBool _ | VArr _ _ | VObj _ | VOpaque => Err TypeError
  end
with json_dict (d acc : dict) : res dict :=
  match d with DNil => Ok acc | DCons k v d => do v <- json_val v ;; json_dict d (assign (KStr (str_of_key k)) v acc) end
with json_vals (l : vals) : res vals :=
  match l with LNil => Ok LNil | LCons v l => do v <- json_val v ;; do l <- json_vals l ;; Ok (LCons v l) end.
(** [np.array(l)] for nested lists.  [None]: a ragged list, or elements that are no numbers and strings.  (Not modelled: lists of
    booleans, and lists mixing numbers and strings, which become strings.) *)
Fixpoint shape_of (v : val) : option (list nat) :=
  match v with
  | VList l => match shapes_of l with Some (n, s) => Some (n :: s) | None => None end
  | _ => Some []
  end
with shapes_of (l : vals) : option (nat * list nat) :=
  match l with
  | LNil => Some (0, [])
  | LCons v LNil => match shape_of v with Some s => Some (1, s) | None => None end
  | LCons v l => match shape_of v, shapes_of l with
                 | Some s, Some (n, s') => if list_eq_dec Nat.eq_dec s s' then Some (S n, s) else None
                 | _, _ => None
                 end
  end.
Fixpoint flatten (v : val) : list val := match v with VList l => flatten_all l | _ => [v] end
with flatten_all (l : vals) : list val := match l with LNil => [] | LCons v l => flatten v ++ flatten_all l end.
Definition as_int (v : val) : option Z := match v with VInt z => Some z | _ => None end.
Definition as_float (v : val) : option xr := match v with VFloat x => Some x | VInt z => Some (XR (IZR z)) | _ => None end.
Definition as_str (v : val) : option string := match v with VStr s => Some s | _ => None end.
Fixpoint all_of {A} (f : val -> option A) (l : list val) : option (list A) :=
  match l with [] => Some [] | v :: l => match f v, all_of f l with Some x, Some l => Some (x :: l) | _, _ => None end end.
(** number of code points of a UTF-8 string *)
Fixpoint code_points (s : string) : nat :=
  match s with EmptyString => 0 | String c s => (if (128 <=? nat_of_ascii c)%nat && (nat_of_ascii c <? 192)%nat then 0 else 1) + code_points s end.
Definition np_array (v : val) : option val :=
  match shape_of v with
  | None => None
  | Some shape =>
    let xs := flatten v in
    match xs with
    | [] => Some (VArr shape (AFloat []))
    | _ => match all_of as_int xs, all_of as_float xs, all_of as_str xs with
           | Some l, _, _ => Some (VArr shape (AInt l))
           | _, Some l, _ => Some (VArr shape (AFloat l))
           | _, _, Some l => Some (VArr shape (AStr (Nat.max 1 (list_max (map code_points l))) l))
           | _, _, _ => None
           end
    end
  end.
(** l.285-303: lists of the top level become arrays, or lists of arrays *)
Definition json_entry (v : val) : val :=
  match v with
  | VList l => match np_array v with
               | Some a => a
               | None => VList (vals_of (map (fun p => match np_array p with Some a => a | None => VOpaque end) (list_of l)))
               end
  | _ => v
  end.
(** l.259-305 [to_json], [from_json] *)
Definition to_json (hyper params : dict) : res dict :=
  do params <- try_values listify params ;; do hyper <- try_values listify hyper ;; json_dict (package hyper params) DNil.
Definition from_json (signature : dict) (m : dict) : res (dict * dict) :=
  do hyper <- sub m "hyper_params" ;; do params <- sub m "model_params" ;;
  do inst <- construct signature (map_values json_entry (byte2string hyper)) ;; Ok (inst, map_values json_entry (byte2string params)).

(** ** bases.py l.54-63 [_patch_attribute].  An object is its attributes; a call returns the object it leaves behind and its
    result.  [body]: what runs inside the [with] statement. *)
Definition with_patch {A} (name : string) (value : val) (body : dict -> dict * res A) (self : dict) : dict * res A :=
  match lookup (KStr name) self with
  | None => (self, Err AttributeError)
  | Some orig => let (self, r) := body (assign (KStr name) value self) in (assign (KStr name) orig self, r)
  end.

(** ** Which attributes are saved: bases.py l.96-139 and the overriding methods of the estimators.  An object is here the list of
    the names of its attributes set by [fit]. *)
Definition starts (p s : string) : bool := String.prefix p s.
Fixpoint ends_underscore (s : string) : bool := match s with EmptyString => false | String c EmptyString => Ascii.eqb c "_" | String _ s => ends_underscore s end.
(** l.104-107 *)
Definition saved_name (s : string) : bool := negb (starts "__" s) && ends_underscore s.
Definition has (attrs : list string) (s : string) : bool := existsb (String.eqb s) attrs.
(** [_is_fitted]: inherited (it returns None), [check_is_fitted(self, names)], or [check_is_fitted(self)] (any fitted attribute) *)
Inductive fitted_check := Inherited | AllOf (names : list string) | AnyOf.
(** [_get_model_params]: the inherited rule and further names, or a fixed dictionary *)
Inductive saved_params := Rule (more : list string) | Fixed (names : list string).
Record estimator := { e_fit : list string; e_check : fitted_check; e_params : saved_params }.
Definition is_fitted (e : estimator) (attrs : list string) : res bool :=
  match e_check e with
  | Inherited => Ok false
  | AllOf names => if forallb (has attrs) names then Ok true else Err NotFittedError
  | AnyOf => if existsb saved_name attrs then Ok true else Err NotFittedError
  end.
Definition model_params (e : estimator) (attrs : list string) : res (list string) :=
  match e_params e with
  | Rule more => if forallb (has attrs) more then Ok (filter saved_name attrs ++ more) else Err AttributeError
  | Fixed names => if forallb (has attrs) names then Ok names else Err AttributeError
  end.
(** save and load: the attributes the loaded object has *)
Definition reload (e : estimator) (attrs : list string) : res (list string) :=
  do b <- is_fitted e attrs ;; if b then model_params e attrs else Err NotFittedError.
(** clustering/kmeans.py l.248-255, 346-387; l.629-631, 811-850; kshape.py l.106-117, 218-253; dbscan.py l.99-100, 182-192 *)
Definition kernel_kmeans := {| e_fit := ["labels_"; "inertia_"; "sample_weight_"; "n_iter_"; "sigma_gak_"; "_X_fit"; "_iter"; "n_features_in_"]; e_check := AllOf ["_X_fit"]; e_params := Rule ["_X_fit"] |}.
Definition ts_kmeans := {| e_fit := ["labels_"; "inertia_"; "cluster_centers_"; "n_iter_"; "_X_fit"; "_iter"; "_squared_inertia"]; e_check := AllOf ["cluster_centers_"]; e_params := Rule [] |}.
Definition kshape := {| e_fit := ["labels_"; "inertia_"; "cluster_centers_"; "norms_"; "norms_centroids_"; "n_iter_"; "_X_fit"; "_iter"]; e_check := AllOf ["cluster_centers_"; "norms_"; "norms_centroids_"]; e_params := Rule [] |}.
Definition dbscan := {| e_fit := ["core_ts_indices_"; "labels_"; "components_"; "n_features_in_"]; e_check := AnyOf; e_params := Rule [] |}.
(** piecewise.py l.121-127; l.349-363; l.622-640 *)
Definition paa := {| e_fit := ["_X_fit_dims_"; "n_features_in_"]; e_check := AllOf ["_X_fit_dims_"]; e_params := Rule [] |}.
Definition sax (scale : bool) :=
  let own := ["breakpoints_avg_"; "breakpoints_avg_middle_"] ++ (if scale then ["mu_"; "std_"] else []) in
  {| e_fit := own ++ e_fit paa; e_check := AllOf (own ++ ["_X_fit_dims_"]); e_params := Rule [] |}.
Definition one_d_sax (scale : bool) :=
  let own := ["breakpoints_slope_"; "breakpoints_slope_middle_"; "breakpoints_avg_"; "breakpoints_avg_middle_"] ++ (if scale then ["mu_"; "std_"] else []) in
  {| e_fit := own ++ e_fit paa; e_check := AllOf (own ++ ["_X_fit_dims_"]); e_params := Rule [] |}.
(** matrix_profile.py l.129-135 *)
Definition matrix_profile := {| e_fit := ["_X_fit_dims"; "n_features_in_"]; e_check := AllOf ["_X_fit_dims"]; e_params := Rule [] |}.
(** neighbors.py l.308-349; l.523-581; l.700-735.  [ts]: the metric is one of TSLEARN_VALID_METRICS *)
Definition kneighbors (ts : bool) :=
  {| e_fit := (if ts then ["_ts_metric"; "_ts_fit"] else []) ++ ["_d"; "_X_fit"]; e_check := AllOf (if ts then ["_ts_fit"] else ["_X_fit"]); e_params := Fixed (if ts then ["_ts_fit"] else ["_X_fit"]) |}.
Definition knn_classifier (ts : bool) :=
  {| e_fit := (if ts then ["_ts_metric"; "_ts_fit"] else []) ++ ["_d"; "_X_fit"; "classes_"; "_y"; "outputs_2d_"; "_fit_X"; "_fit_method"; "n_features_in_"]; e_check := AllOf ["_ts_fit"];
     e_params := Fixed ["_X_fit"; "_ts_fit"; "_d"; "classes_"; "_y"; "outputs_2d_"; "_fit_X"; "_fit_method"] |}.
Definition knn_regressor (ts : bool) :=
  {| e_fit := (if ts then ["_ts_metric"; "_ts_fit"] else []) ++ ["_d"; "_X_fit"; "_y"; "_fit_X"; "_fit_method"; "n_features_in_"]; e_check := Inherited; e_params := Rule [] |}.
(** shapelets.py l.905-907, 918-925, 509-537; "model_weights_" stands for [get_weights()].  (Keras models are callable and hence not
    saved by the rule; [model_] is saved explicitly, as JSON.) *)
Definition learning_shapelets := {| e_fit := ["_X_fit_dims"; "model_"; "transformer_model_"; "locator_model_"; "n_shapelets_per_size_"; "history_"; "n_iter_"; "n_features_in_"; "classes_"; "model_weights_"]; e_check := AllOf ["model_"]; e_params := Rule ["_X_fit_dims"; "model_"; "model_weights_"] |}.
(** _arima.py l.204-240: VARIMA and AutoVARIMA define no [_is_fitted] *)
Definition varima := {| e_fit := ["intercept_"; "ar_coeffs_"; "ma_coeffs_"; "lle_"; "_min_samples"; "_ts_sizes"; "_last_residuals"; "_last_timestamps"]; e_check := Inherited; e_params := Rule [] |}.

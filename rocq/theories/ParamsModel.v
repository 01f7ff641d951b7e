(** How [metric_params] reaches the metric in TimeSeriesKMeans (clustering/kmeans.py), the neighbour searches
    (neighbors/neighbors.py) and TimeSeriesDBSCAN (clustering/dbscan.py).  Values (datasets, numbers, names) are elements of an
    arbitrary type [A]; a dictionary is the list of its entries, each key once; the metric is what its parameters are bound to.
    [copy] and [deepcopy] are the identity: nothing is shared with the caller's dictionary afterwards. *)
From Coq Require Import Bool List Arith String.
From Verif Require Import Num Py.
Import ListNotations.
Local Open Scope string_scope.

Section Params.
Variable A : Type.
Definition dict := list (string * A).
Definition keys (d : dict) : list string := map fst d.
Definition has (k : string) (l : list string) : bool := existsb (String.eqb k) l.
Definition get (k : string) (d : dict) : option A := option_map snd (find (fun p => String.eqb (fst p) k) d).
(** [del d[k]] *)
Definition del (k : string) (d : dict) : dict := filter (fun p => negb (String.eqb (fst p) k)) d.
(** [d[k] = v] *)
Definition set (k : string) (v : A) (d : dict) : dict :=
  if has k (keys d) then map (fun p => if String.eqb (fst p) k then (k, v) else p) d else (d ++ [(k, v)])%list.

(** Python's binding of positional and keyword arguments (given ones first, then the entries of [**d]) to the names of a
    signature without [*] and [**]; a name that is not bound keeps its default *)
Fixpoint distinct (l : list string) : bool := match l with [] => true | k :: l => negb (has k l) && distinct l end.
Definition bind_args (sig : list string) (pos : list A) (kws : dict) : res (string -> option A) :=
  if (List.length sig <? List.length pos)%nat then Err TypeError
  else let named := (combine sig pos ++ kws)%list in
       if distinct (keys named) && forallb (fun k => has k sig) (keys named) then Ok (fun k => get k named) else Err TypeError.

(** ** signatures *)
(** metrics/_dtw.py l.769-778 [_cdist_dtw], metrics/_frechet.py l.780-789 [_cdist_frechet] *)
Definition sig_dtw : list string := ["dataset1"; "dataset2"; "global_constraint"; "sakoe_chiba_radius"; "itakura_max_slope"; "n_jobs"; "verbose"; "be"].
(** metrics/ctw.py l.426-437 [_cdist_ctw] *)
Definition sig_ctw : list string := ["dataset1"; "dataset2"; "max_iter"; "n_components"; "global_constraint"; "sakoe_chiba_radius"; "itakura_max_slope"; "n_jobs"; "verbose"; "be"].
(** metrics/_soft_dtw.py l.901-911 [_cdist_soft_dtw], l.1118-1128 [_cdist_soft_dtw_normalized] *)
Definition sig_softdtw : list string := ["dataset1"; "dataset2"; "gamma"; "global_constraint"; "sakoe_chiba_radius"; "itakura_max_slope"; "n_jobs"; "verbose"; "be"].

Definition or_empty (mp : option dict) : dict := match mp with Some d => d | None => [] end.

(** ** TimeSeriesKMeans: kmeans.py l.633-640 [_get_metric_params], l.720-735 [_transform] *)
Inductive kmeans_metric := KmDtw | KmSoftdtw.
Definition kmeans_sig (m : kmeans_metric) : list string := match m with KmDtw => sig_dtw | KmSoftdtw => sig_softdtw end.
Definition kmeans_params (mp : option dict) : dict := del "n_jobs" (or_empty mp).
Definition kmeans_call (m : kmeans_metric) (mp : option dict) (n_jobs verbose X centers : A) : res (string -> option A) :=
  bind_args (kmeans_sig m) [X; centers] (("n_jobs", n_jobs) :: ("verbose", verbose) :: kmeans_params mp).

(** ** neighbour searches: neighbors.py l.44-56 [_get_metric_params], l.70-94 [_precompute_cross_dist] *)
Inductive knn_metric := NnDtw | NnCtw | NnSoftdtw | NnFrechet.
Definition knn_sig (m : knn_metric) : list string := match m with NnDtw | NnFrechet => sig_dtw | NnCtw => sig_ctw | NnSoftdtw => sig_softdtw end.
Definition knn_params (mp : option dict) : dict :=
  let d := or_empty mp in
  let d := match get "gamma_sdtw" d with Some v => del "gamma_sdtw" (set "gamma" v d) | None => d end in
  del "verbose" (del "n_jobs" d).
Definition knn_call (m : knn_metric) (mp : option dict) (n_jobs X fit_X : A) : res (string -> option A) :=
  bind_args (knn_sig m) [X; fit_X]
    (match m with NnDtw | NnFrechet => ("n_jobs", n_jobs) :: knn_params mp | NnCtw | NnSoftdtw => knn_params mp end).

(** ** TimeSeriesDBSCAN: dbscan.py l.102-109 [_get_metric_params], l.149-159 of [fit]; [n_jobs] is [None] for None *)
Inductive dbscan_metric := DbDtw | DbCtw | DbFrechet | DbSoftdtwNormalized.
Definition dbscan_sig (m : dbscan_metric) : list string := match m with DbDtw | DbFrechet => sig_dtw | DbCtw => sig_ctw | DbSoftdtwNormalized => sig_softdtw end.
Definition dbscan_params (mp : option dict) (n_jobs : option A) : dict :=
  match n_jobs with Some n => set "n_jobs" n (or_empty mp) | None => or_empty mp end.
Definition dbscan_call (m : dbscan_metric) (mp : option dict) (n_jobs : option A) (X : A) : res (string -> option A) :=
  bind_args (dbscan_sig m) [X] (filter (fun p => has (fst p) (dbscan_sig m)) (dbscan_params mp n_jobs)).
End Params.

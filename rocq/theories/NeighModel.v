(** Model of tslearn/neighbors/neighbors.py: the selection of the neighbours (mixin [kneighbors]) and the
    book-keeping of the attributes [metric], [_ts_metric], [_ts_fit], [_X_fit] through calls.
    sklearn's own [fit] and vote, and the values of the distances, are not modelled here (see CdistThms for the
    distance matrices). *)
From Coq Require Import Bool List Arith ZArith Reals.
From Verif Require Import Num Py.
Import ListNotations.
Local Open Scope nat_scope.

(** ** l.160-187: selection in one row of the distance matrix *)
(** [numpy.argpartition(row, kth)] and [numpy.argsort(v)] are not determined by their documentation on ties and (the
    former) on the order inside the two parts: they are parameters. *)
Record np_order := { argpart : list R -> nat -> list nat; argsort : list R -> list nat }.
Definition pick (row : list R) (ind : list nat) : list R := map (fun i => nth i row 0%R) ind.
(** [self_query]: [X] was None, then the first column is dropped (l.168-169).  Simplification: n_neighbors >= 1 and at
    least one training series. *)
Definition neighbors_row (np : np_order) (self_query : bool) (n_neighbors : nat) (row : list R) : list R * list nat :=
  let kbin := Nat.min (n_neighbors - 1) (length row - 1) in
  let ind := argpart np row kbin in
  let ind := if self_query then skipn 1 ind else ind in
  let n_neighbors := if length row <? n_neighbors then length row else n_neighbors in
  let ind := firstn n_neighbors ind in
  let ind := map (fun i => nth i ind 0) (argsort np (pick row ind)) in
  (pick row ind, ind).
Definition kneighbors_sel (np : np_order) (self_query : bool) (n_neighbors : nat) (D : list (list R)) : list (list R * list nat) :=
  map (neighbors_row np self_query n_neighbors) D.

(** ** which arrays are compared: mixin [kneighbors] (l.126-158) after [fit] of a classifier or regressor (l.563-576,
    l.724-730) with a metric of TSLEARN_VALID_METRICS.  There [_ts_fit] are the training series and [_X_fit] is an n x n
    array of zeros.  [X=None] is replaced by [_X_fit], a 2-d array, and 2-d arrays are reshaped to [d] features. *)
Definition rows_of (d : nat) (flat : list R) : list (list R) :=
  map (fun t => map (fun c => nth (t * d + c) flat 0%R) (seq 0 d)) (seq 0 (length flat / d)).
Definition compared (train : list (list (list R))) (d : nat) (X : option (list (list (list R)))) : res (list (list (list R)) * list (list (list R))) :=
  match X with
  | Some X => Ok (X, train)
  | None =>
    let n := length train in
    let X_fit := repeat (repeat 0%R n) n in
    if (n mod d =? 0)%nat then Ok (map (rows_of d) X_fit, map (rows_of d) X_fit) else Err ValueError
  end.
(** the whole search; [f] is the dissimilarity selected by [metric] *)
Definition clf_kneighbors (np : np_order) (f : list (list R) -> list (list R) -> R) (train : list (list (list R))) (d : nat)
    (X : option (list (list (list R)))) (n_neighbors : nat) : res (list (list R * list nat)) :=
  do q <- compared train d X ;;
  Ok (kneighbors_sel np (match X with None => true | Some _ => false end) n_neighbors (map (fun x => map (f x) (snd q)) (fst q))).

(** ** attributes through calls *)
Inductive metric_name := MCtw | MDtw | MGak | MSax | MSoftdtw | MSoftdtwNorm | MLcss | MFrechet
  | MEuclidean | MSqeuclidean | MCityblock | MPrecomputed | MOther.
(** metrics/__init__.py l.77-78 TSLEARN_VALID_METRICS *)
Definition ts_valid (m : metric_name) : bool :=
  match m with MEuclidean | MSqeuclidean | MCityblock | MPrecomputed | MOther => false | _ => true end.
Definition is_pre (m : metric_name) : bool := match m with MPrecomputed => true | _ => false end.
(** [_precompute_cross_dist] (l.70-97) knows these; KNeighborsTimeSeries.kneighbors (l.385-407) the same except "sax".
    Not represented here: the regressor stores its training series untransformed for "sax", see SaxNeighModel.v. *)
Definition cross_known (m : metric_name) : bool := match m with MDtw | MCtw | MSoftdtw | MSax | MFrechet => true | _ => false end.
Definition search_known (m : metric_name) : bool := match m with MDtw | MCtw | MSoftdtw | MFrechet => true | _ => false end.
(** attributes; [None] and [false]: not set *)
Record kn_state := { kn_metric : metric_name; kn_ts_metric : option metric_name; kn_ts_fit : bool; kn_X_fit : bool }.
Definition put_metric (m : metric_name) (s : kn_state) : kn_state :=
  {| kn_metric := m; kn_ts_metric := kn_ts_metric s; kn_ts_fit := kn_ts_fit s; kn_X_fit := kn_X_fit s |}.
(** [self._ts_metric = self.metric; self.metric = "precomputed"] *)
Definition to_precomputed (s : kn_state) : kn_state :=
  {| kn_metric := MPrecomputed; kn_ts_metric := Some (kn_metric s); kn_ts_fit := kn_ts_fit s; kn_X_fit := kn_X_fit s |}.
(** [if hasattr(self, '_ts_metric'): self.metric = self._ts_metric] *)
Definition restore (s : kn_state) : kn_state := match kn_ts_metric s with Some m => put_metric m s | None => s end.
Definition put_fit (ts : bool) (s : kn_state) : kn_state :=
  {| kn_metric := kn_metric s; kn_ts_metric := kn_ts_metric s; kn_ts_fit := ts || kn_ts_fit s; kn_X_fit := true |}.

(** where a call may raise: in the validation of its arguments, or in the computation (distances, sklearn) *)
Inductive outcome := Fine | BadInput | BadCompute.
Definition fails (o p : outcome) : bool := match o, p with BadInput, BadInput | BadCompute, BadCompute => true | _, _ => false end.
(** [fit]: l.322-349, l.539-581, l.700-735 (the three classes) *)
Definition kn_fit (o : outcome) (s : kn_state) : kn_state * res unit :=
  let s := if ts_valid (kn_metric s) then to_precomputed s else s in
  if fails o BadInput then (s, Err ValueError)
  else
    let ts := is_pre (kn_metric s) && match kn_ts_metric s with Some _ => true | None => false end in
    let s := put_fit ts s in
    if fails o BadCompute then (s, Err ValueError) else (restore s, Ok tt).
(** the mixin's [kneighbors] (l.101-187) called with a metric for which nothing has to be computed in tslearn; only the
    attributes are modelled *)
Definition mixin_kneighbors (o : outcome) (s : kn_state) : kn_state * res unit :=
  if fails o BadCompute then (s, Err ValueError) else (restore s, Ok tt).
(** KNeighborsTimeSeries.kneighbors, l.351-428 *)
Definition kn_search (o : outcome) (s : kn_state) : kn_state * res unit :=
  if ts_valid (kn_metric s) then
    let s := to_precomputed s in
    if negb (kn_ts_fit s) then (s, Err NotFittedError)
    else if fails o BadInput then (s, Err ValueError)
    else if negb (match kn_ts_metric s with Some m => search_known m | None => false end) then (s, Err ValueError)
    else match mixin_kneighbors o s with
      | (s, Ok _) => (restore s, Ok tt)
      | (s, Err e) => (s, Err e) end
  else
    if negb (kn_X_fit s) then (s, Err NotFittedError)
    else if fails o BadInput then (s, Err ValueError)
    else mixin_kneighbors o s.
(** [_predict_generic] (l.204-233) with [_precompute_cross_dist] (l.58-99); [via]: sklearn's [predict] calls
    [self.kneighbors], which it does or not depending on its version and on the weights *)
Definition kn_predict (via : bool) (o : outcome) (s : kn_state) : kn_state * res unit :=
  let inner s := if via then mixin_kneighbors o s else if fails o BadCompute then (s, Err ValueError) else (s, Ok tt) in
  if ts_valid (kn_metric s) then
    if negb (kn_ts_fit s) then (s, Err NotFittedError)
    else if fails o BadInput then (s, Err ValueError)
    else
      let s := to_precomputed s in
      if negb (match kn_ts_metric s with Some m => cross_known m | None => false end) then (s, Err ValueError)
      else match inner s with
        | (s, Ok _) => (restore s, Ok tt)
        | (s, Err e) => (s, Err e) end
  else
    if negb (kn_X_fit s) then (s, Err NotFittedError)
    else if fails o BadInput then (s, Err ValueError)
    else inner s.
Inductive kn_call := KFit (o : outcome) | KSearch (o : outcome) | KPredict (via : bool) (o : outcome) | KSet (m : metric_name).
Definition kn_step (c : kn_call) (s : kn_state) : kn_state * res unit :=
  match c with
  | KFit o => kn_fit o s
  | KSearch o => kn_search o s
  | KPredict via o => kn_predict via o s
  | KSet m => (put_metric m s, Ok tt)
  end.
(** a history: the state after, and whether every call returned *)
Fixpoint kn_run (l : list kn_call) (s : kn_state) : kn_state * bool :=
  match l with
  | [] => (s, true)
  | c :: l => let '(s, r) := kn_step c s in let '(s, ok) := kn_run l s in (s, match r with Ok _ => ok | Err _ => false end)
  end.
Definition kn_new (m : metric_name) : kn_state := {| kn_metric := m; kn_ts_metric := None; kn_ts_fit := false; kn_X_fit := false |}.

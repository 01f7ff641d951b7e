(** Model of tslearn/early_classification/early_classification.py [NonMyopicEarlyClassifier] on real numbers (exact arithmetic).
    The fitted base classifiers and the clustering are parameters.  Not modelled: missing values ([check_array] refuses them in
    [predict] and [early_predict]); [predict_proba] is in EarlyCostModel. *)
From Coq Require Import Bool List Arith Reals.
From Verif Require Import Num Py RList PreModel Dataset KernelModel.
Import ListNotations.
Local Open Scope R_scope.

Definition ecseries := list (list R).

(** ** what [fit] estimates *)
(** [confusion_matrix(y_true, y_pred, labels=0..n-1)] *)
Definition confusion (n : nat) (y yhat : list nat) : list (list R) :=
  map (fun a => map (fun b => INR (length (filter (fun p => (fst p =? a)%nat && (snd p =? b)%nat) (combine y yhat)))) (seq 0 n)) (seq 0 n).
(** [conf_matrix.sum(axis=0)], 0 replaced by 1 (l.203-204) *)
Definition col_normalizer (C : list (list R)) (b : nat) : R :=
  let s := rsum (map (fun row => nth b row 0) C) in if Req_EM_T s 0 then 1 else s.
(** l.199-212: one entry of [pyhatyck_] (indexed by true class, then predicted class) *)
Definition pyhatyck_entry (n : nat) (y yhat : list nat) : list (list R) :=
  let C := confusion n y yhat in
  map (fun a => map (fun b => if (a =? b)%nat then 0 else nth b (nth a C []) 0 / col_normalizer C b) (seq 0 n)) (seq 0 n).
(** l.179-188: [pyck_] (true class, then cluster).  Simplification: no cluster is empty. *)
Definition pyck_table (n k : nat) (y c : list nat) : list (list R) :=
  map (fun a => map (fun j => INR (length (filter (fun p => (fst p =? a)%nat && (snd p =? j)%nat) (combine y c)))
                              / rsum (map (fun a' => INR (length (filter (fun p => (fst p =? a')%nat && (snd p =? j)%nat) (combine y c)))) (seq 0 n))) (seq 0 k)) (seq 0 n).

(** ** a fitted model *)
Record ec (L : Type) := {
  ec_min_t : nat; ec_lamb : R; ec_time : R;
  ec_sz : nat;                                     (* _X_fit_dims[1] *)
  ec_d : nat;                                      (* _X_fit_dims[2] *)
  ec_centers : list ecseries;
  ec_pyhatyck : list (list (list (list R)));       (* time, cluster, class, predicted class *)
  ec_pyck : list (list R);
  ec_clf : nat -> ecseries -> res L                (* classifiers_[t].predict([ts])[0], min_t <= t <= sz *)
}.
Arguments ec_min_t {L}. Arguments ec_lamb {L}. Arguments ec_time {L}. Arguments ec_sz {L}. Arguments ec_d {L}. Arguments ec_centers {L}.
Arguments ec_pyhatyck {L}. Arguments ec_pyck {L}. Arguments ec_clf {L}.

(** l.278-284 [get_cluster_probas].  [None]: an array of NaN (all distances are 0).  An empty series is refused by
    [check_array].  Simplification: a series longer than the centres does not broadcast. *)
Definition center_dist (Xi c : ecseries) : R :=
  sqrt (rsum (map (fun p => (fst p - snd p) * (fst p - snd p)) (combine (concat Xi) (concat (firstn (length Xi) c))))).
Definition cluster_probas {L} (M : ec L) (Xi : ecseries) : res (option (list R)) :=
  if (length Xi =? 0)%nat || (ec_sz M <? length Xi)%nat then Err ValueError
  else
    let distances := map (center_dist Xi) (ec_centers M) in
    let average := rsum distances / INR (length distances) in
    if Req_EM_T average 0 then Ok None
    else
      let delta := map (fun x => 1 - x / average) distances in
      let s := map (fun x => 1 / (1 + exp (- ec_lamb M * x))) delta in
      Ok (Some (map (fun x => x / rsum s) s)).
(** l.339-346, one time: [sum_k (sum_y (sum_yhat P) * pyck[y, k]) * proba[k]] *)
Definition error_cost (pyck : list (list R)) (probas : list R) (table : list (list (list R))) : R :=
  rsum (map (fun k => rsum (map (fun y => rsum (nth y (nth k table []) []) * nth k (nth y pyck []) 0) (seq 0 (length pyck))) * nth k probas 0)
            (seq 0 (length probas))).
(** [a + b] of two 1-d arrays *)
Definition broadcast_add (a b : list R) : res (list R) :=
  if (length a =? length b)%nat then Ok (map (fun p => fst p + snd p) (combine a b))
  else if (length a =? 1)%nat then Ok (map (fun x => nth 0 a 0 + x) b)
  else if (length b =? 1)%nat then Ok (map (fun x => x + nth 0 b 0) a)
  else Err ValueError.
(** l.286-348 [_expected_costs]; a negative start index counts from the end.  [None]: all entries are NaN. *)
Definition expected_costs {L} (M : ec L) (Xi : ecseries) : res (option (list R)) :=
  do p <- cluster_probas M Xi ;;
  let truncated_t := length Xi in
  let P := ec_pyhatyck M in
  let tables := if (ec_min_t M <=? truncated_t)%nat then skipn (truncated_t - ec_min_t M) P else skipn (length P - (ec_min_t M - truncated_t)) P in
  let times := map (fun t => INR t * ec_time M) (seq truncated_t (ec_sz M + 1 - truncated_t)) in
  match p with
  | Some p => do c <- broadcast_add (map (error_cost (ec_pyck M) p) tables) times ;; Ok (Some c)
  | None => do c <- broadcast_add (map (fun _ => 0) tables) times ;; Ok (if (length c =? 0)%nat then Some [] else None)
  end.
(** numpy.argmin: the first NaN if there is one *)
Definition tau_star {L} (M : ec L) (Xi : ecseries) : res nat :=
  do c <- expected_costs M Xi ;;
  match c with None => Ok 0%nat | Some [] => Err ValueError | Some c => Ok (rargmin c) end.
(** l.350-359 [_get_prediction_time] *)
Fixpoint scan_times {L} (M : ec L) (Xi : ecseries) (ts : list nat) : res (option nat) :=
  match ts with
  | [] => Ok None
  | t :: ts =>
    do tau <- tau_star M (firstn t Xi) ;;
    if (t =? ec_sz M)%nat || (tau =? 0)%nat then Ok (Some t) else scan_times M Xi ts
  end.
Definition prediction_time {L} (M : ec L) (Xi : ecseries) : res (option nat) :=
  scan_times M Xi (seq (ec_min_t M) (ec_sz M + 1 - ec_min_t M)).
(** l.361-377 [_predict_single_series] *)
Definition predict_single {L} (M : ec L) (Xi : ecseries) : res (L * nat) :=
  do t <- prediction_time M Xi ;;
  match t with
  | None => Err KeyError
  | Some t => do pred <- ec_clf M t (firstn t Xi) ;; Ok (pred, t)
  end.
(** l.399-432 [predict_class_and_earliness] *)
Definition predict_class_and_earliness {L} (M : ec L) (X : list ecseries) : res (list (L * nat)) := mapM (predict_single M) X.

(** l.745-769 [_early_predict]; [None] is NaN *)
Definition early_one {L} (M : ec L) (ts : ecseries) : res (option L * option nat) :=
  if (length ts <? ec_min_t M)%nat then Ok (None, None)
  else do pred <- ec_clf M (length ts) ts ;; do tau <- tau_star M ts ;; Ok (Some pred, Some tau).
Definition early_predict {L} (M : ec L) (X : list ecseries) : res (list (option L * option nat)) :=
  if (ec_sz M <? length (hd [] X))%nat then Err ValueError else mapM (early_one M) X.

(** ** the generator, l.734-743 *)
(** [Finished]: an exception left the generator, [send] raises StopIteration from then on *)
Inductive ec_gen := Running (data : list ecseries) | Finished.
(** [np.append(data, chunk, axis=1)]; [None]: ValueError *)
Definition append_chunk (d : nat) (data chunk : list ecseries) : option (list ecseries) :=
  if (length chunk =? length data)%nat && forallb (fun s => (length s =? length (hd [] chunk))%nat && forallb (fun r => (length r =? d)%nat) s) chunk
  then Some (map (fun p => fst p ++ snd p) (combine data chunk)) else None.
(** [next(gen)] sends None *)
Definition gen_send {L} (M : ec L) (g : ec_gen) (chunk : option (list ecseries)) : ec_gen * res (list (option L * option nat)) :=
  match g with
  | Finished => (Finished, Err OtherError) (* StopIteration *)
  | Running data =>
    let data := match chunk with
      | None => data
      | Some c => match append_chunk (ec_d M) data c with Some data => data | None => data (* warning *) end end in
    match early_predict M data with
    | Ok p => (Running data, Ok p)
    | Err e => (Finished, Err e)
    end
  end.
(** l.727-732, l.735 *)
Definition gen_start {L} (M : ec L) (n_ts : nat) : ec_gen * res (list (option L * option nat)) := gen_send M (Running (repeat [] n_ts)) None.
Fixpoint gen_run {L} (M : ec L) (g : ec_gen) (chunks : list (option (list ecseries))) : ec_gen * list (res (list (option L * option nat))) :=
  match chunks with
  | [] => (g, [])
  | c :: chunks => let '(g, r) := gen_send M g c in let '(g, rs) := gen_run M g chunks in (g, r :: rs)
  end.

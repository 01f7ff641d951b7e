(** Model of tslearn/shapelets/shapelets.py: the layers of the network on one batch, [transform], [locate], the sizes of
    the shapelets, the labels and the preparation of the series.  Exact arithmetic; values are numbers or NaN (infinite values
    are not modelled).  The training by keras is not modelled: shapelets and classification weights are arbitrary. *)
From Coq Require Import Bool List Arith ZArith Reals.
From Verif Require Import Num Py Series Dataset RList SoftModel GakModel PaaModel PreModel KernelModel.
Import ListNotations.
Local Open Scope nat_scope.

(** [reshape] of flat data into [n] rows of [w] entries (row-major order) *)
Definition rows_of {A} (w n : nat) (flat : list A) : list (list A) := map (fun i => firstn w (skipn (i * w) flat)) (seq 0 n).

(** ** l.150-158 [PatchingLayer.call], one series of [d] features *)
Definition patches (L d : nat) (ts : series Xnum) : list (series Xnum) :=
  let sz := length ts in
  let flat := concat ts in
  (* [extract_sequences]: windows of [L * d] entries, one every [d] entries *)
  let seqs := map (fun i => firstn (L * d) (skipn (i * d) flat)) (seq 0 (1 + (sz * d - L * d) / d)) in
  map (rows_of d L) (rows_of (L * d) (sz - L + 1) (concat seqs)).

(** ** l.188-224 [LocalSquaredDistanceLayer].  [kernel]: the shapelets *)
(** [nan_to_num(x, nan=0)] *)
Definition num_of (x : xr) : R := match x with XR r => r | _ => 0%R end.
Definition sq (x : R) : R := (x * x)%R.
(** [transpose(kernel, (1, 0, 2))] *)
Definition transpose102 (K L : nat) (kernel : list (list (list R))) : list (list (list R)) :=
  map (fun l => map (fun k => nth l (nth k kernel []) []) (seq 0 K)) (seq 0 L).
Definition local_distances (kernel : list (list (list R))) (L d : nat) (x : series Xnum) : list R :=
  let K := length kernel in
  let x := map (map num_of) x in
  let x_sq := rsum (map sq (concat x)) in
  let y_sq := map (fun s => rsum (map sq (concat s))) kernel in
  let x_ := concat x in
  let y_ := rows_of K (L * d) (concat (concat (transpose102 K L kernel))) in
  let xy := map (fun k => rsum (map (fun p => (fst p * nth k (snd p) 0)%R) (combine x_ y_))) (seq 0 K) in
  map (fun k => ((x_sq + nth k y_sq 0 - 2 * nth k xy 0) / INR L)%R) (seq 0 K).
(** l.197-200 [compute_mask]: no NaN in the window *)
Definition valid (x : series Xnum) : bool := forallb (forallb (fun v : xr => negb (xisnan v))) x.

(** ** l.89-93 and l.120-124: pooling over the windows.  The masked distances are replaced by the largest one of the batch. *)
Definition masked_by_max (dists : list (list (list R))) (mask : list (list bool)) (k : nat) : list (list R) :=
  let max_ := rmax (concat (concat dists)) in
  map (fun p : list (list R) * list bool => map (fun q : list R * bool => if snd q then nth k (fst q) 0%R else max_) (combine (fst p) (snd p))) (combine dists mask).
Definition pool {A} (f : list R -> A) (K : nat) (dists : list (list (list R))) (mask : list (list bool)) : list (list A) :=
  map (fun i => map (fun k => f (nth i (masked_by_max dists mask k) [])) (seq 0 K)) (seq 0 (length dists)).
Definition min_pooling := pool rmin.
Definition argmin_pooling := pool rargmin.

(** ** l.767-826, 740-765: one chain of layers per shapelet size, concatenated.  [pooling] is one of the two above *)
Record layer := { ly_len : nat; ly_kernel : list (list (list R)) }.
Definition run_layer {A} (pooling : nat -> list (list (list R)) -> list (list bool) -> list (list A)) (d : nat) (X : array3) (ly : layer) : list (list A) :=
  let P := map (patches (ly_len ly) d) X in
  pooling (length (ly_kernel ly)) (map (map (local_distances (ly_kernel ly) (ly_len ly) d)) P) (map (map valid) P).
Definition run_network {A} pooling (d : nat) (layers : list layer) (X : array3) : list (list A) :=
  let outs := map (run_layer pooling d X) layers in
  map (fun i => concat (map (fun o => nth i o []) outs)) (seq 0 (length X)).
(** keras' [predict(X, batch_size)] *)
Definition in_batches {A B} (bs : nat) (f : list A -> list B) (X : list A) : list B :=
  concat (map f (rows_of bs ((length X + bs - 1) / bs) X)).

(** ** The estimator *)
Record ls_hyper := { ls_sizes : option (list nat) (* the keys of n_shapelets_per_size *); ls_max_size : option nat; ls_scale : bool; ls_batch : nat }.
(** l.689-691, 708-710.  [dims]: sizes and features of the data of an earlier fit ([_X_fit_dims]), if any *)
Definition allowed_size (h : ls_hyper) (dims : option (nat * nat)) (sz : nat) : nat :=
  match ls_max_size h with Some m => m | None => match dims with Some (m, _) => m | None => sz end end.
(** l.701-718 [_preprocess_series] *)
Definition prepare (h : ls_hyper) (dims : option (nat * nat)) (ds : list (raw Xnum)) : res array3 :=
  do X <- to_dataset (N:=Xnum) ds ;;
  do X <- (if ls_scale h then let p := {| mm_lo := 0; mm_hi := 1; mm_per_ts := true; mm_per_feat := true |} in do st <- mm_fit p X ;; mm_transform p st X else Ok X) ;;
  let m := allowed_size h dims (arr_sz X) in
  if m <=? arr_sz X then Ok X else Ok (map (fun s => s ++ repeat (repeat XNaN (arr_d X)) (m - arr_sz X)) X).
(** l.670-699 [_check_series_length] *)
Definition check_lengths (h : ls_hyper) (dims : option (nat * nat)) (X : array3) : res unit :=
  let min_sz := fold_right Nat.min (ts_size (hd [] X)) (map (ts_size (N:=Xnum)) X) in
  if match ls_sizes h with Some sizes => min_sz <? list_max sizes | None => false end then Err ValueError
  else if allowed_size h dims (arr_sz X) <? arr_sz X then Err ValueError else Ok tt.
(** l.482-509 of [fit]: the array the network is built for and trained on, and the new [_X_fit_dims] *)
Definition fit_input (h : ls_hyper) (dims : option (nat * nat)) (ds : list (raw Xnum)) : res (array3 * (nat * nat)) :=
  do X <- prepare h dims ds ;;
  do _ <- check_lengths h dims X ;;
  Ok (X, (arr_sz X, arr_d X)).
(** l.599-623 [transform] and l.625-668 [locate], for a fitted model *)
Definition apply_network {A} pooling (h : ls_hyper) (dims : nat * nat) (layers : list layer) (ds : list (raw Xnum)) : res (list (list A)) :=
  do X <- prepare h (Some dims) ds ;;
  do X <- check_features (snd dims) X ;;
  do _ <- check_lengths h (Some dims) X ;;
  Ok (in_batches (ls_batch h) (run_network pooling (snd dims) layers) X).
Definition transform := apply_network min_pooling.
Definition locate := apply_network argmin_pooling.

(** ** l.49-62 [_kmeans_init_shapelets]: the subseries the initial shapelets are computed from.  [draws]: the indices and start
    times drawn; [numpy.random.choice(n)] raises if [n] is not positive *)
Definition init_subseries (L : nat) (draws : list (nat * nat)) (X : array3) : res (list (series Xnum)) :=
  mapM (fun p => let ts := nth (fst p) X [] in if ts_size ts <? L then Err ValueError else Ok (slice (snd p) (snd p + L) ts)) draws.

(** ** l.235-287 [grabocka_params_to_shapelet_size_dict] *)
(** Python's [int] of a float *)
Definition py_int (x : xr) : res Z :=
  match x with
  | XR r => Ok (if Rltb r 0 then (- Int_part (- r))%Z else Int_part r)
  | XNaN => Err ValueError
  | _ => Err OtherError (* OverflowError *)
  end.
Fixpoint digits (fuel : nat) (m : Z) : Z :=
  match fuel with O => 0%Z | S fuel => if (m <? 10)%Z then 0%Z else (1 + digits fuel (m / 10))%Z end.
(** [int(numpy.log10(m))] for an integer [m], log10 being exact at the powers of ten *)
Definition int_log10 (m : Z) : res Z :=
  if (m <? 0)%Z then Err ValueError (* NaN *) else if (m =? 0)%Z then Err OtherError (* OverflowError: -inf *) else Ok (digits (Z.to_nat (Z.log2 m) + 1) m).
(** [lsz]: the float [l * ts_sz].  The result is the dictionary in order of insertion; all keys are different. *)
Definition grabocka (n_ts ts_sz n_classes : Z) (lsz : xr) (r : Z) : res (list (Z * Z)) :=
  do base <- py_int lsz ;;
  let base := Z.max base 1 in
  let r := Z.min r ts_sz in
  mapM (fun i =>
    let shp := (base * (Z.of_nat i + 1))%Z in
    do n <- int_log10 (n_ts * (ts_sz - shp + 1) * (n_classes - 1))%Z ;;
    Ok (shp, Z.max 1 n)) (seq 0 (Z.to_nat r)).

(** ** Labels.  l.720-738 [_preprocess_labels], l.562-566, 593-597.  Labels are integers here. *)
Fixpoint insert_label (x : Z) (l : list Z) : list Z :=
  match l with [] => [x] | y :: l' => if (x <? y)%Z then x :: l else if (x =? y)%Z then l else y :: insert_label x l' end.
Definition unique_labels (y : list Z) : list Z := fold_right insert_label [] y.
Fixpoint index_of (x : Z) (l : list Z) : nat := match l with [] => 0 | y :: l => if (x =? y)%Z then 0 else S (index_of x l) end.
Definition encode_labels (y : list Z) : res (list Z * list (list R)) :=
  let classes := unique_labels y in
  if length classes =? 1 then Err ValueError
  else
    let onehot := map (fun lab => map (fun j => if j =? index_of lab classes then 1%R else 0%R) (seq 0 (length classes))) y in
    Ok (classes, if length classes =? 2 then map (skipn 1) onehot else onehot).
(** l.588-597: [out] is the output of the network *)
Definition probabilities (classes : list Z) (out : list (list R)) : list (list R) :=
  if (length (hd [] out) =? 1) && (length classes =? 2) then map (fun row => [(1 - nth 0 row 0)%R; nth 0 row 0%R]) out else out.
Definition rargmax (l : list R) : nat := rargmin (map Ropp l).
Definition decode_labels (classes : list Z) (out : list (list R)) : list Z := map (fun row => nth (rargmax row) classes 0%Z) (probabilities classes out).
(** l.568-597 [predict_proba] and l.540-566 [predict], for a fitted model; [net]: the output of the trained network on the prepared array.
    [predict] prepares the series, and then calls [predict_proba], which prepares them again. *)
Definition predict_proba (net : array3 -> list (list R)) (h : ls_hyper) (dims : nat * nat) (classes : list Z) (ds : list (raw Xnum)) : res (list (list R)) :=
  do X <- prepare h (Some dims) ds ;;
  do X <- check_features (snd dims) X ;;
  do _ <- check_lengths h (Some dims) X ;;
  Ok (probabilities classes (net X)).
Definition predict (net : array3 -> list (list R)) (h : ls_hyper) (dims : nat * nat) (classes : list Z) (ds : list (raw Xnum)) : res (list Z) :=
  do X <- prepare h (Some dims) ds ;;
  do X <- check_features (snd dims) X ;;
  do _ <- check_lengths h (Some dims) X ;;
  do P <- predict_proba net h dims classes (map Raw2 X) ;;
  Ok (map (fun row => nth (rargmax row) classes 0%Z) P).

(** ** The learned shapelets.  [counts]: the values of [n_shapelets_per_size_] and [sizes] its keys, in the order of the dictionary,
    which is that of the layers (l.776-794) *)
(** l.447-451: the inner loop over the weights of one layer; [found] is [nb_shapelets_found] *)
Fixpoint fill_weights (weights : list (list (list R))) (shapelets : list (option (list (list R)))) (found : nat) : res (list (option (list (list R))) * nat) :=
  match weights with
  | [] => Ok (shapelets, found)
  | w :: weights => if found <? length shapelets then fill_weights weights (firstn found shapelets ++ [Some w] ++ skipn (S found) shapelets) (S found)
                    else Err IndexError
  end.
Fixpoint fill_layers (layers : list layer) (shapelets : list (option (list (list R)))) (found : nat) : res (list (option (list (list R)))) :=
  match layers with
  | [] => Ok shapelets
  | ly :: layers => do r <- fill_weights (ly_kernel ly) shapelets found ;; fill_layers layers (fst r) (snd r)
  end.
(** l.440-452 [shapelets_] *)
Definition shapelets_attr (counts : list nat) (layers : list layer) : res (list (option (list (list R)))) :=
  fill_layers layers (repeat None (fold_right Nat.add 0 counts)) 0.
(** l.475-479: the rows of the result before the assignment are NaN; [shapelets[i, :sz, :] = w] *)
Definition nan_row (shp_sz d : nat) : series Xnum := repeat (repeat XNaN d) shp_sz.
Definition put_shapelet (shp_sz d : nat) (w : option (list (list R))) : res (series Xnum) :=
  match w with
  | None => Err AttributeError
  | Some w => let sz := length w in
    if sz <=? shp_sz then Ok (map (map XR) w ++ skipn sz (nan_row shp_sz d)) else Err ValueError
  end.
(** l.454-480 [shapelets_as_time_series_] *)
Definition shapelets_as_time_series (sizes counts : list nat) (layers : list layer) : res array3 :=
  match sizes with
  | [] => Err ValueError (* max of no key *)
  | _ => let shp_sz := list_max sizes in
    do shapelets <- shapelets_attr counts layers ;;
    match shapelets with
    | [] => Err IndexError
    | None :: _ => Err AttributeError
    | Some w :: _ => mapM (put_shapelet shp_sz (length (hd [] w))) shapelets
    end
  end.

(** Properties C151 (distances of SAX neighbour searches), C152 (parameters of SAX at a second fit) and C153 (metrics
    accepted by [fit] can be used): neighbors.py, exact arithmetic. *)
From Coq Require Import Bool List Arith Lia ZArith Reals Lra.
From Verif Require Import Num NumLaws Py Series Spec RList Dataset SoftModel GakModel RealSeries PropSoft PaaModel PaaThms PropPaa PropSax
  NeighModel SaxNeighModel.
Import ListNotations.
Local Open Scope R_scope.

(** ** specification *)
(** the symbol of a value: number of the quantiles 1/a, ..., (a-1)/a at or below it *)
Definition symbol (ppf : R -> R) (a : nat) (v : R) : nat :=
  length (filter (fun b => Rleb (ppf (INR b / INR a)) v) (seq 1 (a - 1))).
(** gap between the bins of two symbols: nothing for equal or adjacent bins *)
Definition gap (ppf : R -> R) (a u v : nat) : R :=
  if (u + 1 <? v)%nat then ppf (INR v / INR a) - ppf (INR (u + 1) / INR a)
  else if (v + 1 <? u)%nat then ppf (INR u / INR a) - ppf (INR (v + 1) / INR a) else 0.
(** MINDIST of [q] (of length [n]) and [x] (of length [sz]) on [m] segments *)
Definition mindist (ppf : R -> R) (a m d n sz : nat) (q x : list (list R)) : R :=
  sqrt (gsum m d (fun i k => sq (gap ppf a (symbol ppf a (block_mean q (n / m) i k)) (symbol ppf a (block_mean x (sz / m) i k)))) * INR n / INR m).
Definition params (m a : nat) (scale : bool) : sax_params := {| sp_segments := m; sp_alphabet := a; sp_scale := scale |}.

(** ** lemmas *)
Lemma bp_filter ppf a v : at_or_below (breakpoints ppf a 1) v = symbol ppf a v.
Proof.
  unfold at_or_below, breakpoints, symbol. generalize (seq 1 (a - 1)). induction l as [|b l IH]; simpl; auto.
  rewrite Rmult_1_r. destruct (Rleb _ v); simpl; auto.
Qed.
Lemma symbol_le ppf a v : (symbol ppf a v <= a - 1)%nat.
Proof. unfold symbol. eapply Nat.le_trans; [apply filter_length_le'|]. rewrite seq_length. lia. Qed.
Lemma sax_term_gap ppf a u v : (u <= a - 1)%nat -> (v <= a - 1)%nat ->
  sax_term (breakpoints ppf a 1) u v = sq (gap ppf a u v).
Proof.
  intros Hu Hv. unfold sax_term, gap, sq.
  destruct (Nat.ltb_spec (u + 1) v) as [L|L].
  - destruct (Nat.ltb_spec 1 (u - v)); [lia|]. destruct (Nat.ltb_spec 1 (v - u)); [|lia]. cbn [orb].
    rewrite Nat.max_r, Nat.min_l by lia. rewrite !bp_nth by lia.
    replace (1 + (v - 1))%nat with v by lia. replace (1 + u)%nat with (u + 1)%nat by lia. ring.
  - destruct (Nat.ltb_spec (v + 1) u) as [L'|L'].
    + destruct (Nat.ltb_spec 1 (u - v)); [|lia]. cbn [orb].
      rewrite Nat.max_l, Nat.min_r by lia. rewrite !bp_nth by lia.
      replace (1 + (u - 1))%nat with u by lia. replace (1 + v)%nat with (v + 1)%nat by lia. ring.
    + destruct (Nat.ltb_spec 1 (u - v)); [lia|]. destruct (Nat.ltb_spec 1 (v - u)); [lia|]. cbn [orb]. ring.
Qed.
Definition word (ppf : R -> R) (a m d n : nat) (s : list (list R)) : list (list nat) :=
  ngrid m d (fun i k => symbol ppf a (block_mean s (n / m) i k)).
Lemma cydist_words ppf a m d n sz q x : (0 < m)%nat ->
  cydist_sax (word ppf a m d n q) (word ppf a m d sz x) (breakpoints ppf a 1) n = Ok (mindist ppf a m d n sz q x).
Proof.
  intros Hm. unfold word. rewrite cydist_ngrid by auto. unfold mindist. do 4 f_equal. apply gsum_ext. intros i k _ _.
  apply sax_term_gap; apply symbol_le.
Qed.
Lemma ngrid_ext n d f g : (forall i k, (i < n)%nat -> (k < d)%nat -> f i k = g i k) -> ngrid n d f = ngrid n d g.
Proof.
  intros H. unfold ngrid. apply map_ext_in. intros i Hi. apply in_seq in Hi. apply map_ext_in. intros k Hk. apply in_seq in Hk.
  apply H; lia.
Qed.
Lemma fit_transform_words ppf m a scale d n Y : quantile ppf -> real_dataset d n Y -> (0 < m <= n)%nat ->
  sax_fit_transform ppf (params m a scale) (map lift Y) =
  Ok (fitted ppf m a scale d n Y, map (fun s => word ppf a m d n (scaled scale Y s)) Y).
Proof.
  intros Hp HY Hm. unfold sax_fit_transform. cbn [params sp_segments sp_alphabet sp_scale].
  rewrite (sax_fit_value _ _ _ _ _ _ _ HY). cbn [bind]. fold (fitted ppf m a scale d n Y).
  rewrite (sax_transform_value ppf m a scale d n Y n Y HY Hm). cbn [bind]. do 2 f_equal. apply map_ext. intros s. unfold word.
  apply ngrid_ext. intros i k _ _. rewrite count_real by (auto; lra). apply bp_filter.
Qed.
Lemma nth_map_in {A B} (f : A -> B) l i a b : (i < length l)%nat -> nth i (map f l) b = f (nth i l a).
Proof. intros H. rewrite (nth_indep _ b (f a)) by (rewrite map_length; auto). apply map_nth. Qed.
Lemma mapM_all {A B} (f : A -> res B) (g : A -> B) l : (forall x, f x = Ok (g x)) -> mapM f l = Ok (map g l).
Proof. intros H. induction l as [|x l IH]; simpl; auto. rewrite H. cbn [bind]. rewrite IH. reflexivity. Qed.
Lemma mapM_map {A B C} (f : A -> B) (g : B -> res C) l : mapM g (map f l) = mapM (fun x => g (f x)) l.
Proof. induction l as [|x l IH]; simpl; auto. rewrite IH. reflexivity. Qed.
(** a fit of the classifier followed by a search *)
Definition fit_then_search (ppf : R -> R) (p : sax_params) (X Q : list (list (list R))) : res (list (list R)) :=
  match sn_fit ppf SClassifier p sn_new (map lift X) with
  | (s, Ok _) => snd (sn_cross ppf p s (map lift Q))
  | (_, Err e) => Err e
  end.
Lemma search_value ppf m a scale d sz X n Q :
  quantile ppf -> real_dataset d sz X -> real_dataset d n Q -> (0 < m <= sz)%nat -> (m <= n)%nat ->
  fit_then_search ppf (params m a scale) X Q =
  Ok (map (fun q => map (fun x => mindist ppf a m d n sz (scaled scale Q q) (scaled scale X x)) X) Q).
Proof.
  intros Hp HX HQ Hm Hn. unfold fit_then_search, sn_fit, sax_preprocess, the_sax, keep_sax. cbn [sn_sax sn_new].
  unfold the_sax. cbn [sn_sax].
  rewrite (fit_transform_words ppf m a scale d sz X Hp HX Hm). unfold sn_cross, sax_preprocess, keep_sax, the_sax. cbn [sn_sax sn_ts_fit].
  rewrite (fit_transform_words ppf m a scale d n Q Hp HQ) by lia. cbn [snd cdist_sax]. unfold fitted. cbn [s_bp s_paa p_sz].
  rewrite mapM_map. apply mapM_all. intros q. rewrite mapM_map. apply mapM_all. intros x. apply cydist_words. lia.
Qed.

(** ** C151 *)
(** the distances of a search: MINDIST between the queries, standardised (if asked) with the statistics of the batch of
    queries, and the training series, standardised with the statistics of the training set *)
Theorem C151_distances ppf m a scale d sz X n Q :
  quantile ppf -> real_dataset d sz X -> real_dataset d n Q -> (0 < m <= sz)%nat -> (m <= n)%nat ->
  exists D, fit_then_search ppf (params m a scale) X Q = Ok D /\ length D = length Q /\
    forall i j, (i < length Q)%nat -> (j < length X)%nat ->
      length (nth i D []) = length X /\
      nth j (nth i D []) 0 = mindist ppf a m d n sz (scaled scale Q (nth i Q [])) (scaled scale X (nth j X [])).
Proof.
  intros Hp HX HQ Hm Hn. eexists. split; [apply (search_value ppf m a scale d sz X n Q); auto|]. rewrite map_length. split; auto.
  intros i j Hi Hj. rewrite (nth_map_in _ _ _ []) by auto. rewrite map_length. split; auto. rewrite (nth_map_in _ _ _ []) by auto. auto.
Qed.
Print Assumptions C151_distances.
(** without scaling, these are the distances [distance(q, x)] of a SAX fitted to the training set *)
Theorem C151_unscaled ppf m a d sz X Q :
  quantile ppf -> real_dataset d sz X -> real_dataset d sz Q -> (0 < m <= sz)%nat ->
  exists st D, sax_fit ppf m a false (map lift X) = Ok st /\ fit_then_search ppf (params m a false) X Q = Ok D /\ length D = length Q /\
    forall i j, (i < length Q)%nat -> (j < length X)%nat ->
      length (nth i D []) = length X /\
      sax_distance st (lift (nth i Q [])) (lift (nth j X [])) = Ok (nth j (nth i D []) 0).
Proof.
  intros Hp HX HQ Hm. destruct (C151_distances ppf m a false d sz X sz Q Hp HX HQ Hm ltac:(lia)) as (D & E & L & H).
  exists (fitted ppf m a false d sz X), D. split; [apply sax_fit_value; auto|]. split; auto. split; auto. intros i j Hi Hj.
  destruct (H i j Hi Hj) as [H1 ->]. split; auto. cbn [scaled].
  set (q := nth i Q []). set (x := nth j X []).
  assert (Hq : real_series d q /\ length q = sz) by (apply (proj2 HQ); apply nth_In; auto).
  assert (Hx : real_series d x /\ length x = sz) by (apply (proj2 HX); apply nth_In; auto).
  unfold sax_distance. change [lift q; lift x] with (map lift [q; x]).
  assert (P : real_dataset d sz [q; x]) by (apply pair_dataset; tauto).
  rewrite (sax_public ppf m a false d sz X sz [q; x] P Hm). cbn [bind map nth scaled].
  rewrite <- (cydist_words ppf a m d sz sz q x) by lia. unfold word, fitted. cbn [s_bp s_paa p_sz].
  f_equal; apply ngrid_ext; intros u k _ _; rewrite count_real by (auto; lra); apply bp_filter.
Qed.
Print Assumptions C151_unscaled.
(** without scaling, the row of a query does not depend on the other queries of the batch *)
Theorem C151_batch ppf m a d sz X n Q i :
  quantile ppf -> real_dataset d sz X -> real_dataset d n Q -> (0 < m <= sz)%nat -> (m <= n)%nat -> (i < length Q)%nat ->
  exists D, fit_then_search ppf (params m a false) X Q = Ok D /\
    fit_then_search ppf (params m a false) X [nth i Q []] = Ok [nth i D []].
Proof.
  intros Hp HX HQ Hm Hn Hi. eexists. split; [apply (search_value ppf m a false d sz X n Q); auto|].
  assert (HQ' : real_dataset d n [nth i Q []]).
  { split; [discriminate|]. intros s [<-|[]]. apply (proj2 HQ). apply nth_In. auto. }
  rewrite (search_value ppf m a false d sz X n _ Hp HX HQ') by auto. cbn [map]. do 2 f_equal. symmetry.
  apply (nth_map_in (fun q => map (fun x => mindist ppf a m d n sz (scaled false Q q) (scaled false X x)) X) Q i [] []). auto.
Qed.
Print Assumptions C151_batch.
(** ... and is at most the Euclidean distance when the segments divide the length *)
Theorem C151_lower_bound ppf m a d sz X Q :
  quantile ppf -> real_dataset d sz X -> real_dataset d sz Q -> (0 < m)%nat -> Nat.divide m sz ->
  exists D, fit_then_search ppf (params m a false) X Q = Ok D /\
    forall i j, (i < length Q)%nat -> (j < length X)%nat -> 0 <= nth j (nth i D []) 0 <= euclid (nth i Q []) (nth j X []).
Proof.
  intros Hp HX HQ Hm Hd. pose proof (dataset_pos _ _ _ HX) as [Hn _].
  assert (Hle : (m <= sz)%nat) by (apply Nat.divide_pos_le; auto).
  destruct (C151_unscaled ppf m a d sz X Q Hp HX HQ ltac:(lia)) as (st & D & E0 & E & L & H). exists D. split; auto.
  intros i j Hi Hj. destruct (H i j Hi Hj) as [_ H1].
  assert (Hq : real_series d (nth i Q []) /\ length (nth i Q []) = sz) by (apply (proj2 HQ); apply nth_In; auto).
  assert (Hx : real_series d (nth j X []) /\ length (nth j X []) = sz) by (apply (proj2 HX); apply nth_In; auto).
  destruct (C36_mindist_lower_bounds_euclid ppf m a false d sz X (nth i Q []) (nth j X []) Hp HX (proj1 Hq) (proj1 Hx) (proj2 Hq) (proj2 Hx) Hm Hd)
    as (u & E1 & B).
  rewrite E0 in E1. cbn [bind] in E1. rewrite H1 in E1. injection E1 as <-. exact B.
Qed.
Print Assumptions C151_lower_bound.
(** With scaling the queries are standardised by their own statistics.  A training series queried alone: its SAX
    distance to itself is positive and its nearest neighbour is the other training series, for every quantile function
    with these bounds (those of [norm.ppf] are -0.67..., 0 and 0.67...). *)
Definition x0 : list (list R) := [[0]].
Definition x10 : list (list R) := [[10]].
Lemma scaled_two : scaled true [x0; x10] x0 = [[-1]] /\ scaled true [x0; x10] x10 = [[1]].
Proof.
  assert (S : std_of (values [x0; x10] 0) = 5).
  { unfold std_of. cbn. unfold avg_of. cbn. replace (_ / (1 + 1)) with (5 * 5) by field. apply sqrt_square. lra. }
  assert (A : avg_of (values [x0; x10] 0) = 5) by (unfold avg_of; cbn; field).
  assert (D : dev [x0; x10] 0 = 5) by (unfold dev; rewrite S; destruct (Req_EM_T 5 0); lra).
  change (scaled true [x0; x10] x0) with [[(0 - avg_of (values [x0; x10] 0)) / dev [x0; x10] 0]].
  change (scaled true [x0; x10] x10) with [[(10 - avg_of (values [x0; x10] 0)) / dev [x0; x10] 0]].
  rewrite D, A. split; repeat f_equal; field.
Qed.
Lemma scaled_one : scaled true [x0] x0 = [[0]].
Proof.
  assert (S : std_of (values [x0] 0) = 0).
  { unfold std_of, avg_of. cbn. replace (_ / 1) with 0 by field. apply sqrt_0. }
  assert (A : avg_of (values [x0] 0) = 0) by (unfold avg_of; cbn; field).
  assert (D : dev [x0] 0 = 1) by (unfold dev; rewrite S; destruct (Req_EM_T 0 0); lra).
  change (scaled true [x0] x0) with [[(0 - avg_of (values [x0] 0)) / dev [x0] 0]].
  rewrite D, A. repeat f_equal; field.
Qed.
Lemma symbol4 ppf v : symbol ppf 4 v =
  ((if Rleb (ppf (1 / 4)%R) v then 1 else 0) + (if Rleb (ppf (1 / 2)%R) v then 1 else 0) + (if Rleb (ppf (3 / 4)%R) v then 1 else 0))%nat.
Proof.
  unfold symbol. cbn [Nat.sub seq filter].
  replace (INR 1 / INR 4) with (1 / 4) by (cbn; field). replace (INR 2 / INR 4) with (1 / 2) by (cbn; field).
  replace (INR 3 / INR 4) with (3 / 4) by (cbn; field).
  destruct (Rleb (ppf (1 / 4)) v), (Rleb (ppf (1 / 2)) v), (Rleb (ppf (3 / 4)) v); reflexivity.
Qed.
Lemma mindist_one ppf u v : mindist ppf 4 1 1 1 1 [[u]] [[v]] = Rabs (gap ppf 4 (symbol ppf 4 u) (symbol ppf 4 v)).
Proof.
  unfold mindist, gsum, block_mean, entry. cbn. rewrite <- sqrt_Rsqr_abs. f_equal. unfold Rsqr, sq.
  replace ((u + 0) / 1) with u by field. replace ((v + 0) / 1) with v by field. field.
Qed.
Lemma gap_refl ppf a u : gap ppf a u u = 0.
Proof. unfold gap. destruct (Nat.ltb_spec (u + 1) u); [lia|]. reflexivity. Qed.
Theorem C151_scaling_refuted ppf : quantile ppf -> -1 < ppf (1 / 4) -> ppf (1 / 2) = 0 -> ppf (3 / 4) < 1 ->
  exists r r', 0 < r /\ 0 < r' /\
    fit_then_search ppf (params 1 4 true) [x0; x10] [x0; x10] = Ok [[0; r]; [r; 0]] /\
    fit_then_search ppf (params 1 4 true) [x0; x10] [x0] = Ok [[r'; 0]] /\
    (exists st, sax_fit ppf 1 4 true (map lift [x0; x10]) = Ok st /\ sax_distance st (lift x0) (lift x0) = Ok 0 /\
       sax_distance st (lift x0) (lift x10) = Ok r).
Proof.
  intros Hp H1 H2 H3.
  assert (Q1 : ppf (1 / 4) < ppf (1 / 2)) by (apply Hp; lra). assert (Q2 : ppf (1 / 2) < ppf (3 / 4)) by (apply Hp; lra).
  assert (Sm : symbol ppf 4 (-1) = 0%nat).
  { rewrite symbol4. rewrite !(proj2 (Rleb_false _ _)) by lra. reflexivity. }
  assert (S1 : symbol ppf 4 1 = 3%nat).
  { rewrite symbol4. rewrite !(proj2 (Rleb_true _ _)) by lra. reflexivity. }
  assert (S0 : symbol ppf 4 0 = 2%nat).
  { rewrite symbol4. rewrite (proj2 (Rleb_true (ppf (1 / 4)) 0)), (proj2 (Rleb_true (ppf (1 / 2)) 0)), (proj2 (Rleb_false (ppf (3 / 4)) 0)) by lra. reflexivity. }
  assert (DX : real_dataset 1 1 [x0; x10]).
  { split; [discriminate|]. intros s [<-|[<-|[]]]; (split; [|reflexivity]); (split; [lia|split; [discriminate|]]); intros r [<-|[]]; reflexivity. }
  assert (DQ : real_dataset 1 1 [x0]).
  { split; [discriminate|]. intros s [<-|[]]; (split; [|reflexivity]); (split; [lia|split; [discriminate|]]); intros r [<-|[]]; reflexivity. }
  assert (G03 : gap ppf 4 0 3 = ppf (3 / 4) - ppf (1 / 4)) by (unfold gap; cbn [Nat.ltb Nat.leb Nat.add]; f_equal; f_equal; cbn; field).
  assert (G30 : gap ppf 4 3 0 = ppf (3 / 4) - ppf (1 / 4)) by (unfold gap; cbn [Nat.ltb Nat.leb Nat.add]; f_equal; f_equal; cbn; field).
  assert (G20 : gap ppf 4 2 0 = ppf (1 / 2) - ppf (1 / 4)).
  { unfold gap; cbn [Nat.ltb Nat.leb Nat.add]. f_equal; f_equal; cbn; field. }
  assert (G23 : gap ppf 4 2 3 = 0) by reflexivity.
  destruct scaled_two as [T0 T1]. pose proof scaled_one as T2.
  exists (ppf (3 / 4) - ppf (1 / 4)), (ppf (1 / 2) - ppf (1 / 4)). split; [lra|]. split; [lra|]. split.
  { rewrite (search_value ppf 1 4 true 1 1 _ 1 _ Hp DX DX) by lia. cbn [map]. rewrite T0, T1, !mindist_one, Sm, S1, !gap_refl, G03, G30.
    rewrite Rabs_R0, Rabs_right by lra. reflexivity. }
  split.
  { rewrite (search_value ppf 1 4 true 1 1 _ 1 _ Hp DX DQ) by lia. cbn [map]. rewrite T0, T1, T2, !mindist_one, Sm, S1, S0, G20, G23.
    rewrite Rabs_R0, Rabs_right by lra. reflexivity. }
  eexists. split; [apply (sax_fit_value ppf 1 4 true 1 1 _ DX)|]. fold (fitted ppf 1 4 true 1 1 [x0; x10]).
  assert (V : forall s t, In s [x0; x10] -> In t [x0; x10] ->
    sax_distance (fitted ppf 1 4 true 1 1 [x0; x10]) (lift s) (lift t) =
    Ok (mindist ppf 4 1 1 1 1 (scaled true [x0; x10] s) (scaled true [x0; x10] t))).
  { intros s t Hs Ht. destruct (proj2 DX s Hs) as [Rs Ls], (proj2 DX t Ht) as [Rt Lt].
    unfold sax_distance. change [lift s; lift t] with (map lift [s; t]).
    assert (P : real_dataset 1 1 [s; t]) by (apply pair_dataset; auto).
    rewrite (sax_public ppf 1 4 true 1 1 _ 1 [s; t] P) by lia. cbn [bind map nth].
    rewrite <- (cydist_words ppf 4 1 1 1 1) by lia. unfold word. unfold fitted at 1 2. cbn [s_bp s_paa p_sz].
    f_equal; apply ngrid_ext; intros u k _ _; rewrite count_real by (auto; lra); apply bp_filter. }
  rewrite !V by (cbn; auto). rewrite T0, T1, !mindist_one, Sm, S1, gap_refl, G03.
  rewrite Rabs_R0, Rabs_right by lra. auto.
Qed.
Print Assumptions C151_scaling_refuted.
(** a quantile function with these bounds, and a dataset for the theorems above *)
Lemma linear_quantile : quantile (fun p => 2 * p - 1).
Proof. intros p q _ H _. lra. Qed.
Example C151_instance : let ppf := fun p => 2 * p - 1 in
  quantile ppf /\ -1 < ppf (1 / 4) /\ ppf (1 / 2) = 0 /\ ppf (3 / 4) < 1 /\
  real_dataset 1 4 [[[1]; [2]; [3]; [4]]; [[4]; [3]; [2]; [1]]] /\ (0 < 2 <= 4)%nat /\ Nat.divide 2 4 /\
  mindist ppf 4 1 1 1 1 [[-1]] [[1]] = 1.
Proof.
  cbv zeta. split; [apply linear_quantile|]. split; [lra|]. split; [lra|]. split; [lra|]. split.
  { split; [discriminate|]. intros s [<-|[<-|[]]]; (split; [|reflexivity]); (split; [lia|split; [discriminate|]]);
    intros r Hr; cbn in Hr; intuition (subst; reflexivity). }
  split; [lia|]. split; [exists 2%nat; reflexivity|].
  rewrite mindist_one, !symbol4. rewrite !(proj2 (Rleb_false _ (-1))) by lra. rewrite !(proj2 (Rleb_true _ 1)) by lra.
  unfold gap. cbn [Nat.ltb Nat.leb Nat.add]. rewrite Rabs_right; cbn; lra.
Qed.

(** ** C152 *)
(** the symbols stored by the last fit of a history of fits with changing parameters *)
Fixpoint fits (ppf : R -> R) (l : list (sax_params * list (list (list R)))) (s : sn_state) : sn_state * res unit :=
  match l with
  | [] => (s, Ok tt)
  | (p, X) :: l => match sn_fit ppf SClassifier p s (map lift X) with (s, Ok _) => fits ppf l s | (s, Err e) => (s, Err e) end
  end.
Lemma fit_words ppf p s m a scale d sz X : quantile ppf -> the_sax p s = params m a scale -> real_dataset d sz X -> (0 < m <= sz)%nat ->
  sn_fit ppf SClassifier p s (map lift X) =
  ({| sn_sax := Some (params m a scale); sn_ts_fit := Some (Symbols (map (fun x => word ppf a m d sz (scaled scale X x)) X)) |}, Ok tt).
Proof.
  intros Hp E HX Hm. unfold sn_fit, sax_preprocess, keep_sax. unfold the_sax at 1. cbn [sn_sax].
  change (the_sax p {| sn_sax := sn_sax s; sn_ts_fit := Some (Raw (map lift X)) |}) with (the_sax p s). rewrite E.
  rewrite (fit_transform_words ppf m a scale d sz X Hp HX Hm). reflexivity.
Qed.
(** the first fit stores, for each series, the [m x d] word of its symbols for the given parameters *)
Theorem C152_first_fit ppf m a scale d sz X : quantile ppf -> real_dataset d sz X -> (0 < m <= sz)%nat ->
  exists s T, sn_fit ppf SClassifier (params m a scale) sn_new (map lift X) = (s, Ok tt) /\ sn_ts_fit s = Some (Symbols T) /\
    length T = length X /\
    forall j i k, (j < length X)%nat -> (i < m)%nat -> (k < d)%nat ->
      length (nth j T []) = m /\ length (nth i (nth j T []) []) = d /\
      nth k (nth i (nth j T []) []) 0%nat = symbol ppf a (block_mean (scaled scale X (nth j X [])) (sz / m) i k).
Proof.
  intros Hp HX Hm. rewrite (fit_words ppf (params m a scale) sn_new m a scale d sz X Hp eq_refl HX Hm). eexists. eexists.
  split; [reflexivity|]. split; [reflexivity|]. rewrite map_length. split; auto. intros j i k Hj Hi Hk.
  rewrite (nth_map_in _ _ _ []) by auto. unfold word, ngrid. rewrite map_length, seq_length. split; auto.
  rewrite map_seq_nth by auto. rewrite map_length, seq_length. split; auto. rewrite map_seq_nth by auto. reflexivity.
Qed.
Print Assumptions C152_first_fit.
(** after any number of fits with any parameters, a fit uses the parameters of the very first one *)
Theorem C152_refit_refuted ppf m a scale d sz X l m' a' scale' d' sz' X' : quantile ppf ->
  real_dataset d sz X -> (0 < m <= sz)%nat -> real_dataset d' sz' X' -> (0 < m <= sz')%nat -> (0 < m' <= sz')%nat ->
  (forall p Y, In (p, Y) l -> exists dY szY, real_dataset dY szY Y /\ (m <= szY)%nat) ->
  exists s s' T T', fits ppf ((params m a scale, X) :: l ++ [(params m' a' scale', X')]) sn_new = (s, Ok tt) /\ sn_ts_fit s = Some (Symbols T) /\
    fits ppf [(params m' a' scale', X')] sn_new = (s', Ok tt) /\ sn_ts_fit s' = Some (Symbols T') /\
    T = map (fun x => word ppf a m d' sz' (scaled scale X' x)) X' /\
    T' = map (fun x => word ppf a' m' d' sz' (scaled scale' X' x)) X' /\
    (m <> m' -> T <> T').
Proof.
  intros Hp HX Hm HX' Hm1 Hm2 Hl.
  assert (K : forall l s, (forall p Y, In (p, Y) l -> exists dY szY, real_dataset dY szY Y /\ (m <= szY)%nat) -> sn_sax s = Some (params m a scale) ->
    exists t, fits ppf (l ++ [(params m' a' scale', X')]) s =
      ({| sn_sax := Some (params m a scale); sn_ts_fit := Some (Symbols (map (fun x => word ppf a m d' sz' (scaled scale X' x)) X')) |}, t) /\ t = Ok tt).
  { clear - Hp HX' Hm1. induction l as [|[p Y] l IH]; intros s H E; cbn [app fits].
    - rewrite (fit_words ppf _ s m a scale d' sz' X' Hp) by (auto; unfold the_sax; rewrite E; auto). cbn [fits]. eauto.
    - destruct (H p Y (or_introl eq_refl)) as (dY & szY & HY & LY).
      rewrite (fit_words ppf p s m a scale dY szY Y Hp) by (auto; try lia; unfold the_sax; rewrite E; auto).
      apply IH; [|reflexivity]. intros q Z HZ. apply (H q). right. exact HZ. }
  cbn [app fits]. rewrite (fit_words ppf (params m a scale) sn_new m a scale d sz X Hp eq_refl HX Hm).
  rewrite (fit_words ppf (params m' a' scale') sn_new m' a' scale' d' sz' X' Hp eq_refl HX' Hm2).
  destruct (K l {| sn_sax := Some (params m a scale); sn_ts_fit := Some (Symbols (map (fun x => word ppf a m d sz (scaled scale X x)) X)) |} Hl eq_refl)
    as (t & E & ->).
  eexists. eexists. eexists. eexists. split; [exact E|]. split; [reflexivity|]. split; [reflexivity|]. split; [reflexivity|].
  split; [reflexivity|]. split; [reflexivity|]. intros N E'. apply N. destruct X' as [|x X']; [destruct HX'; congruence|]. cbn [map] in E'.
  injection E' as E' _. apply (f_equal (@length (list nat))) in E'. unfold word, ngrid in E'. rewrite !map_length, !seq_length in E'. exact E'.
Qed.
Print Assumptions C152_refit_refuted.
Example C152_instance : let X := [[[1]; [2]; [3]; [4]]] in
  quantile (fun p => 2 * p - 1) /\ real_dataset 1 4 X /\ (0 < 1 <= 4)%nat /\ (0 < 2 <= 4)%nat /\
  (forall p Y, In (p, Y) [(params 3 5 true, X)] -> exists dY szY, real_dataset dY szY Y /\ (1 <= szY)%nat).
Proof.
  cbv zeta. assert (D : real_dataset 1 4 [[[1]; [2]; [3]; [4]]]).
  { split; [discriminate|]. intros s [<-|[]]; (split; [|reflexivity]); (split; [lia|split; [discriminate|]]);
    intros r Hr; cbn in Hr; intuition (subst; reflexivity). }
  split; [apply linear_quantile|]. split; [auto|]. split; [lia|]. split; [lia|].
  intros p Y [E|[]]. injection E as _ <-. exists 1%nat, 4%nat. auto with arith.
Qed.

(** ** C153 *)
(** [fit] of the three classes accepts every metric; then searches succeed exactly for these, predictions of classifiers
    and (but for "sax", below) of regressors exactly for those *)
Theorem C153_supported m via :
  snd (kn_run [KFit Fine] (kn_new m)) = true /\
  (snd (kn_run [KFit Fine; KSearch Fine] (kn_new m)) = true <-> ~ In m [MGak; MSax; MSoftdtwNorm; MLcss]) /\
  (snd (kn_run [KFit Fine; KPredict via Fine] (kn_new m)) = true <-> ~ In m [MGak; MSoftdtwNorm; MLcss]).
Proof. destruct m, via; cbn; repeat split; intros; try reflexivity; try discriminate; intuition discriminate. Qed.
Print Assumptions C153_supported.
Theorem C153_metrics_refuted :
  (forall m, In m [MGak; MSax; MSoftdtwNorm; MLcss] ->
     kn_run [KFit Fine] (kn_new m) = (restore (put_fit true (to_precomputed (kn_new m))), true) /\ snd (kn_run [KFit Fine; KSearch Fine] (kn_new m)) = false) /\
  (forall m via, In m [MGak; MSoftdtwNorm; MLcss] ->
     snd (kn_run [KFit Fine] (kn_new m)) = true /\ snd (kn_run [KFit Fine; KPredict via Fine] (kn_new m)) = false).
Proof.
  split; [intros m H|intros m via H]; cbn in H; repeat destruct H as [<-|H]; try contradiction; try destruct via; split; reflexivity.
Qed.
Print Assumptions C153_metrics_refuted.
(** a regressor with metric "sax": [fit] returns, no later call to [predict] or [kneighbors] does *)
Theorem C153_regressor_refuted ppf p s X : exists s', sn_fit ppf SRegressor p s X = (s', Ok tt) /\
  forall p' Q, (forall D, snd (sn_predict_distances ppf p' s' Q) <> Ok D) /\ (forall D, snd (sn_cross ppf p' s' Q) <> Ok D) /\
    sn_ts_fit (fst (sn_predict_distances ppf p' s' Q)) = sn_ts_fit s'.
Proof.
  eexists. split; [reflexivity|]. intros p' Q.
  assert (C : forall s' o, sn_ts_fit s' = Some (Raw o) -> (forall D, snd (sn_cross ppf p' s' Q) <> Ok D) /\ sn_ts_fit (fst (sn_cross ppf p' s' Q)) = Some (Raw o)).
  { intros s' o E. unfold sn_cross. rewrite E. unfold sax_preprocess. destruct (sax_fit_transform _ _ _) as [[st T]|e]; cbn [cdist_sax fst snd].
    - split; [discriminate|exact E].
    - split; [discriminate|exact E]. }
  split; [|split].
  - intros D. unfold sn_predict_distances. cbn [sn_ts_fit]. destruct (check_features _ Q); [|discriminate]. refine (proj1 (C _ X _) D); reflexivity.
  - intros D. refine (proj1 (C _ X _) D); reflexivity.
  - unfold sn_predict_distances. cbn [sn_ts_fit]. destruct (check_features _ Q); [|reflexivity]. refine (proj2 (C _ X _)); reflexivity.
Qed.
Print Assumptions C153_regressor_refuted.

(** C53-C55: TimeSeriesKMeans with the Euclidean metric.  Exact reals; any random
    initialisation. *)
From Coq Require Import Bool List Arith Lia ZArith QArith Reals Lra.
From Verif Require Import Num NumLaws Py Series Masks DtwModel RList RealSeries PaaModel PaaThms PreModel PropScale PropResample PropCtw
  GakModel SoftModel Dataset BaryModel BaryThms BaryReal PropBary ClusterModel ClusterThms.
Import ListNotations.
Local Open Scope R_scope.

(** ** Specification *)
(** a set of series of one shape: [sz] time steps, [d] features *)
Definition of_shape (sz d : nat) (l : list rser) : Prop := forall x, In x l -> real_series d x /\ length x = sz.
(** squared Euclidean distance *)
Definition sq_distance (sz d : nat) (x c : rser) : R :=
  rsum (map (fun t => rsum (map (fun k => (nth k (nth t x []) 0 - nth k (nth t c []) 0) * (nth k (nth t x []) 0 - nth k (nth t c []) 0)) (seq 0 d))) (seq 0 sz)).
(** [c] is the mean of [xs] *)
Definition is_mean (sz d : nat) (xs : list rser) (c : rser) : Prop :=
  forall t k, (t < sz)%nat -> (k < d)%nat -> nth k (nth t c []) 0 = mean (map (fun x => nth k (nth t x []) 0) xs).
Definition euclidean_kmeans (p : km_params) : Prop := km_met p = KmEuclidean /\ dtw_inertia p = false.

(** ** lemmas *)
Lemma gsum_sq sz d x c : sq_distance sz d x c = gsum sz d (fun t k => sq (entry x t k - entry c t k)).
Proof. reflexivity. Qed.
Lemma sq_distance_nonneg sz d x c : 0 <= sq_distance sz d x c.
Proof. rewrite gsum_sq. apply gsum_nonneg. intros. apply sq_nonneg. Qed.
Lemma rsum_cons a l : rsum (a :: l) = a + rsum l. Proof. reflexivity. Qed.
Lemma mean_least l a : l <> [] -> rsum (map (fun v => sq (v - mean l)) l) <= rsum (map (fun v => sq (v - a)) l).
Proof.
  intros Hl. assert (Hn : 0 < INR (length l)) by (apply lt_0_INR; destruct l; [congruence|simpl; lia]).
  assert (E : forall b, rsum (map (fun v => sq (v - b)) l) = rsum (map sq l) - 2 * b * rsum l + INR (length l) * (b * b)).
  { intros b. clear. induction l as [|v l IH]; [simpl; lra|]. cbn [map length]. rewrite S_INR.
    change (rsum (sq (v - b) :: map (fun v => sq (v - b)) l) = rsum (sq v :: map sq l) - 2 * b * rsum (v :: l) + (INR (length l) + 1) * (b * b)). rewrite !rsum_cons, IH. unfold sq. ring. }
  rewrite !E. unfold mean. set (n := INR (length l)) in *. set (s := rsum l).
  assert (H : 0 <= n * (a - s / n) * (a - s / n)) by (rewrite Rmult_assoc; apply Rmult_le_pos; [lra|apply Rle_0_sqr]).
  assert (Es : s = n * (s / n)) by (field; lra). set (m := s / n) in *. rewrite Es.
  replace (n * (a - m) * (a - m)) with (n * (a * a) - 2 * a * (n * m) + n * m * m) in H by ring. lra.
Qed.
Lemma lift_of_shape sz d x : real_series d x /\ length x = sz -> lift x = xgrid sz d (entry x).
Proof. intros [H <-]. apply lift_grid. auto. Qed.
Lemma grid_lift sz d f : xgrid sz d f = lift (map (fun t => map (f t) (seq 0 d)) (seq 0 sz)).
Proof. unfold xgrid, lift, grow. rewrite map_map. apply map_ext. intros. rewrite map_map. reflexivity. Qed.
Lemma euclid_real sz d x c : real_series d x /\ length x = sz -> real_series d c /\ length c = sz ->
  euclid (lift x) (lift c) = XR (sqrt (sq_distance sz d x c)).
Proof.
  intros Hx Hc. rewrite (lift_of_shape sz d x Hx), (lift_of_shape sz d c Hc). unfold euclid. rewrite sq_diffs_grid, <- gsum_sq.
  unfold xsqrt. destruct (Rleb 0 (sq_distance sz d x c)) eqn:E; auto. apply Rleb_false in E. pose proof (sq_distance_nonneg sz d x c). lra.
Qed.
Lemma concat_len sz d x : real_series d x /\ length x = sz -> length (concat (lift x)) = (sz * d)%nat.
Proof.
  intros [(_ & _ & Hr) <-]. unfold lift. induction x as [|r x IH]; auto. specialize (IH ltac:(intros; apply Hr; simpl; auto)). pose proof (Hr r ltac:(simpl; auto)) as Lr.
  cbn [map concat length]. norm. rewrite app_length, map_length, IH, Lr. reflexivity.
Qed.
Lemma transform_euclid p sz d xs cs : km_met p = KmEuclidean -> of_shape sz d xs -> of_shape sz d cs ->
  transform_ p (map lift cs) (map lift xs) = Ok (map (fun x => map (fun c => XR (sqrt (sq_distance sz d x c))) cs) xs).
Proof.
  intros Hp Hx Hc. unfold transform_. rewrite Hp. unfold cdist_euclid.
  assert (W : forallb (fun x => forallb (fun c => length (concat x) =? length (concat c)) (map lift cs)) (map lift xs) = true).
  { apply forallb_forall. intros x' Hx'. apply in_map_iff in Hx'. destruct Hx' as (x & <- & Ix). apply forallb_forall. intros c' Hc'. apply in_map_iff in Hc'.
    destruct Hc' as (c & <- & Ic). apply Nat.eqb_eq. rewrite (concat_len sz d x (Hx x Ix)). symmetry. exact (concat_len sz d c (Hc c Ic)). }
  norm. rewrite W. f_equal. rewrite map_map. apply map_ext_in. intros x Ix. rewrite map_map. apply map_ext_in. intros c Ic. apply euclid_real; auto.
Qed.
Lemma sub_shape sz d xs ys : of_shape sz d xs -> (forall y, In y ys -> In y xs) -> of_shape sz d ys.
Proof. intros H K y Hy. apply H. auto. Qed.
Definition mean_of (sz d : nat) (xs : list rser) : rser := map (fun t => map (fun k => mean (map (fun x => entry x t k) xs)) (seq 0 d)) (seq 0 sz).
Lemma mean_entry sz d xs t k : (t < sz)%nat -> (k < d)%nat -> entry (mean_of sz d xs) t k = mean (map (fun x => entry x t k) xs).
Proof. intros Ht Hk. unfold entry at 1, mean_of. rewrite map_seq_nth by auto. rewrite map_seq_nth by auto. reflexivity. Qed.
Lemma mean_of_shape sz d xs : (0 < sz)%nat -> (0 < d)%nat -> real_series d (mean_of sz d xs) /\ length (mean_of sz d xs) = sz.
Proof.
  intros Hs Hd. unfold mean_of. split; [|rewrite map_length, seq_length; auto]. split; auto. split; [destruct sz; [lia|discriminate]|].
  intros r Hr. apply in_map_iff in Hr. destruct Hr as (t & <- & _). rewrite map_length, seq_length. auto.
Qed.
Lemma mean_series_real sz d ys : (0 < sz)%nat -> ys <> [] -> of_shape sz d ys -> mean_series (map lift ys) = lift (mean_of sz d ys).
Proof.
  intros Hs Hne Hy. unfold mean_of. rewrite <- grid_lift.
  assert (EG : map lift ys = map (fun y => xgrid sz d (entry y)) ys) by (apply map_ext_in; intros y I; apply lift_of_shape; auto).
  assert (EG' : map lift ys = map (xgrid sz d) (map entry ys)) by (rewrite EG, map_map; reflexivity).
  unfold mean_series. destruct ys as [|y0 ys']; [congruence|].
  replace (arr_sz (map lift (y0 :: ys'))) with sz by (rewrite EG'; cbn [map]; symmetry; apply arr_sz_grids).
  replace (arr_d (map lift (y0 :: ys'))) with d by (rewrite EG'; cbn [map]; symmetry; apply (arr_d_grids sz d (entry y0) (map entry ys')); auto).
  rewrite EG. set (l := y0 :: ys') in *. unfold xgrid at 2. apply map_ext_in. intros t Ht. apply in_seq in Ht. unfold grow. apply map_ext_in. intros k Hk. apply in_seq in Hk.
  rewrite map_map. rewrite (map_ext_in _ (fun y => XR (entry y t k))).
  - rewrite <- (map_map (fun y => entry y t k) XR), xmean_reals by discriminate. unfold mean. rewrite map_length. reflexivity.
  - intros y _. norm. rewrite xgrid_nth by lia. apply grow_nth. lia.
Qed.
Lemma mean_of_least sz d ys c : ys <> [] ->
  rsum (map (fun x => sq_distance sz d x (mean_of sz d ys)) ys) <= rsum (map (fun x => sq_distance sz d x c) ys).
Proof.
  intros Hne. 
  assert (E : forall c, rsum (map (fun x => sq_distance sz d x c) ys) = gsum sz d (fun t k => rsum (map (fun x => sq (entry x t k - entry c t k)) ys))).
  { intros c0. unfold gsum. rewrite (rsum_map_ext (fun x => sq_distance sz d x c0) (fun x => rsum (map (fun t => rsum (map (fun k => sq (entry x t k - entry c0 t k)) (seq 0 d))) (seq 0 sz)))) by reflexivity.
    rewrite rsum_swap. apply rsum_map_ext. intros t _. apply rsum_swap. }
  rewrite !E. apply gsum_le. intros t k Ht Hk. rewrite mean_entry by auto.
  pose proof (mean_least (map (fun x => entry x t k) ys) (entry c t k)) as M. rewrite !map_map in M. apply M. destruct ys; [congruence|discriminate].
Qed.
Lemma new_center_euclid p sz d xs labels k c : km_met p = KmEuclidean -> (0 < sz)%nat -> (0 < d)%nat -> of_shape sz d xs ->
  cluster xs labels k <> [] ->
  exists c', new_center p (map lift xs) labels k (lift c) = Ok (lift c') /\ (real_series d c' /\ length c' = sz) /\ is_mean sz d (cluster xs labels k) c' /\
    rsum (map (fun x => sq_distance sz d x c') (cluster xs labels k)) <= rsum (map (fun x => sq_distance sz d x c) (cluster xs labels k)).
Proof.
  intros Hp Hs Hd Hx Hne. exists (mean_of sz d (cluster xs labels k)). split; [|split; [apply mean_of_shape; auto|split]].
  - unfold new_center. rewrite Hp, members_map. f_equal. apply mean_series_real; auto. apply (sub_shape sz d xs); auto. intros y. apply cluster_in.
  - intros t j Ht Hj. apply mean_entry; auto.
  - apply mean_of_least. auto.
Qed.
Lemma shape_pos sz d xs : xs <> [] -> of_shape sz d xs -> (0 < sz)%nat /\ (0 < d)%nat.
Proof.
  intros Hne Hx. destruct xs as [|x l]; [congruence|]. destruct (Hx x (or_introl eq_refl)) as [H <-]. split; [apply (real_len d); auto|apply H].
Qed.
Lemma list_max_same {A} (l : list (list A)) n : l <> [] -> (forall x, In x l -> length x = n) -> list_max (map (@length _) l) = n.
Proof.
  intros Hne H. assert (K : In (list_max (map (@length _) l)) (map (@length _) l)) by (apply list_max_in; intros E; apply map_eq_nil in E; auto).
  apply in_map_iff in K. destruct K as (x & E & Hi). rewrite <- E. auto.
Qed.
Lemma pad_to_same d sz x : length x = sz -> pad_to d sz x = lift x.
Proof. intros <-. unfold pad_to. rewrite Nat.sub_diag. apply app_nil_r. Qed.
Lemma variable_length_shape sz d l : l <> [] -> of_shape sz d l -> variable_length (map lift l) = Ok (map lift l).
Proof.
  intros Hne H. rewrite (variable_length_lift d l) by (intros s Hs; apply H; auto). f_equal. rewrite (list_max_same l sz) by (auto; intros x Hx; apply H; auto).
  apply map_ext_in. intros x Hx. apply pad_to_same. apply H; auto.
Qed.
Lemma check_full_length_shape sz d cs : cs <> [] -> of_shape sz d cs -> check_full_length (map lift cs) = Ok (map lift cs).
Proof.
  intros Hne H. destruct (shape_pos sz d cs Hne H) as [Hs Hd]. unfold check_full_length, fit_features. rewrite (variable_length_shape sz d cs Hne H). cbn [bind].
  assert (EG' : map lift cs = map (xgrid sz d) (map entry cs)) by (rewrite map_map; apply map_ext_in; intros y I; apply lift_of_shape; auto).
  assert (E1 : arr_sz (map lift cs) = sz) by (rewrite EG'; destruct cs; [congruence|cbn [map]; apply arr_sz_grids]).
  assert (E2 : arr_d (map lift cs) = d) by (rewrite EG'; destruct cs; [congruence|cbn [map]; apply arr_d_grids; auto]).
  rewrite E1, E2. assert (Hr : forall s, In s cs -> real_series d s) by (intros s I; apply H; auto).
  assert (W : wanted_size (Z.of_nat sz) cs = sz) by (unfold wanted_size; destruct (0 <? Z.of_nat sz)%Z eqn:K; [apply Nat2Z.id|apply Z.ltb_ge in K; lia]).
  destruct (le_lt_dec 2 sz) as [L|L].
  - destruct (C46_endpoints_range_identity (Z.of_nat sz) d cs Hne Hr ltac:(rewrite W; auto)) as (out & E & F). rewrite W in F. rewrite E. do 2 f_equal.
    clear -F H. induction F as [|s o l out (_ & _ & _ & _ & I) F IH]; auto. f_equal; [apply I; apply H; simpl; auto|]. apply IH. intros x Hx; apply H; simpl; auto.
  - assert (S1 : sz = 1%nat) by lia. clear E1. subst sz. rewrite C46_single_point; auto. f_equal. apply map_ext_in. intros s Hi. destruct (H s Hi) as [(_ & _ & R1) L1].
    destruct s as [|r [|r' s]]; simpl in L1; try discriminate. f_equal. f_equal. pose proof (R1 r ltac:(simpl; auto)) as Lr.
    rewrite <- Lr. clear. unfold feature. simpl. unfold mean. simpl. rewrite (list_nth_seq r 0) at 2. apply map_ext. intros k. field.
Qed.

Section Euclid.
Variables (p : km_params) (sz d : nat) (xs : list rser).
Hypothesis Hp : euclidean_kmeans p.
Hypothesis Hne : xs <> [].
Hypothesis Hx : of_shape sz d xs.
Let loss := sq_distance sz d.
Let good (c : rser) : Prop := real_series d c /\ length c = sz.
Let renews (ys : list rser) (c c' : rser) : Prop := is_mean sz d ys c'.
Lemma eu_in : dtw_inertia p && negb (is_dtw (km_met p)) = false.
Proof. destruct Hp as [_ ->]. reflexivity. Qed.
Lemma eu_pos x c : In x xs -> good c -> 0 <= loss x c.
Proof. intros _ _. apply sq_distance_nonneg. Qed.
Lemma eu_T cs : cs <> [] -> (forall c, In c cs -> good c) ->
  transform_ p (map lift cs) (map lift xs) = Ok (map (fun x => map (fun c => XR (sqrt (loss x c))) cs) xs).
Proof. intros _ H. apply transform_euclid; auto. apply Hp. Qed.
Lemma eu_U labels k c : length labels = length xs -> cluster xs labels k <> [] -> good c ->
  exists c', new_center p (map lift xs) labels k (lift c) = Ok (lift c') /\ good c' /\ renews (cluster xs labels k) c c' /\
    rsum (map (fun x => loss x c') (cluster xs labels k)) <= rsum (map (fun x => loss x c) (cluster xs labels k)).
Proof. intros _ H _. destruct (shape_pos sz d xs Hne Hx). apply new_center_euclid; auto. apply Hp. Qed.
Lemma eu_input i : (forall C, i = InitArray C -> arr_d C = d /\ arr_sz C = sz) -> fit_input p i (map lift xs) = Ok (map lift xs).
Proof.
  intros Hi. destruct (shape_pos sz d xs Hne Hx) as [Hs Hd]. unfold fit_input.
  assert (EG' : map lift xs = map (xgrid sz d) (map entry xs)) by (rewrite map_map; apply map_ext_in; intros y I; apply lift_of_shape; auto).
  assert (E0 : check_arr (map lift xs) = Ok (map lift xs)).
  { rewrite EG'. apply check_arr_grids; auto. destruct xs; [congruence|discriminate]. }
  rewrite E0. cbn [bind]. 
  assert (E1 : arr_sz (map lift xs) = sz) by (rewrite EG'; destruct xs; [congruence|cbn [map]; apply arr_sz_grids]).
  assert (E2 : arr_d (map lift xs) = d) by (rewrite EG'; destruct xs; [congruence|cbn [map]; apply arr_d_grids; auto]).
  assert (CV : check_values p (map lift xs) = true).
  { unfold check_values. apply forallb_forall. intros v Hv. apply in_concat in Hv. destruct Hv as (r & Hr & Hv). apply in_concat in Hr. destruct Hr as (s & Hs' & Hr).
    apply in_map_iff in Hs'. destruct Hs' as (x & <- & _). apply in_map_iff in Hr. destruct Hr as (y & <- & _). apply in_map_iff in Hv. destruct Hv as (z & <- & _). reflexivity. }
  rewrite CV. destruct i as [C|dr]; auto. destruct (Hi C eq_refl) as [-> ->]. rewrite E1, E2, !Nat.eqb_refl. rewrite orb_true_r. reflexivity.
Qed.
End Euclid.
Lemma euclid_sound p sz d xs : euclidean_kmeans p -> xs <> [] -> of_shape sz d xs ->
  sound p lift xs (fun c => real_series d c /\ length c = sz) (sq_distance sz d) (fun ys _ c' => is_mean sz d ys c').
Proof.
  intros Hp Hne Hx. split; auto. split; [apply eu_in; auto|]. split; [intros; apply sq_distance_nonneg|]. split; [intros; apply transform_euclid; auto; apply Hp|].
  intros labels k c _ H _. destruct (shape_pos sz d xs Hne Hx). apply new_center_euclid; auto. apply Hp.
Qed.
Lemma arr_shape sz d l : l <> [] -> of_shape sz d l -> arr_sz (map lift l) = sz /\ arr_d (map lift l) = d.
Proof.
  intros Hne H. destruct (shape_pos sz d l Hne H) as [Hs Hd].
  assert (EG' : map lift l = map (xgrid sz d) (map entry l)) by (rewrite map_map; apply map_ext_in; intros y I; apply lift_of_shape; auto).
  rewrite EG'. destruct l; [congruence|]. split; [apply arr_sz_grids|apply arr_d_grids; auto].
Qed.

(** ** C53: one iteration assigns every series to its first closest centre, moves the
    centres to the means, and the next assignment has no larger inertia; no step of it
    fails, except with EmptyClusterError *)
Theorem C53_iteration : forall p sz d xs cs s, euclidean_kmeans p -> xs <> [] -> of_shape sz d xs ->
  length cs = n_clusters p -> cs <> [] -> of_shape sz d cs -> cluster_centers_ s = Some (map lift cs) ->
  (exists s1, assign_ p (map lift xs) s = (s1, Err EmptyClusterError)) \/
  exists labels v s1 s2 cs', assign_ p (map lift xs) s = (s1, Ok labels) /\ length labels = length xs /\
    (forall n, (n < length xs)%nat -> closest (sq_distance sz d) cs (nth n xs []) (nth n labels 0%nat)) /\
    inertia_ s1 = XR v /\ v = mean_loss (sq_distance sz d) xs cs labels /\
    update_centroids_ p (map lift xs) (seq 0 (n_clusters p)) s1 = (s2, Ok tt) /\ cluster_centers_ s2 = Some (map lift cs') /\
    (forall k, (k < n_clusters p)%nat -> is_mean sz d (cluster xs labels k) (nth k cs' [])) /\
    forall s3 labels3, assign_ p (map lift xs) s2 = (s3, Ok labels3) -> exists v3, inertia_ s3 = XR v3 /\ v3 <= v.
Proof.
  intros p sz d xs cs s Hp Hne Hx Lc NE Hc HC.
  destruct (sound_iteration _ _ _ _ _ _ (euclid_sound p sz d xs Hp Hne Hx) cs s Lc NE Hc HC) as [A|(labels & v & s1 & s2 & cs' & A & B & C & D & E & F & G & H & I)]; [left; auto|right].
  exists labels, v, s1, s2, cs'. split; auto. split; auto. split; auto. split; auto. split; auto. split; auto. split; auto. split; auto. intros k Hk. apply H. auto.
Qed.
Print Assumptions C53_iteration.
(** raising [max_iter] never raises the inertia that [fit] reports from given centres *)
Theorem C53_more_iterations : forall p sz d xs cs m1 m2 s s' t1 t2, euclidean_kmeans p -> xs <> [] -> of_shape sz d xs ->
  length cs = n_clusters p -> cs <> [] -> of_shape sz d cs -> (m1 <= m2)%nat ->
  fit (with_max_iter m1 p) (InitArray (map lift cs)) (map lift xs) s = (t1, Ok tt) -> X_fit_ t1 <> None ->
  fit (with_max_iter m2 p) (InitArray (map lift cs)) (map lift xs) s' = (t2, Ok tt) -> X_fit_ t2 <> None ->
  exists v1 v2, inertia_ t1 = XR v1 /\ inertia_ t2 = XR v2 /\ v2 <= v1.
Proof.
  intros p sz d xs cs m1 m2 s s' t1 t2 Hp Hne Hx Lc NE Hc Hm. eapply (sound_more _ _ _ _ _ _ (euclid_sound p sz d xs Hp Hne Hx)); eauto.
  - intros m. apply (eu_input (with_max_iter m p) sz d); auto. intros C EC. injection EC as <-. destruct (arr_shape sz d cs NE Hc). auto.
  - apply (variable_length_shape sz d); auto.
  - apply (check_full_length_shape sz d); auto.
Qed.
Print Assumptions C53_more_iterations.

(** ** C54: what [fit] reports.  The labels are the first closest of the reported
    centres; the inertia is the one of the centres the last update started from, an
    upper bound of the inertia of the reported centres *)
Theorem C54_reported_partial : forall p sz d xs i s s', euclidean_kmeans p -> xs <> [] -> of_shape sz d xs -> max_iter p <> 0%nat ->
  (forall n, exists cs, draws i n = Ok (map lift cs) /\ length cs = n_clusters p /\ cs <> [] /\ of_shape sz d cs) ->
  fit p i (map lift xs) s = (s', Ok tt) -> X_fit_ s' <> None ->
  exists cs labels v, length cs = n_clusters p /\ of_shape sz d cs /\ cluster_centers_ s' = Some (map lift cs) /\
    labels_ s' = Some labels /\ length labels = length xs /\
    (forall n, (n < length xs)%nat -> closest (sq_distance sz d) cs (nth n xs []) (nth n labels 0%nat)) /\
    inertia_ s' = XR v /\ mean_loss (sq_distance sz d) xs cs labels <= v /\
    exists before labels', length labels' = length xs /\
      (forall n, (n < length xs)%nat -> closest (sq_distance sz d) before (nth n xs []) (nth n labels' 0%nat)) /\
      v = mean_loss (sq_distance sz d) xs before labels' /\
      forall k, (k < n_clusters p)%nat -> cluster xs labels' k <> [] /\ is_mean sz d (cluster xs labels' k) (nth k cs []).
Proof.
  intros p sz d xs i s s' Hp Hne Hx Hm Hi E Nf.
  destruct (sound_fit _ _ _ _ _ _ (euclid_sound p sz d xs Hp Hne Hx) (map lift xs) i s) as [A|[(A & B & CL)|A]]; auto.
  - apply (eu_input p sz d); auto. intros C ->. destruct (Hi 0%nat) as (cs & E0 & _ & NE & Hc). injection E0 as ->. destruct (arr_shape sz d cs NE Hc). auto.
  - apply (variable_length_shape sz d); auto.
  - unfold check_initial_guess. destruct i; auto. destruct (Hi 0%nat) as (cs & E0 & L & _). injection E0 as ->. rewrite map_length. unfold rser in *. rewrite L, Nat.eqb_refl. auto.
  - intros n. destruct (Hi n) as (cs & E0 & L & NE & Hc). exists (map lift cs), cs. split; auto. split; auto. apply (check_full_length_shape sz d); auto.
  - rewrite E in A. destruct A as [_ A]. simpl in A. congruence.
  - rewrite E in *. cbn [fst snd] in *. destruct CL as (cs & labels & v & P1 & P2 & P3 & P4 & P5 & P6 & P7 & P8 & P9 & P10). exists cs, labels, v.
    exact (conj P1 (conj P2 (conj P3 (conj P4 (conj P5 (conj P6 (conj P8 (conj P9 P10)))))))).
  - rewrite E in A. discriminate.
Qed.
Print Assumptions C54_reported_partial.

(** ** C55, for any metric and any data: EmptyClusterError cannot leave the loop over
    the initialisations, and a reported clustering has no empty cluster *)
Theorem C55_attempts_partial : forall p X draw remaining n ns best mi s, snd (attempts p X draw n remaining ns best mi s) <> Err EmptyClusterError.
Proof. apply attempts_no_empty. Qed.
Print Assumptions C55_attempts_partial.
Theorem C55_no_empty_partial : forall p i X s s', fit p i X s = (s', Ok tt) -> X_fit_ s' <> None ->
  exists labels, labels_ s' = Some labels /\ forall k, (k < n_clusters p)%nat -> In k labels.
Proof.
  intros p i X s s' E Nf. destruct (fit_origin p i X s s' E Nf) as (X1 & Xa & j & st & s1 & _ & _ & _ & _ & _ & st' & st'' & l & EA & EL & _).
  exists l. split; auto. apply no_empty_spec. apply (assign_nonempty p Xa st' st''); auto.
Qed.
Print Assumptions C55_no_empty_partial.

(** ** counterexamples: integers, one time step, one feature *)
Definition pts (l : list Z) : list rser := map (fun v => [[IZR v]]) l.
Lemma pts_shape l : of_shape 1 1 (pts l).
Proof. intros x H. apply in_map_iff in H. destruct H as (v & <- & _). split; auto. split; [lia|]. split; [discriminate|]. intros r [<-|[]]. reflexivity. Qed.
Lemma sq_pts (a b : R) : sq_distance 1 1 [[a]] [[b]] = (a - b) * (a - b).
Proof. unfold sq_distance. simpl. lra. Qed.
Definition km1 (K : nat) : km_params :=
  {| n_clusters := K; max_iter := 1; tol := XR (1 / 1000000); n_init := 1; km_met := KmEuclidean; dtw_inertia := false |}.
Ltac near := match goal with |- nearest _ _ _ = ?k => apply nearest_is; split; [simpl; lia|]; 
  intros j Hj; simpl in Hj; repeat (destruct j as [|j]; [simpl; rewrite !sq_pts; split; [lra|intros; first [lia|lra]]|]); lia end.
Lemma cons_eq {A} (a b : A) l l' : a = b -> l = l' -> a :: l = b :: l'. Proof. congruence. Qed.
Ltac nears := repeat match goal with x := _ : list Z |- _ => subst x end; unfold nearests, pts; cbn [map]; repeat (apply cons_eq; [near|]); reflexivity.
Lemma mean2 (c : rser) (a b : R) : is_mean 1 1 [[[a]]; [[b]]] c -> real_series 1 c /\ length c = 1%nat -> c = [[(a + b) / 2]].
Proof.
  intros M [(_ & _ & Hr) L]. destruct c as [|r [|r' c]]; simpl in L; try discriminate. pose proof (Hr r ltac:(simpl; auto)) as Lr. destruct r as [|v [|v' r]]; simpl in Lr; try discriminate.
  specialize (M 0%nat 0%nat ltac:(lia) ltac:(lia)). simpl in M. unfold mean in M. simpl in M. rewrite M. do 2 f_equal. lra.
Qed.
Lemma mean1 (c : rser) (a : R) : is_mean 1 1 [[[a]]] c -> real_series 1 c /\ length c = 1%nat -> c = [[a]].
Proof.
  intros M [(_ & _ & Hr) L]. destruct c as [|r [|r' c]]; simpl in L; try discriminate. pose proof (Hr r ltac:(simpl; auto)) as Lr. destruct r as [|v [|v' r]]; simpl in Lr; try discriminate.
  specialize (M 0%nat 0%nat ltac:(lia) ltac:(lia)). simpl in M. unfold mean in M. simpl in M. rewrite M. do 2 f_equal. lra.
Qed.
Lemma km1_euclid K : euclidean_kmeans (km1 K). Proof. split; reflexivity. Qed.
Lemma pts_input K l C : l <> [] -> C <> [] -> fit_input (km1 K) (InitArray (map lift (pts C))) (map lift (pts l)) = Ok (map lift (pts l)).
Proof.
  intros Hl HC. apply (eu_input (km1 K) 1 1); [destruct l; [congruence|discriminate]|apply pts_shape|].
  intros C0 E. injection E as <-. destruct (arr_shape 1 1 (pts C)); [destruct C; [congruence|discriminate]|apply pts_shape|auto].
Qed.
Lemma pts_once (l C : list Z) s : l <> [] -> C <> [] -> let K := length C in let xs := pts l in let loss := sq_distance 1 1 in
  (forall k, (k < K)%nat -> In k (nearests xs loss (pts C))) ->
  exists cs' s', length cs' = K /\ of_shape 1 1 cs' /\ (forall k, (k < K)%nat -> is_mean 1 1 (cluster xs (nearests xs loss (pts C)) k) (nth k cs' [])) /\
    cluster_centers_ s' = Some (map lift cs') /\ labels_ s' = Some (nearests xs loss cs') /\
    if no_empty_cluster (nearests xs loss cs') K
    then fit (km1 K) (InitArray (map lift (pts C))) (map lift xs) s = (s', Ok tt) /\ inertia_ s' = XR (mean_loss loss xs (pts C) (nearests xs loss (pts C))) /\ X_fit_ s' = Some (map lift xs)
    else fit (km1 K) (InitArray (map lift (pts C))) (map lift xs) s = (s', Err EmptyClusterError).
Proof.
  intros Hl HC K xs loss Hf. assert (Nx : xs <> []) by (unfold xs; destruct l; [congruence|discriminate]). assert (Nc : pts C <> []) by (destruct C; [congruence|discriminate]).
  assert (V : valid (km1 K) (fun c => real_series 1 c /\ length c = 1%nat) (pts C)).
  { split; [apply map_length|]. split; auto. apply pts_shape. }
  destruct (euclid_sound (km1 K) 1 1 xs (km1_euclid K) Nx (pts_shape l)) as (Hxs & Hin & Hpos & HT & HU).
  destruct (fit_once (km1 K) lift xs _ loss (fun ys _ c' => is_mean 1 1 ys c') Hxs Hin Hpos HT HU (map lift xs) (InitArray (map lift (pts C))) (pts_input K l C Hl HC)
    (variable_length_shape 1 1 xs Nx (pts_shape l))) with (cs := pts C) (C := map lift (pts C)) (s := s) as (cs' & s' & (V1 & V2 & V3) & R & A & B & E); auto.
  - unfold check_initial_guess, pts. rewrite !map_length. cbn [n_clusters km1]. unfold K. rewrite Nat.eqb_refl. reflexivity.
  - apply (check_full_length_shape 1 1); auto. apply pts_shape.
  - exists cs', s'. split; auto.
Qed.
Lemma pts_never (l C : list Z) s : l <> [] -> C <> [] -> let K := length C in let xs := pts l in let loss := sq_distance 1 1 in
  no_empty_cluster (nearests xs loss (pts C)) K = false ->
  exists s', fit (km1 K) (InitArray (map lift (pts C))) (map lift xs) s = (s', Ok tt) /\ X_fit_ s' = None /\
    cluster_centers_ s' = Some (map lift (pts C)) /\ labels_ s' = Some (nearests xs loss (pts C)).
Proof.
  intros Hl HC K xs loss Hf. assert (Nx : xs <> []) by (unfold xs; destruct l; [congruence|discriminate]). assert (Nc : pts C <> []) by (destruct C; [congruence|discriminate]).
  assert (V : valid (km1 K) (fun c => real_series 1 c /\ length c = 1%nat) (pts C)).
  { split; [apply map_length|]. split; auto. apply pts_shape. }
  destruct (euclid_sound (km1 K) 1 1 xs (km1_euclid K) Nx (pts_shape l)) as (Hxs & Hin & Hpos & HT & HU).
  eapply (fit_never (km1 K) lift xs _ loss (fun ys _ c' => is_mean 1 1 ys c') Hxs Hin Hpos HT HU (map lift xs) (InitArray (map lift (pts C))) (pts_input K l C Hl HC)
    (variable_length_shape 1 1 xs Nx (pts_shape l))); eauto.
  - unfold check_initial_guess, pts. rewrite !map_length. cbn [n_clusters km1]. unfold K. rewrite Nat.eqb_refl. reflexivity.
  - discriminate.
  - apply (check_full_length_shape 1 1); auto. apply pts_shape.
  - discriminate.
Qed.
Lemma two_centres (cs : list rser) a b : length cs = 2%nat -> nth 0 cs [] = a -> nth 1 cs [] = b -> cs = [a; b].
Proof. destruct cs as [|x [|y [|z cs]]]; simpl; intros L; try discriminate. intros -> ->. reflexivity. Qed.
Lemma three_centres (cs : list rser) a b c : length cs = 3%nat -> nth 0 cs [] = a -> nth 1 cs [] = b -> nth 2 cs [] = c -> cs = [a; b; c].
Proof. destruct cs as [|x [|y [|z [|w cs]]]]; simpl; intros L; try discriminate. intros -> -> ->. reflexivity. Qed.

(** C54 as stated is false: points 0, 2, 10 from the centres 0 and 5, one iteration *)
Theorem C54_inertia_refuted : exists p xs cs0 s' cs labels v,
  euclidean_kmeans p /\ of_shape 1 1 xs /\ of_shape 1 1 cs0 /\
  fit p (InitArray (map lift cs0)) (map lift xs) fresh = (s', Ok tt) /\ X_fit_ s' = Some (map lift xs) /\
  cluster_centers_ s' = Some (map lift cs) /\ labels_ s' = Some labels /\
  (forall n, (n < length xs)%nat -> closest (sq_distance 1 1) cs (nth n xs []) (nth n labels 0%nat)) /\
  inertia_ s' = XR v /\ mean_loss (sq_distance 1 1) xs cs labels < v.
Proof.
  set (l := [0; 2; 10]%Z). set (C := [0; 5]%Z).
  assert (N0 : nearests (pts l) (sq_distance 1 1) (pts C) = [0; 0; 1]%nat) by nears.
  destruct (pts_once l C fresh) as (cs' & s' & L' & S' & M' & A & B & E); try discriminate.
  { rewrite N0. intros [|[|k]] Hk; simpl in *; auto; lia. }
  rewrite N0 in *.
  assert (Z : cs' = [[[(0 + 2) / 2]]; [[10]]]).
  { apply two_centres; auto.
    - apply mean2; [apply (M' 0%nat); unfold C; simpl; lia|apply S'; apply nth_In; rewrite L'; unfold C; simpl; lia].
    - apply mean1; [apply (M' 1%nat); unfold C; simpl; lia|apply S'; apply nth_In; rewrite L'; unfold C; simpl; lia]. }
  subst cs'.
  assert (N1 : nearests (pts l) (sq_distance 1 1) [[[(0 + 2) / 2]]; [[10]]] = [0; 0; 1]%nat) by nears.
  rewrite N1 in *. change (no_empty_cluster [0; 0; 1]%nat (length C)) with true in E. cbn iota in E. destruct E as (E1 & E2 & E3).
  exists (km1 2), (pts l), (pts C), s', [[[(0 + 2) / 2]]; [[10]]], [0; 0; 1]%nat, (mean_loss (sq_distance 1 1) (pts l) (pts C) [0; 0; 1]%nat).
  split; [apply km1_euclid|]. split; [apply pts_shape|]. split; [apply pts_shape|]. split; [exact E1|]. split; [exact E3|]. split; [exact A|]. split; [exact B|].
  split; [rewrite <- N1; intros n Hn; apply nearests_nth; [discriminate|auto]|]. split; [exact E2|].
  unfold mean_loss, l, C, pts. cbn [map combine fst snd nth length]. rewrite !sq_pts. unfold rsum. simpl fold_right. simpl INR. lra.
Qed.
Print Assumptions C54_inertia_refuted.
(** C55 as stated is false: after a successful attempt the final assignment of
    [_post_fit] is not protected *)
Theorem C55_escape_refuted : exists p xs cs0, euclidean_kmeans p /\ of_shape 1 1 xs /\ of_shape 1 1 cs0 /\
  snd (fit p (InitArray (map lift cs0)) (map lift xs) fresh) = Err EmptyClusterError.
Proof.
  set (l := [29; 31; 89; 91]%Z). set (C := [0; 60; 120]%Z).
  assert (N0 : nearests (pts l) (sq_distance 1 1) (pts C) = [0; 1; 1; 2]%nat) by nears.
  destruct (pts_once l C fresh) as (cs' & s' & L' & S' & M' & A & B & E); try discriminate.
  { rewrite N0. intros [|[|[|k]]] Hk; simpl in *; auto; lia. }
  rewrite N0 in *.
  assert (Z : cs' = [[[29]]; [[(31 + 89) / 2]]; [[91]]]).
  { apply three_centres; auto.
    - apply mean1; [apply (M' 0%nat); unfold C; simpl; lia|apply S'; apply nth_In; rewrite L'; unfold C; simpl; lia].
    - apply mean2; [apply (M' 1%nat); unfold C; simpl; lia|apply S'; apply nth_In; rewrite L'; unfold C; simpl; lia].
    - apply mean1; [apply (M' 2%nat); unfold C; simpl; lia|apply S'; apply nth_In; rewrite L'; unfold C; simpl; lia]. }
  subst cs'.
  assert (N1 : nearests (pts l) (sq_distance 1 1) [[[29]]; [[(31 + 89) / 2]]; [[91]]] = [0; 0; 2; 2]%nat) by nears.
  rewrite N1 in *. change (no_empty_cluster [0; 0; 2; 2]%nat (length C)) with false in E. cbn iota in E.
  exists (km1 3), (pts l), (pts C). split; [apply km1_euclid|]. split; [apply pts_shape|]. split; [apply pts_shape|]. exact (f_equal snd E).
Qed.
Print Assumptions C55_escape_refuted.
(** and when no attempt succeeds, labels with an empty cluster stay behind and
    [predict] works *)
Theorem C55_unfitted_refuted : exists p xs cs0 s' labels, euclidean_kmeans p /\ of_shape 1 1 xs /\ of_shape 1 1 cs0 /\
  fit p (InitArray (map lift cs0)) (map lift xs) fresh = (s', Ok tt) /\ X_fit_ s' = None /\
  labels_ s' = Some labels /\ ~ (forall k, (k < n_clusters p)%nat -> In k labels) /\ predict p s' (map lift xs) = Ok labels.
Proof.
  set (l := [3; 3; 4]%Z). set (C := [3; 3]%Z).
  assert (N0 : nearests (pts l) (sq_distance 1 1) (pts C) = [0; 0; 0]%nat) by nears.
  destruct (pts_never l C fresh) as (s' & E & F & A & B); try discriminate.
  { rewrite N0. reflexivity. }
  rewrite N0 in *. exists (km1 2), (pts l), (pts C), s', [0; 0; 0]%nat.
  split; [apply km1_euclid|]. split; [apply pts_shape|]. split; [apply pts_shape|]. split; [exact E|]. split; [exact F|]. split; [exact B|].
  split; [intros H; specialize (H 1%nat ltac:(simpl; lia)); simpl in H; intuition discriminate|].
  unfold predict. pose proof (pts_input 2 l C ltac:(discriminate) ltac:(discriminate)) as EI. unfold fit_input in EI.
  destruct (check_arr (map lift (pts l))) as [X1|e]; [|discriminate]. cbn [bind] in *. destruct (check_values (km1 2) X1); [|discriminate].
  rewrite A. destruct (_ && _); [|discriminate]. injection EI as ->. refine (eq_trans (f_equal (fun r => bind r _) (transform_euclid (km1 2) 1 1 (pts l) (pts C) eq_refl (pts_shape l) (pts_shape C))) _). cbn [bind].
  f_equal. rewrite <- N0. rewrite map_map. unfold nearests. apply map_ext_in. intros x Hx. apply (nearest_sqrt (pts l) (fun c => real_series 1 c /\ length c = 1%nat)); auto.
  - intros; apply sq_distance_nonneg.
  - apply pts_shape.
Qed.
Print Assumptions C55_unfitted_refuted.
(** a case that meets the hypotheses of the positive theorems, with a successful fit *)
Example C54_nontrivial : exists s', fit (km1 2) (InitArray (map lift (pts [0; 5]%Z))) (map lift (pts [0; 2; 10]%Z)) fresh = (s', Ok tt) /\ X_fit_ s' <> None.
Proof.
  destruct (pts_once [0; 2; 10]%Z [0; 5]%Z fresh) as (cs' & s' & L' & S' & M' & A & B & E); try discriminate.
  { replace (nearests (pts [0; 2; 10]%Z) (sq_distance 1 1) (pts [0; 5]%Z)) with [0; 0; 1]%nat by (symmetry; nears). intros [|[|k]] Hk; simpl in *; auto; lia. }
  replace (nearests (pts [0; 2; 10]%Z) (sq_distance 1 1) (pts [0; 5]%Z)) with [0; 0; 1]%nat in * by (symmetry; nears).
  assert (Z : cs' = [[[(0 + 2) / 2]]; [[10]]]).
  { apply two_centres; auto.
    - apply mean2; [apply (M' 0%nat); simpl; lia|apply S'; apply nth_In; rewrite L'; simpl; lia].
    - apply mean1; [apply (M' 1%nat); simpl; lia|apply S'; apply nth_In; rewrite L'; simpl; lia]. }
  subst cs'. replace (nearests (pts [0; 2; 10]%Z) (sq_distance 1 1) [[[(0 + 2) / 2]]; [[10]]]) with [0; 0; 1]%nat in * by (symmetry; nears).
  cbn in E. destruct E as (E1 & _ & E3). exists s'. split; [exact E1|rewrite E3; discriminate].
Qed.

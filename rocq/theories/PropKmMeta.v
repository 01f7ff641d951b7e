(** C204, C205: TimeSeriesKMeans (Euclidean) does not depend on the order of the
    series and follows a change of origin; with a change of unit it follows if the
    tolerance is converted too, and only then. *)
From Coq Require Import Bool List Arith Lia ZArith QArith Reals Lra Permutation.
From Verif Require Import Num NumLaws Py Series Masks DtwModel RList RealSeries PathSum PaaModel PaaThms PreModel PropScale PropResample PropCtw
  GakModel SoftModel Dataset BaryModel BaryThms BaryReal PropBary ClusterModel ClusterThms PropCluster.
Import ListNotations.
Local Open Scope R_scope.

(** ** Specification *)
(** every value [v] at time [t], feature [k] becomes [a * v + b t k] *)
Definition moved (a : R) (b : nat -> nat -> R) (x : rser) : rser := mapi (fun t r => mapi (fun k v => a * v + b t k) r) x.
(** the elements of [l] in the order [o] *)
Definition reordered {A} (o : list nat) (z : A) (l : list A) : list A := map (fun i => nth i l z) o.
Definition rescaled (c : R) (x : xr) : xr := match x with XR v => XR (c * v) | XInf => XInf | XNInf => XNInf | XNaN => XNaN end.
Definition with_tol (t : xr) (p : km_params) : km_params :=
  {| n_clusters := n_clusters p; max_iter := max_iter p; tol := t; n_init := n_init p; km_met := km_met p; dtw_inertia := dtw_inertia p |}.
(** two optional sets of centres, the second one moved *)
Definition centres_follow (a : R) (b : nat -> nat -> R) (sz d K : nat) (C C' : option array3) : Prop :=
  match C, C' with
  | None, None => True
  | Some C, Some C' => exists cs, length cs = K /\ of_shape sz d cs /\ C = map lift cs /\ C' = map lift (map (moved a b) cs)
  | _, _ => False
  end.
(** the attributes of two estimators, the second one trained on moved series in the order [o] *)
Definition estimators_follow (o : list nat) (a : R) (b : nat -> nat -> R) (sz d K : nat) (xs : list rser) (s s' : km_state) : Prop :=
  labels_ s' = option_map (reordered o 0%nat) (labels_ s) /\
  inertia_ s' = rescaled (a * a) (inertia_ s) /\
  centres_follow a b sz d K (cluster_centers_ s) (cluster_centers_ s') /\
  iter_ s' = iter_ s /\ n_iter_ s' = n_iter_ s /\
  ((X_fit_ s = None /\ X_fit_ s' = None) \/
   (X_fit_ s = Some (map lift xs) /\ X_fit_ s' = Some (map lift (reordered o [] (map (moved a b) xs))))) /\
  n_features_in_ s' = n_features_in_ s.
(** the initial centres: an array, or what is drawn at each attempt *)
Definition inits_follow (a : R) (b : nat -> nat -> R) (sz d K : nat) (i i' : km_init) : Prop :=
  match i, i' with
  | InitArray C, InitArray C' => centres_follow a b sz d K (Some C) (Some C')
  | InitDrawn f, InitDrawn f' => forall n, exists C C', f n = Ok C /\ f' n = Ok C' /\ centres_follow a b sz d K (Some C) (Some C')
  | _, _ => False
  end.

(** ** moved series *)
Lemma moved_len a b x : length (moved a b x) = length x. Proof. apply mapi_len. Qed.
Lemma moved_nth a b x t : (t < length x)%nat -> nth t (moved a b x) [] = mapi (fun k v => a * v + b t k) (nth t x []).
Proof. intros H. unfold moved. rewrite (mapi_nth _ x t [] []) by auto. reflexivity. Qed.
Lemma moved_entry a b sz d x t k : real_series d x /\ length x = sz -> (t < sz)%nat -> (k < d)%nat ->
  entry (moved a b x) t k = a * entry x t k + b t k.
Proof.
  intros [(_ & _ & Hr) L] Ht Hk. unfold entry. rewrite moved_nth by lia.
  rewrite (mapi_nth _ (nth t x []) k 0 0); [reflexivity|]. rewrite Hr; auto. apply nth_In. lia.
Qed.
Lemma moved_shape a b sz d x : real_series d x /\ length x = sz -> real_series d (moved a b x) /\ length (moved a b x) = sz.
Proof.
  intros [(Hd & Hn & Hr) L]. rewrite moved_len. split; auto. split; auto. split.
  - intros E. apply (f_equal (@length _)) in E. rewrite moved_len in E. destruct x; [congruence|discriminate].
  - intros r Hi. destruct (In_nth _ _ [] Hi) as (t & Ht & <-). rewrite moved_len in Ht. rewrite moved_nth by auto. rewrite mapi_len. apply Hr. apply nth_In. auto.
Qed.
Lemma sq_moved a b sz d x c : real_series d x /\ length x = sz -> real_series d c /\ length c = sz ->
  sq_distance sz d (moved a b x) (moved a b c) = a * a * sq_distance sz d x c.
Proof.
  intros Hx Hc. rewrite !gsum_sq. unfold gsum. rewrite <- rsum_map_scal. rewrite map_map || idtac.
  apply rsum_map_ext. intros t Ht. apply in_seq in Ht. rewrite <- rsum_map_scal. apply rsum_map_ext. intros k Hk. apply in_seq in Hk.
  rewrite (moved_entry a b sz d x), (moved_entry a b sz d c) by (auto; lia). unfold sq. ring.
Qed.
Lemma rser_ext sz d x y : real_series d x /\ length x = sz -> real_series d y /\ length y = sz ->
  (forall t k, (t < sz)%nat -> (k < d)%nat -> entry x t k = entry y t k) -> x = y.
Proof.
  intros Hx Hy H. apply lift_inj. rewrite (lift_of_shape sz d x Hx), (lift_of_shape sz d y Hy). unfold xgrid. apply map_ext_in. intros t Ht. apply in_seq in Ht.
  unfold grow. apply map_ext_in. intros k Hk. apply in_seq in Hk. f_equal. apply H; lia.
Qed.
Lemma moved_mean a b sz d l l' : (0 < sz)%nat -> (0 < d)%nat -> l <> [] -> of_shape sz d l -> Permutation l' (map (moved a b) l) ->
  mean_of sz d l' = moved a b (mean_of sz d l).
Proof.
  intros Hs Hd Hne Hl P. apply (rser_ext sz d); [apply mean_of_shape; auto|apply moved_shape; apply mean_of_shape; auto|].
  intros t k Ht Hk. rewrite (moved_entry a b sz d) by (auto; apply mean_of_shape; auto). rewrite !mean_entry by auto.
  assert (Q : Permutation (map (fun x => entry x t k) l') (map (fun v => a * v + b t k) (map (fun x => entry x t k) l))).
  { apply (Permutation_map (fun x => entry x t k)) in P. rewrite map_map in P. rewrite map_map.
    rewrite (map_ext_in (fun x => entry (moved a b x) t k) (fun x => a * entry x t k + b t k)) in P; auto.
    intros x Hx. apply (moved_entry a b sz d); auto. }
  unfold mean at 1. rewrite (rsum_perm _ _ Q), (Permutation_length Q). fold (mean (map (fun v => a * v + b t k) (map (fun x => entry x t k) l))).
  set (m := map (fun x => entry x t k) l). assert (Hm : m <> []) by (unfold m; destruct l; [congruence|discriminate]). clearbody m. clear -Hm.
  unfold mean. rewrite map_length. assert (Hn : INR (length m) <> 0) by (apply not_0_INR; destruct m; [congruence|simpl; lia]).
  rewrite rsum_map_plus, rsum_map_scal, map_id, rsum_const. field. auto.
Qed.
Lemma nearest_moved a b sz d cs x : a <> 0 -> of_shape sz d cs -> real_series d x /\ length x = sz ->
  nearest (sq_distance sz d) (map (moved a b) cs) (moved a b x) = nearest (sq_distance sz d) cs x.
Proof.
  intros Ha Hc Hx. unfold nearest. rewrite <- (argmin_mono (fun v => a * a * v) (map (sq_distance sz d x) cs)).
  - f_equal. f_equal. rewrite !map_map. apply map_ext_in. intros c Hi. apply sq_moved; auto.
  - intros u v _ _ H. assert (0 < a * a) by nra. nra.
Qed.

(** ** two runs side by side *)
Lemma reorder_combine {A B} (o : list nat) (l : list A) (m : list B) y z : length m = length l -> Permutation o (seq 0 (length l)) ->
  Permutation (combine (reordered o y l) (reordered o z m)) (combine l m).
Proof.
  intros L P. assert (E : combine (reordered o y l) (reordered o z m) = map (fun i => (nth i l y, nth i m z)) o).
  { unfold reordered. clear. induction o as [|i o IH]; simpl; auto. rewrite IH. auto. }
  rewrite E. apply (Permutation_map (fun i => (nth i l y, nth i m z))) in P. eapply Permutation_trans; [exact P|].
  assert (F : map (fun i => (nth i l y, nth i m z)) (seq 0 (length l)) = combine l m).
  { clear -L. revert m L. induction l as [|x l IH]; intros [|w m] L; try discriminate; auto. cbn [length seq map nth combine]. f_equal.
    rewrite <- (IH m) by (simpl in L; lia). rewrite <- seq_shift, map_map. reflexivity. }
  rewrite F. reflexivity.
Qed.
Lemma reorder_perm {A} (o : list nat) (l : list A) z : Permutation o (seq 0 (length l)) -> Permutation (reordered o z l) l.
Proof.
  intros P. unfold reordered. apply (Permutation_map (fun i => nth i l z)) in P. eapply Permutation_trans; [exact P|].
  rewrite <- (list_nth_seq l z). reflexivity.
Qed.
Lemma rescaled_ltb c x y : 0 < c -> xltb (rescaled c x) (rescaled c y) = xltb x y.
Proof.
  intros Hc. destruct x as [x| | |], y as [y| | |]; try reflexivity. cbn [rescaled]. rewrite !xltb_R.
  destruct (Rltb x y) eqn:E; [apply Rltb_true in E; apply Rltb_true|apply Rltb_false in E; apply Rltb_false]; nra.
Qed.
Lemma rescaled_gap c x y : 0 < c -> xabs (xsub (rescaled c x) (rescaled c y)) = rescaled c (xabs (xsub x y)).
Proof.
  intros Hc. destruct x as [x| | |], y as [y| | |]; try reflexivity. unfold xsub. cbn [rescaled xopp xadd xabs]. f_equal.
  replace (c * x + - (c * y)) with (c * (x + - y)) by ring. rewrite Rabs_mult, (Rabs_right c) by lra. reflexivity.
Qed.

Section Twin.
Variables (p : km_params) (sz d : nat) (xs : list rser) (o : list nat) (a : R) (b : nat -> nat -> R).
Hypothesis Hp : euclidean_kmeans p.
Hypothesis Hne : xs <> [].
Hypothesis Hx : of_shape sz d xs.
Hypothesis Ha : a <> 0.
Hypothesis Ho : Permutation o (seq 0 (length xs)).
Let p' := with_tol (rescaled (a * a) (tol p)) p.
Let xs' : list rser := reordered (A:=rser) o [] (map (moved a b) xs).
Let X := map lift xs.
Let X' := map lift xs'.
Let K := n_clusters p.
Let loss := sq_distance sz d.
Let follow := estimators_follow o a b sz d K xs.
Lemma aa_pos : 0 < a * a. Proof. nra. Qed.
Lemma mx_len : length (map (moved a b) xs) = length xs. Proof. apply map_length. Qed.
Lemma Ho' : Permutation o (seq 0 (length (map (moved a b) xs))). Proof. rewrite map_length. exact Ho. Qed.
Lemma xs'_in x : In x xs' -> exists y, In y xs /\ x = moved a b y.
Proof.
  intros H. apply (Permutation_in x (reorder_perm o _ [] Ho')) in H. apply in_map_iff in H. destruct H as (y & <- & Hy). eauto.
Qed.
Lemma Hx' : of_shape sz d xs'.
Proof. intros x H. destruct (xs'_in x H) as (y & Hy & ->). apply moved_shape. auto. Qed.
Lemma len' : length xs' = length xs.
Proof. unfold xs'. etransitivity; [apply (Permutation_length (reorder_perm o _ [] Ho'))|]. apply mx_len. Qed.
Lemma Hne' : xs' <> [].
Proof. intros E. apply (f_equal (@length _)) in E. pose proof len' as L. destruct xs as [|x l] eqn:Ex; [congruence|]. unfold rser in *. rewrite E in L. discriminate. Qed.
Lemma nearests' cs : of_shape sz d cs -> nearests xs' loss (map (moved a b) cs) = reordered o 0%nat (nearests xs loss cs).
Proof.
  intros Hc. unfold nearests, xs', reordered. rewrite map_map. apply map_ext_in. intros i Hi.
  apply (Permutation_in i Ho) in Hi. apply in_seq in Hi.
  rewrite (nth_indep _ [] (moved a b [])) by (rewrite map_length; lia). rewrite (map_nth (moved a b)).
  rewrite (nth_indep _ 0%nat (nearest loss cs [])) by (rewrite map_length; lia). rewrite (map_nth (nearest loss cs)).
  apply nearest_moved; auto. apply Hx. apply nth_In. lia.
Qed.
Lemma pairs' labels : length labels = length xs ->
  Permutation (combine xs' (reordered o 0%nat labels)) (map (fun q => (moved a b (fst q), snd q)) (combine xs labels)).
Proof.
  intros L. eapply Permutation_trans; [apply reorder_combine; [rewrite map_length; auto|apply Ho']|].
  assert (E : combine (map (moved a b) xs) labels = map (fun q => (moved a b (fst q), snd q)) (combine xs labels)).
  { clear. revert labels. induction xs as [|x l IH]; intros [|j labels]; simpl; auto. f_equal. apply IH. }
  pose proof (Permutation_refl (combine (map (moved a b) xs) labels)) as Q. rewrite E in Q at 2. exact Q.
Qed.
Lemma cluster' labels k : length labels = length xs -> Permutation (cluster xs' (reordered o 0%nat labels) k) (map (moved a b) (cluster xs labels k)).
Proof.
  intros L. unfold cluster. pose proof (pairs' labels L) as P.
  assert (F : forall (A : Type) (f : A -> bool) (l l' : list A), Permutation l l' -> Permutation (filter f l) (filter f l')).
  { intros A f l l' Q. induction Q as [|x l l' Q IH|x y l|l l1 l2 Q1 IH1 Q2 IH2]; simpl; auto.
    - destruct (f x); auto.
    - destruct (f x), (f y); auto. apply perm_swap.
    - eapply Permutation_trans; eauto. }
  apply (F _ (fun q => (snd q =? k)%nat)) in P. apply (Permutation_map fst) in P.
  assert (E : map fst (filter (fun q : rser * nat => (snd q =? k)%nat) (map (fun q => (moved a b (fst q), snd q)) (combine xs labels))) =
     map (moved a b) (map fst (filter (fun q : rser * nat => (snd q =? k)%nat) (combine xs labels)))).
  { clear. induction (combine xs labels) as [|[x j] l IH]; simpl; auto. destruct (j =? k)%nat; simpl; rewrite IH; auto. }
  rewrite <- E. exact P.
Qed.
Lemma mean_loss' cs labels : of_shape sz d cs -> length labels = length xs -> (forall l, In l labels -> (l < length cs)%nat) ->
  mean_loss loss xs' (map (moved a b) cs) (reordered o 0%nat labels) = a * a * mean_loss loss xs cs labels.
Proof.
  intros Hc L Hl. unfold mean_loss. rewrite len'. unfold Rdiv. rewrite <- Rmult_assoc. f_equal.
  pose proof (pairs' labels L) as P. apply (Permutation_map (fun q => loss (fst q) (nth (snd q) (map (moved a b) cs) []))) in P.
  rewrite (rsum_perm _ _ P). rewrite map_map. rewrite <- rsum_map_scal. apply rsum_map_ext. intros [x j] Hi. cbn [fst snd].
  pose proof (in_combine_l _ _ _ _ Hi) as H1. pose proof (in_combine_r _ _ _ _ Hi) as H2.
  rewrite (nth_indep _ [] (moved a b [])) by (rewrite map_length; auto). rewrite (map_nth (moved a b)).
  apply sq_moved; auto. apply Hc. apply nth_In. auto.
Qed.
Lemma labels_in labels k : length labels = length xs -> In k (reordered o 0%nat labels) <-> In k labels.
Proof.
  intros L. assert (P : Permutation (reordered o 0%nat labels) labels) by (apply reorder_perm; rewrite L; auto).
  split; apply Permutation_in; auto. apply Permutation_sym; auto.
Qed.
Lemma no_empty' labels : length labels = length xs -> no_empty_cluster (reordered o 0%nat labels) K = no_empty_cluster labels K.
Proof.
  intros L. apply eq_true_iff_eq. rewrite !no_empty_spec. split; intros H k Hk; apply (labels_in labels k L); auto.
Qed.
Lemma Hp' : euclidean_kmeans p'. Proof. exact Hp. Qed.
Definition shaped (cs : list rser) : Prop := length cs = K /\ of_shape sz d cs.
Lemma moved_cs cs : of_shape sz d cs -> of_shape sz d (map (moved a b) cs).
Proof. intros H c Hc. apply in_map_iff in Hc. destruct Hc as (y & <- & Hy). apply moved_shape. auto. Qed.
Hypothesis HK : (0 < K)%nat.
Lemma shaped_ne cs : shaped cs -> cs <> []. Proof. intros [L _] ->. simpl in L. lia. Qed.

(** outcomes side by side *)
Definition twin {A} (r r' : km_state * res A) : Prop := follow (fst r) (fst r') /\
  match snd r, snd r' with Ok _, Ok _ => True | Err e, Err e' => e = e' | _, _ => False end.
Lemma assign_one q ys cs s : euclidean_kmeans q -> n_clusters q = K -> ys <> [] -> of_shape sz d ys -> shaped cs -> cluster_centers_ s = Some (map lift cs) ->
  assign_ q (map lift ys) s = if no_empty_cluster (nearests ys loss cs) K then
    (set_inertia (XR (mean_loss loss ys cs (nearests ys loss cs))) (set_labels (nearests ys loss cs) s), Ok (nearests ys loss cs))
    else (set_labels (nearests ys loss cs) s, Err EmptyClusterError).
Proof.
  intros Hq HKq Ny Hy [L HS] Hc. destruct (euclid_sound q sz d ys Hq Ny Hy) as (A1 & A2 & A3 & A4 & A5). rewrite <- HKq.
  apply (assign_run q lift ys (fun c => real_series d c /\ length c = sz) loss (fun ys _ c' => is_mean sz d ys c') A1 A2 A3 A4 A5); auto. split; [congruence|]. split; [apply shaped_ne; split; auto|exact HS].
Qed.
Lemma assign_twin cs s s' : shaped cs -> follow s s' -> cluster_centers_ s = Some (map lift cs) -> cluster_centers_ s' = Some (map lift (map (moved a b) cs)) ->
  twin (assign_ p X s) (assign_ p' X' s') /\
  (forall l, snd (assign_ p X s) = Ok l -> l = nearests xs loss cs /\ labels_ (fst (assign_ p X s)) = Some l /\
     cluster_centers_ (fst (assign_ p X s)) = Some (map lift cs) /\ cluster_centers_ (fst (assign_ p' X' s')) = Some (map lift (map (moved a b) cs)) /\
     (forall k, (k < K)%nat -> In k l)).
Proof.
  intros HS F EC EC'. pose proof HS as [L S0].
  assert (HS' : shaped (map (moved a b) cs)) by (split; [rewrite map_length; auto|apply moved_cs; auto]).
  unfold X, X'. rewrite (assign_one p xs cs s Hp eq_refl Hne Hx HS EC), (assign_one p' xs' _ s' Hp' eq_refl Hne' Hx' HS' EC').
  rewrite nearests' by auto. assert (LN : length (nearests xs loss cs) = length xs) by apply map_length.
  rewrite no_empty' by auto.
  assert (NL : forall l, In l (nearests xs loss cs) -> (l < length cs)%nat).
  { intros l Hl. apply in_map_iff in Hl. destruct Hl as (x & <- & _). apply (nearest_spec loss cs x). apply shaped_ne; auto. }
  rewrite mean_loss' by auto. destruct F as (F1 & F2 & F3 & F4 & F5 & F6 & F7).
  destruct (no_empty_cluster (nearests xs loss cs) K) eqn:En.
  - split.
    + split; [|exact I]. unfold follow, estimators_follow. cbn. repeat (split; [auto; fail|]). auto.
    + intros l E. injection E as <-. do 4 (split; [auto; fail|]). apply no_empty_spec. auto.
  - split; [|discriminate]. split; [|reflexivity]. unfold follow, estimators_follow. cbn. repeat (split; [auto; fail|]). auto.
Qed.
Lemma centre_one q ys labels k c : euclidean_kmeans q -> of_shape sz d ys -> (0 < sz)%nat -> cluster ys labels k <> [] ->
  new_center q (map lift ys) labels k c = Ok (lift (mean_of sz d (cluster ys labels k))).
Proof.
  intros Hq Hy Hs Hc. unfold new_center. destruct Hq as [-> _]. rewrite members_map. f_equal. apply mean_series_real; auto.
  apply (sub_shape sz d ys); auto. intros y. apply cluster_in.
Qed.
Lemma update_twin labels : length labels = length xs -> (forall k, (k < K)%nat -> In k labels) ->
  forall ks cs s s', (forall k, In k ks -> (k < K)%nat) -> shaped cs -> follow s s' -> labels_ s = Some labels ->
  cluster_centers_ s = Some (map lift cs) -> cluster_centers_ s' = Some (map lift (map (moved a b) cs)) ->
  exists cs1 s1 s1', update_centroids_ p X ks s = (s1, Ok tt) /\ update_centroids_ p' X' ks s' = (s1', Ok tt) /\ shaped cs1 /\ follow s1 s1' /\
    cluster_centers_ s1 = Some (map lift cs1) /\ cluster_centers_ s1' = Some (map lift (map (moved a b) cs1)).
Proof.
  intros L Hin. destruct (shape_pos sz d xs Hne Hx) as [Hs Hd].
  induction ks as [|k ks IH]; intros cs s s' Hk HS F EL EC EC'.
  - exists cs, s, s'. cbn [update_centroids_]. do 5 (split; [auto; fail|]). auto.
  - assert (Kk : (k < K)%nat) by (apply Hk; left; auto).
    assert (NE : cluster xs labels k <> []) by (apply cluster_ne; auto).
    assert (NE' : cluster xs' (reordered o 0%nat labels) k <> []).
    { intros E. pose proof (cluster' labels k L) as P. rewrite E in P. apply Permutation_nil in P. apply map_eq_nil in P. auto. }
    assert (SC : of_shape sz d (cluster xs labels k)) by (apply (sub_shape sz d xs); auto; intros y; apply cluster_in).
    pose proof F as (F1 & F2 & F3 & F4 & F5 & F6 & F7). rewrite EL in F1. cbn [option_map] in F1.
    cbn [update_centroids_]. rewrite EC, EL, EC', F1.
    unfold X, X'. rewrite (centre_one p xs labels k _ Hp Hx Hs NE). rewrite (centre_one p' xs' _ k _ Hp' Hx' Hs NE').
    rewrite (moved_mean a b sz d (cluster xs labels k) (cluster xs' (reordered o 0%nat labels) k)); auto; [|apply cluster'; auto].
    set (c := mean_of sz d (cluster xs labels k)).
    assert (Gc : real_series d c /\ length c = sz) by (apply mean_of_shape; auto).
    assert (R1 : replace_nth k (lift c) (map lift cs) = map lift (replace_nth k c cs)) by apply replace_nth_map.
    assert (R2 : replace_nth k (lift (moved a b c)) (map lift (map (moved a b) cs)) = map lift (map (moved a b) (replace_nth k c cs))).
    { etransitivity; [apply replace_nth_map|]. f_equal. apply replace_nth_map. }
    unfold array3, series in *. rewrite R1. rewrite R2.
    set (cs1 := replace_nth k c cs). fold X X'.
    assert (HS1 : shaped cs1).
    { destruct HS as [Lc Sc]. split; [unfold cs1; rewrite replace_nth_len; auto|]. intros y Hy. apply in_replace_nth in Hy. destruct Hy as [->|Hy]; auto. }
    apply (IH cs1 (set_centers (map lift cs1) s) (set_centers (map lift (map (moved a b) cs1)) s')); auto.
    + intros j Hj. apply Hk. right. auto.
    + unfold follow, estimators_follow. cbn. rewrite EL, F1. repeat (split; [auto; fail|]). split; [|auto]. exists cs1. destruct HS1. auto.
Qed.
Lemma follow_iter n s s' : follow s s' -> follow (set_iter n s) (set_iter n s').
Proof. intros (F1 & F2 & F3 & F4 & F5 & F6 & F7). unfold follow, estimators_follow. cbn. repeat (split; [auto; fail|]). auto. Qed.
Lemma lloyd_twin more : forall it old s s' cs, shaped cs -> follow s s' -> cluster_centers_ s = Some (map lift cs) ->
  cluster_centers_ s' = Some (map lift (map (moved a b) cs)) ->
  twin (lloyd p X it more old s) (lloyd p' X' it more (rescaled (a * a) old) s').
Proof.
  induction more as [|more IH]; intros it old s s' cs HS F EC EC'.
  - cbn [lloyd]. split; [|exact I]. cbn [fst]. apply follow_iter. auto.
  - rewrite !lloyd_step. destruct (assign_twin cs s s' HS F EC EC') as [[T1 T2] T3].
    destruct (assign_ p X s) as [s1 [l|e]] eqn:E1, (assign_ p' X' s') as [s1' [l'|e']] eqn:E1'; cbn [fst snd] in *; try contradiction;
      [|split; [exact T1|exact T2]].
    destruct (T3 l eq_refl) as (El & Ll & C1 & C1' & Hall).
    assert (Len : length l = length xs) by (subst l; apply map_length).
    destruct (update_twin l Len Hall (seq 0 K) cs s1 s1') as (cs1 & s2 & s2' & U & U' & HS1 & F2 & C2 & C2'); auto.
    { intros k Hk. apply in_seq in Hk. lia. }
    change (n_clusters p') with K. change (n_clusters p) with K. rewrite U, U'.
    pose proof F2 as (_ & I2 & _). rewrite I2. rewrite rescaled_gap by apply aa_pos. unfold p' at 1. cbn [tol with_tol].
    rewrite rescaled_ltb by apply aa_pos. destruct (xltb _ _).
    + split; [|exact I]. cbn [fst]. apply follow_iter. auto.
    + apply (IH (S it) (inertia_ s2) s2 s2' cs1); auto.
Qed.
Lemma follow_centers C C' s s' : centres_follow a b sz d K (Some C) (Some C') -> follow s s' -> follow (set_centers C s) (set_centers C' s').
Proof. intros H (F1 & F2 & F3 & F4 & F5 & F6 & F7). unfold follow, estimators_follow. cbn [set_centers labels_ inertia_ cluster_centers_ iter_ n_iter_ X_fit_ n_features_in_]. repeat (split; [auto; fail|]). auto. Qed.
Lemma one_init_twin C C' s s' : centres_follow a b sz d K (Some C) (Some C') -> follow s s' ->
  twin (fit_one_init p X (Ok C) s) (fit_one_init p' X' (Ok C') s').
Proof.
  intros HC F. pose proof HC as (cs & Lc & Sc & -> & ->). unfold fit_one_init. assert (HS : shaped cs) by (split; auto).
  rewrite (check_full_length_shape sz d cs (shaped_ne cs HS) Sc).
  rewrite (check_full_length_shape sz d (map (moved a b) cs)); [|intros E; apply map_eq_nil in E; apply (shaped_ne cs HS E)|apply moved_cs; auto].
  set (t := set_centers (map lift cs) s). set (t' := set_centers (map lift (map (moved a b) cs)) s').
  assert (Ft : follow (set_centers (map lift cs) t) (set_centers (map lift (map (moved a b) cs)) t')) by (apply follow_centers; auto; apply follow_centers; auto).
  change (max_iter p') with (max_iter p). destruct (max_iter p =? 0)%nat; [split; [exact Ft|reflexivity]|].
  change XInf with (rescaled (a * a) XInf) at 2. apply lloyd_twin with (cs := cs); auto.
Qed.
Definition twin_best (r r' : km_state * res (option array3 * xr)) : Prop := follow (fst r) (fst r') /\
  match snd r, snd r' with
  | Ok (C, v), Ok (C', v') => centres_follow a b sz d K C C' /\ v' = rescaled (a * a) v
  | Err e, Err e' => e = e' | _, _ => False end.
Lemma attempts_twin draw draw' : (forall n, exists C C', draw n = Ok C /\ draw' n = Ok C' /\ centres_follow a b sz d K (Some C) (Some C')) ->
  forall remaining n ns best best' mi s s', centres_follow a b sz d K best best' -> follow s s' ->
  twin_best (attempts p X draw n remaining ns best mi s) (attempts p' X' draw' n remaining ns best' (rescaled (a * a) mi) s').
Proof.
  intros HD. induction remaining as [|r IH]; intros n ns best best' mi s s' HB F.
  - cbn [attempts]. split; auto. split; auto.
  - cbn [attempts]. change (n_init p') with (n_init p). destruct (n_init p <=? ns)%nat; [split; auto; split; auto|].
    destruct (HD n) as (C & C' & -> & -> & HC). destruct (one_init_twin C C' s s' HC F) as [T1 T2].
    destruct (fit_one_init p X (Ok C) s) as [s1 [[]|e]], (fit_one_init p' X' (Ok C') s') as [s1' [[]|e']]; cbn [fst snd] in *; try contradiction.
    + pose proof T1 as (F1 & F2 & F3 & F4 & F5 & F6 & F7). rewrite F2. rewrite rescaled_ltb by apply aa_pos.
      destruct (xltb _ _); [|apply IH; auto]. apply IH; auto. rewrite F4.
      unfold follow, estimators_follow. cbn [set_n_iter labels_ inertia_ cluster_centers_ iter_ n_iter_ X_fit_ n_features_in_]. repeat (split; [auto; fail|]). auto.
    + subst e'. destruct e; try (split; [exact T1|reflexivity]). apply IH; auto.
Qed.
Lemma arr_d_twin : arr_d X' = arr_d X.
Proof. unfold X, X'. destruct (arr_shape sz d xs Hne Hx) as [_ ->]. destruct (arr_shape sz d xs' Hne' Hx') as [_ ->]. reflexivity. Qed.
Lemma post_twin C C' v s s' : centres_follow a b sz d K C C' -> follow s s' -> twin (post_fit p X C v s) (post_fit p' X' C' (rescaled (a * a) v) s').
Proof.
  intros HC F. unfold post_fit. replace (xisfinite (rescaled (a * a) v)) with (xisfinite v) by (destruct v; reflexivity).
  assert (NONE : twin (set_features (arr_d X) (set_X_fit None s), @Ok unit tt) (set_features (arr_d X') (set_X_fit None s'), @Ok unit tt)).
  { destruct F as (F1 & F2 & F3 & F4 & F5 & F6 & F7). split; [|exact I]. unfold follow, estimators_follow.
    cbn [fst set_features set_X_fit labels_ inertia_ cluster_centers_ iter_ n_iter_ X_fit_ n_features_in_]. rewrite arr_d_twin. repeat (split; [auto; fail|]). auto. }
  destruct (xisfinite v); [|exact NONE]. destruct C as [C|], C' as [C'|]; try contradiction; [|exact NONE].
  pose proof HC as (cs & Lc & Sc & -> & ->).
  destruct (assign_twin cs (set_centers (map lift cs) s) (set_centers (map lift (map (moved a b) cs)) s') (conj Lc Sc) (follow_centers _ _ _ _ HC F) eq_refl eq_refl) as [[T1 T2] _].
  destruct (assign_ p X _) as [s1 [l|e]], (assign_ p' X' _) as [s1' [l'|e']]; cbn [fst snd] in *; try contradiction; [|split; [exact T1|exact T2]].
  destruct T1 as (F1 & F2 & F3 & F4 & F5 & F6 & F7). split; [|exact I]. unfold follow, estimators_follow.
  cbn [fst set_features set_X_fit set_inertia labels_ inertia_ cluster_centers_ iter_ n_iter_ X_fit_ n_features_in_]. rewrite arr_d_twin.
  do 5 (split; [auto; fail|]). split; [|reflexivity]. right. split; reflexivity.
Qed.
Lemma fit_twin i i' s : inits_follow a b sz d K i i' -> twin (fit p i X s) (fit p' i' X' s).
Proof.
  intros HI. unfold fit.
  assert (IN : forall C C', centres_follow a b sz d K (Some C) (Some C') -> (arr_d C = d /\ arr_sz C = sz) /\ (arr_d C' = d /\ arr_sz C' = sz) /\ length C = K /\ length C' = K).
  { intros C C' (cs & Lc & Sc & -> & ->). assert (NE : cs <> []) by (apply shaped_ne; split; auto).
    destruct (arr_shape sz d cs NE Sc) as [-> ->]. destruct (arr_shape sz d (map (moved a b) cs)) as [-> ->];
      [intros E; apply map_eq_nil in E; auto|apply moved_cs; auto|]. rewrite !map_length. auto. }
  assert (E1 : fit_input p i X = Ok X).
  { apply (eu_input p sz d); auto. intros C ->. destruct i' as [C'|f']; [|contradiction]. apply (IN C C' HI). }
  assert (E2 : fit_input p' i' X' = Ok X').
  { apply (eu_input p' sz d); [apply Hne'|apply Hx'|]. intros C' ->. destruct i as [C|f]; [|contradiction]. apply (IN C C' HI). }
  rewrite E1, E2. unfold X at 1, X' at 1. rewrite (variable_length_shape sz d xs Hne Hx), (variable_length_shape sz d xs' Hne' Hx').
  assert (G1 : check_initial_guess p i = Ok tt /\ check_initial_guess p' i' = Ok tt).
  { destruct i as [C|f], i' as [C'|f']; try contradiction; auto. destruct (IN C C' HI) as (_ & _ & L1 & L2). cbn [check_initial_guess].
    change (n_clusters p') with K. change (n_clusters p) with K. rewrite L1, L2, Nat.eqb_refl. auto. }
  destruct G1 as [-> ->]. fold X X'. unfold seqm. change (n_init p') with (n_init p).
  assert (D : forall n, exists C C', draws i n = Ok C /\ draws i' n = Ok C' /\ centres_follow a b sz d K (Some C) (Some C')).
  { intros n. destruct i as [C|f], i' as [C'|f']; try contradiction; [exists C, C'; auto|apply HI]. }
  assert (F0 : follow (reset s) (reset s)) by (unfold follow, estimators_follow; cbn; repeat (split; [auto; fail|]); auto).
  destruct (attempts_twin (draws i) (draws i') D (Nat.max (n_init p) 10) 0 0 None None XInf (reset s) (reset s) I F0) as [T1 T2].
  change (rescaled (a * a) XInf) with XInf in *.
  destruct (attempts p X _ _ _ _ _ _ _) as [s1 [[C v]|e]], (attempts p' X' _ _ _ _ _ _ _) as [s1' [[C' v']|e']]; cbn [fst snd] in *; try contradiction;
    [|split; [exact T1|exact T2]]. destruct T2 as [HC ->]. apply post_twin; auto.
Qed.
End Twin.

Lemma predict_one q sz d ys cs s : euclidean_kmeans q -> ys <> [] -> of_shape sz d ys -> cs <> [] -> of_shape sz d cs -> cluster_centers_ s = Some (map lift cs) ->
  predict q s (map lift ys) = Ok (nearests ys (sq_distance sz d) cs).
Proof.
  intros [Hm Hi] Ny Hy Nc Hc EC. unfold predict.
  assert (EI : fit_input q (InitArray (map lift cs)) (map lift ys) = Ok (map lift ys)).
  { apply (eu_input q sz d); auto. intros C0 E. injection E as <-. destruct (arr_shape sz d cs Nc Hc). auto. }
  unfold fit_input in EI. destruct (check_arr (map lift ys)) as [X1|e]; [|discriminate]. cbn [bind] in *. destruct (check_values q X1); [|discriminate].
  rewrite EC. destruct (_ && _); [|discriminate]. injection EI as ->.
  refine (eq_trans (f_equal (fun r => bind r _) (transform_euclid q sz d ys cs Hm Hy Hc)) _). cbn [bind].
  f_equal. rewrite map_map. unfold nearests. apply map_ext_in. intros x Hx. apply (nearest_sqrt ys (fun c => real_series d c /\ length c = sz)); auto.
  intros; apply sq_distance_nonneg.
Qed.

(** ** The theorems *)
(** from the same state, the training on the series moved and in another order, with
    the initial centres moved the same way and the tolerance in the square of the new
    unit, ends the same way: same exception or none, same attributes up to the
    conversion, labels in the new order *)
Theorem C204_fit p sz d xs o a b i i' s : euclidean_kmeans p -> (0 < n_clusters p)%nat -> xs <> [] -> of_shape sz d xs -> a <> 0 ->
  Permutation o (seq 0 (length xs)) -> inits_follow a b sz d (n_clusters p) i i' ->
  let r := fit p i (map lift xs) s in
  let r' := fit (with_tol (rescaled (a * a) (tol p)) p) i' (map lift (reordered o [] (map (moved a b) xs))) s in
  estimators_follow o a b sz d (n_clusters p) xs (fst r) (fst r') /\ snd r' = snd r.
Proof.
  intros Hp HK Hne Hx Ha Ho HI r r'. pose proof (fit_twin p sz d xs o a b Hp Hne Hx Ha Ho HK i i' s HI) as T.
  change (twin p sz d xs o a b r r') in T. destruct T as [T1 T2]. split; [exact T1|]. clear T1.
  clearbody r r'. destruct r as [s1 [[]|e]], r' as [s1' [[]|e']]; cbn [snd] in *; try contradiction; [reflexivity|rewrite T2; reflexivity].
Qed.
Print Assumptions C204_fit.
(** no conversion of the tolerance when only the origin (possibly a different one at
    each time step and feature) or the sense of the axis changes *)
Lemma with_same_tol p : with_tol (tol p) p = p. Proof. destruct p. reflexivity. Qed.
Lemma rescaled_1 x : rescaled 1 x = x. Proof. destruct x; auto. cbn [rescaled]. f_equal. lra. Qed.
Theorem C204_origin p sz d xs o a b i i' s : euclidean_kmeans p -> (0 < n_clusters p)%nat -> xs <> [] -> of_shape sz d xs -> a = 1 \/ a = -1 ->
  Permutation o (seq 0 (length xs)) -> inits_follow a b sz d (n_clusters p) i i' ->
  let r := fit p i (map lift xs) s in
  let r' := fit p i' (map lift (reordered o [] (map (moved a b) xs))) s in
  snd r' = snd r /\ labels_ (fst r') = option_map (reordered o 0%nat) (labels_ (fst r)) /\ inertia_ (fst r') = inertia_ (fst r) /\
  n_iter_ (fst r') = n_iter_ (fst r) /\ centres_follow a b sz d (n_clusters p) (cluster_centers_ (fst r)) (cluster_centers_ (fst r')).
Proof.
  intros Hp HK Hne Hx Ha Ho HI r r'. assert (A1 : a * a = 1) by (destruct Ha; subst; lra). assert (A0 : a <> 0) by (destruct Ha; subst; lra).
  pose proof (C204_fit p sz d xs o a b i i' s Hp HK Hne Hx A0 Ho HI) as T. rewrite A1, rescaled_1, with_same_tol in T.
  change (estimators_follow o a b sz d (n_clusters p) xs (fst r) (fst r') /\ snd r' = snd r) in T.
  destruct T as [(F1 & F2 & F3 & F4 & F5 & F6 & F7) E]. rewrite A1, rescaled_1 in F2. auto.
Qed.
Print Assumptions C204_origin.
(** series given in another order: the labels follow, everything else is the same *)
Lemma moved_0 x : moved 1 (fun _ _ => 0) x = x.
Proof.
  apply (nth_ext _ _ [] []); [apply moved_len|]. intros t Ht. rewrite moved_len in Ht. rewrite moved_nth by auto.
  apply (nth_ext _ _ 0 0); [apply mapi_len|]. intros k Hk. rewrite mapi_len in Hk. rewrite (mapi_nth _ _ k 0 0) by auto. lra.
Qed.
Lemma moved_0s l : map (moved 1 (fun _ _ => 0)) l = l.
Proof. rewrite (map_ext _ (fun x => x)) by apply moved_0. apply map_id. Qed.
Theorem C204_order p sz d xs o cs0 s : euclidean_kmeans p -> (0 < n_clusters p)%nat -> xs <> [] -> of_shape sz d xs -> length cs0 = n_clusters p -> of_shape sz d cs0 ->
  Permutation o (seq 0 (length xs)) ->
  let r := fit p (InitArray (map lift cs0)) (map lift xs) s in
  let r' := fit p (InitArray (map lift cs0)) (map lift (reordered o [] xs)) s in
  snd r' = snd r /\ labels_ (fst r') = option_map (reordered o 0%nat) (labels_ (fst r)) /\ inertia_ (fst r') = inertia_ (fst r) /\
  n_iter_ (fst r') = n_iter_ (fst r) /\ cluster_centers_ (fst r') = cluster_centers_ (fst r).
Proof.
  intros Hp HK Hne Hx Lc Sc Ho r r'.
  pose proof (C204_origin p sz d xs o 1 (fun _ _ => 0) (InitArray (map lift cs0)) (InitArray (map lift cs0)) s Hp HK Hne Hx (or_introl eq_refl) Ho) as T.
  rewrite moved_0s in T. destruct T as (E1 & E2 & E3 & E4 & E5).
  { exists cs0. rewrite moved_0s. auto. }
  do 4 (split; [assumption|]). fold r r' in E5.
  destruct (cluster_centers_ (fst r)) as [C|], (cluster_centers_ (fst r')) as [C'|]; try contradiction; auto.
  destruct E5 as (cs & _ & _ & -> & ->). rewrite moved_0s. reflexivity.
Qed.
Print Assumptions C204_order.
(** and so do the predictions for new series, expressed the same way *)
Theorem C204_predict p t sz d ys a b s s' : euclidean_kmeans p -> (0 < n_clusters p)%nat -> ys <> [] -> of_shape sz d ys -> a <> 0 ->
  centres_follow a b sz d (n_clusters p) (cluster_centers_ s) (cluster_centers_ s') -> cluster_centers_ s <> None ->
  exists labels, predict p s (map lift ys) = Ok labels /\ predict (with_tol t p) s' (map lift (map (moved a b) ys)) = Ok labels.
Proof.
  intros Hp HK Ny Hy Ha HC NN. destruct (cluster_centers_ s) as [C|] eqn:EC; [|congruence]. destruct (cluster_centers_ s') as [C'|] eqn:EC'; [|contradiction].
  destruct HC as (cs & Lc & Sc & -> & ->). assert (Nc : cs <> []) by (intros ->; simpl in Lc; lia).
  exists (nearests ys (sq_distance sz d) cs). split; [apply predict_one; auto|].
  rewrite (predict_one (with_tol t p) sz d (map (moved a b) ys) (map (moved a b) cs) s').
  - f_equal. unfold nearests. rewrite map_map. apply map_ext_in. intros x Hx. apply nearest_moved; auto.
  - exact Hp.
  - intros E. apply map_eq_nil in E. auto.
  - apply moved_cs; auto.
  - intros E. apply map_eq_nil in E. auto.
  - apply moved_cs; auto.
  - auto.
Qed.
Print Assumptions C204_predict.

(** ** the tolerance is not converted by the library *)
Definition km3 (t : R) : km_params := {| n_clusters := 2; max_iter := 3; tol := XR t; n_init := 1; km_met := KmEuclidean; dtw_inertia := false |}.
Lemma km3_euclid t : euclidean_kmeans (km3 t). Proof. split; reflexivity. Qed.
Definition five : list Z := [8; 12; 16; 19; 37]%Z.
Notation loss11 := (sq_distance 1 1).
Lemma phase t C labels c0 c1 s it more old : length C = 2%nat -> nearests (pts five) loss11 (pts C) = labels -> In 0%nat labels -> In 1%nat labels ->
  mean_of 1 1 (cluster (pts five) labels 0) = [[IZR c0]] -> mean_of 1 1 (cluster (pts five) labels 1) = [[IZR c1]] ->
  cluster_centers_ s = Some (map lift (pts C)) ->
  exists s2, cluster_centers_ s2 = Some (map lift (pts [c0; c1])) /\ inertia_ s2 = XR (mean_loss loss11 (pts five) (pts C) labels) /\
    lloyd (km3 t) (map lift (pts five)) it (S more) old s =
    if xltb (xabs (xsub old (inertia_ s2))) (XR t) then (set_iter (S it) s2, Ok tt) else lloyd (km3 t) (map lift (pts five)) (S it) more (inertia_ s2) s2.
Proof.
  intros LC EN I0 I1 M0 M1 EC. assert (NE : no_empty_cluster labels 2 = true) by (apply no_empty_spec; intros [|[|k]] Hk; auto; lia).
  set (s1 := set_inertia (XR (mean_loss loss11 (pts five) (pts C) labels)) (set_labels labels s)).
  exists (set_centers (map lift (pts [c0; c1])) (set_centers (replace_nth 0 (lift [[IZR c0]]) (map lift (pts C))) s1)).
  split; [reflexivity|]. split; [reflexivity|]. rewrite lloyd_step.
  rewrite (assign_one (km3 t) 1 1 ltac:(simpl; lia) (km3 t) (pts five) (pts C) s (km3_euclid t) eq_refl ltac:(discriminate) (pts_shape five)); auto;
    [|split; [etransitivity; [apply map_length|exact LC]|apply pts_shape]].
  rewrite EN. change (n_clusters (km3 t)) with 2%nat. rewrite NE. fold s1.
  assert (CN : forall k, In k labels -> cluster (pts five) labels k <> []).
  { intros k Hk. apply cluster_ne; auto. rewrite <- EN. unfold nearests. rewrite map_length. reflexivity. }
  assert (N0 : forall c, new_center (km3 t) (map lift (pts five)) labels 0 c = Ok (lift [[IZR c0]])).
  { intros c. rewrite <- M0. apply (centre_one 1 1); auto; [apply km3_euclid|apply pts_shape]. }
  assert (N1 : forall c, new_center (km3 t) (map lift (pts five)) labels 1 c = Ok (lift [[IZR c1]])).
  { intros c. rewrite <- M1. apply (centre_one 1 1); auto; [apply km3_euclid|apply pts_shape]. }
  cbn [seq update_centroids_]. unfold s1 at 1 2. cbn [set_inertia set_labels cluster_centers_ labels_]. rewrite EC, N0.
  cbn [set_centers cluster_centers_ labels_ s1 set_inertia set_labels]. rewrite N1.
  destruct C as [|u [|w [|z C]]]; try discriminate. reflexivity.
Qed.
Ltac means := unfold cluster, pts, five; cbn; unfold mean_of; cbn; unfold mean; cbn; repeat f_equal; lra.
Ltac sums := unfold mean_loss, pts, five; cbn; rewrite ?sq_pts; lra.
Lemma phase1 t s it more old : cluster_centers_ s = Some (map lift (pts [7; 15]%Z)) ->
  exists s2, cluster_centers_ s2 = Some (map lift (pts [8; 21]%Z)) /\ inertia_ s2 = XR (511 / 5) /\
    lloyd (km3 t) (map lift (pts five)) it (S more) old s =
    if xltb (xabs (xsub old (inertia_ s2))) (XR t) then (set_iter (S it) s2, Ok tt) else lloyd (km3 t) (map lift (pts five)) (S it) more (inertia_ s2) s2.
Proof.
  intros EC. destruct (phase t [7; 15]%Z [0; 1; 1; 1; 1]%nat 8 21 s it more old) as (s2 & A & B & E); auto.
  - unfold five; nears.
  - simpl; auto.
  - simpl; auto.
  - means.
  - means.
  - exists s2. split; auto. split; [|exact E]. rewrite B. f_equal. sums.
Qed.
Lemma phase2 t s it more old : cluster_centers_ s = Some (map lift (pts [8; 21]%Z)) ->
  exists s2, cluster_centers_ s2 = Some (map lift (pts [10; 24]%Z)) /\ inertia_ s2 = XR (301 / 5) /\
    lloyd (km3 t) (map lift (pts five)) it (S more) old s =
    if xltb (xabs (xsub old (inertia_ s2))) (XR t) then (set_iter (S it) s2, Ok tt) else lloyd (km3 t) (map lift (pts five)) (S it) more (inertia_ s2) s2.
Proof.
  intros EC. destruct (phase t [8; 21]%Z [0; 0; 1; 1; 1]%nat 10 24 s it more old) as (s2 & A & B & E); auto.
  - unfold five; nears.
  - simpl; auto.
  - simpl; auto.
  - means.
  - means.
  - exists s2. split; auto. split; [|exact E]. rewrite B. f_equal. sums.
Qed.
Lemma phase3 t s it more old : cluster_centers_ s = Some (map lift (pts [10; 24]%Z)) ->
  exists s2, cluster_centers_ s2 = Some (map lift (pts [12; 28]%Z)) /\ inertia_ s2 = XR (238 / 5) /\
    lloyd (km3 t) (map lift (pts five)) it (S more) old s =
    if xltb (xabs (xsub old (inertia_ s2))) (XR t) then (set_iter (S it) s2, Ok tt) else lloyd (km3 t) (map lift (pts five)) (S it) more (inertia_ s2) s2.
Proof.
  intros EC. destruct (phase t [10; 24]%Z [0; 0; 0; 1; 1]%nat 12 28 s it more old) as (s2 & A & B & E); auto.
  - unfold five; nears.
  - simpl; auto.
  - simpl; auto.
  - means.
  - means.
  - exists s2. split; auto. split; [|exact E]. rewrite B. f_equal. sums.
Qed.
Lemma final t C labels v s : length C = 2%nat -> nearests (pts five) loss11 (pts C) = labels -> In 0%nat labels -> In 1%nat labels -> xisfinite v = true ->
  labels_ (fst (post_fit (km3 t) (map lift (pts five)) (Some (map lift (pts C))) v s)) = Some labels /\ snd (post_fit (km3 t) (map lift (pts five)) (Some (map lift (pts C))) v s) = Ok tt.
Proof.
  intros LC EN I0 I1 Fv. assert (NE : no_empty_cluster labels 2 = true) by (apply no_empty_spec; intros [|[|k]] Hk; auto; lia).
  unfold post_fit. rewrite Fv.
  rewrite (assign_one (km3 t) 1 1 ltac:(simpl; lia) (km3 t) (pts five) (pts C) _ (km3_euclid t) eq_refl ltac:(discriminate) (pts_shape five)); auto;
    [|split; [etransitivity; [apply map_length|exact LC]|apply pts_shape]].
  rewrite EN. change (n_clusters (km3 t)) with 2%nat. rewrite NE. split; reflexivity.
Qed.
Lemma run5 t C labels v s1 : length C = 2%nat -> nearests (pts five) loss11 (pts C) = labels -> In 0%nat labels -> In 1%nat labels ->
  lloyd (km3 t) (map lift (pts five)) 0 3 XInf (set_centers (map lift (pts [7; 15]%Z)) (set_centers (map lift (pts [7; 15]%Z)) (reset fresh))) = (s1, Ok tt) ->
  cluster_centers_ s1 = Some (map lift (pts C)) -> inertia_ s1 = XR v ->
  let r := fit (km3 t) (InitArray (map lift (pts [7; 15]%Z))) (map lift (pts five)) fresh in labels_ (fst r) = Some labels /\ snd r = Ok tt.
Proof.
  intros LC EN I0 I1 EL EC EV r. unfold r, fit.
  rewrite (eu_input (km3 t) 1 1); [|discriminate|apply pts_shape|intros C0 E; injection E as <-; apply (arr_shape 1 1 (pts [7; 15]%Z)); [discriminate|apply pts_shape]].
  rewrite (variable_length_shape 1 1); [|discriminate|apply pts_shape].
  change (check_initial_guess (km3 t) (InitArray (map lift (pts [7; 15]%Z)))) with (@Ok unit tt).
  unfold seqm. change (Nat.max (n_init (km3 t)) 10) with 10%nat. rewrite attempts_S. change (n_init (km3 t) <=? 0)%nat with false. cbn iota.
  cbn [draws]. unfold fit_one_init. rewrite (check_full_length_shape 1 1); [|discriminate|apply pts_shape]. change (max_iter (km3 t)) with 3%nat. change (3 =? 0)%nat with false. cbn iota.
  rewrite EL. rewrite EV. change (xltb (XR v) XInf) with true. cbn iota. rewrite attempts_done by reflexivity. rewrite EC. apply final; auto.
Qed.
Lemma run_fine : let r := fit (km3 (1 / 1000000)) (InitArray (map lift (pts [7; 15]%Z))) (map lift (pts five)) fresh in
  labels_ (fst r) = Some [0; 0; 0; 0; 1]%nat /\ snd r = Ok tt.
Proof.
  set (t := 1 / 1000000). set (s0 := set_centers (map lift (pts [7; 15]%Z)) (set_centers (map lift (pts [7; 15]%Z)) (reset fresh))).
  destruct (phase1 t s0 0 2 XInf eq_refl) as (s1 & C1 & V1 & E1). rewrite V1 in E1. change (xltb (xabs (xsub XInf (XR (511 / 5)))) (XR t)) with false in E1. cbn iota in E1.
  destruct (phase2 t s1 1 1 (XR (511 / 5)) C1) as (s2 & C2 & V2 & E2). rewrite V2 in E2.
  assert (F2 : xltb (xabs (xsub (XR (511 / 5)) (XR (301 / 5)))) (XR t) = false).
  { unfold xsub. cbn [xopp xadd xabs]. rewrite xltb_R. apply Rltb_false. rewrite Rabs_right by lra. unfold t. lra. }
  rewrite F2 in E2. destruct (phase3 t s2 2 0 (XR (301 / 5)) C2) as (s3 & C3 & V3 & E3). rewrite V3 in E3.
  assert (F3 : xltb (xabs (xsub (XR (301 / 5)) (XR (238 / 5)))) (XR t) = false).
  { unfold xsub. cbn [xopp xadd xabs]. rewrite xltb_R. apply Rltb_false. rewrite Rabs_right by lra. unfold t. lra. }
  rewrite F3 in E3. cbn [lloyd] in E3.
  apply (run5 t [12; 28]%Z _ (238 / 5) (set_iter 3 s3)); auto.
  - unfold five; nears.
  - simpl; auto.
  - simpl; auto 10.
  - fold s0. etransitivity; [exact E1|]. etransitivity; [exact E2|]. exact E3.
Qed.
Lemma run_coarse : let r := fit (km3 100) (InitArray (map lift (pts [7; 15]%Z))) (map lift (pts five)) fresh in
  labels_ (fst r) = Some [0; 0; 0; 1; 1]%nat /\ snd r = Ok tt.
Proof.
  set (s0 := set_centers (map lift (pts [7; 15]%Z)) (set_centers (map lift (pts [7; 15]%Z)) (reset fresh))).
  destruct (phase1 100 s0 0 2 XInf eq_refl) as (s1 & C1 & V1 & E1). rewrite V1 in E1. change (xltb (xabs (xsub XInf (XR (511 / 5)))) (XR 100)) with false in E1. cbn iota in E1.
  destruct (phase2 100 s1 1 1 (XR (511 / 5)) C1) as (s2 & C2 & V2 & E2). rewrite V2 in E2.
  assert (F2 : xltb (xabs (xsub (XR (511 / 5)) (XR (301 / 5)))) (XR 100) = true).
  { unfold xsub. cbn [xopp xadd xabs]. rewrite xltb_R. apply Rltb_true. rewrite Rabs_right by lra. lra. }
  rewrite F2 in E2.
  apply (run5 100 [10; 24]%Z _ (301 / 5) (set_iter 2 s2)); auto.
  - unfold five; nears.
  - simpl; auto.
  - simpl; auto 10.
  - fold s0. etransitivity; [exact E1|]. exact E2.
Qed.

(** five series of one value, measured in units 10000 times larger: the inertia decreases by
    less than the same tolerance and training stops earlier, with other clusters *)
Theorem C205_unit_refuted : exists p xs cs0 a l l', euclidean_kmeans p /\ of_shape 1 1 xs /\ of_shape 1 1 cs0 /\ 0 < a /\
  let r := fit p (InitArray (map lift cs0)) (map lift xs) fresh in
  let r' := fit p (InitArray (map lift (map (moved a (fun _ _ => 0)) cs0))) (map lift (map (moved a (fun _ _ => 0)) xs)) fresh in
  snd r = Ok tt /\ snd r' = Ok tt /\ labels_ (fst r) = Some l /\ labels_ (fst r') = Some l' /\ l <> l'.
Proof.
  exists (km3 (1 / 1000000)), (pts five), (pts [7; 15]%Z), (1 / 10000), [0; 0; 0; 0; 1]%nat, [0; 0; 0; 1; 1]%nat.
  split; [apply km3_euclid|]. split; [apply pts_shape|]. split; [apply pts_shape|]. split; [lra|]. intros r r'.
  destruct run_fine as [A B]. destruct run_coarse as [A' B'].
  assert (Q : let r1 := fit (km3 100) (InitArray (map lift (pts [7; 15]%Z))) (map lift (pts five)) fresh in
    estimators_follow (seq 0 5) (1 / 10000) (fun _ _ => 0) 1 1 2 (pts five) (fst r1) (fst r') /\ snd r' = snd r1).
  { pose proof (C204_fit (km3 100) 1 1 (pts five) (seq 0 5) (1 / 10000) (fun _ _ => 0) (InitArray (map lift (pts [7; 15]%Z)))
      (InitArray (map lift (map (moved (1 / 10000) (fun _ _ => 0)) (pts [7; 15]%Z)))) fresh (km3_euclid 100) ltac:(simpl; lia) ltac:(discriminate) (pts_shape five) ltac:(lra)
      (Permutation_refl _)) as T.
    assert (E : with_tol (rescaled (1 / 10000 * (1 / 10000)) (tol (km3 100))) (km3 100) = km3 (1 / 1000000)).
    { unfold km3, with_tol. cbn. f_equal. f_equal. lra. }
    rewrite E in T. apply T. exists (pts [7; 15]%Z). split; [reflexivity|]. split; [apply pts_shape|]. auto. }
  cbn zeta in Q. destruct Q as [(Q1 & _) Q2]. rewrite A' in Q1. rewrite B' in Q2.
  split; [exact B|]. split; [exact Q2|]. split; [exact A|]. split; [exact Q1|]. discriminate.
Qed.
Print Assumptions C205_unit_refuted.
(** with a null tolerance (all [max_iter] iterations are made) the unit does not matter *)
Theorem C205_null_tolerance p sz d xs o a b i i' s : euclidean_kmeans p -> tol p = XR 0 -> (0 < n_clusters p)%nat -> xs <> [] -> of_shape sz d xs -> a <> 0 ->
  Permutation o (seq 0 (length xs)) -> inits_follow a b sz d (n_clusters p) i i' ->
  let r := fit p i (map lift xs) s in
  let r' := fit p i' (map lift (reordered o [] (map (moved a b) xs))) s in
  snd r' = snd r /\ labels_ (fst r') = option_map (reordered o 0%nat) (labels_ (fst r)) /\ inertia_ (fst r') = rescaled (a * a) (inertia_ (fst r)) /\
  n_iter_ (fst r') = n_iter_ (fst r) /\ centres_follow a b sz d (n_clusters p) (cluster_centers_ (fst r)) (cluster_centers_ (fst r')).
Proof.
  intros Hp H0 HK Hne Hx Ha Ho HI r r'.
  pose proof (C204_fit p sz d xs o a b i i' s Hp HK Hne Hx Ha Ho HI) as T.
  rewrite H0 in T. cbn [rescaled] in T. replace (a * a * 0) with 0 in T by ring. rewrite <- H0, with_same_tol in T.
  change (estimators_follow o a b sz d (n_clusters p) xs (fst r) (fst r') /\ snd r' = snd r) in T.
  destruct T as [(F1 & F2 & F3 & F4 & F5 & F6 & F7) E]. auto.
Qed.
Print Assumptions C205_null_tolerance.
(** a case of C204: the five series backwards, upside down and with another origin; training
    succeeds and separates the last series (now the first) from the others *)
Example C204_nontrivial : let o := [4; 3; 2; 1; 0]%nat in let b := (fun _ _ : nat => 50) in
  Permutation o (seq 0 (length (pts five))) /\
  let r' := fit (km3 (1 / 1000000)) (InitArray (map lift (map (moved (-1) b) (pts [7; 15]%Z)))) (map lift (reordered o [] (map (moved (-1) b) (pts five)))) fresh in
  snd r' = Ok tt /\ labels_ (fst r') = Some [1; 0; 0; 0; 0]%nat.
Proof.
  intros o b. assert (P : Permutation o (seq 0 (length (pts five)))) by (apply Permutation_sym, (Permutation_rev [0; 1; 2; 3; 4]%nat)).
  split; [exact P|]. intros r'. destruct run_fine as [A B].
  destruct (C204_origin (km3 (1 / 1000000)) 1 1 (pts five) o (-1) b (InitArray (map lift (pts [7; 15]%Z))) (InitArray (map lift (map (moved (-1) b) (pts [7; 15]%Z)))) fresh
    (km3_euclid _) ltac:(simpl; lia) ltac:(discriminate) (pts_shape five) (or_intror eq_refl) P) as (E1 & E2 & _).
  { exists (pts [7; 15]%Z). split; [reflexivity|]. split; [apply pts_shape|]. auto. }
  fold r' in E1, E2. rewrite B in E1. rewrite A in E2. split; [exact E1|exact E2].
Qed.

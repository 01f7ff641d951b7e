(** C196: what the inertia of KernelKMeans with the kernel "gak" says about the clusters. Exact reals. *)
From Coq Require Import Bool List Arith Lia ZArith Reals Lra.
From Verif Require Import Num NumLaws Py Series RList PreModel RealSeries GakModel KernelModel PropSoft PropGak PropGakPsd PropKernel2.
Import ListNotations.
Local Open Scope R_scope.

(** ** Specification *)
(** [K] is the matrix of the values of [gak] between the series [ss] *)
Definition gak_matrix (sigma : R) (ss : list (list (list R))) (K : list (list R)) : Prop :=
  square (length ss) K /\ forall i k, (i < length ss)%nat -> (k < length ss)%nat ->
    gak (Raw2 (lift (nth i ss []))) (Raw2 (lift (nth k ss []))) sigma = Ok (XR (nth k (nth i K []) 0)).
(** squared distance, in the feature space of the kernel, between series [i] and the weighted mean of cluster [j] *)
Definition mean_product (sw : list R) (labels : list nat) (K : list (list R)) (j : nat) : R :=
  rsum (map (fun a => if (nth a labels 0 =? j)%nat then nth a sw 0 * similarity sw labels (nth a K []) j else 0) (seq 0 (length labels))) / weight_of sw labels j.
Definition to_center (sw : list R) (labels : list nat) (K : list (list R)) (i j : nat) : R :=
  nth i (nth i K []) 0 - 2 * similarity sw labels (nth i K []) j + mean_product sw labels K j.

(** ** lemmas *)
Lemma sum_plus (f g : nat -> R) l : rsum (map (fun i => f i + g i) l) = rsum (map f l) + rsum (map g l).
Proof. induction l as [|x l IH]; simpl; [unfold rsum; simpl; lra|]. unfold rsum in *. simpl in *. lra. Qed.
Lemma sum_mul c (f : nat -> R) l : rsum (map (fun i => c * f i) l) = c * rsum (map f l).
Proof. induction l as [|x l IH]; unfold rsum in *; simpl in *; lra. Qed.
Lemma sum_pick n i (f : nat -> R) : (i < n)%nat -> rsum (map (fun k => if (k =? i)%nat then f k else 0) (seq 0 n)) = f i.
Proof.
  intros Hi. rewrite (sum_single n i); auto; [rewrite Nat.eqb_refl; auto|]. intros k _ Hk. apply Nat.eqb_neq in Hk. rewrite Hk. auto.
Qed.
(** the quadratic form at (indicator of [i]) - u *)
Lemma quadratic_minus n m i u : (i < n)%nat -> (forall a b, (a < n)%nat -> (b < n)%nat -> m a b = m b a) ->
  quadratic n m (fun k => (if (k =? i)%nat then 1 else 0) - u k) =
  m i i - 2 * rsum (map (fun k => u k * m i k) (seq 0 n)) + rsum (map (fun a => u a * rsum (map (fun b => u b * m a b) (seq 0 n))) (seq 0 n)).
Proof.
  intros Hi Sy. unfold quadratic. set (S := fun a => rsum (map (fun b => u b * m a b) (seq 0 n))).
  assert (R1 : forall a, rsum (map (fun k => ((if (a =? i)%nat then 1 else 0) - u a) * ((if (k =? i)%nat then 1 else 0) - u k) * m a k) (seq 0 n)) =
     ((if (a =? i)%nat then 1 else 0) - u a) * (m a i - S a)).
  { intros a. set (c := (if (a =? i)%nat then 1 else 0) - u a). unfold S.
    transitivity (rsum (map (fun k => (if (k =? i)%nat then c * m a k else 0) + - c * (u k * m a k)) (seq 0 n))).
    - apply rsum_map_ext. intros k _. destruct (k =? i)%nat; ring.
    - rewrite sum_plus, (sum_pick n i (fun k => c * m a k)) by auto. rewrite sum_mul. ring. }
  rewrite (rsum_map_ext _ (fun a => (if (a =? i)%nat then m a i - S a else 0) + (- (1) * (u a * m a i) + u a * S a))).
  - rewrite !sum_plus, (sum_pick n i (fun a => m a i - S a)), sum_mul by auto.
    replace (rsum (map (fun a => u a * m a i) (seq 0 n))) with (S i); [unfold S; ring|].
    unfold S. apply rsum_map_ext. intros a Ha. apply in_seq in Ha. rewrite (Sy a i) by lia. auto.
  - intros a _. rewrite R1. destruct (a =? i)%nat; ring.
Qed.
Section Matrix.
Variables (d : nat) (ss : list (list (list R))) (sigma : R) (K : list (list R)) (sw : list R).
Hypothesis Hs : sigma <> 0.
Hypothesis F : forall s, In s ss -> real_series d s.
Hypothesis HK : gak_matrix sigma ss K.
Hypothesis Hw : length sw = length ss.
Hypothesis Pw : forall w, In w sw -> 0 < w.
Notation n := (length ss).
Notation e i k := (nth k (nth i K []) 0).
Lemma entry_range i k : (i < n)%nat -> (k < n)%nat -> 0 < e i k <= 1.
Proof. intros Hi Hk. apply (C193_at_most_one d (nth i ss []) (nth k ss []) sigma); auto; try (apply F, nth_In; auto). apply HK; auto. Qed.
Lemma entry_diag i : (i < n)%nat -> e i i = 1.
Proof.
  intros Hi. destruct HK as [_ H]. specialize (H i i Hi Hi). destruct (C32_gak_normalised d (nth i ss []) (nth i ss []) sigma Hs) as (_ & _ & E); try (apply F, nth_In; auto).
  rewrite E in H. congruence.
Qed.
Lemma entry_sym i k : (i < n)%nat -> (k < n)%nat -> e i k = e k i.
Proof.
  intros Hi Hk. destruct HK as [_ H]. destruct (C32_gak_normalised d (nth i ss []) (nth k ss []) sigma Hs) as (_ & E & _); try (apply F, nth_In; auto).
  rewrite (H i k), (H k i) in E by auto. congruence.
Qed.
Lemma entry_psd c : 0 <= quadratic n (fun i k => e i k) c.
Proof.
  set (r := fun i => / sqrt (Kxy sigma (nth i ss []) (nth i ss []))).
  pose proof (Kxy_psd sigma d ss Hs F (fun i => c i * r i)) as Q.
  replace (quadratic n (fun i k => e i k) c) with (quadratic n (fun i k => Kxy sigma (nth i ss []) (nth k ss [])) (fun i => c i * r i)); auto.
  unfold quadratic. apply rsum_map_ext. intros i Hi. apply rsum_map_ext. intros k Hk. apply in_seq in Hi, Hk. cbn in Hi, Hk.
  assert (Hi' : (i < n)%nat) by lia. assert (Hk' : (k < n)%nat) by lia.
  pose proof (F _ (nth_In _ [] Hi')) as G1. pose proof (F _ (nth_In _ [] Hk')) as G2.
  destruct HK as [_ H]. specialize (H i k Hi' Hk'). rewrite (gak_value d) in H by auto. injection H as <-. unfold r.
  pose proof (sqrt_lt_R0 _ (Kxy_pos d _ _ sigma Hs G1 G1)). pose proof (sqrt_lt_R0 _ (Kxy_pos d _ _ sigma Hs G2 G2)). field. lra.
Qed.
Variables (labels : list nat).
Hypothesis Ll : length labels = n.
Notation mem j i := (nth i labels 0 =? j)%nat.
Lemma wpos i : (i < n)%nat -> 0 < nth i sw 0.
Proof. intros Hi. apply Pw, nth_In. lia. Qed.
Lemma weight_pos j : In j labels -> 0 < weight_of sw labels j.
Proof.
  intros Hj. destruct (In_nth _ _ 0%nat Hj) as (i & Hi & E). unfold weight_of. rewrite Ll.
  apply (Rlt_le_trans _ (rsum (map (fun k => if (k =? i)%nat then nth k sw 0 else 0) (seq 0 n)))).
  - rewrite (sum_pick n i (fun k => nth k sw 0)) by lia. apply wpos. lia.
  - apply rsum_map_le. intros k Hk. apply in_seq in Hk. pose proof (wpos k ltac:(lia)). destruct (k =? i)%nat eqn:Ek.
    + apply Nat.eqb_eq in Ek. subst k. rewrite E, Nat.eqb_refl. lra.
    + destruct (mem j k); lra.
Qed.
(** a weighted mean of numbers between lo and hi over a cluster *)
Lemma mean_between j (f : nat -> R) lo hi : In j labels -> (forall k, (k < n)%nat -> lo <= f k <= hi) ->
  lo <= rsum (map (fun k => if mem j k then nth k sw 0 * f k else 0) (seq 0 n)) / weight_of sw labels j <= hi.
Proof.
  intros Hj Hf. pose proof (weight_pos j Hj) as W. set (M := rsum _).
  assert (A : lo * weight_of sw labels j <= M <= hi * weight_of sw labels j).
  { unfold M, weight_of. rewrite Ll, <- !sum_mul. split; apply rsum_map_le; intros k Hk; apply in_seq in Hk; pose proof (wpos k ltac:(lia)); destruct (Hf k ltac:(lia)); destruct (mem j k); try lra; nra. }
  split; apply (Rmult_le_reg_r (weight_of sw labels j)); auto; unfold Rdiv; rewrite Rmult_assoc, Rinv_l, Rmult_1_r by lra; lra.
Qed.
Lemma similarity_range j i : In j labels -> (i < n)%nat -> 0 <= similarity sw labels (nth i K []) j <= 1.
Proof. intros Hj Hi. unfold similarity. rewrite Ll. apply (mean_between j (fun k => e i k)); auto. intros k Hk. pose proof (entry_range i k Hi Hk). lra. Qed.
Lemma similarity_pos j i : In j labels -> (i < n)%nat -> 0 < similarity sw labels (nth i K []) j.
Proof.
  intros Hj Hi. pose proof (weight_pos j Hj) as W. unfold similarity. apply Rmult_lt_0_compat; [|apply Rinv_0_lt_compat; auto].
  destruct (In_nth _ _ 0%nat Hj) as (a & Ha & E). rewrite Ll.
  apply (Rlt_le_trans _ (rsum (map (fun k => if (k =? a)%nat then nth k sw 0 * e i k else 0) (seq 0 n)))).
  - rewrite (sum_pick n a (fun k => nth k sw 0 * e i k)) by lia. apply Rmult_lt_0_compat; [apply wpos; lia|apply entry_range; lia].
  - apply rsum_map_le. intros k Hk. apply in_seq in Hk. pose proof (wpos k ltac:(lia)). pose proof (entry_range i k Hi ltac:(lia)). destruct (k =? a)%nat eqn:Ek.
    + apply Nat.eqb_eq in Ek. subst k. rewrite E, Nat.eqb_refl. lra.
    + destruct (mem j k); nra.
Qed.
Lemma to_center_range j i : In j labels -> (i < n)%nat -> 0 <= to_center sw labels K i j <= 2 - 2 * similarity sw labels (nth i K []) j.
Proof.
  intros Hj Hi. pose proof (weight_pos j Hj) as W. set (u := fun k => if mem j k then nth k sw 0 / weight_of sw labels j else 0).
  assert (S : forall a, similarity sw labels (nth a K []) j = rsum (map (fun k => u k * e a k) (seq 0 n))).
  { intros a. unfold similarity. rewrite Ll. unfold Rdiv. rewrite Rmult_comm, <- sum_mul. apply rsum_map_ext. intros k _. unfold u, Rdiv. destruct (mem j k); ring. }
  assert (M : mean_product sw labels K j = rsum (map (fun a => u a * rsum (map (fun b => u b * e a b) (seq 0 n))) (seq 0 n))).
  { unfold mean_product. rewrite Ll. unfold Rdiv. rewrite Rmult_comm, <- sum_mul. apply rsum_map_ext. intros k _. rewrite <- S. unfold u, Rdiv. destruct (mem j k); ring. }
  split.
  - unfold to_center. rewrite S, M. rewrite <- (quadratic_minus n (fun a b => e a b) i u Hi); [apply entry_psd|]. intros a b Ha Hb. apply entry_sym; auto.
  - unfold to_center. rewrite entry_diag by auto. assert (mean_product sw labels K j <= 1); [|lra].
    unfold mean_product. rewrite Ll. apply (mean_between j (fun a => similarity sw labels (nth a K []) j) 0 1); auto. intros a Ha. apply similarity_range; auto.
Qed.
End Matrix.

(** ** C196: the inertia reported is an upper bound of the sum of squared distances, in the feature space, to the
    centers of the partition the last labels were computed from *)
Theorem C196_inertia d ss sigma K p sw draw labels v it : sigma <> 0 -> (forall s, In s ss -> real_series d s) -> ss <> [] -> gak_matrix sigma ss K ->
  (0 < kk_clusters p)%nat -> length sw = length ss -> (forall w, In w sw -> 0 < w) -> (forall a, length (draw a) = length ss) ->
  kk_fit p sw K draw = Ok (Some (labels, v, it)) ->
  exists prev, length prev = length ss /\ no_empty (kk_clusters p) prev /\
    (forall i, (i < length ss)%nat -> 0 <= to_center sw prev K i (nth i labels 0%nat)) /\
    rsum (map (fun i => to_center sw prev K i (nth i labels 0%nat)) (seq 0 (length ss))) <= v < 2 * INR (length ss).
Proof.
  intros Hs F Hne HK Hk Hw Pw Hd H. destruct (C85_reported p (length ss) sw K draw labels v it Hk Hw (proj1 HK) Hd H) as (prev & Lp & Ll & Np & _ & Ms & Ev & _).
  assert (J : forall i, (i < length ss)%nat -> In (nth i labels 0%nat) prev) by (intros i Hi; apply Np, (Ms i Hi)).
  exists prev. split; auto. split; auto. split; [intros i Hi; apply (to_center_range d ss sigma); auto|]. rewrite Ev. split.
  - apply rsum_map_le. intros i Hi. apply in_seq in Hi. apply (to_center_range d ss sigma); auto; [apply J|]; lia.
  - assert (G : forall l, l <> [] -> (forall i, In i l -> (i < length ss)%nat) -> rsum (map (fun i => 2 - 2 * similarity sw prev (nth i K []) (nth i labels 0%nat)) l) < 2 * INR (length l)).
    { induction l as [|i l IH]; intros Hl Hi; [congruence|]. pose proof (similarity_pos d ss sigma K sw Hs F HK Hw Pw prev Lp (nth i labels 0%nat) i (J i (Hi i (or_introl eq_refl))) (Hi i (or_introl eq_refl))).
      change (rsum (map (fun i => 2 - 2 * similarity sw prev (nth i K []) (nth i labels 0%nat)) (i :: l))) with (2 - 2 * similarity sw prev (nth i K []) (nth i labels 0%nat) + rsum (map (fun i => 2 - 2 * similarity sw prev (nth i K []) (nth i labels 0%nat)) l)).
      change (length (i :: l)) with (S (length l)). rewrite S_INR. destruct l as [|k l]; [cbn; unfold rsum; simpl; lra|]. specialize (IH ltac:(discriminate) (fun a Ha => Hi a (or_intror Ha))). lra. }
    rewrite <- (seq_length (length ss) 0) at 2. apply G; [destruct ss; [congruence|discriminate]|]. intros i Hi. apply in_seq in Hi. lia.
Qed.
Print Assumptions C196_inertia.
(** so the inertia is never negative *)
Theorem C196_nonneg d ss sigma K p sw draw labels v it : sigma <> 0 -> (forall s, In s ss -> real_series d s) -> ss <> [] -> gak_matrix sigma ss K ->
  (0 < kk_clusters p)%nat -> length sw = length ss -> (forall w, In w sw -> 0 < w) -> (forall a, length (draw a) = length ss) ->
  kk_fit p sw K draw = Ok (Some (labels, v, it)) -> 0 <= v.
Proof.
  intros Hs F Hne HK Hk Hw Pw Hd H. destruct (C196_inertia d ss sigma K p sw draw labels v it Hs F Hne HK Hk Hw Pw Hd H) as (prev & _ & _ & C & B & _).
  eapply Rle_trans; [|exact B]. apply rsum_nonneg. intros x Hx. apply in_map_iff in Hx. destruct Hx as (i & <- & Hi). apply in_seq in Hi. apply C. lia.
Qed.
Print Assumptions C196_nonneg.
(** two different series in one cluster *)
Example C196_nontrivial : let ss := [[[0]; [1]]; [[2]; [0]; [5]]] in
  exists k K, gak_matrix 1 ss K /\ (forall s, In s ss -> real_series 1 s) /\ K = [[1; k]; [k; 1]] /\
    kk_fit {| kk_clusters := 1; kk_max_iter := 1; kk_tol := 0; kk_n_init := 1 |} [1; 1] K (fun _ => [0; 0]%nat) = Ok (Some ([0; 0]%nat, 2 - 2 * k, 1%nat)).
Proof.
  intros ss. assert (F : forall s, In s ss -> real_series 1 s).
  { intros s [<-|[<-|[]]]; (split; [lia|]; split; [discriminate|]; intros r Hr; repeat destruct Hr as [<-|Hr]; try contradiction; reflexivity). }
  pose proof (F _ (or_introl eq_refl)) as F1. pose proof (F _ (or_intror (or_introl eq_refl))) as F2.
  assert (N : 1 <> 0) by lra.
  destruct (C32_gak_normalised 1 _ _ 1 N F1 F2) as ((k & E & _) & S & D1). destruct (C32_gak_normalised 1 _ _ 1 N F2 F1) as (_ & _ & D2).
  exists k, [[1; k]; [k; 1]]. split; [|split; [exact F|split; [reflexivity|]]].
  - split; [split; [reflexivity|intros r [<-|[<-|[]]]; reflexivity]|]. intros [|[|i]] [|[|m]] Hi Hm; cbn in Hi, Hm; try lia; cbn [nth ss]; auto. rewrite <- S. exact E.
  - unfold kk_fit. cbn -[Rplus Rmult Rminus Rdiv INR IZR]. do 4 f_equal. unfold kinertia, kdist_entry. cbn. lra.
Qed.

(** ** C197: nearest centers *)
(** squared distance between vectors, and the mean of the members of a cluster *)
Definition sq_distance (a b : list R) : R := rsum (map (fun p => (fst p - snd p) * (fst p - snd p)) (combine a b)).
Definition mean_vector (X : list (list R)) (labels : list nat) (j d : nat) : list R :=
  map (fun t => rsum (map (fun i => if (nth i labels 0 =? j)%nat then nth t (nth i X []) 0 else 0) (seq 0 (length labels))) /
                rsum (map (fun i => if (nth i labels 0 =? j)%nat then 1 else 0) (seq 0 (length labels)))) (seq 0 d).
Definition three_vectors : list (list R) := [[0; -1]; [4/5; 3/5]; [-4/5; 3/5]].
Lemma three_K : linear_kernel three_vectors = [[1; -3/5; -3/5]; [-3/5; 1; -7/25]; [-3/5; -7/25; 1]].
Proof. unfold linear_kernel, three_vectors, dot, rsum. cbn. repeat (f_equal; try lra). Qed.
Lemma three_step : compute_dist 2 [1;1;1] [0;1;1]%nat (linear_kernel three_vectors) = Ok [[0; 16/5]; [16/5; 32/25]; [16/5; 32/25]].
Proof. rewrite three_K. unfold compute_dist. cbn. unfold kdist_entry, masked, rsum. cbn. repeat (f_equal; try field; try lra). Qed.
(** Kernel "linear" on vectors of norm 1, a fit that has converged: the new vector is given to cluster 0 although the
    center of cluster 1 is nearer. *)
Theorem C197_refuted : exists X x labels v it, (forall y, In y (x :: X) -> dot y y = 1) /\
  kk_fit (two 50) [1;1;1] (linear_kernel X) (fun _ => [0;1;1]%nat) = Ok (Some (labels, v, it)) /\
  kk_predict (two 50) [1;1;1] labels (linear_kernel X) = Ok labels /\
  kk_predict (two 50) [1;1;1] labels [map (dot x) X] = Ok [0%nat] /\
  sq_distance x (mean_vector X labels 1 2) < sq_distance x (mean_vector X labels 0 2).
Proof.
  exists three_vectors, [60/61; -11/61], [0;1;1]%nat, (64/25), 2%nat. split; [|split; [|split; [|split]]].
  - intros y [<-|[<-|[<-|[<-|[]]]]]; unfold dot, rsum; cbn; lra.
  - unfold kk_fit. change (Nat.max (kk_n_init (two 50)) 10) with 10%nat.
    assert (I : kinertia [[0; 16/5]; [16/5; 32/25]; [16/5; 32/25]] = 64/25).
    { unfold kinertia, rsum. cbn. unfold Rmin. repeat destruct (Rle_dec _ _); lra. }
    assert (E : forall s, kk_one_init (two 50) [1;1;1] (linear_kernel three_vectors) [0;1;1]%nat s =
      ({| kk_labels := [0;1;1]%nat; kk_inertia := 64/25; kk_iter := 2 |}, Ok tt)).
    { intros s. unfold kk_one_init. cbn [two kk_max_iter Nat.eqb]. rewrite kk_loop_S. cbn [kk_labels kk_clusters two]. rewrite three_step.
      cbn [map rargmin rargmin_from]. decide_R. cbn [covers forallb existsb seq Nat.eqb orb andb]. rewrite kk_loop_S. cbn [kk_labels kk_clusters two]. rewrite three_step.
      cbn [map rargmin rargmin_from]. decide_R. cbn [covers forallb existsb seq Nat.eqb orb andb]. rewrite !I.
      replace (Rltb (Rabs (64/25 - 64/25)) (kk_tol (two 50))) with true; [reflexivity|]. symmetry. apply Rltb_true. rewrite Rminus_diag_eq, Rabs_R0 by lra. cbn. lra. }
    cbn [kk_attempts]. rewrite E. reflexivity.
  - unfold kk_predict. cbn [kk_clusters two]. rewrite three_step. cbn [bind map rargmin rargmin_from]. decide_R. reflexivity.
  - unfold kk_predict. cbn [kk_clusters two].
    assert (E : compute_dist 2 [1;1;1] [0;1;1]%nat [map (dot [60/61; -11/61]) three_vectors] = Ok [[100/61; 676/305]]).
    { unfold compute_dist, three_vectors, dot, rsum. cbn. unfold kdist_entry, masked, rsum. cbn. repeat (f_equal; try field; try lra). }
    rewrite E. cbn [bind map rargmin rargmin_from]. decide_R. reflexivity.
  - unfold sq_distance, mean_vector, three_vectors, rsum. cbn. lra.
Qed.
Print Assumptions C197_refuted.
(** What holds, for any kernel matrix: nearest up to the difference of the squared norms of the two
    centers, hence nearest when these are equal. *)
Theorem C197_partial p n sw K draw labels v it : (0 < kk_clusters p)%nat -> length sw = n -> square n K -> (forall a, length (draw a) = n) ->
  kk_fit p sw K draw = Ok (Some (labels, v, it)) ->
  exists prev, length prev = n /\ no_empty (kk_clusters p) prev /\ forall i j, (i < n)%nat -> (j < kk_clusters p)%nat ->
    to_center sw prev K i (nth i labels 0%nat) <= to_center sw prev K i j + (mean_product sw prev K (nth i labels 0%nat) - mean_product sw prev K j).
Proof.
  intros Hk Hw HK Hd H. destruct (C85_reported p n sw K draw labels v it Hk Hw HK Hd H) as (prev & Lp & Ll & Np & _ & Ms & _).
  exists prev. split; auto. split; auto. intros i j Hi Hj. destruct (Ms i Hi) as [_ M]. destruct (M j Hj) as [M1 _]. unfold to_center. lra.
Qed.
Print Assumptions C197_partial.

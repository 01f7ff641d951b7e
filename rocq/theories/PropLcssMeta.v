(** C199: how LCSS changes with its arguments. Exact reals; multivariate series of any lengths. *)
From Coq Require Import Bool List Arith Lia ZArith QArith Reals Lra Permutation.
From Verif Require Import Num NumLaws Py Series Masks DtwModel Fill VariantModel Spec SpecDtw SpecLcss DpProofs DtwProofs DtwThms DtwExact
  LcssThms ValidThms LimitedThms MaskThms RList PathSum RealSeries PaaThms CyccThms IntSeries PropDtw PropMasks PropLcss MetaThms PropMeta PropSoft PropSoftMeta.
Import ListNotations.
Local Open Scope R_scope.

(** ** lemmas *)
Lemma tab_ext close close' mask l1 l2 : (forall i j, (i < l1)%nat -> (j < l2)%nat -> close i j = close' i j) ->
  forall i j, (i <= l1)%nat -> (j <= l2)%nat -> lcss_table close mask l1 l2 i j = lcss_table close' mask l1 l2 i j.
Proof.
  intros H. induction i as [|i IHi]; [intros; rewrite !tab_top; auto|]. induction j as [|j IHj]; intros Hi Hj; [rewrite !tab_left; auto|].
  rewrite !tab_in by lia. rewrite H by lia. rewrite !IHi, IHj by lia. reflexivity.
Qed.
Lemma real_matching s1 s2 eps i j : matching (N:=Xnum) (lift s1) (lift s2) (XR eps) i j = Rleb (sqrt (costs s1 s2 i j)) eps.
Proof. unfold matching. rewrite local_costs_lift, xsqrt_nn by apply sqd_nonneg. reflexivity. Qed.
Lemma Rleb_scal k a b : 0 < k -> Rleb (k * a) (k * b) = Rleb a b.
Proof.
  intros Hk. destruct (Rleb a b) eqn:E.
  - apply Rleb_true in E. apply Rleb_true. nra.
  - destruct (Rleb (k * a) (k * b)) eqn:E'; auto. apply Rleb_true in E'. assert (a <= b) by nra. apply Rleb_true in H. congruence.
Qed.
Lemma chain_turn n m ok p : chain n m ok p -> chain n m (fun i j => ok (n - 1 - i)%nat (m - 1 - j)%nat) (map (turn n m) (rev p)).
Proof.
  intros [Li H]. split.
  - apply linked_rev in Li.
    assert (G : forall q, (forall i j, In (i, j) q -> (i < n)%nat /\ (j < m)%nat) -> linked (fun a b => before b a) q -> linked before (map (turn n m) q)).
    { induction q as [|a [|b q] IH]; intros Hq L; [exact I|exact I|]. destruct L as [L1 L2]. split; [|apply IH; auto; intros; apply Hq; right; auto].
      destruct a as [i j], b as [i' j']. destruct (Hq i j ltac:(left; auto)). destruct (Hq i' j' ltac:(right; left; auto)).
      unfold before, turn in *. simpl in *. lia. }
    apply G; auto. intros i j Hin. apply in_rev in Hin. destruct (H i j Hin) as (? & ? & _). auto.
  - intros i j Hin. apply in_map_iff in Hin. destruct Hin as ([a b] & E & Hin). apply in_rev in Hin. destruct (H a b Hin) as (Ha & Hb & Hok).
    unfold turn in E. cbn in E. inversion E; subst. split; [lia|]. split; [lia|].
    replace (n - 1 - (n - 1 - a))%nat with a by lia. replace (m - 1 - (m - 1 - b))%nat with b by lia. auto.
Qed.
Lemma longest_turn n m ok ok' k : (forall i j, (i < n)%nat -> (j < m)%nat -> ok' i j = ok (n - 1 - i)%nat (m - 1 - j)%nat) -> longest n m ok k -> longest n m ok' k.
Proof.
  intros HO [(p & Hp & Lp) M].
  assert (E : longest n m (fun i j => ok (n - 1 - i)%nat (m - 1 - j)%nat) k).
  { split.
    - exists (map (turn n m) (rev p)). split; [apply chain_turn; auto|]. rewrite map_length, rev_length. auto.
    - intros q Hq. apply chain_turn in Hq. rewrite <- (rev_length q), <- (map_length (turn n m)). apply M.
      destruct Hq as [Q1 Q2]. split; auto. intros i j Hin. destruct (Q2 i j Hin) as (A & B & C). split; auto. split; auto.
      replace (n - 1 - (n - 1 - i))%nat with i in C by lia. replace (m - 1 - (m - 1 - j))%nat with j in C by lia. auto. }
  eapply longest_ext; [|exact E]. intros i j Hi Hj. cbn. symmetry. apply HO; auto.
Qed.
Lemma ratio_le k k' n m : (0 < n)%nat -> (0 < m)%nat -> (k <= k')%nat -> (ratio k n m <= ratio k' n m)%Q.
Proof.
  intros Hn Hm Hk. unfold ratio, Qdiv. apply Qmult_le_compat_r; [rewrite <- Zle_Qle; lia|]. apply Qinv_le_0_compat. change 0%Q with (inject_Z 0). rewrite <- Zle_Qle. lia.
Qed.

(** ** C199 *)
(** a map that multiplies all distances by k, with eps multiplied by k: any constraint *)
Theorem C199_similarity : forall d d' k f s1 s2 eps g r slope A, real_series d s1 -> real_series d s2 ->
  constraint (length s1) (length s2) g r slope A -> (0 < d')%nat -> 0 < k -> similarity d d' k f ->
  lcss (series_of (map f s1)) (series_of (map f s2)) (XR (k * eps)) g r slope = lcss (series_of s1) (series_of s2) (XR eps) g r slope.
Proof.
  intros d d' k f s1 s2 eps g r s A H1 H2 HC Hd Hk Hf.
  assert (R1 : real_series d' (map f s1)) by (eapply similar_real; eauto). assert (R2 : real_series d' (map f s2)) by (eapply similar_real; eauto).
  destruct (constraint_mask _ _ _ _ _ _ HC) as (code & mask & E1 & E2 & _).
  unfold lcss. rewrite (to_time_series_finite Xnum xnn xfin Xlaws d (lift s1) (lift_finite d s1 H1)), (to_time_series_finite Xnum xnn xfin Xlaws d (lift s2) (lift_finite d s2 H2)),
    (to_time_series_finite Xnum xnn xfin Xlaws d' (lift (map f s1)) (lift_finite d' _ R1)), (to_time_series_finite Xnum xnn xfin Xlaws d' (lift (map f s2)) (lift_finite d' _ R2)).
  rewrite !lift_length, !map_length, E1. cbn [bind]. rewrite E2. cbn [bind]. destruct (Nat.min (length s1) (length s2) =? 0)%nat; auto. do 2 f_equal.
  apply tab_ext; auto. intros i j Hi Hj. rewrite !within_matching, !real_matching. rewrite (costs_similar d d' k) by auto.
  rewrite sqrt_mult_alt by nra. rewrite sqrt_square by lra. apply Rleb_scal. auto.
Qed.
Print Assumptions C199_similarity.
Theorem C199_shift : forall d t s1 s2 eps g r slope A, real_series d s1 -> real_series d s2 ->
  constraint (length s1) (length s2) g r slope A -> length t = d ->
  lcss (series_of (shifted t s1)) (series_of (shifted t s2)) (XR eps) g r slope = lcss (series_of s1) (series_of s2) (XR eps) g r slope.
Proof.
  intros d t s1 s2 eps g r s A H1 H2 HC Ht. pose proof H1 as (Hd & _).
  pose proof (C199_similarity d d 1 _ s1 s2 eps g r s A H1 H2 HC Hd Rlt_0_1 (shift_similar d t Ht)) as K. rewrite Rmult_1_l in K. exact K.
Qed.
Print Assumptions C199_shift.
Theorem C199_features : forall d order s1 s2 eps g r slope A, real_series d s1 -> real_series d s2 ->
  constraint (length s1) (length s2) g r slope A -> Permutation order (seq 0 d) ->
  lcss (series_of (rearranged order s1)) (series_of (rearranged order s2)) (XR eps) g r slope = lcss (series_of s1) (series_of s2) (XR eps) g r slope.
Proof.
  intros d o s1 s2 eps g r s A H1 H2 HC P. pose proof H1 as (Hd & _).
  pose proof (C199_similarity d d 1 _ s1 s2 eps g r s A H1 H2 HC Hd Rlt_0_1 (order_similar d o P)) as K. rewrite Rmult_1_l in K. exact K.
Qed.
Print Assumptions C199_features.
Theorem C199_scale : forall d a s1 s2 eps g r slope A, real_series d s1 -> real_series d s2 ->
  constraint (length s1) (length s2) g r slope A -> a <> 0 ->
  lcss (series_of (scaled a s1)) (series_of (scaled a s2)) (XR (Rabs a * eps)) g r slope = lcss (series_of s1) (series_of s2) (XR eps) g r slope.
Proof.
  intros d a s1 s2 eps g r s A H1 H2 HC Ha. pose proof H1 as (Hd & _).
  apply (C199_similarity d d (Rabs a) (map (fun v => a * v)) s1 s2 eps g r s A); auto; [apply Rabs_pos_lt; auto|].
  intros x y Hx Hy. split; [rewrite map_length; auto|]. rewrite sqd_scaled. f_equal. rewrite <- Rabs_mult. symmetry. apply Rabs_pos_eq. apply Rle_0_sqr.
Qed.
Print Assumptions C199_scale.
(** reversing both series: no constraint, or a band other than the bare diagonal of a square *)
Theorem C199_reverse : forall d s1 s2 eps g r slope A, real_series d s1 -> real_series d s2 -> positive_slope slope ->
  constraint (length s1) (length s2) g r slope A -> wide (length s1) (length s2) A ->
  lcss (series_of (rev s1)) (series_of (rev s2)) (XR eps) g r slope = lcss (series_of s1) (series_of s2) (XR eps) g r slope.
Proof.
  intros d s1 s2 eps g r s A H1 H2 Hs HC HW.
  pose proof (real_len _ _ H1) as L1. pose proof (real_len _ _ H2) as L2.
  destruct (C23_lcss_longest Xnum xnn xfin Xlaws d (lift s1) (lift s2) (XR eps) g r s A (lift_finite _ _ H1) (lift_finite _ _ H2)) as (k & E & Hk); rewrite ?lift_length in *; auto.
  destruct (C23_lcss_longest Xnum xnn xfin Xlaws d (lift (rev s1)) (lift (rev s2)) (XR eps) g r s A (lift_finite _ _ (real_rev d s1 H1)) (lift_finite _ _ (real_rev d s2 H2))) as (k' & E' & Hk'); rewrite ?lift_length, ?rev_length in *; auto.
  rewrite E, E'. do 2 f_equal. eapply longest_unique; [exact Hk'|]. eapply longest_turn; [|exact Hk]. intros i j Hi Hj. cbn beta.
  rewrite !real_matching. rewrite (constraint_turn _ _ _ _ _ _ L1 L2 Hs HC) by auto. f_equal. f_equal. f_equal.
  rewrite <- (costs_rev s1 s2) by lia. f_equal; lia.
Qed.
Print Assumptions C199_reverse.
(** a larger eps and more allowed cells never lower the similarity *)
Theorem C199_monotone : forall d s1 s2 eps g r slope A eps' g' r' slope' A', real_series d s1 -> real_series d s2 ->
  constraint (length s1) (length s2) g r slope A -> constraint (length s1) (length s2) g' r' slope' A' -> wide (length s1) (length s2) A' ->
  (forall i j, (i < length s1)%nat -> (j < length s2)%nat -> A i j = true -> A' i j = true) -> eps <= eps' ->
  exists q q', lcss (series_of s1) (series_of s2) (XR eps) g r slope = Ok q /\ lcss (series_of s1) (series_of s2) (XR eps') g' r' slope' = Ok q' /\ (q <= q')%Q.
Proof.
  intros d s1 s2 eps g r s A eps' g' r' s' A' H1 H2 HC HC' HW HA He.
  pose proof (real_len _ _ H1) as L1. pose proof (real_len _ _ H2) as L2.
  destruct (C23_lcss_sound Xnum xnn xfin Xlaws d (lift s1) (lift s2) (XR eps) g r s A (lift_finite _ _ H1) (lift_finite _ _ H2)) as (p & E & Hp); rewrite ?lift_length in *; auto.
  destruct (C23_lcss_longest Xnum xnn xfin Xlaws d (lift s1) (lift s2) (XR eps') g' r' s' A' (lift_finite _ _ H1) (lift_finite _ _ H2)) as (k' & E' & Hk'); rewrite ?lift_length in *; auto.
  do 2 eexists. split; [exact E|]. split; [exact E'|]. apply ratio_le; auto. apply Hk'.
  destruct Hp as [P1 P2]. split; auto. intros i j Hin. destruct (P2 i j Hin) as (Hi & Hj & Hok). split; auto. split; auto. cbn beta in *.
  rewrite real_matching in *. apply andb_prop in Hok. destruct Hok as [Q1 Q2]. rewrite HA by auto. apply Rleb_true in Q2. cbn. apply Rleb_true. lra.
Qed.
Print Assumptions C199_monotone.
(** a band inside no constraint *)
Example C199_nontrivial : exists s1 s2, real_series 2 s1 /\ real_series 2 s2 /\
  constraint (length s1) (length s2) GcSakoeChiba (Some 1%Z) None (band 3 3 1) /\ constraint (length s1) (length s2) GcNone None None everywhere /\
  wide (length s1) (length s2) (band 3 3 1) /\ band 3 3 1 0 2 = false /\ s1 <> rev s1 /\ rearranged [1; 0]%nat s1 <> s1.
Proof.
  exists (zseries [[0; 1]; [2; 0]; [5; 1]]%Z), (zseries [[1; 1]; [1; 0]; [4; 0]]%Z). split; [zreal|]. split; [zreal|].
  split; [split; [cbn; lia|reflexivity]|]. split; [reflexivity|]. split; [right; exists 1%Z; split; [lia|]; split; [reflexivity|left; lia]|].
  split; [reflexivity|]. split; [intros K; inversion K; lra|]. intros K; inversion K; lra.
Qed.

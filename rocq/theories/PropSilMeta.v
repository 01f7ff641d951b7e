(** C228: the silhouette score in another unit. *)
From Coq Require Import Bool List Arith Lia ZArith QArith Reals Lra Permutation.
From Verif Require Import Num NumLaws Py Series Masks DtwModel Dataset Spec SpecDtw DpProofs DtwProofs DtwThms ValidThms CdistThms
  RList PathSum SoftModel SoftThms RealSeries PropDtw PropSoft PropSoftCdist PropCdist GakModel PaaModel PreModel ClusterModel
  DbscanModel RealSeries PaaThms PropScale PropResample PropBary ClusterThms PropCluster PropShapelet2 PropDbscan SilhouetteModel PropSilhouette PropMeta PropSoftMeta.
Import ListNotations.
Local Open Scope R_scope.

(** ** lemmas *)
Lemma mean_dist_times c Dr Dr' n i js : (forall j, (j < n)%nat -> Dr' i j = c * Dr i j) -> (forall j, In j js -> (j < n)%nat) ->
  mean_dist Dr' i js = c * mean_dist Dr i js.
Proof.
  intros H HJ. unfold mean_dist. rewrite (map_ext_in (Dr' i) (fun j => c * Dr i j)) by (intros j Hj; apply H, HJ, Hj).
  assert (E : rsum (map (fun j => c * Dr i j) js) = c * rsum (map (Dr i) js)); [|rewrite E; unfold Rdiv; ring].
  clear. unfold rsum. induction js as [|j js IH]; cbn [map fold_right]; [ring|]. rewrite IH. ring.
Qed.
Lemma in_seq_filter P n j : In j (filter P (seq 0 n)) -> (j < n)%nat.
Proof. intros H. apply filter_In in H. destruct H as [H _]. apply in_seq in H. lia. Qed.
Lemma silhouette_times c Dr Dr' labels v : 0 < c ->
  (forall i j, (i < length labels)%nat -> (j < length labels)%nat -> Dr' i j = c * Dr i j) -> silhouette Dr labels v -> silhouette Dr' labels v.
Proof.
  intros Hc H (s & Hs & ->). exists s. split; [|reflexivity]. intros i Hi. destruct (Hs i Hi) as [H1 H2]. split; [exact H1|].
  intros E. destruct (H2 E) as (b & [(j & Hj & Nj & Eb) Lb] & P). cbv zeta in *.
  assert (MG : forall g, mean_dist Dr' i (group labels g) = c * mean_dist Dr i (group labels g)).
  { intros g. apply (mean_dist_times c Dr Dr' (length labels)); [intros k Hk; apply H; auto|]. intros k Hk. apply in_seq_filter in Hk. exact Hk. }
  assert (MC : mean_dist Dr' i (companions labels i) = c * mean_dist Dr i (companions labels i)).
  { apply (mean_dist_times c Dr Dr' (length labels)); [intros k Hk; apply H; auto|]. intros k Hk. apply in_seq_filter in Hk. exact Hk. }
  exists (c * b). split; [split|].
  - exists j. split; [exact Hj|split; [exact Nj|]]. rewrite MG, Eb. reflexivity.
  - intros k Hk Nk. rewrite MG. apply Rmult_le_compat_l; [lra|]. apply Lb; auto.
  - cbv zeta. rewrite MC. set (a := mean_dist Dr i (companions labels i)) in *. rewrite RmaxRmult by lra. destruct P as [P1 P2]. split; intros Z.
    + apply P1. apply (Rmult_eq_reg_l c); lra.
    + assert (N : Rmax a b <> 0) by (intros N; apply Z; rewrite N; ring). rewrite (P2 N). field. split; [exact N|lra].
Qed.

(** ** C228 *)
(** All precomputed distances multiplied by a positive number. *)
Theorem C228_precomputed n X X' Dr labels k c : 0 < c -> distances n X Dr ->
  length X' = n -> (forall r, In r X' -> length r = n) -> (forall i j, (i < n)%nat -> (j < n)%nat -> nth j (nth i X' []) XNaN = XR (c * Dr i j)) ->
  length labels = n -> distinct labels k -> (2 <= k < n)%nat ->
  silhouette_precomputed X' labels None = silhouette_precomputed X labels None.
Proof.
  intros Hc HX L1 L2 HX' HL HK Hk. pose proof HX as (_ & _ & HD & H0).
  assert (HX2 : distances n X' (fun i j => c * Dr i j)).
  { split; [exact L1|split; [exact L2|split]]; [intros i j Hi Hj; split; [auto|]; destruct (HD i j Hi Hj); apply Rmult_le_pos; lra|]. intros i Hi. rewrite H0 by exact Hi. ring. }
  destruct (C136_precomputed n X Dr labels k HX HL HK Hk) as (v & E & V & _). destruct (C136_precomputed n X' _ labels k HX2 HL HK Hk) as (v' & E' & V' & _).
  rewrite E, E'. do 2 f_equal. eapply silhouette_unique; [exact V'|]. eapply silhouette_times; [exact Hc| |exact V]. reflexivity.
Qed.
Print Assumptions C228_precomputed.

Lemma mapped_real d d' c f ss : (0 < d')%nat -> similarity d d' c f -> (forall s, In s ss -> real_series d s) -> forall s, In s (map (map f) ss) -> real_series d' s.
Proof. intros Hd Hf HS s H. apply in_map_iff in H. destruct H as (x & <- & Hx). apply (real_map d); auto. intros y Hy. apply (Hf y y); auto. Qed.
Lemma some_constraint g radius slope n m : not_itakura g slope -> g <> GcOther -> (0 <= or_default radius 1)%Z -> exists A, constraint n m g radius slope A.
Proof.
  intros Hni Hg Hr. destruct Hni as [N1 N2]. destruct g; simpl in *; try contradiction; try congruence; try (eexists; split; [auto|reflexivity]);
    destruct N2 as [N2|N2]; try discriminate; subst slope; destruct radius; simpl in *; eexists; try split; auto.
Qed.
(** metric="dtw": any map of the time steps that multiplies all distances by a positive number,
    among them changes of unit and origin, reflections and reorderings of the features. *)
Theorem C228_dtw d d' c f ss labels g radius slope j k :
  (forall s, In s ss -> real_series d s) -> not_itakura g slope -> g <> GcOther -> (0 <= or_default radius 1)%Z -> positive_slope slope ->
  valid_jobs j (length ss * (length ss - 1) / 2) -> length labels = length ss -> distinct labels k -> (2 <= k < length ss)%nat ->
  (0 < d')%nat -> 0 < c -> similarity d d' c f ->
  silhouette_dtw (reals (map (map f) ss)) labels g radius slope j None = silhouette_dtw (reals ss) labels g radius slope j None.
Proof.
  intros HS Hni Hg Hr Hp Hj HL HK Hk Hd Hc Hf. pose proof (mapped_real d d' c f ss Hd Hf HS) as HS'.
  destruct (C136_dtw d ss labels g radius slope j k HS Hni Hg Hr Hp Hj HL HK Hk) as (Dr & v & E & HD & V & _).
  destruct (C136_dtw d' (map (map f) ss) labels g radius slope j k HS' Hni Hg Hr Hp) as (Dr' & v' & E' & HD' & V' & _); rewrite ?map_length; auto.
  rewrite map_length in HD'. rewrite E, E'. do 2 f_equal. eapply silhouette_unique; [exact V'|]. eapply silhouette_times; [exact Hc| |exact V]. rewrite HL. intros i i' Hi Hi'.
  specialize (HD i i' Hi Hi'). specialize (HD' i i' Hi Hi'). change (@nil (list R)) with (map f []) in HD'. rewrite !(map_nth (map f)) in HD'.
  destruct (some_constraint g radius slope (length (nth i ss [])) (length (nth i' ss [])) Hni Hg Hr) as (A & HA).
  assert (R1 : real_series d (nth i ss [])) by (apply HS, nth_In; auto). assert (R2 : real_series d (nth i' ss [])) by (apply HS, nth_In; auto).
  destruct (C177_similarity d d' c f _ _ g radius slope A R1 R2 Hp HA Hd (Rlt_le _ _ Hc) Hf) as ((w & _ & V1 & V2) & _).
  assert (Dr i i' = w). { pose proof (eq_trans (eq_sym HD) V1) as Q. injection Q as Q. exact Q. }
  assert (Dr' i i' = c * w). { pose proof (eq_trans (eq_sym HD') V2) as Q. injection Q as Q. exact Q. }
  subst w. assumption.
Qed.
Print Assumptions C228_dtw.

Lemma sq_distance_sqd sz d x y : real_series d x -> real_series d y -> length x = sz -> length y = sz ->
  sq_distance sz d x y = rsum (map (fun t => sqd (nth t x []) (nth t y [])) (seq 0 sz)).
Proof.
  intros Hx Hy Lx Ly. unfold sq_distance. f_equal. apply map_ext_in. intros t Ht. apply in_seq in Ht.
  assert (A : length (nth t x []) = d) by (apply Hx, nth_In; lia). assert (B : length (nth t y []) = d) by (apply Hy, nth_In; lia).
  unfold sqd. f_equal. apply nth_ext with (d := 0) (d' := (fun p : R * R => (fst p - snd p) * (fst p - snd p)) (0, 0)); [rewrite !map_length, combine_length, seq_length; lia|].
  intros k Hk. rewrite map_length, seq_length in Hk. rewrite (map_seq_nth (fun k => (nth k (nth t x []) 0 - nth k (nth t y []) 0) * (nth k (nth t x []) 0 - nth k (nth t y []) 0))) by exact Hk.
  rewrite (map_nth (fun p : R * R => (fst p - snd p) * (fst p - snd p)) (combine (nth t x []) (nth t y [])) (0, 0) k), combine_nth by lia. reflexivity.
Qed.
(** metric="euclidean" *)
Theorem C228_euclidean sz d d' c f ss labels k : of_shape sz d ss -> length labels = length ss -> distinct labels k -> (2 <= k < length ss)%nat ->
  (0 < d')%nat -> 0 < c -> similarity d d' c f ->
  silhouette_euclidean (reals (map (map f) ss)) labels None = silhouette_euclidean (reals ss) labels None.
Proof.
  intros HS HL HK Hk Hd Hc Hf.
  assert (HS' : of_shape sz d' (map (map f) ss)).
  { intros s Hs. split; [apply (mapped_real d d' c f ss Hd Hf (fun s Hs => proj1 (HS s Hs))); exact Hs|]. apply in_map_iff in Hs. destruct Hs as (x & <- & Hx). rewrite map_length. apply HS, Hx. }
  destruct (C136_euclidean sz d ss labels k HS HL HK Hk) as (v & E & V & _).
  destruct (C136_euclidean sz d' (map (map f) ss) labels k HS') as (v' & E' & V' & _); rewrite ?map_length; auto.
  rewrite E, E'. do 2 f_equal. eapply silhouette_unique; [exact V'|]. eapply silhouette_times; [exact Hc| |exact V]. rewrite HL. intros i i' Hi Hi'. cbv beta.
  assert (NM : forall i, nth i (map (map f) ss) [] = map f (nth i ss [])) by (intros q; exact (map_nth (map f) ss [] q)). rewrite !NM.
  destruct (HS (nth i ss [])) as (R1 & L1); [apply nth_In, Hi|]. destruct (HS (nth i' ss [])) as (R2 & L2); [apply nth_In, Hi'|].
  destruct (HS' (map f (nth i ss []))) as (R1' & L1'); [apply in_map, nth_In, Hi|]. destruct (HS' (map f (nth i' ss []))) as (R2' & L2'); [apply in_map, nth_In, Hi'|].
  rewrite (sq_distance_sqd sz d'), (sq_distance_sqd sz d) by assumption.
  rewrite (map_ext_in _ (fun t => (c * c) * sqd (nth t (nth i ss []) []) (nth t (nth i' ss []) []))).
  - assert (ES : forall l, rsum (map (fun t => (c * c) * sqd (nth t (nth i ss []) []) (nth t (nth i' ss []) [])) l) = (c * c) * rsum (map (fun t => sqd (nth t (nth i ss []) []) (nth t (nth i' ss []) [])) l)).
    { unfold rsum at 1 2. induction l as [|t l IH]; cbn [map fold_right]; [ring|]. rewrite IH. ring. }
    rewrite ES, sqrt_mult_alt by nra. rewrite sqrt_square by lra. reflexivity.
  - intros t Ht. apply in_seq in Ht. rewrite (nth_indep (map f (nth i ss [])) [] (f [])), (nth_indep (map f (nth i' ss [])) [] (f [])) by (rewrite map_length; lia). rewrite !map_nth.
    apply Hf; [apply R1|apply R2]; apply nth_In; lia.
Qed.
Print Assumptions C228_euclidean.

Lemma all_or_one (D : nat -> nat -> R) n : (forall i j, (i < n)%nat -> (j < n)%nat -> 0 <= D i j) \/ (exists i j, (i < n)%nat /\ (j < n)%nat /\ D i j < 0).
Proof.
  destruct (forallb (fun i => forallb (fun j => if Rle_dec 0 (D i j) then true else false) (seq 0 n)) (seq 0 n)) eqn:E.
  - left. intros i j Hi Hj. rewrite forallb_forall in E. specialize (E i ltac:(apply in_seq; lia)). rewrite forallb_forall in E. specialize (E j ltac:(apply in_seq; lia)).
    destruct (Rle_dec 0 (D i j)); [assumption|discriminate].
  - right. assert (G : forall (P : nat -> bool) l, forallb P l = false -> exists a, In a l /\ P a = false).
    { clear. intros P. induction l as [|a l IH]; [discriminate|]. cbn. destruct (P a) eqn:Ea; [|intros _; exists a; auto]. intros H. destruct (IH H) as (b & Hb & Eb). exists b. auto. }
    destruct (G _ _ E) as (i & Hi & Ei). destruct (G _ _ Ei) as (j & Hj & Ej). apply in_seq in Hi, Hj. exists i, j. split; [lia|split; [lia|]].
    destruct (Rle_dec 0 (D i j)); [discriminate|lra].
Qed.
(** metric="softdtw": the score, or the refusal of negative values, is the same when gamma is converted with the square of the unit. *)
Theorem C228_softdtw d d' c f ss labels gamma g radius slope A k : (0 < gamma)%R ->
  (forall s, In s ss -> real_series d s) -> not_itakura g slope -> positive_slope slope -> constraint 1 1 g radius slope A ->
  length labels = length ss -> distinct labels k -> (2 <= k < length ss)%nat ->
  (0 < d')%nat -> 0 < c -> similarity d d' c f ->
  silhouette_softdtw (reals (map (map f) ss)) labels (c * c * gamma) g radius slope None = silhouette_softdtw (reals ss) labels gamma g radius slope None.
Proof.
  intros Hg HS Hni Hp HA HL HK Hk Hd Hc Hf. pose proof (mapped_real d d' c f ss Hd Hf HS) as HS'.
  assert (Hg' : 0 < c * c * gamma) by (apply Rmult_lt_0_compat; nra).
  destruct (C136_softdtw d ss labels gamma g radius slope A k Hg HS Hni Hp HA HL HK Hk) as (Dr & HD & P1 & P2).
  destruct (C136_softdtw d' (map (map f) ss) labels (c * c * gamma) g radius slope A k Hg' HS' Hni Hp HA) as (Dr' & HD' & P1' & P2'); rewrite ?map_length; auto.
  rewrite map_length in *.
  assert (EQ : forall i i', (i < length ss)%nat -> (i' < length ss)%nat -> Dr' i i' = (c * c) * Dr i i').
  { intros i i' Hi Hi'. specialize (HD i i' Hi Hi'). specialize (HD' i i' Hi Hi'). change (@nil (list R)) with (map f []) in HD'. rewrite !(map_nth (map f)) in HD'.
    assert (R1 : real_series d (nth i ss [])) by (apply HS, nth_In; auto). assert (R2 : real_series d (nth i' ss [])) by (apply HS, nth_In; auto).
    assert (S1 : real_series d' (map f (nth i ss []))) by (apply HS', in_map, nth_In; auto). assert (S2 : real_series d' (map f (nth i' ss []))) by (apply HS', in_map, nth_In; auto).
    set (x := nth i ss []) in *. set (y := nth i' ss []) in *. clearbody x y.
    destruct (constraint_any _ _ _ _ _ _ Hni HA (length x) (length y)) as (A12 & C12). destruct (constraint_any _ _ _ _ _ _ Hni HA (length x) (length x)) as (A11 & C11). destruct (constraint_any _ _ _ _ _ _ Hni HA (length y) (length y)) as (A22 & C22).
    assert (K : c <> 0) by lra.
    destruct (C194_similarity BNumpy d d' c f x y gamma g radius slope A12 (Rlt_le _ _ Hg) R1 R2 Hp C12 Hd K Hf) as (v12 & U1 & U2).
    destruct (C194_similarity BNumpy d d' c f x x gamma g radius slope A11 (Rlt_le _ _ Hg) R1 R1 Hp C11 Hd K Hf) as (v11 & U3 & U4).
    destruct (C194_similarity BNumpy d d' c f y y gamma g radius slope A22 (Rlt_le _ _ Hg) R2 R2 Hp C22 Hd K Hf) as (v22 & U5 & U6).
    destruct (normalized_public BNumpy d x y gamma g radius slope A12 A11 A22 Hg R1 R2 Hp C12 C11 C22) as (w & w' & w'' & E1 & E2 & E3 & E4).
    destruct (normalized_public BNumpy d' (map f x) (map f y) (c * c * gamma) g radius slope A12 A11 A22 Hg' S1 S2 Hp) as (z & z' & z'' & F1 & F2 & F3 & F4); rewrite ?map_length; auto.
    assert (w = v12) by congruence. assert (w' = v11) by congruence. assert (w'' = v22) by congruence. assert (z = c * c * v12) by congruence. assert (z' = c * c * v11) by congruence. assert (z'' = c * c * v22) by congruence.
    subst. rewrite E4 in HD. rewrite F4 in HD'. injection HD as HD. injection HD' as HD'. rewrite <- HD, <- HD'. field. }
  destruct (all_or_one Dr (length ss)) as [HP|(i & j & Hi & Hj & HN)].
  - destruct (P1 HP) as (v & E & V & _). destruct P1' as (v' & E' & V' & _); [intros i j Hi Hj; rewrite EQ by assumption; specialize (HP i j Hi Hj); apply Rmult_le_pos; nra|].
    rewrite E, E'. do 2 f_equal. eapply silhouette_unique; [exact V'|]. eapply silhouette_times; [| |exact V]; [apply (Rmult_lt_0_compat c c Hc Hc)|]. rewrite HL. exact EQ.
  - rewrite (P2 i j Hi Hj HN). apply (P2' i j Hi Hj). rewrite EQ by assumption. assert (0 < c * c) by nra. nra.
Qed.
Print Assumptions C228_softdtw.
(** a case of the hypotheses: three series of different lengths, values [x] replaced by [1 - 2 x] *)
Definition sil_move (x : list R) : list R := map (fun v => 1 - 2 * v) x.
Example C228_instance : (forall s, In s one_two -> real_series 1 s) /\ similarity 1 1 2 sil_move /\ distinct [0; 0; 1]%Z 2 /\ (2 <= 2 < length one_two)%nat.
Proof.
  split; [apply C136_dtw_instance|]. split; [|split].
  - intros x y Hx Hy. destruct x as [|a [|]]; try discriminate. destruct y as [|b [|]]; try discriminate. split; [reflexivity|]. unfold sqd, sil_move. cbn. ring.
  - exists [0; 1]%Z. split; [repeat constructor; cbn; intuition discriminate|]. split; [|reflexivity]. intros z. cbn. intuition.
  - cbn. lia.
Qed.

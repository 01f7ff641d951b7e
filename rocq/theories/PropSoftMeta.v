(** C194, C195: how soft-DTW and the global alignment kernel change with their arguments.
    Exact reals; multivariate series of any lengths. *)
From Coq Require Import Bool List Arith Lia ZArith QArith Reals Lra Permutation.
From Verif Require Import Num NumLaws Py Series Masks DtwModel Spec SpecDtw DpProofs DtwProofs DtwThms DtwExact
  LimitedThms MaskThms RList PathSum SoftModel SoftThms RealSeries PaaThms CyccThms IntSeries PropDtw MetaThms PropMeta PropSoft GakModel PropGak.
Import ListNotations.
Local Open Scope R_scope.

(** ** lemmas *)
Lemma ln_le a b : 0 < a -> a <= b -> ln a <= ln b.
Proof. intros Ha [H| ->]; [left; apply ln_increasing; auto|lra]. Qed.
Lemma exp_le a b : a <= b -> exp a <= exp b.
Proof. intros [H| ->]; [left; apply exp_increasing; auto|lra]. Qed.
Lemma paths_some d s1 s2 g r s A : real_series d s1 -> real_series d s2 -> positive_slope s -> constraint (length s1) (length s2) g r s A ->
  all_paths (length s1) (length s2) A <> [].
Proof.
  intros H1 H2 Hs HC K. pose proof (real_len _ _ H1) as L1. pose proof (real_len _ _ H2) as L2.
  destruct (constraint_feasible _ _ _ _ _ _ L1 L2 Hs HC) as (p & Hp). apply (all_paths_enum _ _ A L1 L2) in Hp. rewrite K in Hp. contradiction.
Qed.
Lemma gibbs_le_total gamma D ps p : In p ps -> gibbs gamma D p <= total gamma D ps.
Proof.
  unfold total. induction ps as [|q ps IH]; intros Hp; [contradiction|]. simpl.
  assert (0 <= rsum (map (gibbs gamma D) ps)) by (apply rsum_nonneg; intros x Hx; apply in_map_iff in Hx; destruct Hx as (y & <- & _); left; apply exp_pos).
  assert (0 < gibbs gamma D q) by apply exp_pos. destruct Hp as [->|Hp]; [lra|]. specialize (IH Hp). lra.
Qed.
(** gamma ln (sum of exp(-c/gamma)) increases with gamma *)
Lemma total_gamma D ps a b : 0 < a -> a <= b -> ps <> [] -> a * ln (total a D ps) <= b * ln (total b D ps).
Proof.
  intros Ha Hab Hne. set (L := ln (total b D ps)). pose proof (total_pos b D ps Hne) as Pb. pose proof (total_pos a D ps Hne) as Pa.
  assert (EL : exp L = total b D ps) by (apply exp_ln; auto).
  assert (K : total a D ps <= exp (b / a * L)).
  { assert (T : total a D ps <= rsum (map (fun p => gibbs b D p * exp (b / a * L - L)) ps)).
    { apply rsum_map_le. intros p Hp. pose proof (gibbs_le_total b D ps p Hp) as G. rewrite <- EL in G. unfold gibbs in G |- *.
      rewrite <- exp_plus. apply exp_le.
      assert (G' : - (cost D p / b) <= L).
      { destruct (Rle_or_lt (- (cost D p / b)) L) as [|X]; auto. apply exp_increasing in X. lra. }
      assert (E : - (cost D p / a) = b / a * - (cost D p / b)) by (field; lra). rewrite E.
      assert (1 <= b / a). { apply (Rmult_le_reg_r a); auto. unfold Rdiv. rewrite Rmult_assoc, Rinv_l by lra. lra. }
      assert (0 <= (b / a - 1) * (L - - (cost D p / b))) by (apply Rmult_le_pos; lra). nra. }
    rewrite rsum_scal_r in T. fold (total b D ps) in T. rewrite <- EL, <- exp_plus in T.
    replace (L + (b / a * L - L)) with (b / a * L) in T by ring. exact T. }
  apply ln_le in K; auto. rewrite ln_exp in K.
  apply (Rmult_le_compat_l a) in K; [|lra]. replace (a * (b / a * L)) with (b * L) in K by (field; lra). exact K.
Qed.
Lemma rsum_incl {A} (f : A -> R) l l' : NoDup l -> (forall x, In x l -> In x l') -> (forall x, 0 <= f x) -> rsum (map f l) <= rsum (map f l').
Proof.
  intros N. revert l'. induction N as [|a l Ha N IH]; intros l' Hi Hf; simpl.
  - apply rsum_nonneg. intros x Hx. apply in_map_iff in Hx. destruct Hx as (y & <- & _). auto.
  - destruct (in_split a l' (Hi a (or_introl eq_refl))) as (u & v & ->).
    assert (I : forall x, In x l -> In x (u ++ v)).
    { intros x Hx. pose proof (Hi x (or_intror Hx)) as K. apply in_app_or in K. apply in_or_app. destruct K as [|[->|]]; auto. contradiction. }
    specialize (IH _ I Hf). rewrite map_app, rsum_app in IH |- *. simpl. lra.
Qed.
Lemma cost_ext_in D E n m A p : (0 < n)%nat -> (0 < m)%nat -> warping_path n m A p ->
  (forall i j, (i < n)%nat -> (j < m)%nat -> D i j = E i j) -> cost D p = cost E p.
Proof.
  intros Hn Hm Hp H. unfold cost. apply rsum_map_ext. intros [i j] Hc. destruct (wpath_bounds _ _ _ _ Hn Hm Hp i j Hc). apply H; auto.
Qed.
Lemma cost_mul D k p : cost (fun i j => k * D i j) p = k * cost D p.
Proof. unfold cost. induction p as [|c p IH]; simpl; [ring|]. rewrite IH. ring. Qed.
Lemma turn_turn n m p : (forall i j, In (i, j) p -> (i < n)%nat /\ (j < m)%nat) -> map (turn n m) (rev (map (turn n m) (rev p))) = p.
Proof.
  intros H. rewrite <- (map_rev (turn n m) (rev p)), rev_involutive, map_map. rewrite <- (map_id p) at 2.
  apply map_ext_in. intros [i j] Hc. destruct (H i j Hc). unfold turn. simpl. f_equal; lia.
Qed.
Lemma enum_turn n m A ps : (0 < n)%nat -> (0 < m)%nat ->
  (forall i j, (i < n)%nat -> (j < m)%nat -> A (n - 1 - i)%nat (m - 1 - j)%nat = A i j) ->
  enumerates (warping_path n m A) ps -> enumerates (warping_path n m A) (map (fun p => map (turn n m) (rev p)) ps).
Proof.
  intros Hn Hm HA [N H].
  assert (T : forall p, warping_path n m A p -> warping_path n m A (map (turn n m) (rev p))).
  { intros p Hp. apply (turn_path n m A A); auto. intros i j Hi Hj HT. rewrite HA; auto. }
  assert (TT : forall p, warping_path n m A p -> map (turn n m) (rev (map (turn n m) (rev p))) = p).
  { intros p Hp. apply turn_turn. intros i j Hc. apply (wpath_bounds n m A p); auto. }
  split.
  - apply nodup_map_inj; auto. intros x y Hx Hy E. apply H in Hx. apply H in Hy. rewrite <- (TT x), <- (TT y), E; auto.
  - intros p. rewrite in_map_iff. split.
    + intros (q & <- & Hq). apply T, H, Hq.
    + intros Hp. exists (map (turn n m) (rev p)). split; [apply TT; auto|apply H, T; auto].
Qed.
Lemma rsum_rev l : rsum (rev l) = rsum l.
Proof. apply PropMeta.rsum_perm. apply Permutation_sym, Permutation_rev. Qed.
Lemma real_rev d s : real_series d s -> real_series d (rev s).
Proof.
  intros (Hd & Hne & Hr). split; [auto|]. split.
  - intros K. apply Hne. rewrite <- (rev_involutive s), K. reflexivity.
  - intros x Hx. apply Hr. apply in_rev. auto.
Qed.
Lemma costs_rev s1 s2 i j : (i < length s1)%nat -> (j < length s2)%nat ->
  costs (rev s1) (rev s2) (length s1 - 1 - i) (length s2 - 1 - j) = costs s1 s2 i j.
Proof.
  intros Hi Hj. unfold costs. rewrite <- (rev_length s1) at 1. rewrite nth_turn by (rewrite rev_length; auto).
  rewrite <- (rev_length s2) at 1. rewrite nth_turn by (rewrite rev_length; auto). rewrite !rev_involutive. reflexivity.
Qed.
Lemma costs_similar d d' k f s1 s2 i j : real_series d s1 -> real_series d s2 -> similarity d d' k f -> (i < length s1)%nat -> (j < length s2)%nat ->
  costs (map f s1) (map f s2) i j = k * k * costs s1 s2 i j.
Proof.
  intros H1 H2 Hf Hi Hj. unfold costs. rewrite !(nth_map_in f _ _ []) by auto. apply Hf; eapply real_row; eauto.
Qed.
Lemma similar_real d d' k f s : real_series d s -> (0 < d')%nat -> similarity d d' k f -> real_series d' (map f s).
Proof. intros H Hd Hf. apply (real_map d); auto. intros x Hx. apply (Hf x x); auto. Qed.
Lemma shift_similar d t : length t = d -> similarity d d 1 (fun x => map (fun p => fst p + snd p) (combine x t)).
Proof. intros Ht x y Hx Hy. split; [rewrite map_length, combine_length; lia|]. rewrite sqd_shift by lia. ring. Qed.
Lemma scale_similar d a : similarity d d a (map (fun v => a * v)).
Proof. intros x y Hx Hy. split; [rewrite map_length; auto|]. apply sqd_scaled. Qed.
Lemma order_similar d o : Permutation o (seq 0 d) -> similarity d d 1 (fun x => map (fun k => nth k x 0) o).
Proof.
  intros P x y Hx Hy. split; [rewrite map_length; apply Permutation_length in P; rewrite seq_length in P; auto|].
  rewrite (sqd_rearranged d) by auto. ring.
Qed.

(** ** C194: soft-DTW *)
(** never increases with gamma (gamma = 0 is the square of DTW) *)
Theorem C194_gamma : forall be d s1 s2 a b g r slope A, real_series d s1 -> real_series d s2 -> positive_slope slope ->
  constraint (length s1) (length s2) g r slope A -> 0 <= a <= b ->
  exists v w, soft_dtw be (series_of s1) (series_of s2) a g r slope = Ok (XR v) /\
    soft_dtw be (series_of s1) (series_of s2) b g r slope = Ok (XR w) /\ w <= v.
Proof.
  intros be d s1 s2 a b g r s A H1 H2 Hs HC [[Ha|<-] Hab].
  - assert (Hb : 0 < b) by lra. exists (- a * ln (total a (costs s1 s2) (all_paths (length s1) (length s2) A))), (- b * ln (total b (costs s1 s2) (all_paths (length s1) (length s2) A))).
    split; [apply (soft_public be d); auto|]. split; [apply (soft_public be d); auto|].
    pose proof (total_gamma (costs s1 s2) _ a b Ha Hab (paths_some d s1 s2 g r s A H1 H2 Hs HC)). lra.
  - destruct (C28_gamma_zero be d s1 s2 g r s A H1 H2 Hs HC) as (v & Ev & Es). destruct Hab as [Hb|<-].
    + destruct (C28_soft_dtw_bounds be d s1 s2 b g r s A _ Hb H1 H2 Hs HC (all_paths_enum _ _ A (real_len _ _ H1) (real_len _ _ H2))) as (v' & sv & Ev' & Es' & B).
      rewrite Ev in Ev'. apply Ok_inj, XR_inj in Ev'. subst v'. exists (v * v), sv. split; [auto|]. split; [auto|lra].
    + exists (v * v), (v * v). split; [auto|]. split; [auto|lra].
Qed.
Print Assumptions C194_gamma.
(** fewer allowed cells never make it smaller *)
Theorem C194_constraint : forall be d s1 s2 gamma g r slope A g' r' slope' A', 0 <= gamma -> real_series d s1 -> real_series d s2 ->
  positive_slope slope -> positive_slope slope' ->
  constraint (length s1) (length s2) g r slope A -> constraint (length s1) (length s2) g' r' slope' A' ->
  (forall i j, (i < length s1)%nat -> (j < length s2)%nat -> A i j = true -> A' i j = true) ->
  exists v w, soft_dtw be (series_of s1) (series_of s2) gamma g r slope = Ok (XR v) /\
    soft_dtw be (series_of s1) (series_of s2) gamma g' r' slope' = Ok (XR w) /\ w <= v.
Proof.
  intros be d s1 s2 gamma g r s A g' r' s' A' Hg H1 H2 Hs Hs' HC HC' HA.
  pose proof (real_len _ _ H1) as L1. pose proof (real_len _ _ H2) as L2.
  assert (WP : forall p, warping_path (length s1) (length s2) A p -> warping_path (length s1) (length s2) A' p).
  { intros p Hp. pose proof (wpath_bounds _ _ _ _ L1 L2 Hp) as Hb. destruct Hp as (F & La & Li & Al). split; [auto|]. split; [auto|]. split; [auto|].
    intros i j Hin. destruct (Hb i j Hin). apply HA; auto. }
  destruct Hg as [Hg|<-].
  - exists (- gamma * ln (total gamma (costs s1 s2) (all_paths (length s1) (length s2) A))), (- gamma * ln (total gamma (costs s1 s2) (all_paths (length s1) (length s2) A'))).
    split; [apply (soft_public be d); auto|]. split; [apply (soft_public be d); auto|].
    assert (T : total gamma (costs s1 s2) (all_paths (length s1) (length s2) A) <= total gamma (costs s1 s2) (all_paths (length s1) (length s2) A')).
    { apply rsum_incl; [apply (all_paths_enum _ _ A L1 L2)| |intros; left; apply exp_pos].
      intros p Hp. apply (all_paths_enum _ _ A' L1 L2). apply WP. apply (all_paths_enum _ _ A L1 L2). auto. }
    apply ln_le in T; [|apply total_pos; apply (paths_some d s1 s2 g r s A); auto]. nra.
  - destruct (dtw_value d s1 s2 g r s A _ H1 H2 Hs HC (all_paths_enum _ _ A L1 L2)) as (p & Hp & _ & E).
    destruct (dtw_value d s1 s2 g' r' s' A' _ H1 H2 Hs' HC' (all_paths_enum _ _ A' L1 L2)) as (p' & _ & Hm & E').
    destruct (soft_zero be d s1 s2 g r s H1 H2) as [Z _]. destruct (soft_zero be d s1 s2 g' r' s' H1 H2) as [Z' _].
    rewrite Z, Z', E, E'. cbn [bind]. do 2 eexists. split; [reflexivity|]. split; [reflexivity|].
    assert (C : forall q, 0 <= cost (costs s1 s2) q) by (intros; apply cost_nonneg; intros; apply sqd_nonneg).
    rewrite !sqrt_sqrt by auto. apply Hm. apply (all_paths_enum _ _ A' L1 L2). apply WP. apply (all_paths_enum _ _ A L1 L2). auto.
Qed.
Print Assumptions C194_constraint.
(** a map that multiplies all distances by k, with gamma multiplied by k^2, multiplies it by k^2 *)
Theorem C194_similarity : forall be d d' k f s1 s2 gamma g r slope A, 0 <= gamma -> real_series d s1 -> real_series d s2 -> positive_slope slope ->
  constraint (length s1) (length s2) g r slope A -> (0 < d')%nat -> k <> 0 -> similarity d d' k f ->
  exists v, soft_dtw be (series_of s1) (series_of s2) gamma g r slope = Ok (XR v) /\
    soft_dtw be (series_of (map f s1)) (series_of (map f s2)) (k * k * gamma) g r slope = Ok (XR (k * k * v)).
Proof.
  intros be d d' k f s1 s2 gamma g r s A Hg H1 H2 Hs HC Hd Hk Hf.
  assert (R1 : real_series d' (map f s1)) by (eapply similar_real; eauto). assert (R2 : real_series d' (map f s2)) by (eapply similar_real; eauto).
  pose proof (real_len _ _ H1) as L1. pose proof (real_len _ _ H2) as L2.
  assert (Kp : 0 < k * k) by nra.
  destruct Hg as [Hg|<-].
  - eexists. split; [apply (soft_public be d s1 s2 gamma g r s A); auto|]. rewrite (soft_public be d' (map f s1) (map f s2) (k * k * gamma) g r s A) by (rewrite ?map_length; auto; nra).
    rewrite !map_length. do 2 f_equal.
    replace (total (k * k * gamma) (costs (map f s1) (map f s2)) (all_paths (length s1) (length s2) A)) with (total gamma (costs s1 s2) (all_paths (length s1) (length s2) A)); [ring|].
    apply rsum_map_ext. intros p Hp. apply (all_paths_enum _ _ A L1 L2) in Hp. unfold gibbs. do 2 f_equal.
    rewrite (cost_ext_in (costs (map f s1) (map f s2)) (fun i j => k * k * costs s1 s2 i j) _ _ A p L1 L2 Hp) by (intros; eapply costs_similar; eauto).
    rewrite cost_mul. field. split; lra.
  - rewrite Rmult_0_r. destruct (soft_zero be d s1 s2 g r s H1 H2) as [Z _]. destruct (soft_zero be d' (map f s1) (map f s2) g r s R1 R2) as [Z' _].
    assert (Hf' : similarity d d' (Rabs k) f).
    { intros x y Hx Hy. destruct (Hf x y Hx Hy) as [Q1 Q2]. split; auto. rewrite Q2. f_equal. rewrite <- Rabs_mult. symmetry. apply Rabs_pos_eq. nra. }
    destruct (C177_similarity d d' (Rabs k) f s1 s2 g r s A H1 H2 Hs HC Hd (Rabs_pos k) Hf') as [(v & _ & V1 & V2) _].
    exists (v * v). rewrite Z, Z', V1, V2. cbn [bind]. split; [reflexivity|]. cbn. do 2 f_equal.
    assert (Rabs k * Rabs k = k * k) by (rewrite <- Rabs_mult; apply Rabs_pos_eq; nra). nra.
Qed.
Print Assumptions C194_similarity.
Theorem C194_shift : forall be d t s1 s2 gamma g r slope A, 0 <= gamma -> real_series d s1 -> real_series d s2 -> positive_slope slope ->
  constraint (length s1) (length s2) g r slope A -> length t = d ->
  soft_dtw be (series_of (shifted t s1)) (series_of (shifted t s2)) gamma g r slope = soft_dtw be (series_of s1) (series_of s2) gamma g r slope.
Proof.
  intros be d t s1 s2 gamma g r s A Hg H1 H2 Hs HC Ht. pose proof H1 as (Hd & _).
  destruct (C194_similarity be d d 1 _ s1 s2 gamma g r s A Hg H1 H2 Hs HC Hd R1_neq_R0 (shift_similar d t Ht)) as (v & V1 & V2).
  unfold shifted. rewrite V1. rewrite !Rmult_1_l in V2. exact V2.
Qed.
Print Assumptions C194_shift.
Theorem C194_features : forall be d order s1 s2 gamma g r slope A, 0 <= gamma -> real_series d s1 -> real_series d s2 -> positive_slope slope ->
  constraint (length s1) (length s2) g r slope A -> Permutation order (seq 0 d) ->
  soft_dtw be (series_of (rearranged order s1)) (series_of (rearranged order s2)) gamma g r slope = soft_dtw be (series_of s1) (series_of s2) gamma g r slope.
Proof.
  intros be d o s1 s2 gamma g r s A Hg H1 H2 Hs HC P. pose proof H1 as (Hd & _).
  destruct (C194_similarity be d d 1 _ s1 s2 gamma g r s A Hg H1 H2 Hs HC Hd R1_neq_R0 (order_similar d o P)) as (v & V1 & V2).
  unfold rearranged. rewrite V1. rewrite !Rmult_1_l in V2. exact V2.
Qed.
Print Assumptions C194_features.
Theorem C194_scale : forall be d a s1 s2 gamma g r slope A, 0 <= gamma -> real_series d s1 -> real_series d s2 -> positive_slope slope ->
  constraint (length s1) (length s2) g r slope A -> a <> 0 ->
  exists v, soft_dtw be (series_of s1) (series_of s2) gamma g r slope = Ok (XR v) /\
    soft_dtw be (series_of (scaled a s1)) (series_of (scaled a s2)) (a * a * gamma) g r slope = Ok (XR (a * a * v)).
Proof.
  intros be d a s1 s2 gamma g r s A Hg H1 H2 Hs HC Ha. pose proof H1 as (Hd & _).
  apply (C194_similarity be d d a (map (fun v => a * v)) s1 s2 gamma g r s A); auto. apply scale_similar.
Qed.
Print Assumptions C194_scale.
Theorem C194_reverse : forall be d s1 s2 gamma g r slope A, 0 <= gamma -> real_series d s1 -> real_series d s2 -> positive_slope slope ->
  constraint (length s1) (length s2) g r slope A ->
  soft_dtw be (series_of (rev s1)) (series_of (rev s2)) gamma g r slope = soft_dtw be (series_of s1) (series_of s2) gamma g r slope.
Proof.
  intros be d s1 s2 gamma g r s A Hg H1 H2 Hs HC.
  pose proof (real_len _ _ H1) as L1. pose proof (real_len _ _ H2) as L2.
  pose proof (real_rev d s1 H1) as R1. pose proof (real_rev d s2 H2) as R2.
  destruct Hg as [Hg|<-].
  - rewrite (soft_public be d s1 s2 gamma g r s A), (soft_public be d (rev s1) (rev s2) gamma g r s A) by (rewrite ?rev_length; auto).
    rewrite !rev_length. do 4 f_equal.
    rewrite (total_enum gamma (costs (rev s1) (rev s2)) _ _ _ (all_paths_enum _ _ A L1 L2)
       (enum_turn _ _ A _ L1 L2 (constraint_turn _ _ _ _ _ _ L1 L2 Hs HC) (all_paths_enum _ _ A L1 L2))).
    unfold total. rewrite map_map. apply rsum_map_ext. intros p Hp. apply (all_paths_enum _ _ A L1 L2) in Hp.
    unfold gibbs. do 3 f_equal. unfold cost. rewrite map_map, map_rev, rsum_rev. apply rsum_map_ext. intros [i j] Hc. simpl.
    destruct (wpath_bounds _ _ _ _ L1 L2 Hp i j Hc). apply costs_rev; auto.
  - destruct (soft_zero be d s1 s2 g r s H1 H2) as [Z _]. destruct (soft_zero be d (rev s1) (rev s2) g r s R1 R2) as [Z' _].
    rewrite Z, Z'. destruct (C177_reverse d s1 s2 g r s A H1 H2 Hs HC) as [E _]. rewrite E. reflexivity.
Qed.
Print Assumptions C194_reverse.
(** a band strictly inside another one, and a series that is not its own reverse *)
Example C194_nontrivial : exists s1 s2, real_series 2 s1 /\ real_series 2 s2 /\
  constraint (length s1) (length s2) GcSakoeChiba (Some 1%Z) None (band 3 3 1) /\ constraint (length s1) (length s2) GcNone None None everywhere /\
  band 3 3 1 0 2 = false /\ s1 <> rev s1 /\ rearranged [1; 0]%nat s1 <> s1 /\ (0 <= 1 <= 2)%R.
Proof.
  exists (zseries [[0; 1]; [2; 0]; [5; 1]]%Z), (zseries [[1; 1]; [1; 0]; [4; 0]]%Z). split; [zreal|]. split; [zreal|].
  split; [split; [cbn; lia|reflexivity]|]. split; [reflexivity|].
  split; [reflexivity|]. split; [intros K; inversion K; lra|]. split; [intros K; inversion K; lra|lra].
Qed.

(** ** C195: the global alignment kernel *)
Lemma kern_scale k sigma t : k <> 0 -> sigma <> 0 -> kern (k * sigma) (k * k * t) = kern sigma t.
Proof.
  intros Hk Hs. unfold kern. replace (k * k * t / (2 * (k * sigma) * (k * sigma))) with (t / (2 * sigma * sigma)); [reflexivity|]. field. auto.
Qed.
Lemma Kxy_similar d d' k f s1 s2 sigma : k <> 0 -> sigma <> 0 -> real_series d s1 -> real_series d s2 -> similarity d d' k f ->
  Kxy (k * sigma) (map f s1) (map f s2) = Kxy sigma s1 s2.
Proof.
  intros Hk Hs H1 H2 Hf. unfold Kxy. rewrite !map_length. pose proof (real_len _ _ H1) as L1. pose proof (real_len _ _ H2) as L2.
  apply rsum_map_ext. intros p Hp. apply (all_paths_enum _ _ everywhere L1 L2) in Hp. unfold kpath. f_equal. apply map_ext_in. intros [i j] Hc. simpl.
  destruct (wpath_bounds _ _ _ _ L1 L2 Hp i j Hc). rewrite (costs_similar d d' k) by auto. apply kern_scale; auto.
Qed.
Lemma Kxy_rev d s1 s2 sigma : real_series d s1 -> real_series d s2 -> Kxy sigma (rev s1) (rev s2) = Kxy sigma s1 s2.
Proof.
  intros H1 H2. unfold Kxy. rewrite !rev_length. pose proof (real_len _ _ H1) as L1. pose proof (real_len _ _ H2) as L2.
  rewrite (enumerates_rsum _ _ _ (kpath sigma (rev s1) (rev s2)) (all_paths_enum _ _ everywhere L1 L2)
       (enum_turn _ _ everywhere _ L1 L2 (fun i j _ _ => eq_refl) (all_paths_enum _ _ everywhere L1 L2))).
  rewrite map_map. apply rsum_map_ext. intros p Hp. apply (all_paths_enum _ _ everywhere L1 L2) in Hp. unfold kpath.
  rewrite map_map, map_rev, rprod_rev. f_equal. apply map_ext_in. intros [i j] Hc. simpl.
  destruct (wpath_bounds _ _ _ _ L1 L2 Hp i j Hc). rewrite costs_rev; auto.
Qed.
(** a map that multiplies all distances by k, with sigma multiplied by k *)
Theorem C195_similarity : forall d d' k f s1 s2 sigma, sigma <> 0 -> k <> 0 -> real_series d s1 -> real_series d s2 -> (0 < d')%nat -> similarity d d' k f ->
  gak (series_of (map f s1)) (series_of (map f s2)) (k * sigma) = gak (series_of s1) (series_of s2) sigma /\
  unnormalized_gak (series_of (map f s1)) (series_of (map f s2)) (k * sigma) = unnormalized_gak (series_of s1) (series_of s2) sigma.
Proof.
  intros d d' k f s1 s2 sigma Hs Hk H1 H2 Hd Hf.
  assert (R1 : real_series d' (map f s1)) by (eapply similar_real; eauto). assert (R2 : real_series d' (map f s2)) by (eapply similar_real; eauto).
  assert (Hks : k * sigma <> 0) by (apply Rmult_integral_contrapositive; auto).
  split.
  - rewrite (gak_value d s1 s2), (gak_value d' (map f s1) (map f s2)) by auto. rewrite !(Kxy_similar d d' k f) by auto. reflexivity.
  - unfold unnormalized_gak. rewrite !is_zero_neq by auto. rewrite (strip_lift d s1), (strip_lift d s2), (strip_lift d' (map f s1)), (strip_lift d' (map f s2)) by auto.
    rewrite (unnorm_value d s1 s2), (unnorm_value d' (map f s1) (map f s2)) by auto. rewrite !(Kxy_similar d d' k f) by auto. reflexivity.
Qed.
Print Assumptions C195_similarity.
Theorem C195_shift : forall d t s1 s2 sigma, sigma <> 0 -> real_series d s1 -> real_series d s2 -> length t = d ->
  gak (series_of (shifted t s1)) (series_of (shifted t s2)) sigma = gak (series_of s1) (series_of s2) sigma /\
  unnormalized_gak (series_of (shifted t s1)) (series_of (shifted t s2)) sigma = unnormalized_gak (series_of s1) (series_of s2) sigma.
Proof.
  intros d t s1 s2 sigma Hs H1 H2 Ht. pose proof H1 as (Hd & _).
  pose proof (C195_similarity d d 1 _ s1 s2 sigma Hs R1_neq_R0 H1 H2 Hd (shift_similar d t Ht)) as K. rewrite Rmult_1_l in K. exact K.
Qed.
Print Assumptions C195_shift.
Theorem C195_features : forall d order s1 s2 sigma, sigma <> 0 -> real_series d s1 -> real_series d s2 -> Permutation order (seq 0 d) ->
  gak (series_of (rearranged order s1)) (series_of (rearranged order s2)) sigma = gak (series_of s1) (series_of s2) sigma /\
  unnormalized_gak (series_of (rearranged order s1)) (series_of (rearranged order s2)) sigma = unnormalized_gak (series_of s1) (series_of s2) sigma.
Proof.
  intros d o s1 s2 sigma Hs H1 H2 P. pose proof H1 as (Hd & _).
  pose proof (C195_similarity d d 1 _ s1 s2 sigma Hs R1_neq_R0 H1 H2 Hd (order_similar d o P)) as K. rewrite Rmult_1_l in K. exact K.
Qed.
Print Assumptions C195_features.
Theorem C195_scale : forall d a s1 s2 sigma, sigma <> 0 -> a <> 0 -> real_series d s1 -> real_series d s2 ->
  gak (series_of (scaled a s1)) (series_of (scaled a s2)) (a * sigma) = gak (series_of s1) (series_of s2) sigma /\
  unnormalized_gak (series_of (scaled a s1)) (series_of (scaled a s2)) (a * sigma) = unnormalized_gak (series_of s1) (series_of s2) sigma.
Proof.
  intros d a s1 s2 sigma Hs Ha H1 H2. pose proof H1 as (Hd & _). apply (C195_similarity d d a); auto. apply scale_similar.
Qed.
Print Assumptions C195_scale.
Theorem C195_reverse : forall d s1 s2 sigma, sigma <> 0 -> real_series d s1 -> real_series d s2 ->
  gak (series_of (rev s1)) (series_of (rev s2)) sigma = gak (series_of s1) (series_of s2) sigma /\
  unnormalized_gak (series_of (rev s1)) (series_of (rev s2)) sigma = unnormalized_gak (series_of s1) (series_of s2) sigma.
Proof.
  intros d s1 s2 sigma Hs H1 H2. pose proof (real_rev d s1 H1) as R1. pose proof (real_rev d s2 H2) as R2. split.
  - rewrite !(gak_value d) by auto. rewrite !(Kxy_rev d) by auto. reflexivity.
  - unfold unnormalized_gak. rewrite !is_zero_neq by auto. rewrite !(strip_lift d) by auto.
    rewrite !(unnorm_value d) by auto. rewrite !(Kxy_rev d) by auto. reflexivity.
Qed.
Print Assumptions C195_reverse.
(** the unnormalized kernel grows with |sigma| *)
Theorem C195_sigma : forall d s1 s2 a b, a <> 0 -> Rabs a <= Rabs b -> real_series d s1 -> real_series d s2 ->
  exists v w, unnormalized_gak (series_of s1) (series_of s2) a = Ok (XR v) /\ unnormalized_gak (series_of s1) (series_of s2) b = Ok (XR w) /\ 0 < v <= w.
Proof.
  intros d s1 s2 a b Ha Hab H1 H2. assert (Hb : b <> 0) by (intros ->; rewrite Rabs_R0 in Hab; pose proof (Rabs_pos_lt a Ha); lra).
  exists (Kxy a s1 s2), (Kxy b s1 s2). unfold unnormalized_gak. rewrite !is_zero_neq by auto. rewrite !(strip_lift d) by auto.
  split; [apply (unnorm_value d); auto|]. split; [apply (unnorm_value d); auto|]. split; [apply (Kxy_pos d); auto|].
  unfold Kxy. apply rsum_map_le. intros p _. unfold kpath.
  assert (KM : forall t, 0 <= t -> 0 < kern a t <= kern b t).
  { intros t Ht. split; [apply kern_pos; auto|]. unfold kern.
    assert (E : exp (- (t / (2 * a * a))) <= exp (- (t / (2 * b * b)))).
    { apply exp_le. apply Ropp_le_contravar. unfold Rdiv. apply Rmult_le_compat_l; auto. apply Rinv_le_contravar; [apply sig2; auto|].
      assert (a * a <= b * b) by (apply Rsqr_le_abs_1 in Hab; unfold Rsqr in Hab; auto). lra. }
    pose proof (kern_exp a t Ha Ht) as Ea. pose proof (kern_exp b t Hb Ht) as Eb.
    unfold Rdiv. apply Rmult_le_compat; try lra; [left; apply Rinv_0_lt_compat; lra|]. apply Rinv_le_contravar; lra. }
  assert (G : 0 < rprod (map (fun c => kern a (costs s1 s2 (fst c) (snd c))) p) <= rprod (map (fun c => kern b (costs s1 s2 (fst c) (snd c))) p)).
  { induction p as [|c p [I1 I2]]; simpl; [lra|]. destruct (KM (costs s1 s2 (fst c) (snd c)) (sqd_nonneg _ _)).
    split; [apply Rmult_lt_0_compat; auto|]. apply Rmult_le_compat; lra. }
  apply G.
Qed.
Print Assumptions C195_sigma.
Example C195_nontrivial : exists s1 s2, real_series 2 s1 /\ real_series 2 s2 /\ s1 <> rev s1 /\ rearranged [1; 0]%nat s1 <> s1 /\ (3 <> 0)%R /\ Rabs (-1) <= Rabs 2.
Proof.
  exists (zseries [[0; 1]; [2; 0]; [5; 1]]%Z), (zseries [[1; 1]; [1; 0]]%Z). split; [zreal|]. split; [zreal|].
  split; [intros K; inversion K; lra|]. split; [intros K; inversion K; lra|]. split; [lra|]. rewrite Rabs_left, Rabs_right; lra.
Qed.

(** Properties C35 and C38: piecewise aggregate approximation, exact arithmetic. *)
From Coq Require Import Bool List Arith Lia ZArith QArith Reals Lra.
From Verif Require Import Num NumLaws Py Series Spec RList SoftModel GakModel RealSeries PaaModel PaaThms.
Import ListNotations.
Local Open Scope R_scope.

(** ** specification *)
(** a non-empty dataset of real series, all of length [sz] with [d] features *)
Definition real_dataset (d sz : nat) (X : list (list (list R))) : Prop :=
  X <> [] /\ forall s, In s X -> real_series d s /\ length s = sz.
(** Euclidean distance between two series of the same length *)
Definition euclid (s1 s2 : list (list R)) : R :=
  sqrt (rsum (map (fun i => sqd (nth i s1 []) (nth i s2 [])) (seq 0 (length s1)))).
(** mean of feature [k] over the [i]-th block of [q] time steps *)
Definition block_mean (s : list (list R)) (q i k : nat) : R :=
  rsum (map (fun u => entry s u k) (seq (i * q) q)) / INR q.

(** ** lemmas *)
Lemma map_ne {A B} (f : A -> B) l : l <> [] -> map f l <> [].
Proof. destruct l; [congruence|discriminate]. Qed.
Lemma sqd_entries d x y : length x = d -> length y = d ->
  sqd x y = rsum (map (fun k => sq (nth k x 0 - nth k y 0)) (seq 0 d)).
Proof.
  unfold sqd. intros <-. revert y. induction x as [|a x IH]; intros [|b y] H; simpl in *; try discriminate; auto.
  rewrite IH by lia. rewrite <- seq_shift, map_map. reflexivity.
Qed.
Lemma euclid_gsum d s1 s2 : real_series d s1 -> real_series d s2 -> length s1 = length s2 ->
  euclid s1 s2 = sqrt (gsum (length s1) d (fun i k => sq (entry s1 i k - entry s2 i k))).
Proof.
  intros (_ & _ & H1) (_ & _ & H2) L. unfold euclid, gsum. f_equal. apply rsum_map_ext. intros i Hi. apply in_seq in Hi.
  apply sqd_entries; [apply H1|apply H2]; apply nth_In; lia.
Qed.
Lemma dataset_grids d sz X : real_dataset d sz X -> map lift X = map (xgrid sz d) (map entry X).
Proof.
  intros [_ H]. rewrite map_map. apply map_ext_in. intros s Hs. destruct (H s Hs) as [Hr <-]. apply lift_grid. auto.
Qed.
Lemma dataset_pos d sz X : real_dataset d sz X -> (0 < sz)%nat /\ (0 < d)%nat.
Proof.
  intros [Hne H]. destruct X as [|s X]; [congruence|]. destruct (H s) as [Hr <-]; [left; auto|].
  split; [eapply real_len; eauto|apply Hr].
Qed.
Lemma fit_dataset d sz X m : real_dataset d sz X ->
  paa_fit m (map lift X) = Ok {| p_nseg := m; p_sz := sz; p_d := d |}.
Proof.
  intros H. pose proof (dataset_pos _ _ _ H) as [Hn _]. pose proof (proj1 H) as Hne. rewrite (dataset_grids _ _ _ H). unfold paa_fit.
  rewrite check_arr_grids by (auto using map_ne). simpl bind.
  destruct X as [|s X]; [congruence|]. change (map entry (s :: X)) with (entry s :: map entry X).
  rewrite arr_sz_grids, arr_d_grids by auto. reflexivity.
Qed.
Lemma transform_dataset d sz X st : real_dataset d sz X -> p_d st = d -> (0 < p_nseg st <= sz)%nat ->
  paa_transform st (map lift X) =
  Ok (map (fun s => xgrid (p_nseg st) d (fun i k => block_mean s (sz / p_nseg st) i k)) X).
Proof.
  intros H Hd Hm. pose proof (dataset_pos _ _ _ H) as [Hn Hdp]. pose proof (proj1 H) as Hne. rewrite (dataset_grids _ _ _ H).
  unfold paa_transform. rewrite check_arr_grids by (auto using map_ne). simpl bind.
  assert (E : arr_d (map (xgrid sz d) (map entry X)) = d).
  { destruct X as [|s X]; [congruence|]. simpl map. apply (arr_d_grids sz d (_ s)). auto. }
  unfold check_features. rewrite E, Hd, Nat.eqb_refl. simpl bind. unfold paa_transform_.
  destruct (Nat.eqb_spec (p_nseg st) 0) as [Z|_]; [lia|]. rewrite E. f_equal. rewrite !map_map. apply map_ext. intros s.
  rewrite paa_grid by lia. reflexivity.
Qed.
Lemma pair_dataset d sz s1 s2 : real_series d s1 -> real_series d s2 -> length s1 = sz -> length s2 = sz -> real_dataset d sz [s1; s2].
Proof. intros H1 H2 L1 L2. split; [discriminate|]. intros s [<-|[<-|[]]]; auto. Qed.

(** ** C35 *)
(** the value: root of (fitted size / segments) times the squared differences of the
    segment means *)
Theorem C35_paa_distance_value d sz X m s1 s2 n :
  real_dataset d sz X -> real_series d s1 -> real_series d s2 -> length s1 = n -> length s2 = n -> (0 < m <= n)%nat ->
  bind (paa_fit m (map lift X)) (fun st => paa_distance st (lift s1) (lift s2)) =
  Ok (XR (sqrt (INR sz / INR m *
    rsum (map (fun i => rsum (map (fun k => (block_mean s1 (n / m) i k - block_mean s2 (n / m) i k) *
                                            (block_mean s1 (n / m) i k - block_mean s2 (n / m) i k)) (seq 0 d))) (seq 0 m))))).
Proof.
  intros HX H1 H2 L1 L2 Hm. rewrite (fit_dataset _ _ _ m HX). simpl bind. unfold paa_distance.
  rewrite (transform_dataset d n [s1; s2]) by (auto using pair_dataset). simpl bind. f_equal.
  unfold distance_paa. simpl p_nseg. simpl p_sz.
  change (nth 0 _ []) with (xgrid m d (fun i k => block_mean s1 (n / m) i k)).
  change (nth 1 _ []) with (xgrid m d (fun i k => block_mean s2 (n / m) i k)).
  rewrite sq_diffs_grid. set (G := gsum _ _ _).
  assert (0 <= G) by (apply gsum_nonneg; intros; apply sq_nonneg).
  change (rsum (map _ (seq 0 m))) with G.
  assert (Hq : 0 <= INR sz / INR m).
  { apply Rmult_le_pos; [apply pos_INR|]. left. apply Rinv_0_lt_compat, lt_0_INR. lia. }
  unfold xsqrt. rewrite (proj2 (Rleb_true 0 G)) by auto.
  rewrite sqrt_mult by auto. simpl. f_equal. apply Rmult_comm.
Qed.
Print Assumptions C35_paa_distance_value.

(** an upper bound in terms of the Euclidean distance for every number of segments *)
Theorem C35_paa_distance_bound d sz X m s1 s2 :
  real_dataset d sz X -> real_series d s1 -> real_series d s2 -> length s1 = sz -> length s2 = sz -> (0 < m <= sz)%nat ->
  exists v, bind (paa_fit m (map lift X)) (fun st => paa_distance st (lift s1) (lift s2)) = Ok (XR v) /\
    0 <= v <= sqrt (INR sz / INR (m * (sz / m))) * euclid s1 s2.
Proof.
  intros HX H1 H2 L1 L2 Hm. eexists. split; [apply (C35_paa_distance_value d sz X m s1 s2 sz); auto|].
  split; [apply sqrt_pos|]. rewrite (euclid_gsum d) by (auto; lia). rewrite L1.
  assert (Hq : (0 < sz / m)%nat) by (apply Nat.div_str_pos; lia).
  assert (A : 0 <= INR sz / INR (m * (sz / m))).
  { apply Rmult_le_pos; [apply pos_INR|]. left. apply Rinv_0_lt_compat, lt_0_INR. apply Nat.mul_pos_pos; lia. }
  rewrite <- sqrt_mult by (auto; apply gsum_nonneg; intros; apply sq_nonneg). apply sqrt_le_1_alt.
  pose proof (gavg_jensen sz m d (entry s1) (entry s2) Hm) as J.
  assert (M : 0 < INR m) by (apply lt_0_INR; lia). assert (Q : 0 < INR (sz / m)) by (apply lt_0_INR; lia).
  change (rsum (map _ (seq 0 m))) with (gsum m d (fun i k => sq (gavg (entry s1) (i * (sz / m)) (sz / m) k - gavg (entry s2) (i * (sz / m)) (sz / m) k))).
  set (G := gsum m d _) in *. set (E := gsum sz d _) in *.
  rewrite mult_INR.
  replace (INR sz / INR m * G) with (INR sz / (INR m * INR (sz / m)) * (INR (sz / m) * G)) by (field; lra).
  apply Rmult_le_compat_l; auto. rewrite <- mult_INR. auto.
Qed.
Print Assumptions C35_paa_distance_bound.

(** the lower bound holds when the number of segments divides the length *)
Theorem C35_paa_lower_bound_partial d sz X m s1 s2 :
  real_dataset d sz X -> real_series d s1 -> real_series d s2 -> length s1 = sz -> length s2 = sz ->
  (0 < m)%nat -> Nat.divide m sz ->
  exists v, bind (paa_fit m (map lift X)) (fun st => paa_distance st (lift s1) (lift s2)) = Ok (XR v) /\
    0 <= v <= euclid s1 s2.
Proof.
  intros HX H1 H2 L1 L2 Hm [q Hq]. pose proof (dataset_pos _ _ _ HX) as [Hn _].
  assert (Q : (0 < q)%nat) by (destruct q; lia).
  destruct (C35_paa_distance_bound d sz X m s1 s2) as (v & E & B); auto.
  { split; auto. rewrite Hq. rewrite <- (Nat.mul_1_l m) at 1. apply Nat.mul_le_mono_r. lia. }
  exists v. split; auto. split; [apply B|]. eapply Rle_trans; [apply B|].
  replace (m * (sz / m))%nat with sz by (assert (E2 : (sz / m = q)%nat) by (rewrite Hq; apply Nat.div_mul; lia); rewrite E2; lia).
  unfold Rdiv. rewrite Rinv_r, sqrt_1 by (apply not_0_INR; lia). lra.
Qed.
Print Assumptions C35_paa_lower_bound_partial.

(** with 3 time steps and 2 segments the PAA distance exceeds the Euclidean one *)
Definition ex_a : list (list R) := [[0]; [0]; [0]].
Definition ex_b : list (list R) := [[1]; [1]; [0]].
Lemma ex_a_real : real_series 1 ex_a. Proof. split; [lia|split; [discriminate|]]. intros r [<-|[<-|[<-|[]]]]; reflexivity. Qed.
Lemma ex_b_real : real_series 1 ex_b. Proof. split; [lia|split; [discriminate|]]. intros r [<-|[<-|[<-|[]]]]; reflexivity. Qed.
Theorem C35_not_a_lower_bound_refuted :
  exists d sz X m s1 s2 v, real_dataset d sz X /\ real_series d s1 /\ real_series d s2 /\ length s1 = sz /\ length s2 = sz /\
    (0 < m <= sz)%nat /\
    bind (paa_fit m (map lift X)) (fun st => paa_distance st (lift s1) (lift s2)) = Ok (XR v) /\ euclid s1 s2 < v.
Proof.
  assert (HX : real_dataset 1 3 [ex_a; ex_b]) by (apply pair_dataset; auto using ex_a_real, ex_b_real).
  exists 1%nat, 3%nat, [ex_a; ex_b], 2%nat, ex_a, ex_b. eexists.
  split; [exact HX|]. split; [apply ex_a_real|]. split; [apply ex_b_real|]. split; [reflexivity|]. split; [reflexivity|].
  split; [lia|]. split.
  - apply (C35_paa_distance_value 1 3 [ex_a; ex_b] 2 ex_a ex_b 3); auto using ex_a_real, ex_b_real.
  - unfold euclid. simpl. unfold block_mean, entry. simpl. apply sqrt_lt_1_alt. unfold sqd. simpl. lra.
Qed.
Print Assumptions C35_not_a_lower_bound_refuted.

(** ** C38 *)
Lemma inverse_dataset d m P st : real_dataset d m P ->
  paa_inverse st (map lift P) =
  Ok (map (fun s => xgrid (p_sz st) d (fun u k => if (u <? m * (p_sz st / m))%nat then entry s (u / (p_sz st / m)) k else 0)) P).
Proof.
  intros H. pose proof (dataset_pos _ _ _ H) as [Hn Hdp]. pose proof (proj1 H) as Hne. rewrite (dataset_grids _ _ _ H).
  unfold paa_inverse. rewrite check_arr_grids by (auto using map_ne). simpl bind.
  destruct P as [|s P]; [congruence|]. change (map entry (s :: P)) with (entry s :: map entry P). rewrite arr_sz_grids.
  destruct (Nat.eqb_spec m 0) as [Z|_]; [lia|]. f_equal. rewrite arr_d_grids by auto.
  change (entry s :: map entry P) with (map entry (s :: P)). rewrite !map_map.
  apply map_ext. intros x. apply inv_paa_grid. auto.
Qed.
(** every time step covered by a segment carries the segment's value *)
Theorem C38_inverse_values d m sz P st :
  real_dataset d m P -> p_sz st = sz ->
  exists Y, paa_inverse st (map lift P) = Ok Y /\ length Y = length P /\
    forall j u, (j < length P)%nat -> length (nth j Y []) = sz /\
      ((u < m * (sz / m))%nat -> nth u (nth j Y []) [] = map XR (nth (u / (sz / m)) (nth j P []) [])) /\
      ((m * (sz / m) <= u < sz)%nat -> nth u (nth j Y []) [] = repeat (XR 0) d).
Proof.
  intros H <-. rewrite (inverse_dataset _ _ _ _ H). eexists. split; [reflexivity|]. rewrite map_length. split; auto.
  intros j u Hj. set (sz := p_sz st).
  assert (Hin : In (nth j P []) P) by (apply nth_In; auto). destruct H as [Hne H]. destruct (H _ Hin) as [Hr Hl].
  rewrite (nth_indep _ [] (xgrid sz d (fun u k => if (u <? m * (sz / m))%nat then entry [] (u / (sz / m)) k else 0))) by (rewrite map_length; auto).
  rewrite (map_nth (fun s => xgrid sz d (fun u k => if (u <? m * (sz / m))%nat then entry s (u / (sz / m)) k else 0))).
  rewrite xgrid_len. split; auto.
  assert (Hm : (0 < m)%nat) by (rewrite <- Hl; eapply real_len; eauto).
  assert (B : (m * (sz / m) <= sz)%nat) by (apply Nat.mul_div_le; lia).
  split; intros Hu; rewrite xgrid_nth by lia.
  - destruct (Nat.ltb_spec u (m * (sz / m))); [|lia]. unfold grow, entry.
    assert (Hi : (u / (sz / m) < m)%nat) by (apply Nat.div_lt_upper_bound; [intros E; rewrite E in Hu|]; lia).
    rewrite (map_nth_seq XR _ 0). destruct Hr as (_ & _ & Hr). rewrite (Hr (nth (u / (sz / m)) (nth j P []) [])) by (apply nth_In; lia).
    reflexivity.
  - destruct (Nat.ltb_spec u (m * (sz / m))); [lia|]. unfold grow. clear. generalize 0%nat. induction d as [|d IH]; intros a; simpl; auto. f_equal. apply IH.
Qed.
Print Assumptions C38_inverse_values.

(** [transform] after [inverse_transform] gives the representation back as soon as
    there is at least one time step per segment *)
Theorem C38_transform_inverse d m P st :
  real_dataset d m P -> p_nseg st = m -> p_d st = d -> (m <= p_sz st)%nat ->
  bind (paa_inverse st (map lift P)) (paa_transform st) = Ok (map lift P).
Proof.
  intros H Hm Hd Hle. rewrite (inverse_dataset _ _ _ _ H). simpl bind. set (sz := p_sz st) in *.
  pose proof (dataset_pos _ _ _ H) as [Hn Hdp]. pose proof (proj1 H) as Hne.
  assert (Hq : (0 < sz / m)%nat) by (apply Nat.div_str_pos; lia).
  set (F := fun (s : list (list R)) u k => if (u <? m * (sz / m))%nat then entry s (u / (sz / m)) k else 0).
  match goal with |- paa_transform st ?Y = _ => replace Y with (map (xgrid sz d) (map F P)) by (rewrite map_map; reflexivity) end.
  unfold paa_transform. rewrite check_arr_grids by (auto using map_ne; lia).
  simpl bind. assert (E : arr_d (map (xgrid sz d) (map F P)) = d).
  { destruct P as [|s P]; [congruence|]. simpl map. apply (arr_d_grids sz d (_ s)). lia. }
  unfold check_features. rewrite E, Hd, Nat.eqb_refl. simpl bind. unfold paa_transform_.
  rewrite Hm. destruct (Nat.eqb_spec m 0) as [Z|_]; [lia|]. rewrite E. f_equal.
  rewrite (dataset_grids _ _ _ H), !map_map. apply map_ext. intros s. rewrite paa_grid by lia.
  apply xgrid_ext. intros i k Hi Hk. unfold gavg.
  rewrite (rsum_map_ext _ (fun _ => entry s i k)).
  - rewrite rsum_const, seq_length. field. apply not_0_INR. lia.
  - intros u Hu. apply in_seq in Hu. unfold F.
    assert ((i + 1) * (sz / m) <= m * (sz / m))%nat by (apply Nat.mul_le_mono_r; lia).
    replace (u <? m * (sz / m))%nat with true by (symmetry; apply Nat.ltb_lt; lia). f_equal.
    symmetry. apply (Nat.div_unique u (sz / m) i (u - i * (sz / m))); lia.
Qed.
Print Assumptions C38_transform_inverse.

(** ... but the time steps after the last whole segment are set to zero, *)
Theorem C38_tail_is_zero_refuted :
  exists d m sz X P st Y u, real_dataset d sz X /\ paa_fit m (map lift X) = Ok st /\ real_dataset d m P /\
    paa_inverse st (map lift P) = Ok Y /\ (u < sz)%nat /\
    nth u (nth 0 Y []) [] = [XR 0] /\ ~ exists i, (i < m)%nat /\ nth i (nth 0 P []) [] = [0].
Proof.
  exists 1%nat, 2%nat, 3%nat, [ex_a], [[[1]; [2]]]. eexists. eexists. exists 2%nat.
  assert (HX : real_dataset 1 3 [ex_a]) by (split; [discriminate|]; intros s [<-|[]]; split; [apply ex_a_real|reflexivity]).
  assert (HP : real_dataset 1 2 [[[1]; [2]]]).
  { split; [discriminate|]. intros s [<-|[]]. split; [|reflexivity]. split; [lia|split; [discriminate|]].
    intros r [<-|[<-|[]]]; reflexivity. }
  split; [exact HX|]. split; [apply (fit_dataset 1 3); auto|]. split; [auto|]. split; [apply (inverse_dataset 1 2); auto|].
  split; [lia|]. split; [reflexivity|]. intros (i & Hi & E). destruct i as [|[|i]]; simpl in E; [| |lia]; injection E as E; lra.
Qed.
Print Assumptions C38_tail_is_zero_refuted.

(** ... and with more segments than time steps every mean is one of an empty slice *)
Theorem C38_too_many_segments_refuted :
  exists d m sz X P st, real_dataset d sz X /\ paa_fit m (map lift X) = Ok st /\ real_dataset d m P /\
    bind (paa_inverse st (map lift P)) (paa_transform st) = Ok [[[XNaN]; [XNaN]]].
Proof.
  exists 1%nat, 2%nat, 1%nat, [[[5]]], [[[1]; [2]]]. eexists.
  assert (HX : real_dataset 1 1 [[[5]]]).
  { split; [discriminate|]; intros s [<-|[]]; split; [|reflexivity]. split; [lia|split; [discriminate|]]. intros r [<-|[]]; reflexivity. }
  assert (HP : real_dataset 1 2 [[[1]; [2]]]).
  { split; [discriminate|]. intros s [<-|[]]. split; [|reflexivity]. split; [lia|split; [discriminate|]].
    intros r [<-|[<-|[]]]; reflexivity. }
  split; [exact HX|]. split; [apply (fit_dataset 1 1); auto|]. split; [auto|].
  rewrite (inverse_dataset 1 2) by auto. 
  cbv -[xmean]. unfold xmean, xsum, xdiv. simpl. destruct (Req_EM_T 0 0); [|congruence].
  assert (Z : forall r, Rltb r r = false) by (intros; apply Rltb_false; lra). rewrite !Z. reflexivity.
Qed.
Print Assumptions C38_too_many_segments_refuted.

(** Properties C32 and C76: global alignment kernel, exact arithmetic. *)
From Coq Require Import Bool List Arith Lia ZArith QArith Reals Lra Permutation.
From Verif Require Import Num NumLaws Py Series Masks DtwModel Dataset Spec SpecDtw DpProofs DtwProofs DtwThms
  Fill ValidThms CdistThms PropCdist CdistGen LimitedThms RList PathSum SoftModel SoftThms RealSeries GakModel PropSoft PropSoftCdist.
Import ListNotations.
Local Open Scope R_scope.

(** the local kernel of a squared distance [t]: e/(2-e), e = exp(-t/(2 sigma^2)) *)
Definition kern (sigma t : R) : R :=
  let e := exp (- (t / (2 * sigma * sigma))) in e / (2 - e).
(** product of the local kernels along a path *)
Definition kpath (sigma : R) (s1 s2 : list (list R)) (p : list cell) : R :=
  rprod (map (fun c => kern sigma (costs s1 s2 (fst c) (snd c))) p).

Lemma sig2 sigma : sigma <> 0 -> 0 < 2 * sigma * sigma.
Proof. intros H. assert (0 < sigma * sigma) by (apply Rsqr_pos_lt; auto). lra. Qed.
Lemma exp_le_1 t : t <= 0 -> 0 < exp t <= 1.
Proof.
  intros H. split; [apply exp_pos|]. rewrite <- exp_0. destruct H as [H|H]; [left; apply exp_increasing; auto|rewrite H; lra].
Qed.
Lemma kern_exp sigma t : sigma <> 0 -> 0 <= t -> 0 < exp (- (t / (2 * sigma * sigma))) <= 1.
Proof.
  intros Hs Ht. apply exp_le_1. pose proof (sig2 sigma Hs). assert (0 <= t / (2 * sigma * sigma)); [|lra].
  apply Rmult_le_pos; auto. left. apply Rinv_0_lt_compat. auto.
Qed.
Lemma kern_pos sigma t : sigma <> 0 -> 0 <= t -> 0 < kern sigma t <= 1.
Proof.
  intros Hs Ht. pose proof (kern_exp sigma t Hs Ht) as [P1 P2]. unfold kern. cbv zeta. set (e := exp _) in *.
  assert (0 < / (2 - e)) by (apply Rinv_0_lt_compat; lra). split; [apply Rmult_lt_0_compat; auto|].
  apply (Rmult_le_reg_r (2 - e)); [lra|]. unfold Rdiv. rewrite Rmult_assoc, Rinv_l by lra. lra.
Qed.
Lemma gak_local_kern sigma t : sigma <> 0 -> 0 <= t -> gak_local sigma (XR t) = XR (kern sigma t).
Proof.
  intros Hs Ht. pose proof (kern_exp sigma t Hs Ht) as [P1 P2]. pose proof (sig2 sigma Hs) as S2.
  unfold gak_local, kern. cbv zeta. unfold xopp, xdivr, xmul.
  replace (- t * / (2 * sigma * sigma)) with (- (t / (2 * sigma * sigma))) by (field; lra).
  set (u := - (t / (2 * sigma * sigma))) in *. simpl. 
  replace (2 + - exp u) with (2 - exp u) by ring.
  rewrite (proj2 (Rltb_true _ _)) by lra. simpl. f_equal. rewrite exp_plus, exp_Ropp, exp_ln by lra. reflexivity.
Qed.

Lemma gak_table n m gram K : (forall i j, (i < n)%nat -> (j < m)%nat -> gram i j = XR (K i j)) ->
  (0 < n)%nat -> (0 < m)%nat -> gak_from_gram n m gram = XR (psum everywhere K (n - 1) (m - 1)).
Proof.
  intros HK Hn Hm. unfold gak_from_gram. set (T := fill _ _ _).
  assert (G : forall a b, (a <= n)%nat -> (b <= m)%nat -> T a b = XR (bsum everywhere K a b)).
  { apply (sum_ind (fun a b => (a <= n)%nat -> (b <= m)%nat -> T a b = XR (bsum everywhere K a b))).
    intros a b IH Ha Hb. destruct a as [|i].
    - unfold T. rewrite fill_other by (rewrite in_grid; lia). destruct b; reflexivity.
    - destruct b as [|j]; [unfold T; rewrite fill_other by (rewrite in_grid; lia); reflexivity|].
      destruct (fill_at _ (gak_cell gram) (grid 1 n 1 m) gak_init (S i) (S j)) as (m1 & _ & E1 & E2);
        [apply sorted_grid|apply in_grid; lia|]. fold T in E1, E2. rewrite E2.
      unfold gak_cell. simpl (S i - 1)%nat. simpl (S j - 1)%nat. rewrite !Nat.sub_0_r.
      rewrite !E1 by (unfold lex; simpl; lia). rewrite !IH by lia. rewrite HK by lia.
      change (bsum everywhere K (S i) (S j)) with (psum everywhere K i j). rewrite psum_rec. simpl. f_equal. ring. }
  rewrite G by lia. destruct n as [|n], m as [|m]; try lia. simpl. rewrite !Nat.sub_0_r. reflexivity.
Qed.

(** the sum over all paths *)
Definition Kxy (sigma : R) (s1 s2 : list (list R)) : R :=
  rsum (map (kpath sigma s1 s2) (all_paths (length s1) (length s2) everywhere)).
Lemma gak_columns d s1 s2 : real_series d s1 -> real_series d s2 -> same_columns (lift s1) (lift s2) = true.
Proof.
  intros F1 F2. destruct (lift_finite _ _ F1) as (_ & N1 & R1). destruct (lift_finite _ _ F2) as (_ & N2 & R2).
  unfold same_columns, ncols. destruct (lift s1) as [|a l]; [congruence|]. destruct (lift s2) as [|b l']; [congruence|].
  destruct (R1 a (or_introl eq_refl)) as [A1 _]. destruct (R2 b (or_introl eq_refl)) as [A2 _].
  apply Nat.eqb_eq. exact (eq_trans A1 (eq_sym A2)).
Qed.
Lemma unnorm_value d s1 s2 sigma : sigma <> 0 -> real_series d s1 -> real_series d s2 ->
  unnormalized_gak_ (lift s1) (lift s2) sigma = Ok (XR (Kxy sigma s1 s2)).
Proof.
  intros Hs F1 F2. unfold unnormalized_gak_. rewrite (gak_columns d) by auto. f_equal. rewrite !lift_length.
  rewrite (gak_table _ _ _ (fun i j => kern sigma (costs s1 s2 i j))).
  - f_equal. rewrite <- all_paths_sum. reflexivity.
  - intros i j _ _. rewrite sq_dists_lift. apply gak_local_kern; auto. apply sqd_nonneg.
  - eapply real_len; eauto.
  - eapply real_len; eauto.
Qed.
Lemma Kxy_pos d s1 s2 sigma : sigma <> 0 -> real_series d s1 -> real_series d s2 -> 0 < Kxy sigma s1 s2.
Proof.
  intros Hs F1 F2. unfold Kxy.
  change (kpath sigma s1 s2) with (pweight (fun i j => kern sigma (costs s1 s2 i j))). rewrite all_paths_sum.
  destruct (everywhere_reach (length s1 - 1) (length s2 - 1)) as (p & Hp).
  eapply psum_pos; eauto. intros i j _. apply kern_pos; auto. apply sqd_nonneg.
Qed.
Lemma Kxy_sym d s1 s2 sigma : real_series d s1 -> real_series d s2 -> Kxy sigma s1 s2 = Kxy sigma s2 s1.
Proof.
  intros F1 F2. pose proof (real_len _ _ F1) as L1. pose proof (real_len _ _ F2) as L2. unfold Kxy.
  rewrite (enumerates_rsum _ _ _ (kpath sigma s2 s1) (all_paths_enum _ _ everywhere L2 L1)
     (enum_swap _ _ everywhere everywhere _ L1 L2 (fun _ _ => eq_refl) (all_paths_enum _ _ everywhere L1 L2))).
  rewrite map_map. apply rsum_map_ext. intros p _. unfold kpath. rewrite map_map. f_equal. apply map_ext.
  intros [i j]. simpl. rewrite costs_sym. reflexivity.
Qed.
Lemma strip_lift d s : real_series d s -> to_time_series (N:=Xnum) true (Raw2 (lift s)) = lift s.
Proof. intros F. apply (to_time_series_finite Xnum xnn xfin Xlaws d). apply lift_finite. auto. Qed.
Lemma is_zero_neq s : s <> 0 -> is_zero s = false.
Proof. intros H. unfold is_zero. destruct (Req_EM_T s 0); [lra|reflexivity]. Qed.

(** ** C32 *)
(** [ps] lists every warping path exactly once *)
Theorem C32_unnormalized_gak_path_sum : forall d s1 s2 sigma,
  sigma <> 0 -> real_series d s1 -> real_series d s2 ->
  exists ps, enumerates (warping_path (length s1) (length s2) everywhere) ps /\
    unnormalized_gak (Raw2 (lift s1)) (Raw2 (lift s2)) sigma = Ok (XR (rsum (map (kpath sigma s1 s2) ps))).
Proof.
  intros d s1 s2 sigma Hs F1 F2. exists (all_paths (length s1) (length s2) everywhere). split.
  - apply all_paths_enum; eapply real_len; eauto.
  - unfold unnormalized_gak. rewrite is_zero_neq by auto. rewrite !(strip_lift d) by auto. eapply unnorm_value; eauto.
Qed.
Print Assumptions C32_unnormalized_gak_path_sum.

Lemma gak_value d s1 s2 sigma : sigma <> 0 -> real_series d s1 -> real_series d s2 ->
  gak (Raw2 (lift s1)) (Raw2 (lift s2)) sigma =
  Ok (XR (Kxy sigma s1 s2 / (sqrt (Kxy sigma s1 s1) * sqrt (Kxy sigma s2 s2)))).
Proof.
  intros Hs F1 F2. unfold gak. rewrite is_zero_neq by auto. rewrite !(strip_lift d) by auto. cbv zeta.
  rewrite !(unnorm_value d) by auto. cbn [bind].
  pose proof (Kxy_pos d s1 s1 sigma Hs F1 F1) as P1. pose proof (Kxy_pos d s2 s2 sigma Hs F2 F2) as P2.
  unfold xsqrt. rewrite (proj2 (Rleb_true 0 (Kxy sigma s1 s1))), (proj2 (Rleb_true 0 (Kxy sigma s2 s2))) by lra.
  unfold xmul, xdiv. pose proof (sqrt_lt_R0 _ P1). pose proof (sqrt_lt_R0 _ P2).
  assert (0 < sqrt (Kxy sigma s1 s1) * sqrt (Kxy sigma s2 s2)) by (apply Rmult_lt_0_compat; auto).
  destruct (Req_EM_T _ 0); [lra|]. reflexivity.
Qed.
Theorem C32_gak_normalised : forall d s1 s2 sigma,
  sigma <> 0 -> real_series d s1 -> real_series d s2 ->
  (exists v, gak (Raw2 (lift s1)) (Raw2 (lift s2)) sigma = Ok (XR v) /\ 0 < v) /\
  gak (Raw2 (lift s1)) (Raw2 (lift s2)) sigma = gak (Raw2 (lift s2)) (Raw2 (lift s1)) sigma /\
  gak (Raw2 (lift s1)) (Raw2 (lift s1)) sigma = Ok (XR 1).
Proof.
  intros d s1 s2 sigma Hs F1 F2. rewrite !(gak_value d) by auto.
  pose proof (Kxy_pos d s1 s1 sigma Hs F1 F1) as P1. pose proof (Kxy_pos d s2 s2 sigma Hs F2 F2) as P2.
  pose proof (sqrt_lt_R0 _ P1). pose proof (sqrt_lt_R0 _ P2).
  split; [|split].
  - eexists. split; [reflexivity|]. apply Rmult_lt_0_compat; [eapply Kxy_pos; eauto|].
    apply Rinv_0_lt_compat. apply Rmult_lt_0_compat; auto.
  - do 2 f_equal. rewrite (Kxy_sym d s1 s2) by auto. rewrite (Rmult_comm (sqrt (Kxy sigma s1 s1))). reflexivity.
  - do 2 f_equal. rewrite sqrt_sqrt by lra. field. lra.
Qed.
Print Assumptions C32_gak_normalised.
(** the kernel of the two series divided by the square roots of the kernels of each with itself *)
Theorem C32_gak_value : forall d s1 s2 sigma,
  sigma <> 0 -> real_series d s1 -> real_series d s2 ->
  exists p12 p11 p22,
    enumerates (warping_path (length s1) (length s2) everywhere) p12 /\
    enumerates (warping_path (length s1) (length s1) everywhere) p11 /\
    enumerates (warping_path (length s2) (length s2) everywhere) p22 /\
    gak (Raw2 (lift s1)) (Raw2 (lift s2)) sigma =
    Ok (XR (rsum (map (kpath sigma s1 s2) p12) / (sqrt (rsum (map (kpath sigma s1 s1) p11)) * sqrt (rsum (map (kpath sigma s2 s2) p22))))).
Proof.
  intros d s1 s2 sigma Hs F1 F2. exists (all_paths (length s1) (length s2) everywhere), (all_paths (length s1) (length s1) everywhere),
    (all_paths (length s2) (length s2) everywhere).
  do 3 (split; [apply all_paths_enum; eapply real_len; eauto|]). apply (gak_value d); auto.
Qed.
Print Assumptions C32_gak_value.
(** sigma = 0 is rejected *)
Theorem C32_gak_sigma_zero : forall x1 x2, gak x1 x2 0 = Err ZeroDivisionError /\ unnormalized_gak x1 x2 0 = Err ZeroDivisionError.
Proof. intros. unfold gak, unnormalized_gak, is_zero. destruct (Req_EM_T 0 0); [auto|lra]. Qed.
Print Assumptions C32_gak_sigma_zero.
Example C32_nontrivial : real_series 2 [[0; 1]; [1; 3]] /\ real_series 2 [[2; 2]; [5; 1]; [0; 0]] /\ (1 / 2 <> 0) /\
  length (all_paths 2 3 everywhere) = 5%nat.
Proof.
  split; [|split; [|split]].
  - repeat split; [lia|discriminate|]. intros r [<-|[<-|[]]]; reflexivity.
  - repeat split; [lia|discriminate|]. intros r [<-|[<-|[<-|[]]]]; reflexivity.
  - lra.
  - reflexivity.
Qed.

(** ** C76 *)
Lemma matmul_R n A B a b i j : (forall k, (k < n)%nat -> A i k = XR (a k)) -> (forall k, (k < n)%nat -> B k j = XR (b k)) ->
  matmul n A B i j = XR (rsum (map (fun k => a k * b k) (seq 0 n))).
Proof.
  intros HA HB. unfold matmul.
  assert (E : map (fun k => xmul (A i k) (B k j)) (seq 0 n) = map XR (map (fun k => a k * b k) (seq 0 n))).
  { rewrite map_map. apply map_ext_in. intros k Hk. apply in_seq in Hk. rewrite HA, HB by lia. reflexivity. }
  rewrite E, fold_xadd_sum. f_equal. lra.
Qed.
Lemma sum_single n i f : (i < n)%nat -> (forall k, (k < n)%nat -> k <> i -> f k = 0) -> rsum (map f (seq 0 n)) = f i.
Proof.
  intros Hi H. assert (E : seq 0 n = seq 0 i ++ i :: seq (S i) (n - S i)).
  { replace n with (i + S (n - S i))%nat at 1 by lia. rewrite seq_app. reflexivity. }
  rewrite E, map_app, rsum_app. simpl.
  assert (Z : forall l, (forall k, In k l -> f k = 0) -> rsum (map f l) = 0).
  { induction l as [|k l IH]; simpl; intros G; auto. rewrite G, IH by auto. lra. }
  rewrite !Z; [lra| |]; intros k Hk; apply in_seq in Hk; apply H; lia.
Qed.
(** scaling rows and columns by diagonal matrices *)
Lemma diag_scale n1 n2 L M Rt l m r i k : (i < n1)%nat -> (k < n2)%nat ->
  (forall a, (a < n1)%nat -> L a = XR (l a)) -> (forall a, (a < n2)%nat -> Rt a = XR (r a)) ->
  (forall a b, (a < n1)%nat -> (b < n2)%nat -> M a b = XR (m a b)) ->
  matmul n2 (matmul n1 (diag_mat L) M) (diag_mat Rt) i k = XR (l i * m i k * r k).
Proof.
  intros Hi Hk HL HR HM.
  assert (DL : forall a, (a < n1)%nat -> diag_mat L i a = XR (if (i =? a)%nat then l i else 0)).
  { intros a Ha. unfold diag_mat. destruct (Nat.eqb_spec i a); [subst; apply HL; auto|reflexivity]. }
  assert (E1 : forall b, (b < n2)%nat -> matmul n1 (diag_mat L) M i b = XR (l i * m i b)).
  { intros b Hb. rewrite (matmul_R n1 _ _ (fun a => if (i =? a)%nat then l i else 0) (fun a => m a b)); auto.
    f_equal. rewrite (sum_single n1 i); auto; [rewrite Nat.eqb_refl; reflexivity|].
    intros a Ha Hne. destruct (Nat.eqb_spec i a); [lia|]. ring. }
  rewrite (matmul_R n2 _ _ (fun b => l i * m i b) (fun b => if (b =? k)%nat then r k else 0)); auto.
  - f_equal. rewrite (sum_single n2 k); auto; [rewrite Nat.eqb_refl; reflexivity|].
    intros b Hb Hne. destruct (Nat.eqb_spec b k); [lia|]. ring.
  - intros b Hb. unfold diag_mat. destruct (Nat.eqb_spec b k); [subst; apply HR; auto|reflexivity].
Qed.
Lemma inv_sqrt v : 0 < v -> xdiv (XR 1) (xsqrt (XR v)) = XR (/ sqrt v) /\ xsqrt (xdiv (XR 1) (XR v)) = XR (/ sqrt v).
Proof.
  intros H. pose proof (sqrt_lt_R0 v H). unfold xsqrt at 1. rewrite (proj2 (Rleb_true 0 v)) by lra. unfold xdiv.
  destruct (Req_EM_T (sqrt v) 0); [lra|]. destruct (Req_EM_T v 0); [lra|]. unfold xdivr, xmul. rewrite !Rmult_1_l.
  split; auto. simpl. assert (0 < / v) by (apply Rinv_0_lt_compat; auto). rewrite (proj2 (Rleb_true _ _)) by lra.
  f_equal. apply sqrt_inv.
Qed.

Lemma unnorm_item d ss1 ss2 sigma i k : sigma <> 0 -> (forall s, In s ss1 -> real_series d s) -> (forall s, In s ss2 -> real_series d s) ->
  (i < length ss1)%nat -> (k < length ss2)%nat ->
  unnormalized_gak_ (strip (item (reals ss1) i)) (strip (item (reals ss2) k)) sigma = Ok (XR (Kxy sigma (nth i ss1 []) (nth k ss2 []))).
Proof.
  intros Hs F1 F2 Hi Hk. unfold reals. rewrite !lift_item by auto. unfold strip.
  pose proof (F1 _ (nth_In _ [] Hi)) as G1. pose proof (F2 _ (nth_In _ [] Hk)) as G2.
  rewrite !(strip_lift d) by auto. apply (unnorm_value d); auto.
Qed.
Lemma self_kernels d ss o sigma j l : sigma <> 0 -> (forall s, In s ss -> real_series d s) -> to_dataset (reals ss) = Ok o ->
  valid_jobs j (length ss) ->
  run_jobs j (fun s : series Xnum => let t := to_time_series (N:=Xnum) true (Raw2 s) in unnormalized_gak_ t t sigma) o = Ok l ->
  forall i, (i < length ss)%nat -> nth i l XNaN = XR (Kxy sigma (nth i ss []) (nth i ss [])).
Proof.
  intros Hs F E Hj H i Hi. pose proof (proper_uniform _ _ _ (lift_proper d ss F)) as U. fold (reals ss) in U.
  assert (Lr : length (reals ss) = length ss) by apply map_length.
  assert (Lo : length o = length ss) by (rewrite <- Lr; eapply gen_len; eauto).
  apply run_jobs_mapM in H; [|rewrite Lo; auto]. apply mapM_spec in H. pose proof (Forall2_len _ _ _ H) as L.
  pose proof (Forall2_nth_inv _ _ _ i (nth i o []) (nth i l XNaN) H) as G. cbv beta zeta in G.
  destruct (strip_nth Xnum xnan d (reals ss) o i U E ltac:(rewrite Lr; auto)) as [_ Es]. rewrite Es in G.
  assert (I1 : (i < length o)%nat) by lia. assert (I2 : (i < length l)%nat) by lia.
  specialize (G (nth_error_nth' _ _ I1) (nth_error_nth' _ _ I2)).
  pose proof (unnorm_item d ss ss sigma i i Hs F F Hi Hi) as V. unfold strip in V. congruence.
Qed.
Lemma self_kernels_total d ss o sigma j : sigma <> 0 -> (forall s, In s ss -> real_series d s) -> to_dataset (reals ss) = Ok o ->
  valid_jobs j (length ss) ->
  exists l, run_jobs j (fun s : series Xnum => let t := to_time_series (N:=Xnum) true (Raw2 s) in unnormalized_gak_ t t sigma) o = Ok l.
Proof.
  intros Hs F E Hj. pose proof (proper_uniform _ _ _ (lift_proper d ss F)) as U. fold (reals ss) in U.
  assert (Lr : length (reals ss) = length ss) by apply map_length.
  assert (Lo : length o = length ss) by (rewrite <- Lr; eapply gen_len; eauto).
  edestruct (mapM_total (fun s : series Xnum => let t := to_time_series (N:=Xnum) true (Raw2 s) in unnormalized_gak_ t t sigma) o) as (l & El).
  - intros x Hx. apply (In_nth _ _ []) in Hx. destruct Hx as (i & Hi0 & <-). cbv zeta. assert (Hi : (i < length ss)%nat) by (rewrite <- Lo; exact Hi0).
    destruct (strip_nth Xnum xnan d (reals ss) o i U E ltac:(rewrite Lr; auto)) as [_ Es].
    pose proof (unnorm_item d ss ss sigma i i Hs F F Hi Hi) as V. unfold strip in V. rewrite <- Es in V. eexists. exact V.
  - exists l. apply run_jobs_mapM; [rewrite Lo; auto|exact El].
Qed.

Theorem C76_cdist_gak_cross : forall d ss1 ss2 sigma j j1 j2,
  sigma <> 0 -> (forall s, In s ss1 -> real_series d s) -> (forall s, In s ss2 -> real_series d s) ->
  valid_jobs j (length ss1 * length ss2) -> valid_jobs j1 (length ss1) -> valid_jobs j2 (length ss2) ->
  exists M, cdist_gak (reals ss1) (Some (reals ss2)) sigma j j1 j2 = Ok M /\
  forall i k, (i < length ss1)%nat -> (k < length ss2)%nat ->
  gak (Raw2 (lift (nth i ss1 []))) (Raw2 (lift (nth k ss2 []))) sigma = Ok (M i k).
Proof.
  intros d ss1 ss2 sigma j j1 j2 Hs F1 F2 Hj Hj1 Hj2.
  pose proof (proper_uniform _ _ _ (lift_proper d ss1 F1)) as U1. pose proof (proper_uniform _ _ _ (lift_proper d ss2 F2)) as U2.
  fold (reals ss1) in U1. fold (reals ss2) in U2.
  destruct (to_datasets_cross d d (reals ss1) (reals ss2) U1 U2) as (o1 & o2 & E1 & E2 & E3).
  assert (Lr1 : length (reals ss1) = length ss1) by apply map_length. assert (Lr2 : length (reals ss2) = length ss2) by apply map_length.
  assert (Lo1 : length o1 = length ss1) by (rewrite <- Lr1; eapply gen_len; eauto).
  assert (Lo2 : length o2 = length ss2) by (rewrite <- Lr2; eapply gen_len; eauto).
  unfold cdist_gak. rewrite E3. cbn [bind fst snd]. rewrite is_zero_neq by auto.
  destruct (gen_cross_returns Xnum xnan (fun s1 s2 => unnormalized_gak_ s1 s2 sigma) d d (reals ss1) (reals ss2) o1 o2 true j U1 U2) as (M & EM); auto.
  { rewrite Lr1, Lr2. auto. }
  { rewrite Lr1, Lr2. intros i k Hi Hk. eexists. apply (unnorm_item d); auto. }
  assert (HM : forall i k, (i < length ss1)%nat -> (k < length ss2)%nat -> M i k = XR (Kxy sigma (nth i ss1 []) (nth k ss2 []))).
  { intros i k Hi Hk. pose proof (unnorm_item d ss1 ss2 sigma i k Hs F1 F2 Hi Hk) as V.
    pose proof (gen_cross Xnum xnan _ d d (reals ss1) (reals ss2) o1 o2 true j M U1 U2 ltac:(rewrite Lr1, Lr2; auto) E1 E2 EM i k
      ltac:(rewrite Lr1; auto) ltac:(rewrite Lr2; auto)) as W. cbv beta in W. congruence. }
  rewrite EM. cbn [bind].
  destruct (self_kernels_total d ss1 o1 sigma j1 Hs F1 E1 Hj1) as (l & El).
  match goal with |- context [run_jobs j1 ?f ?o] => replace (run_jobs j1 f o) with (Ok l) by (symmetry; exact El) end. cbn [bind].
  destruct (self_kernels_total d ss2 o2 sigma j2 Hs F2 E2 Hj2) as (r & Er).
  match goal with |- context [run_jobs j2 ?f ?o] => replace (run_jobs j2 f o) with (Ok r) by (symmetry; exact Er) end. cbn [bind].
  eexists. split; [reflexivity|]. intros i k Hi Hk. rewrite Lo1, Lo2.
  rewrite (gak_value d _ _ sigma Hs (F1 _ (nth_In _ [] Hi)) (F2 _ (nth_In _ [] Hk))). f_equal. symmetry.
  erewrite (diag_scale (length ss1) (length ss2) _ _ _ (fun i => / sqrt (Kxy sigma (nth i ss1 []) (nth i ss1 [])))
    (fun i k => Kxy sigma (nth i ss1 []) (nth k ss2 [])) (fun k => / sqrt (Kxy sigma (nth k ss2 []) (nth k ss2 [])))); auto.
  - pose proof (F1 _ (nth_In _ [] Hi)) as G1. pose proof (F2 _ (nth_In _ [] Hk)) as G2. f_equal.
    pose proof (sqrt_lt_R0 _ (Kxy_pos d _ _ sigma Hs G1 G1)). pose proof (sqrt_lt_R0 _ (Kxy_pos d _ _ sigma Hs G2 G2)). field. lra.
  - intros a Ha. rewrite (self_kernels d ss1 o1 sigma j1 l Hs F1 E1 Hj1 El a Ha). apply inv_sqrt.
    apply (Kxy_pos d); auto; apply F1, nth_In; auto.
  - intros a Ha. rewrite (self_kernels d ss2 o2 sigma j2 r Hs F2 E2 Hj2 Er a Ha). apply inv_sqrt.
    apply (Kxy_pos d); auto; apply F2, nth_In; auto.
Qed.
Print Assumptions C76_cdist_gak_cross.

Theorem C76_cdist_gak_self : forall d ss sigma j j1 j2,
  sigma <> 0 -> (forall s, In s ss -> real_series d s) -> valid_jobs j (length ss * (length ss + 1) / 2)%nat ->
  exists M, cdist_gak (reals ss) None sigma j j1 j2 = Ok M /\
  forall i k, (i < length ss)%nat -> (k < length ss)%nat ->
  gak (Raw2 (lift (nth i ss []))) (Raw2 (lift (nth k ss []))) sigma = Ok (M i k).
Proof.
  intros d ss sigma j j1 j2 Hs F Hj.
  pose proof (proper_uniform _ _ _ (lift_proper d ss F)) as U. fold (reals ss) in U.
  destruct (to_datasets_self d (reals ss) U) as (o & E1 & E3).
  assert (Lr : length (reals ss) = length ss) by apply map_length.
  assert (Lo : length o = length ss) by (rewrite <- Lr; eapply gen_len; eauto).
  unfold cdist_gak. rewrite E3. cbn [bind fst snd]. rewrite is_zero_neq by auto.
  assert (Hj' : valid_jobs j (length (triu (length (reals ss)) true))) by (rewrite Lr, triu_len_diag; auto).
  destruct (gen_self_returns Xnum xnan (fun s1 s2 => unnormalized_gak_ s1 s2 sigma) d (reals ss) o true j U Hj' E1) as (M & EM).
  { rewrite Lr. intros i k Hi Hk. eexists. apply (unnorm_item d); auto. }
  destruct (gen_self Xnum xnan (fun s1 s2 => unnormalized_gak_ s1 s2 sigma) d (reals ss) o true j M U Hj' E1 EM) as [H1 H2]. rewrite Lr in H1, H2.
  assert (HM : forall i k, (i < length ss)%nat -> (k < length ss)%nat -> M i k = XR (Kxy sigma (nth i ss []) (nth k ss []))).
  { assert (Up : forall i k, (i <= k)%nat -> (k < length ss)%nat -> M i k = XR (Kxy sigma (nth i ss []) (nth k ss [])) /\ M k i = M i k).
    { intros i k Hik Hk. pose proof (unnorm_item d ss ss sigma i k Hs F F ltac:(lia) Hk) as V.
      destruct (Nat.eq_dec i k) as [->|Hne].
      - specialize (H2 k Hk). cbv beta in H2. split; congruence.
      - destruct (H1 i k ltac:(lia) Hk) as [A B]. split; congruence. }
    intros i k Hi Hk. destruct (Nat.le_gt_cases i k) as [Hik|Hik]; [apply Up; auto|].
    destruct (Up k i ltac:(lia) Hi) as [A B]. rewrite B, A. f_equal. apply (Kxy_sym d); apply F, nth_In; auto. }
  rewrite EM. cbn [bind]. eexists. split; [reflexivity|]. intros i k Hi Hk. rewrite Lo.
  rewrite (gak_value d) by (auto; apply F, nth_In; auto). f_equal. symmetry.
  assert (Dg : forall a, (a < length ss)%nat -> xsqrt (xdiv (XR 1) (M a a)) = XR (/ sqrt (Kxy sigma (nth a ss []) (nth a ss [])))).
  { intros a Ha. rewrite HM by auto. apply inv_sqrt. apply (Kxy_pos d); auto; apply F, nth_In; auto. }
  erewrite (diag_scale (length ss) (length ss) _ _ _ (fun i => / sqrt (Kxy sigma (nth i ss []) (nth i ss [])))
    (fun i k => Kxy sigma (nth i ss []) (nth k ss [])) (fun k => / sqrt (Kxy sigma (nth k ss []) (nth k ss [])))); auto.
  pose proof (F _ (nth_In _ [] Hi)) as G1. pose proof (F _ (nth_In _ [] Hk)) as G2. f_equal.
  pose proof (sqrt_lt_R0 _ (Kxy_pos d _ _ sigma Hs G1 G1)). pose proof (sqrt_lt_R0 _ (Kxy_pos d _ _ sigma Hs G2 G2)). field. lra.
Qed.
Print Assumptions C76_cdist_gak_self.

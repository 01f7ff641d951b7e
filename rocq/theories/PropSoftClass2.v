(** C161, C162: [SquaredEuclidean], and the deprecated soft-DTW functions. *)
From Coq Require Import Bool List Arith Lia ZArith QArith Reals Lra FunctionalExtensionality.
From Verif Require Import Num NumLaws Py Series Masks DtwModel Dataset Fill Spec SpecDtw DpProofs DtwProofs DtwThms
  LimitedThms ValidThms CdistThms PropCdist CdistGen RList PathSum RealSeries BaryThms SoftModel SoftThms PropDtw PropSoft PropSoftCdist
  SoftBaryModel PropSoftBary SoftClassModel PropSoftClass.
Import ListNotations.
Local Open Scope R_scope.

Lemma to_series_false (s : series Xnum) : to_time_series (N:=Xnum) false (Raw2 s) = s.
Proof. reflexivity. Qed.
Lemma ncols_real d s : real_series d s -> ncols (N:=Xnum) (lift s) = d.
Proof.
  intros (_ & N & K). destruct s as [|r s]; [congruence|]. etransitivity; [exact (map_length XR r)|]. apply K. left; auto.
Qed.
Lemma all_finite_lift s : all_finite (lift s) = true.
Proof.
  apply forallb_forall. intros r Hr. apply in_map_iff in Hr. destruct Hr as (q & <- & _). apply forallb_forall.
  intros x Hx. apply in_map_iff in Hx. destruct Hx as (v & <- & _). reflexivity.
Qed.
Lemma euclid_real d s1 s2 : real_series d s1 -> real_series d s2 ->
  sqeuclid_compute (lift s1) (lift s2) = Ok (sq_dists (N:=Xnum) (lift s1) (lift s2)).
Proof.
  intros F1 F2. unfold sqeuclid_compute, euclid_ok. rewrite !lift_length, (ncols_real d s1), (ncols_real d s2), !all_finite_lift by auto.
  pose proof (real_len _ _ F1). pose proof (real_len _ _ F2). destruct F1 as (Hd & _).
  destruct (Nat.eqb_spec (length s1) 0); [lia|]. destruct (Nat.eqb_spec (length s2) 0); [lia|]. destruct (Nat.eqb_spec d 0); [lia|].
  rewrite Nat.eqb_refl. reflexivity.
Qed.


Lemma dists_matrix s1 s2 : sq_dists (N:=Xnum) (lift s1) (lift s2) = matrix (costs s1 s2).
Proof. apply functional_extensionality. intros i. apply functional_extensionality. intros j. apply sq_dists_lift. Qed.
Lemma sdtw_of_real d s1 s2 gamma : real_series d s1 -> real_series d s2 ->
  sdtw_of (Raw2 (lift s1)) (Raw2 (lift s2)) gamma = Ok (sdtw_new (length s1) (length s2) (matrix (costs s1 s2)) gamma).
Proof.
  intros F1 F2. unfold sdtw_of. rewrite !to_series_false, (euclid_real d), !lift_length by auto. cbn [bind]. rewrite dists_matrix. reflexivity.
Qed.

(** ** C161 *)
(** value of [SoftDTW(SquaredEuclidean(X, Y), gamma).compute()] as a number *)
Definition class_loss (gamma : R) (X Y : list (list R)) : R :=
  real_of (do o <- sdtw_of (Raw2 (lift X)) (Raw2 (lift Y)) gamma ;; Ok (fst (sdtw_compute XInf o))).

Lemma class_compute_real d s1 s2 gamma ps : 0 < gamma -> real_series d s1 -> real_series d s2 ->
  enumerates (warping_path (length s1) (length s2) everywhere) ps ->
  fst (sdtw_compute XInf (sdtw_new (length s1) (length s2) (matrix (costs s1 s2)) gamma)) = XR (- gamma * ln (total gamma (costs s1 s2) ps)).
Proof.
  intros Hg F1 F2 Hps. pose proof (real_len _ _ F1). pose proof (real_len _ _ F2).
  apply (C159_compute (length s1) (length s2) (costs s1 s2) gamma ps); auto.
Qed.
Lemma class_grad_real s1 s2 gamma ps : 0 < gamma -> (0 < length s1)%nat -> (0 < length s2)%nat ->
  enumerates (warping_path (length s1) (length s2) everywhere) ps ->
  exists E, fst (sdtw_grad XInf (snd (sdtw_compute XInf (sdtw_new (length s1) (length s2) (matrix (costs s1 s2)) gamma)))) = Ok E /\
    forall i j, (i < length s1)%nat -> (j < length s2)%nat ->
      E i j = XR (total gamma (costs s1 s2) (filter (visits i j) ps) / total gamma (costs s1 s2) ps).
Proof.
  intros Hg L1 L2 Hps. set (o := sdtw_new _ _ _ _).
  assert (H0 : remembers XInf gamma (length s1) (length s2) (costs s1 s2) o) by (repeat split; simpl; discriminate).
  destruct (compute_remembers XInf gamma (length s1) (length s2) (costs s1 s2) o L1 L2 H0) as (_ & H1 & Hc).
  destruct (grad_remembers XInf gamma (length s1) (length s2) (costs s1 s2) _ L1 L2 H1 Hc) as (E & EE & EV & _).
  exists E. split; [exact EE|]. intros i j Hi Hj. rewrite EV by auto. apply grad_value; auto.
Qed.

(** [jacobian_product(E)] is the gradient in X of the sum of the distances weighted by
    E: entry (i, k) is the derivative in coordinate k of time step i. *)
Theorem C161_jacobian : forall d X Y E,
  real_series d X -> real_series d Y ->
  sqeuclid_compute (lift X) (lift Y) = Ok (sq_dists (N:=Xnum) (lift X) (lift Y)) /\
  exists G, sqeuclid_jacobian (lift X) (lift Y) (matrix E) = lift G /\ length G = length X /\ (forall row, In row G -> length row = d) /\
  forall i k, (i < length X)%nat -> (k < d)%nat ->
    derivable_pt_lim (fun t => rsum (map (fun a => rsum (map (fun b => E a b * costs (set_entry X i k t) Y a b) (seq 0 (length Y)))) (seq 0 (length X))))
      (entry X i k) (entry G i k).
Proof.
  intros d X Y E HX HY. split; [eapply euclid_real; eauto|].
  exists (tab (length X) d (fun i k => rsum (map (fun j => E i j * (2 * (entry X i k - entry Y j k))) (seq 0 (length Y))))).
  split; [|split; [apply tab_length|split; [apply tab_row|]]].
  - unfold sqeuclid_jacobian. rewrite (ncols_real d X HX). apply jacobian_lift; auto.
  - intros i k Hi Hk. rewrite tab_entry by auto.
    apply deriv_val with (rsum (map (fun a => rsum (map (fun b => E a b * (if (a =? i)%nat then 2 * (entry X i k - entry Y b k) else 0)) (seq 0 (length Y)))) (seq 0 (length X)))).
    + rewrite (rsum_map_ext _ (fun a => (if (i =? a)%nat then 1 else 0) * rsum (map (fun j => E a j * (2 * (entry X i k - entry Y j k))) (seq 0 (length Y))))).
      * apply (rsum_single (fun a => rsum (map (fun j => E a j * (2 * (entry X i k - entry Y j k))) (seq 0 (length Y))))). auto.
      * intros a _. rewrite (Nat.eqb_sym i a). destruct (a =? i)%nat.
        -- rewrite Rmult_1_l. reflexivity.
        -- rewrite Rmult_0_l. rewrite (rsum_map_ext _ (fun _ => 0)) by (intros; ring). rewrite rsum_const. ring.
    + apply (deriv_rsum (fun a t => rsum (map (fun b => E a b * costs (set_entry X i k t) Y a b) (seq 0 (length Y))))). intros a Ha. apply in_seq in Ha.
      apply (deriv_rsum (fun b t => E a b * costs (set_entry X i k t) Y a b)). intros b Hb. apply in_seq in Hb.
      apply deriv_scal. apply (deriv_costs d); auto; lia.
Qed.
Print Assumptions C161_jacobian.

(** The three methods together: [D = SquaredEuclidean(X, Y); s = SoftDTW(D, gamma);
    s.compute(); D.jacobian_product(s.grad())] is the gradient of the value in X. *)
Theorem C161_chain : forall d X Y gamma,
  0 < gamma -> real_series d X -> real_series d Y ->
  exists o E G, sdtw_of (Raw2 (lift X)) (Raw2 (lift Y)) gamma = Ok o /\
    fst (sdtw_compute XInf o) = XR (class_loss gamma X Y) /\
    fst (sdtw_grad XInf (snd (sdtw_compute XInf o))) = Ok E /\
    sqeuclid_jacobian (lift X) (lift Y) E = lift G /\ length G = length X /\ (forall row, In row G -> length row = d) /\
    forall i k, (i < length X)%nat -> (k < d)%nat ->
      derivable_pt_lim (fun t => class_loss gamma (set_entry X i k t) Y) (entry X i k) (entry G i k).
Proof.
  intros d X Y gamma Hg HX HY. pose proof (real_len _ _ HX) as L1. pose proof (real_len _ _ HY) as L2.
  pose (ps := all_paths (length X) (length Y) everywhere).
  assert (Hps : enumerates (warping_path (length X) (length Y) everywhere) ps) by (apply all_paths_enum; auto).
  destruct (class_grad_real X Y gamma ps Hg L1 L2 Hps) as (E & EE & EV).
  assert (CL : forall Z, real_series d Z -> length Z = length X -> class_loss gamma Z Y = - gamma * ln (total gamma (costs Z Y) ps)).
  { intros Z HZ LZ. unfold class_loss. rewrite (sdtw_of_real d) by auto. cbn [bind].
    rewrite (class_compute_real d Z Y gamma ps) by (auto; rewrite LZ; auto). reflexivity. }
  exists (sdtw_new (length X) (length Y) (matrix (costs X Y)) gamma), E,
    (tab (length X) d (fun i k => rsum (map (fun j => total gamma (costs X Y) (filter (visits i j) ps) / total gamma (costs X Y) ps * (2 * (entry X i k - entry Y j k))) (seq 0 (length Y))))).
  split; [apply (sdtw_of_real d); auto|split; [|split; [exact EE|split; [|split; [apply tab_length|split; [apply tab_row|]]]]]].
  - rewrite CL by auto. apply (class_compute_real d); auto.
  - unfold sqeuclid_jacobian. rewrite (ncols_real d X HX). apply jacobian_lift; auto.
  - intros i k Hi Hk. rewrite tab_entry by auto.
    eapply deriv_ext; [|apply (deriv_value gamma d X Y i k everywhere ps); auto].
    + intros t. symmetry. apply CL; destruct (set_entry_real d X i k t HX Hi Hk); auto.
    + intros Z. assert (P : 0 < total gamma (costs X Y) ps).
      { rewrite <- (total_everywhere gamma (length X) (length Y) (costs X Y) ps) by auto. apply psum_everywhere_pos. }
      rewrite Z in P. unfold total in P. simpl in P. lra.
Qed.
Print Assumptions C161_chain.
Example C161_example : real_series 2 [[0; 1]; [2; 3]] /\ real_series 2 [[1; 1]].
Proof. split; (split; [lia|split; [discriminate|]]); intros r H; simpl in H; intuition (subst; reflexivity). Qed.

(** ** C162 *)
(** [x] is the real series [s] followed by any number of NaN rows *)
Definition holds (d : nat) (x : raw Xnum) (s : list (list R)) : Prop :=
  real_series d s /\ rect d (reshape x) /\ to_time_series (N:=Xnum) true x = lift s.
Lemma holds_not_nan d x s : holds d x s -> ~ all_nan (N:=Xnum) x.
Proof.
  intros (F & _ & E) H. pose proof (real_len _ _ F) as L. rewrite <- (lift_length s), <- E in L.
  apply stripped_nil in H. rewrite H in L. lia.
Qed.

Lemma none_mask n m : constraint n m GcNone None None everywhere.
Proof. reflexivity. Qed.
Lemma none_not_itakura : not_itakura GcNone None.
Proof. split; [discriminate|right; reflexivity]. Qed.
Lemma holds_real d x s : holds d x s -> real_series d s. Proof. intros (F & _). exact F. Qed.
Lemma holds_lift d s : real_series d s -> holds d (Raw2 (lift s)) s.
Proof.
  intros F. split; [auto|split].
  - apply Forall_forall. intros r Hr. cbn [reshape] in Hr. eapply lift_row; eauto.
  - apply (to_time_series_finite Xnum xnn xfin Xlaws d). apply lift_finite; auto.
Qed.
Lemma new_value be d x1 x2 s1 s2 gamma : 0 < gamma -> holds d x1 s1 -> holds d x2 s2 ->
  soft_dtw be x1 x2 gamma GcNone None None =
  Ok (XR (- gamma * ln (total gamma (costs s1 s2) (all_paths (length s1) (length s2) everywhere)))).
Proof.
  intros Hg H1 H2. pose proof (holds_not_nan _ _ _ H1) as N1. pose proof (holds_not_nan _ _ _ H2) as N2.
  destruct H1 as (F1 & R1 & E1). destruct H2 as (F2 & R2 & E2).
  rewrite <- (soft_public be d s1 s2 gamma GcNone None None everywhere) by (auto; exact I || reflexivity).
  unfold soft_dtw. rewrite (validated_strip Xnum d) by auto. unfold strip. rewrite E1, E2.
  rewrite (validated_finite Xnum xnn xfin Xlaws d) by (apply lift_finite; auto). reflexivity.
Qed.
Lemma old_value d x1 x2 s1 s2 gamma : 0 < gamma -> holds d x1 s1 -> holds d x2 s2 ->
  old_soft_dtw XInf x1 x2 gamma =
  Ok (XR (- gamma * ln (total gamma (costs s1 s2) (all_paths (length s1) (length s2) everywhere)))).
Proof.
  intros Hg (F1 & R1 & E1) (F2 & R2 & E2). unfold old_soft_dtw. rewrite is_zero_false by auto. rewrite E1, E2.
  rewrite (sdtw_of_real d) by auto. cbn [bind]. f_equal. apply (class_compute_real d); auto.
  pose proof (real_len _ _ F1). pose proof (real_len _ _ F2). apply all_paths_enum; auto.
Qed.
Lemma is_zero_0 : is_zero 0 = true. Proof. unfold is_zero. destruct (Req_EM_T 0 0); [auto|lra]. Qed.

(** The deprecated [soft_dtw] returns what its replacement returns, for every gamma >= 0
    and series padded with NaN rows. *)
Theorem C162_soft_dtw : forall be d x1 x2 s1 s2 gamma,
  0 <= gamma -> holds d x1 s1 -> holds d x2 s2 ->
  old_soft_dtw XInf x1 x2 gamma = soft_dtw be x1 x2 gamma GcNone None None.
Proof.
  intros be d x1 x2 s1 s2 gamma [Hg|<-] H1 H2.
  - rewrite (old_value d x1 x2 s1 s2), (new_value be d x1 x2 s1 s2) by auto. reflexivity.
  - pose proof (holds_not_nan _ _ _ H1) as N1. pose proof (holds_not_nan _ _ _ H2) as N2.
    destruct H1 as (F1 & R1 & E1). destruct H2 as (F2 & R2 & E2).
    unfold old_soft_dtw, soft_dtw. rewrite is_zero_0. unfold dtw, elastic. rewrite !(validated_strip Xnum d) by auto. reflexivity.
Qed.
Print Assumptions C162_soft_dtw.
(** so does the deprecated [soft_dtw_alignment] *)
Theorem C162_alignment : forall be garbage d x1 x2 s1 s2 gamma,
  0 < gamma -> holds d x1 s1 -> holds d x2 s2 ->
  exists E E' v, old_soft_dtw_alignment XInf x1 x2 gamma = Ok (E, v) /\
    soft_dtw_alignment be garbage x1 x2 gamma GcNone None None = Ok (E', v) /\
    forall i j, (i < length s1)%nat -> (j < length s2)%nat -> E i j = E' i j.
Proof.
  intros be garbage d x1 x2 s1 s2 gamma Hg H1 H2.
  pose proof (holds_not_nan _ _ _ H1) as N1. pose proof (holds_not_nan _ _ _ H2) as N2.
  destruct H1 as (F1 & R1 & E1). destruct H2 as (F2 & R2 & E2).
  pose proof (real_len _ _ F1) as L1. pose proof (real_len _ _ F2) as L2.
  pose (ps := all_paths (length s1) (length s2) everywhere).
  assert (Hps : enumerates (warping_path (length s1) (length s2) everywhere) ps) by (apply all_paths_enum; auto).
  assert (NEW : soft_dtw_alignment be garbage x1 x2 gamma GcNone None None =
                soft_dtw_alignment be garbage (Raw2 (lift s1)) (Raw2 (lift s2)) gamma GcNone None None).
  { unfold soft_dtw_alignment. rewrite (validated_strip Xnum d) by auto. unfold strip. rewrite E1, E2.
    rewrite (validated_finite Xnum xnn xfin Xlaws d) by (apply lift_finite; auto). reflexivity. }
  destruct (alignment_value be garbage d s1 s2 gamma GcNone None None everywhere ps Hg F1 F2 I eq_refl Hps) as (E' & v & EA & ES & EV).
  rewrite (soft_public be d s1 s2 gamma GcNone None None everywhere) in ES by (auto; exact I || reflexivity).
  destruct (class_grad_real s1 s2 gamma ps Hg L1 L2 Hps) as (E & EE & EV').
  exists E, E', v. split; [|split].
  - unfold old_soft_dtw_alignment. rewrite is_zero_false by auto. rewrite E1, E2, (sdtw_of_real d) by auto. cbn [bind]. cbv zeta.
    rewrite EE. cbn [bind]. rewrite (class_compute_real d s1 s2 gamma ps) by auto. unfold ps. congruence.
  - rewrite NEW. exact EA.
  - intros i j Hi Hj. rewrite EV, EV' by auto. reflexivity.
Qed.
Print Assumptions C162_alignment.
Theorem C162_alignment_zero : forall be garbage d x1 x2 s1 s2,
  holds d x1 s1 -> holds d x2 s2 ->
  old_soft_dtw_alignment XInf x1 x2 0 = soft_dtw_alignment be garbage x1 x2 0 GcNone None None.
Proof.
  intros be garbage d x1 x2 s1 s2 H1 H2.
  pose proof (holds_not_nan _ _ _ H1) as N1. pose proof (holds_not_nan _ _ _ H2) as N2.
  destruct H1 as (F1 & R1 & E1). destruct H2 as (F2 & R2 & E2).
  unfold old_soft_dtw_alignment, soft_dtw_alignment. rewrite is_zero_0. unfold dtw_path, elastic_path.
  rewrite !(validated_strip Xnum d) by auto. reflexivity.
Qed.
Print Assumptions C162_alignment_zero.

(** *** matrices *)
(** every series of the dataset is a real series padded with NaN rows *)
Definition hold (d : nat) (ds : list (raw Xnum)) (ss : list (list (list R))) : Prop :=
  length ds = length ss /\ (forall x, In x ds -> raw_ncols x = d) /\ forall i, (i < length ss)%nat -> holds d (item ds i) (nth i ss []).
Lemma hold_proper d ds ss : hold d ds ss -> proper (N:=Xnum) d ds.
Proof.
  intros (L & C & H) x Hx. split; [auto|]. destruct (In_nth _ _ (Raw2 []) Hx) as (i & Hi & <-).
  specialize (H i ltac:(lia)). split; [apply H|eapply holds_not_nan; exact H].
Qed.
Lemma short_holds d ds ss o i b : hold d ds ss -> to_dataset ds = Ok o -> (i < length ss)%nat ->
  holds d (Raw2 (if b : bool then nth i o [] else to_time_series (N:=Xnum) true (Raw2 (nth i o [])))) (nth i ss []).
Proof.
  intros H E Hi. pose proof (proper_uniform _ _ _ (hold_proper _ _ _ H)) as U. destruct H as (L & C & H).
  destruct (H i Hi) as (F & R & ET).
  destruct (strip_nth Xnum xnan d ds o i U E ltac:(lia)) as [_ Es]. split; [auto|].
  assert (RT : rect d (lift (nth i ss []))) by (apply Forall_forall; intros r Hr; eapply lift_row; eauto).
  split.
  - destruct b; cbn [reshape].
    + rewrite (to_dataset_ok Xnum d ds U) in E. match type of E with Ok ?x = _ => assert (Eo : o = x) by congruence end. subst o.
      set (f := fun x : raw Xnum => _ : series Xnum).
      rewrite (nth_indep _ [] (f (Raw2 []))) by (rewrite map_length; lia). rewrite map_nth. unfold f.
      change (nth i ds (Raw2 [])) with (item ds i). rewrite ET. apply Forall_app. split; auto.
      apply Forall_forall. intros r Hr. apply repeat_spec in Hr. subst r. apply repeat_length.
    + rewrite Es, ET. exact RT.
  - destruct b; [|rewrite strip_idem]; rewrite Es; exact ET.
Qed.
Lemma hold_reals d ss : (forall s, In s ss -> real_series d s) -> hold d (reals ss) ss.
Proof.
  intros F. split; [apply map_length|split].
  - intros x Hx. apply (lift_proper d ss F x Hx).
  - intros i Hi. unfold reals. rewrite lift_item by auto. apply holds_lift. apply F. apply nth_In. auto.
Qed.
(** the value of both functions *)
Definition sv (gamma : R) (s t : list (list R)) : xr :=
  XR (- gamma * ln (total gamma (costs s t) (all_paths (length s) (length t) everywhere))).

Lemma old_cross d ds1 ds2 ss1 ss2 o1 o2 gamma : 0 < gamma -> hold d ds1 ss1 -> hold d ds2 ss2 ->
  to_dataset ds1 = Ok o1 -> to_dataset ds2 = Ok o2 ->
  exists M, old_cdist_generic XInf o1 (Some o2) gamma = Ok M /\
  forall i k, (i < length ss1)%nat -> (k < length ss2)%nat -> M i k = sv gamma (nth i ss1 []) (nth k ss2 []).
Proof.
  intros Hg H1 H2 E1 E2.
  pose proof (gen_len _ _ _ _ (proper_uniform _ _ _ (hold_proper _ _ _ H1)) E1) as L1.
  pose proof (gen_len _ _ _ _ (proper_uniform _ _ _ (hold_proper _ _ _ H2)) E2) as L2.
  destruct H1 as (K1 & H1'). destruct H2 as (K2 & H2').
  pose proof (conj K1 H1' : hold d ds1 ss1) as H1. pose proof (conj K2 H2' : hold d ds2 ss2) as H2. clear H1' H2'.
  unfold old_cdist_generic. cbv zeta.
  set (dist := fun s t : series Xnum => _ : res xr).
  assert (G : forall i k, (i < length ss1)%nat -> (k < length ss2)%nat ->
    dist (nth i o1 []) (nth k o2 []) = Ok (sv gamma (nth i ss1 []) (nth k ss2 []))).
  { intros i k Hi Hk. unfold dist. apply (old_value d); [auto|apply (short_holds d ds1 ss1)|apply (short_holds d ds2 ss2)]; auto. }
  destruct (cdist_cross_returns Xnum (series Xnum) dist [] o1 o2 Sequential I) as (M & EM).
  { intros i k Hi Hk. eexists. apply G; [rewrite <- K1, <- L1; exact Hi|rewrite <- K2, <- L2; exact Hk]. }
  exists M. split; [exact EM|]. intros i k Hi Hk.
  pose proof (cdist_cross_spec Xnum (series Xnum) dist [] o1 o2 Sequential M I EM i k) as S.
  specialize (S ltac:(rewrite L1, K1; exact Hi) ltac:(rewrite L2, K2; exact Hk)). rewrite G in S by auto.
  assert (X : forall a b : xr, Ok a = Ok b -> b = a) by congruence. apply X. exact S.
Qed.
Lemma old_self d ds ss o gamma : 0 < gamma -> hold d ds ss -> to_dataset ds = Ok o ->
  exists M, old_cdist_generic XInf o None gamma = Ok M /\
  forall i k, (i <= k)%nat -> (k < length ss)%nat -> M i k = sv gamma (nth i ss []) (nth k ss []) /\ M k i = M i k.
Proof.
  intros Hg H E.
  pose proof (gen_len _ _ _ _ (proper_uniform _ _ _ (hold_proper _ _ _ H)) E) as L.
  destruct H as (K & H'). pose proof (conj K H' : hold d ds ss) as H. clear H'.
  unfold old_cdist_generic. cbv zeta. set (dist := fun s t : series Xnum => _ : res xr).
  assert (G : forall i k, (i < length ss)%nat -> (k < length ss)%nat ->
    dist (nth i o []) (nth k o []) = Ok (sv gamma (nth i ss []) (nth k ss []))).
  { intros i k Hi Hk. unfold dist. apply (old_value d); [auto|apply (short_holds d ds ss)|apply (short_holds d ds ss)]; auto. }
  assert (X : forall a b : xr, Ok a = Ok b -> b = a) by congruence.
  destruct (cdist_self_returns Xnum (series Xnum) dist [] o true Sequential I) as (M & EM).
  { intros i k Hi Hk. eexists. apply G; rewrite <- K, <- L; [exact Hi|exact Hk]. }
  exists M. split; [exact EM|]. intros i k Hik Hk.
  destruct (cdist_self_spec Xnum (series Xnum) dist [] o true Sequential M I EM) as [S1 S2].
  destruct (Nat.eq_dec i k) as [->|Hn].
  - specialize (S2 k ltac:(rewrite L, K; exact Hk)). cbn iota in S2. rewrite G in S2 by auto. split; [apply X; exact S2|reflexivity].
  - specialize (S1 i k ltac:(lia) ltac:(rewrite L, K; exact Hk)). destruct S1 as [S1 S3]. rewrite G in S1 by (auto; lia).
    split; [apply X; exact S1|exact S3].
Qed.

(** the cross matrices agree *)
Theorem C162_cdist_cross : forall be d ds1 ds2 ss1 ss2 gamma j,
  0 < gamma -> hold d ds1 ss1 -> hold d ds2 ss2 -> valid_jobs j (length ds1 * length ds2) ->
  exists M M', old_cdist_soft_dtw XInf ds1 (Some ds2) gamma = Ok M /\
    cdist_soft_dtw be ds1 (Some ds2) gamma GcNone None None j = Ok M' /\
    forall i k, (i < length ds1)%nat -> (k < length ds2)%nat -> M i k = M' i k.
Proof.
  intros be d ds1 ds2 ss1 ss2 gamma j Hg H1 H2 Hj.
  pose proof (hold_proper _ _ _ H1) as P1. pose proof (hold_proper _ _ _ H2) as P2.
  destruct (to_datasets_cross d d ds1 ds2 (proper_uniform _ _ _ P1) (proper_uniform _ _ _ P2)) as (o1 & o2 & E1 & E2 & E3).
  destruct (old_cross d ds1 ds2 ss1 ss2 o1 o2 gamma Hg H1 H2 E1 E2) as (M & EM & HM).
  assert (V : forall i k, (i < length ds1)%nat -> (k < length ds2)%nat ->
    soft_dtw be (item ds1 i) (item ds2 k) gamma GcNone None None = Ok (sv gamma (nth i ss1 []) (nth k ss2 []))).
  { destruct H1 as (K1 & _ & H1). destruct H2 as (K2 & _ & H2). intros i k Hi Hk. apply (new_value be d); [auto|apply H1|apply H2]; lia. }
  destruct (C31_cdist_soft_dtw_cross_returns be d ds1 ds2 gamma GcNone None None j) as (M' & EM'); auto; [discriminate|intros i k Hi Hk; eexists; apply V; auto|].
  exists M, M'. split; [unfold old_cdist_soft_dtw; rewrite E3; exact EM|split; [exact EM'|]].
  intros i k Hi Hk. pose proof (C31_cdist_soft_dtw_cross be d ds1 ds2 gamma GcNone None None j M' Hg P1 P2 Hj EM' i k Hi Hk) as S.
  rewrite V in S by auto. destruct H1 as (K1 & _). destruct H2 as (K2 & _). rewrite HM by lia. congruence.
Qed.
Print Assumptions C162_cdist_cross.

(** and so do the self matrices *)
Theorem C162_cdist_self : forall be d ss gamma j,
  0 < gamma -> (forall s, In s ss -> real_series d s) -> valid_jobs j (length ss * (length ss + 1) / 2) ->
  exists M M', old_cdist_soft_dtw XInf (reals ss) None gamma = Ok M /\
    cdist_soft_dtw be (reals ss) None gamma GcNone None None j = Ok M' /\
    forall i k, (i < length ss)%nat -> (k < length ss)%nat -> M i k = M' i k.
Proof.
  intros be d ss gamma j Hg F Hj. pose proof (hold_reals d ss F) as H. pose proof (hold_proper _ _ _ H) as P.
  destruct (to_datasets_self d (reals ss) (proper_uniform _ _ _ P)) as (o & E1 & E3).
  destruct (old_self d (reals ss) ss o gamma Hg H E1) as (M & EM & HM).
  destruct (C31_cdist_soft_dtw_self_pairwise be d ss gamma GcNone None None j 1 1 everywhere Hg F none_not_itakura I (none_mask 1 1) Hj) as (M' & EM' & S').
  exists M, M'. split; [unfold old_cdist_soft_dtw; rewrite E3; exact EM|split; [exact EM'|]].
  assert (S : forall i k, (i <= k)%nat -> (k < length ss)%nat -> M i k = M' i k /\ M k i = M' k i).
  { intros i k Hik Hk. destruct (HM i k Hik Hk) as [-> ->].
    assert (Lr : length (reals ss) = length ss) by apply map_length.
    assert (Hj' : valid_jobs j (length (reals ss) * (length (reals ss) + 1) / 2)) by (rewrite Lr; exact Hj).
    assert (Hk' : (k < length (reals ss))%nat) by (rewrite Lr; exact Hk).
    destruct (C31_cdist_soft_dtw_self be d (reals ss) gamma GcNone None None j M' Hg P Hj' EM' i k Hik Hk') as [A B].
    destruct H as (_ & _ & H). rewrite (new_value be d _ _ (nth i ss []) (nth k ss [])) in A by (auto; apply H; lia).
    rewrite B. unfold sv. split; congruence. }
  intros i k Hi Hk. destruct (le_ge_dec i k) as [Hl|Hl]; [exact (proj1 (S i k Hl Hk))|exact (proj2 (S k i Hl Hi))].
Qed.
Print Assumptions C162_cdist_self.

(** *** the normalized matrices *)
Lemma old_list d ds ss o gamma : 0 < gamma -> hold d ds ss -> to_dataset ds = Ok o ->
  exists a, mapM (fun s : series Xnum => let t := to_time_series (N:=Xnum) true (Raw2 s) in old_soft_dtw XInf (Raw2 t) (Raw2 t) gamma) o = Ok a /\
  forall i, (i < length ss)%nat -> nth i a XNaN = sv gamma (nth i ss []) (nth i ss []).
Proof.
  intros Hg H E. set (f := fun s : series Xnum => _ : res xr).
  pose proof (gen_len _ _ _ _ (proper_uniform _ _ _ (hold_proper _ _ _ H)) E) as L.
  assert (K : length ds = length ss) by (destruct H; auto).
  assert (L' : length o = length ss) by (etransitivity; [exact L|exact K]).
  assert (G : forall i, (i < length ss)%nat -> f (nth i o []) = Ok (sv gamma (nth i ss []) (nth i ss []))).
  { intros i Hi. unfold f. cbv zeta. pose proof (short_holds d ds ss o i false H E Hi) as S. apply (old_value d); auto. }
  destruct (mapM_total f o) as (a & Ea).
  { intros x Hx. destruct (In_nth _ _ ([] : series Xnum) Hx) as (i & Hi & <-). eexists. apply G. rewrite <- L'. exact Hi. }
  exists a. split; [exact Ea|]. intros i Hi. apply mapM_spec in Ea. pose proof (Forall2_len _ _ _ Ea) as La.
  assert (S : f (nth i o []) = Ok (nth i a XNaN)).
  { refine (Forall2_nth_inv _ _ _ i _ _ Ea _ _); apply nth_error_nth'; [rewrite L'; auto|rewrite <- La, L'; auto]. }
  rewrite G in S by auto. congruence.
Qed.
Lemma norm_value be d s t gamma : 0 < gamma -> real_series d s -> real_series d t ->
  soft_dtw_normalized be (Raw2 (lift s)) (Raw2 (lift t)) gamma GcNone None None =
  Ok (xadd (sv gamma s t) (xmul (XR (- / 2)) (xadd (sv gamma s s) (sv gamma t t)))).
Proof.
  intros Hg F1 F2.
  destruct (normalized_public be d s t gamma GcNone None None everywhere everywhere everywhere Hg F1 F2 I eq_refl eq_refl eq_refl) as (a & b & c & E1 & E2 & E3 & ->).
  rewrite (new_value be d _ _ s t) in E1 by auto using holds_lift. rewrite (new_value be d _ _ s s) in E2 by auto using holds_lift.
  rewrite (new_value be d _ _ t t) in E3 by auto using holds_lift. fold (sv gamma s t) in E1. fold (sv gamma s s) in E2. fold (sv gamma t t) in E3.
  replace (sv gamma s t) with (XR a) by congruence. replace (sv gamma s s) with (XR b) by congruence. replace (sv gamma t t) with (XR c) by congruence.
  cbn [xadd xmul]. do 2 f_equal. field.
Qed.
Theorem C162_normalized_cross : forall be d ss1 ss2 gamma j,
  0 < gamma -> (forall s, In s ss1 -> real_series d s) -> (forall s, In s ss2 -> real_series d s) ->
  valid_jobs j (length ss1 * length ss2) ->
  exists M M', old_cdist_soft_dtw_normalized XInf (reals ss1) (Some (reals ss2)) gamma = Ok M /\
    cdist_soft_dtw_normalized be (reals ss1) (Some (reals ss2)) gamma GcNone None None j Sequential = Ok M' /\
    forall i k, (i < length ss1)%nat -> (k < length ss2)%nat -> M i k = M' i k.
Proof.
  intros be d ss1 ss2 gamma j Hg F1 F2 Hj. pose proof (hold_reals d ss1 F1) as H1. pose proof (hold_reals d ss2 F2) as H2.
  pose proof (hold_proper _ _ _ H1) as P1. pose proof (hold_proper _ _ _ H2) as P2.
  destruct (to_datasets_cross d d (reals ss1) (reals ss2) (proper_uniform _ _ _ P1) (proper_uniform _ _ _ P2)) as (o1 & o2 & E1 & E2 & E3).
  destruct (old_cross d (reals ss1) (reals ss2) ss1 ss2 o1 o2 gamma Hg H1 H2 E1 E2) as (M & EM & HM).
  destruct (old_list d _ ss1 o1 gamma Hg H1 E1) as (a & Ea & Ha). destruct (old_list d _ ss2 o2 gamma Hg H2 E2) as (b & Eb & Hb).
  destruct (C75_normalized_cross_sequential be d ss1 ss2 gamma GcNone None None j Hg F1 F2 I) as (M' & EM' & HM');
    [intros x y _ _; exists everywhere; reflexivity|discriminate|exact Hj|].
  eexists. exists M'. split; [|split; [exact EM'|]].
  - unfold old_cdist_soft_dtw_normalized. rewrite E3. cbn [bind fst snd]. rewrite EM. cbn [bind]. cbv zeta in Ea, Eb |- *.
    rewrite Ea. cbn [bind]. rewrite Eb. cbn [bind]. reflexivity.
  - intros i k Hi Hk. cbv beta. rewrite HM, Ha, Hb by auto. specialize (HM' i k Hi Hk).
    rewrite (norm_value be d) in HM' by (auto; first [apply F1; apply nth_In; assumption|apply F2; apply nth_In; assumption]). congruence.
Qed.
Print Assumptions C162_normalized_cross.
Theorem C162_normalized_self : forall be d ss gamma j j2,
  0 < gamma -> (forall s, In s ss -> real_series d s) -> valid_jobs j (length ss * (length ss + 1) / 2) ->
  exists M M', old_cdist_soft_dtw_normalized XInf (reals ss) None gamma = Ok M /\
    cdist_soft_dtw_normalized be (reals ss) None gamma GcNone None None j j2 = Ok M' /\
    forall i k, (i < length ss)%nat -> (k < length ss)%nat -> M i k = M' i k.
Proof.
  intros be d ss gamma j j2 Hg F Hj.
  destruct (C162_cdist_self be d ss gamma Sequential Hg F I) as (M & M0 & EM & EM0 & HM).
  destruct (C31_cdist_soft_dtw_self_pairwise be d ss gamma GcNone None None Sequential 1 1 everywhere Hg F none_not_itakura I (none_mask 1 1) I) as (M1 & EM1 & S1).
  fold (reals ss) in EM1. assert (M1 = M0) by congruence. subst M1. clear EM1.
  destruct (C75_normalized_self be d ss gamma GcNone None None j j2 1 1 everywhere Hg F none_not_itakura I (none_mask 1 1) Hj) as (M' & EM' & HM').
  pose proof (hold_proper _ _ _ (hold_reals d ss F)) as P.
  destruct (to_datasets_self d (reals ss) (proper_uniform _ _ _ P)) as (o & E1 & E3).
  unfold old_cdist_soft_dtw in EM. rewrite E3 in EM. cbn [bind fst snd] in EM.
  eexists. exists M'. split; [|split; [exact EM'|]].
  - unfold old_cdist_soft_dtw_normalized. rewrite E3. cbn [bind fst snd]. rewrite EM. cbn [bind]. reflexivity.
  - assert (V : forall i k, (i < length ss)%nat -> (k < length ss)%nat -> M i k = sv gamma (nth i ss []) (nth k ss [])).
    { intros i k Hi Hk. rewrite HM by auto. pose proof (S1 i k Hi Hk) as Q.
      rewrite (new_value be d _ _ (nth i ss []) (nth k ss [])) in Q by (auto; apply holds_lift; apply F; apply nth_In; auto). unfold sv. congruence. }
    intros i k Hi Hk. cbv beta. rewrite !V by auto. specialize (HM' i k Hi Hk).
    rewrite (norm_value be d) in HM' by (auto; apply F; apply nth_In; auto). congruence.
Qed.
Print Assumptions C162_normalized_self.
Example C162_example : hold 1 [Raw2 (N:=Xnum) [[XR 0]; [XR 1]; [XNaN]]; Raw2 (N:=Xnum) [[XR 2]; [XR 5]; [XR 4]]] [[[0]; [1]]; [[2]; [5]; [4]]].
Proof.
  split; [reflexivity|split].
  - intros x [<-|[<-|[]]]; reflexivity.
  - assert (F : forall s, In s [[[0]; [1]]; [[2]; [5]; [4]]] -> real_series 1 s).
    { intros s [<-|[<-|[]]]; (split; [lia|split; [discriminate|]]); intros r H; simpl in H; intuition (subst; reflexivity). }
    intros i Hi. destruct i as [|[|i]]; [| |simpl in Hi; lia]; (split; [apply F; simpl; auto|]);
      (split; [repeat constructor|reflexivity]).
Qed.

(** *** where they differ *)
(** At gamma = 0 the deprecated matrix holds the squares of the DTW values, the
    replacement the DTW values themselves. *)
Theorem C162_cdist_gamma_zero_refuted : exists be ds1 ds2 M M',
  old_cdist_soft_dtw XInf ds1 (Some ds2) 0 = Ok M /\ cdist_soft_dtw be ds1 (Some ds2) 0 GcNone None None Sequential = Ok M' /\
  M 0%nat 0%nat = XR 4 /\ M' 0%nat 0%nat = XR 2.
Proof.
  pose (ss1 := [[[0]]]). pose (ss2 := [[[2]]]).
  assert (F1 : real_series 1 [[0]]) by (repeat split; [lia|discriminate|intros r [<-|[]]; reflexivity]).
  assert (F2 : real_series 1 [[2]]) by (repeat split; [lia|discriminate|intros r [<-|[]]; reflexivity]).
  pose (ds1 := reals ss1). pose (ds2 := reals ss2).
  assert (H1 : hold 1 ds1 ss1) by (apply hold_reals; intros s [<-|[]]; auto).
  assert (H2 : hold 1 ds2 ss2) by (apply hold_reals; intros s [<-|[]]; auto).
  pose proof (hold_proper _ _ _ H1) as P1. pose proof (hold_proper _ _ _ H2) as P2.
  assert (En : enumerates (warping_path 1 1 everywhere) [[(0, 0)%nat]]) by (exact (all_paths_enum 1 1 everywhere ltac:(lia) ltac:(lia))).
  destruct (dtw_value 1 [[0]] [[2]] GcNone None None everywhere [[(0, 0)%nat]] F1 F2 I eq_refl En) as (p & [<-|[]] & _ & Ed).
  assert (Ev : sqrt (cost (costs [[0]] [[2]]) [(0, 0)%nat]) = 2).
  { unfold cost, costs, sqd. simpl. replace ((0 - 2) * (0 - 2) + 0 + 0) with (2 * 2) by ring. apply sqrt_square. lra. }
  rewrite Ev in Ed.
  destruct (to_datasets_cross 1 1 ds1 ds2 (proper_uniform _ _ _ P1) (proper_uniform _ _ _ P2)) as (o1 & o2 & E1 & E2 & E3).
  assert (Ex : exists M, cdist_soft_dtw BNumpy ds1 (Some ds2) 0 GcNone None None Sequential = Ok M).
  { unfold cdist_soft_dtw. rewrite E3. cbn [bind fst snd]. unfold cdist_soft_dtw_generic. rewrite is_zero_0. cbn [bind gc_code].
    refine (gen_cross_returns Xnum xnan _ 1 1 ds1 ds2 o1 o2 false Sequential _ _ I E1 E2 _); try (apply proper_uniform; auto).
    intros i k Hi Hk. rewrite <- (dtw_item 1 ds1 ds2 GcNone 0 None None i k) by auto.
    replace i with 0%nat by (simpl in Hi; lia). replace k with 0%nat by (simpl in Hk; lia). eexists. exact Ed. }
  destruct Ex as (M' & EM').
  destruct (C31_cdist_soft_dtw_gamma_zero BNumpy 1 ds1 ds2 GcNone None None Sequential M' P1 P2 I EM' 0%nat 0%nat) as [D1 _]; [simpl; lia|simpl; lia|].
  assert (M00 : M' 0%nat 0%nat = XR 2) by (change (item ds1 0) with (@Raw2 Xnum (lift [[0]])) in D1;
    change (item ds2 0) with (@Raw2 Xnum (lift [[2]])) in D1; rewrite Ed in D1; congruence).
  assert (O1 : o1 = [lift [[0]]]) by (change (Ok [lift [[0]]] = Ok o1) in E1; congruence).
  assert (O2 : o2 = [lift [[2]]]) by (change (Ok [lift [[2]]] = Ok o2) in E2; congruence).
  assert (V : forall s t, s = lift [[0]] -> t = lift [[2]] -> old_soft_dtw XInf (Raw2 s) (Raw2 t) 0 = Ok (XR 4)).
  { intros s t -> ->. unfold old_soft_dtw. rewrite is_zero_0, Ed. cbn [bind xmul]. do 2 f_equal. }
  assert (G : exists M, old_cdist_generic XInf o1 (Some o2) 0 = Ok M /\ M 0%nat 0%nat = XR 4).
  { unfold old_cdist_generic. cbv zeta. set (dist := fun s t : series Xnum => _ : res xr).
    assert (D : dist (nth 0 o1 []) (nth 0 o2 []) = Ok (XR 4)) by (unfold dist; rewrite O1, O2; apply V; reflexivity).
    destruct (cdist_cross_returns Xnum (series Xnum) dist [] o1 o2 Sequential I) as (M & EM).
    { intros i k Hi Hk. rewrite O1 in Hi. rewrite O2 in Hk. replace i with 0%nat by (simpl in Hi; lia). replace k with 0%nat by (simpl in Hk; lia). eauto. }
    exists M. split; [exact EM|].
    pose proof (cdist_cross_spec Xnum (series Xnum) dist [] o1 o2 Sequential M I EM 0%nat 0%nat) as S.
    specialize (S ltac:(rewrite O1; simpl; lia) ltac:(rewrite O2; simpl; lia)). rewrite D in S.
    assert (X : forall a b : xr, Ok a = Ok b -> b = a) by congruence. apply X. exact S. }
  destruct G as (M & EM & M4).
  exists BNumpy, ds1, ds2, M, M'. split; [|split; [exact EM'|split; [exact M4|exact M00]]].
  unfold old_cdist_soft_dtw. rewrite E3. cbn [bind fst snd]. exact EM.
Qed.
Print Assumptions C162_cdist_gamma_zero_refuted.

(** A NaN row between two numbers is kept by [to_time_series]: the deprecated function
    hands it to scikit-learn, which raises; the replacement computes with it. *)
Theorem C162_inner_nan_refuted : exists be x1 x2 v,
  old_soft_dtw XInf x1 x2 1 = Err ValueError /\ soft_dtw be x1 x2 1 GcNone None None = Ok v.
Proof.
  exists BNumpy, (Raw2 (N:=Xnum) [[XR 0]; [XNaN]; [XR 1]]), (Raw2 (N:=Xnum) [[XR 0]]). eexists. split.
  - unfold old_soft_dtw. rewrite is_zero_false by lra. reflexivity.
  - unfold soft_dtw. rewrite (validated_strip Xnum 1).
    + rewrite is_zero_false by lra. unfold soft_dtw_generic. cbn [gc_code bind compute_mask Nat.eqb orb andb]. reflexivity.
    + repeat constructor.
    + repeat constructor.
    + intros H. specialize (H _ (or_introl eq_refl)). discriminate.
    + intros H. specialize (H _ (or_introl eq_refl)). discriminate.
Qed.
Print Assumptions C162_inner_nan_refuted.

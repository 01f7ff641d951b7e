(** Properties C27-C30: soft-DTW, exact arithmetic. *)
From Coq Require Import Bool List Arith Lia ZArith QArith Reals Lra Permutation.
From Verif Require Import Num NumLaws Py Series Masks DtwModel Spec SpecDtw DpProofs DtwProofs DtwThms DtwExact
  LimitedThms MaskThms RList PathSum SoftModel SoftThms RealSeries PropDtw.
Import ListNotations.
Local Open Scope R_scope.

(** weight exp(-cost/gamma) of an alignment *)
Definition gibbs (gamma : R) (D : nat -> nat -> R) (p : list cell) : R := exp (- (cost D p / gamma)).
(** total weight of a list of alignments *)
Definition total (gamma : R) (D : nat -> nat -> R) (ps : list (list cell)) : R := rsum (map (gibbs gamma D) ps).

Lemma total_psum gamma D n m ok : gamma <> 0 ->
  total gamma D (all_paths n m ok) = psum ok (fun i j => exp (- (D i j / gamma))) (n - 1) (m - 1).
Proof.
  intros Hg. rewrite <- all_paths_sum. unfold total. apply rsum_map_ext. intros p _. symmetry. apply pweight_cost; auto.
Qed.
Lemma total_enum gamma D P ps ps' : enumerates P ps -> enumerates P ps' -> total gamma D ps = total gamma D ps'.
Proof. intros H H'. unfold total. eapply enumerates_rsum; eauto. Qed.
Lemma total_pos gamma D ps : ps <> [] -> 0 < total gamma D ps.
Proof.
  intros H. apply rsum_pos.
  - destruct ps; [congruence|discriminate].
  - intros x Hx. apply in_map_iff in Hx. destruct Hx as (p & <- & _). apply exp_pos.
Qed.
Lemma is_zero_false g : 0 < g -> is_zero g = false.
Proof. intros H. unfold is_zero. destruct (Req_EM_T g 0); [lra|reflexivity]. Qed.

(** the table of a call *)
Lemma mask_of d s1 s2 g r s allowed : real_series d s1 -> real_series d s2 -> positive_slope s ->
  constraint (length s1) (length s2) g r s allowed ->
  exists code mask, gc_code g = Ok code /\ compute_mask (length s1) (length s2) code r s = Ok mask /\
    (forall i j, (i < length s1)%nat -> (j < length s2)%nat -> mask i j = allowed i j) /\
    (forall i j, (i < length s1)%nat -> (j < length s2)%nat -> mask i j = true -> exists p, rpath mask i j p).
Proof.
  intros F1 F2 Hs Hc. destruct (constraint_mask _ _ _ _ _ _ Hc) as (code & mask & E1 & E2 & E3).
  exists code, mask. split; [auto|split; [auto|split; [auto|]]]. intros i j Hi Hj Hm. rewrite E3 in Hm by auto.
  destruct (constraint_reach _ _ _ _ _ _ (real_len _ _ F1) (real_len _ _ F2) Hs Hc i j Hi Hj Hm) as (p & Hp).
  exists p. eapply rpath_ext; [|exact Hp|exact Hi|exact Hj]. intros; symmetry; auto.
Qed.
Lemma psum_mask n m mask allowed gamma D : 0 < gamma -> (0 < n)%nat -> (0 < m)%nat ->
  (forall i j, (i < n)%nat -> (j < m)%nat -> mask i j = allowed i j) ->
  psum mask (fun i j => exp (- (D i j / gamma))) (n - 1) (m - 1) = total gamma D (all_paths n m allowed).
Proof.
  intros Hg Hn Hm E. rewrite total_psum by lra. apply (psum_ext _ _ _ _ n m); auto; lia.
Qed.
Lemma soft_generic be d s1 s2 gamma g r s allowed code mask : 0 < gamma -> real_series d s1 -> real_series d s2 ->
  positive_slope s -> constraint (length s1) (length s2) g r s allowed ->
  compute_mask (length s1) (length s2) code r s = Ok mask ->
  (forall i j, (i < length s1)%nat -> (j < length s2)%nat -> mask i j = allowed i j) ->
  (forall i j, (i < length s1)%nat -> (j < length s2)%nat -> mask i j = true -> exists p, rpath mask i j p) ->
  soft_dtw_generic be (lift s1) (lift s2) gamma code r s =
  Ok (XR (- gamma * ln (total gamma (costs s1 s2) (all_paths (length s1) (length s2) allowed)))).
Proof.
  intros Hg F1 F2 Hs Hc E2 E3 Hre. unfold soft_dtw_generic. rewrite !lift_length, E2. cbn [bind]. f_equal.
  pose proof (real_len _ _ F1) as L1. pose proof (real_len _ _ F2) as L2.
  assert (P : 0 < total gamma (costs s1 s2) (all_paths (length s1) (length s2) allowed)).
  { apply total_pos. destruct (constraint_feasible _ _ _ _ _ _ L1 L2 Hs Hc) as (p & Hp).
    apply (all_paths_enum _ _ allowed L1 L2) in Hp. intros E. rewrite E in Hp. contradiction. }
  transitivity (value gamma mask (costs s1 s2) (length s1 - 1) (length s2 - 1)).
  - assert (HD : forall i j, (i < length s1)%nat -> (j < length s2)%nat -> mask i j = true ->
       sq_dists (N:=Xnum) (lift s1) (lift s2) i j = XR (costs s1 s2 i j)) by (intros; apply sq_dists_lift).
    destruct be; simpl.
    + apply soft_acc_value; auto; lia.
    + apply torch_soft_acc_value; auto; lia.
  - unfold value. rewrite (psum_mask _ _ _ allowed) by auto. rewrite (proj2 (Rltb_true _ _)) by auto. reflexivity.
Qed.
Lemma soft_public be d s1 s2 gamma g r s allowed : 0 < gamma -> real_series d s1 -> real_series d s2 ->
  positive_slope s -> constraint (length s1) (length s2) g r s allowed ->
  soft_dtw be (Raw2 (lift s1)) (Raw2 (lift s2)) gamma g r s =
  Ok (XR (- gamma * ln (total gamma (costs s1 s2) (all_paths (length s1) (length s2) allowed)))).
Proof.
  intros Hg F1 F2 Hs Hc. unfold soft_dtw.
  rewrite (validated_finite Xnum xnn xfin Xlaws d) by (apply lift_finite; auto).
  destruct (mask_of d s1 s2 g r s allowed F1 F2 Hs Hc) as (code & mask & E1 & E2 & E3 & E4).
  rewrite E1. cbn [bind]. rewrite is_zero_false by auto. eapply soft_generic; eauto.
Qed.

(** ** C27 *)
(** For both backends, every constraint (radius, Itakura with positive slope, or
    none) and every gamma > 0: the value is -gamma log of the sum over all
    admissible warping paths of exp(-cost/gamma).  [ps] lists each admissible path
    exactly once. *)
Theorem C27_soft_dtw_path_sum : forall be d s1 s2 gamma g radius slope allowed,
  0 < gamma -> real_series d s1 -> real_series d s2 -> positive_slope slope ->
  constraint (length s1) (length s2) g radius slope allowed ->
  exists ps, enumerates (warping_path (length s1) (length s2) allowed) ps /\ ps <> [] /\
    soft_dtw be (Raw2 (lift s1)) (Raw2 (lift s2)) gamma g radius slope =
    Ok (XR (- gamma * ln (rsum (map (fun p => exp (- (cost (costs s1 s2) p / gamma))) ps)))).
Proof.
  intros be d s1 s2 gamma g r s allowed Hg F1 F2 Hs Hc.
  pose proof (real_len _ _ F1) as L1. pose proof (real_len _ _ F2) as L2.
  exists (all_paths (length s1) (length s2) allowed). split; [apply all_paths_enum; auto|split].
  - destruct (constraint_feasible _ _ _ _ _ _ L1 L2 Hs Hc) as (p & Hp).
    apply (all_paths_enum _ _ allowed L1 L2) in Hp. intros E. rewrite E in Hp. contradiction.
  - apply (soft_public be d); auto.
Qed.
Print Assumptions C27_soft_dtw_path_sum.
(** a 2 x 2 problem with a band: three paths, and an Itakura constraint *)
Example C27_nontrivial : real_series 1 [[0]; [1]] /\ real_series 1 [[2]; [5]] /\ positive_slope (Some 2%Q) /\
  constraint 2 2 GcSakoeChiba None None (band 2 2 1) /\
  length (all_paths 2 2 (band 2 2 1)) = 3%nat /\
  (exists A, constraint 4 4 GcItakura None (Some 2%Q) A /\ A 1%nat 3%nat = false).
Proof.
  split; [|split; [|split; [|split; [|split]]]].
  - repeat split; [lia|discriminate|]. intros r [<-|[<-|[]]]; reflexivity.
  - repeat split; [lia|discriminate|]. intros r [<-|[<-|[]]]; reflexivity.
  - reflexivity.
  - simpl. split; [lia|reflexivity].
  - reflexivity.
  - eexists. split; vm_compute; reflexivity.
Qed.

(** ** C28 *)
Lemma dtw_value d s1 s2 g r s allowed ps : real_series d s1 -> real_series d s2 -> positive_slope s ->
  constraint (length s1) (length s2) g r s allowed ->
  enumerates (warping_path (length s1) (length s2) allowed) ps ->
  exists p, In p ps /\ (forall q, In q ps -> cost (costs s1 s2) p <= cost (costs s1 s2) q) /\
    dtw (N:=Xnum) (Raw2 (lift s1)) (Raw2 (lift s2)) g r s = Ok (XR (sqrt (cost (costs s1 s2) p))).
Proof.
  intros F1 F2 Hs Hc [_ Hps].
  pose proof (real_len _ _ F1) as L1. pose proof (real_len _ _ F2) as L2.
  assert (Hc' : constraint (length (lift s1)) (length (lift s2)) g r s allowed) by (rewrite !lift_length; auto).
  destruct (elastic_optimal Xnum xnn xfin Xlaws comb_dtw xadd (comb_laws_dtw Xnum xnn xfin Xlaws) (dtw_op Xnum xnn)
     d (lift s1) (lift s2) (lift_finite _ _ F1) (lift_finite _ _ F2) g r s allowed Hc') as (w & E & _ & Hl & Ha).
  rewrite !lift_length in *.
  assert (PC : forall p, path_cost (N:=Xnum) xadd (local_costs (N:=Xnum) (lift s1) (lift s2)) p = XR (cost (costs s1 s2) p)).
  { intros p. rewrite <- path_cost_lift. apply path_cost_ext. intros i j _. apply local_costs_lift. }
  destruct Ha as [(p & Hp & Ep)|[Hno _]].
  2: { destruct (constraint_feasible _ _ _ _ _ _ L1 L2 Hs Hc) as (p & Hp). exfalso. eapply Hno; eauto. }
  exists p. split; [apply Hps; auto|split].
  - intros q Hq. apply Hps in Hq. apply Hl in Hq. rewrite <- Ep in Hq. rewrite !PC in Hq. simpl in Hq.
    apply Rleb_true in Hq. auto.
  - unfold dtw. rewrite E. rewrite <- Ep, PC. simpl. f_equal.
    rewrite (proj2 (Rleb_true _ _)); [reflexivity|]. apply cost_nonneg. intros; apply sqd_nonneg.
Qed.
Theorem C28_soft_dtw_bounds : forall be d s1 s2 gamma g radius slope allowed ps,
  0 < gamma -> real_series d s1 -> real_series d s2 -> positive_slope slope ->
  constraint (length s1) (length s2) g radius slope allowed ->
  enumerates (warping_path (length s1) (length s2) allowed) ps ->
  exists v sv,
    dtw (N:=Xnum) (Raw2 (lift s1)) (Raw2 (lift s2)) g radius slope = Ok (XR v) /\
    soft_dtw be (Raw2 (lift s1)) (Raw2 (lift s2)) gamma g radius slope = Ok (XR sv) /\
    v * v - gamma * ln (INR (length ps)) <= sv <= v * v.
Proof.
  intros be d s1 s2 gamma g r s allowed ps Hg F1 F2 Hs Hc Hps.
  pose proof (real_len _ _ F1) as L1. pose proof (real_len _ _ F2) as L2.
  destruct (dtw_value d s1 s2 g r s allowed ps F1 F2 Hs Hc Hps) as (p & Hp & Hmin & E).
  exists (sqrt (cost (costs s1 s2) p)). eexists. split; [exact E|split; [apply (soft_public be d); eauto|]].
  rewrite (total_enum gamma (costs s1 s2) _ _ _ (all_paths_enum _ _ allowed L1 L2) Hps).
  assert (C0 : 0 <= cost (costs s1 s2) p) by (apply cost_nonneg; intros; apply sqd_nonneg).
  rewrite sqrt_sqrt by auto. set (c := cost (costs s1 s2) p) in *.
  assert (Z1 : exp (- (c / gamma)) <= total gamma (costs s1 s2) ps).
  { unfold total. change (exp (- (c / gamma))) with (gibbs gamma (costs s1 s2) p). clear - Hp.
    induction ps as [|q ps IH]; [contradiction|]. simpl.
    assert (0 <= rsum (map (gibbs gamma (costs s1 s2)) ps)).
    { apply rsum_nonneg. intros x Hx. apply in_map_iff in Hx. destruct Hx as (y & <- & _). left. apply exp_pos. }
    assert (0 < gibbs gamma (costs s1 s2) q) by apply exp_pos.
    destruct Hp as [->|Hp]; [lra|]. specialize (IH Hp). lra. }
  assert (Z2 : total gamma (costs s1 s2) ps <= INR (length ps) * exp (- (c / gamma))).
  { rewrite <- (rsum_const _ ps). apply rsum_map_le. intros q Hq. unfold gibbs.
    destruct (Hmin q Hq) as [Hlt|He].
    - left. apply exp_increasing. apply Ropp_lt_contravar. apply Rmult_lt_compat_r; auto. apply Rinv_0_lt_compat; auto.
    - fold c in He. rewrite <- He. lra. }
  pose proof (exp_pos (- (c / gamma))) as Ep.
  assert (Ln : 0 < INR (length ps)) by (apply lt_0_INR; destruct ps; [contradiction|simpl; lia]).
  assert (K1 : - (c / gamma) <= ln (total gamma (costs s1 s2) ps)).
  { rewrite <- (ln_exp (- (c / gamma))). destruct Z1 as [Z1|Z1]; [left; apply ln_increasing; auto|rewrite Z1; lra]. }
  assert (K2 : ln (total gamma (costs s1 s2) ps) <= ln (INR (length ps)) + - (c / gamma)).
  { rewrite <- (ln_exp (- (c / gamma))) at 1. rewrite <- ln_mult by auto.
    destruct Z2 as [Z2|Z2]; [left; apply ln_increasing; auto; lra|rewrite Z2; lra]. }
  assert (Ec : gamma * (c / gamma) = c) by (field; lra).
  split; nra.
Qed.
Print Assumptions C28_soft_dtw_bounds.
(** the limit case gamma = 0 is the square of DTW *)
Theorem C28_gamma_zero : forall be d s1 s2 g radius slope allowed,
  real_series d s1 -> real_series d s2 -> positive_slope slope -> constraint (length s1) (length s2) g radius slope allowed ->
  exists v, dtw (N:=Xnum) (Raw2 (lift s1)) (Raw2 (lift s2)) g radius slope = Ok (XR v) /\
    soft_dtw be (Raw2 (lift s1)) (Raw2 (lift s2)) 0 g radius slope = Ok (XR (v * v)).
Proof.
  intros be d s1 s2 g r s allowed F1 F2 Hs Hc.
  pose proof (real_len _ _ F1) as L1. pose proof (real_len _ _ F2) as L2.
  destruct (dtw_value d s1 s2 g r s allowed _ F1 F2 Hs Hc (all_paths_enum _ _ allowed L1 L2)) as (p & _ & _ & E).
  eexists. split; [exact E|]. unfold dtw, elastic in E. unfold soft_dtw.
  rewrite !(validated_finite Xnum xnn xfin Xlaws d) in * by (apply lift_finite; auto).
  destruct (gc_code g) as [c|e]; [|discriminate]. cbn [bind] in *.
  assert (Z : is_zero 0 = true) by (unfold is_zero; destruct (Req_EM_T 0 0); [auto|lra]). rewrite Z.
  match goal with |- bind ?a _ = _ => replace a with (Ok (XR (sqrt (cost (costs s1 s2) p)))) end. reflexivity.
Qed.
Print Assumptions C28_gamma_zero.

(** ** C29 *)
Lemma cost_swap D p : cost D (map swap p) = cost (fun i j => D j i) p.
Proof. unfold cost. rewrite map_map. reflexivity. Qed.
Lemma swap_swap (p : list cell) : map swap (map swap p) = p.
Proof. rewrite map_map. rewrite <- (map_id p) at 2. apply map_ext. intros [a b]; reflexivity. Qed.
Lemma enum_swap n m A B ps : (0 < n)%nat -> (0 < m)%nat -> (forall i j, B i j = A j i) ->
  enumerates (warping_path n m A) ps -> enumerates (warping_path m n B) (map (map swap) ps).
Proof.
  intros Hn Hm HB [ND H]. split.
  - apply nodup_map_inj; auto. intros x y _ _ E. rewrite <- (swap_swap x), <- (swap_swap y), E. reflexivity.
  - intros p. rewrite in_map_iff. split.
    + intros (q & <- & Hq). apply H in Hq. apply (wpath_swap n m) in Hq. eapply wpath_ext; [auto|auto| |exact Hq]. intros; apply HB.
    + intros Hp. exists (map swap p). split; [apply swap_swap|]. apply H. apply (wpath_swap m n) in Hp.
      eapply wpath_ext; [auto|auto| |exact Hp]. intros; symmetry; apply HB.
Qed.

(** gamma = 0: the square of DTW *)
Lemma soft_zero be d s1 s2 g r s : real_series d s1 -> real_series d s2 ->
  soft_dtw be (Raw2 (lift s1)) (Raw2 (lift s2)) 0 g r s =
  (do v <- dtw (N:=Xnum) (Raw2 (lift s1)) (Raw2 (lift s2)) g r s ;; Ok (xmul v v)) /\
  soft_dtw_normalized be (Raw2 (lift s1)) (Raw2 (lift s2)) 0 g r s =
  (do v <- dtw (N:=Xnum) (Raw2 (lift s1)) (Raw2 (lift s2)) g r s ;; Ok (xmul v v)).
Proof.
  intros F1 F2. unfold soft_dtw, soft_dtw_normalized, dtw, elastic.
  rewrite !(validated_finite Xnum xnn xfin Xlaws d) by (apply lift_finite; auto).
  assert (Z : is_zero 0 = true) by (unfold is_zero; destruct (Req_EM_T 0 0); [auto|lra]). rewrite Z.
  destruct (gc_code g); split; reflexivity.
Qed.
Lemma constraint_any n m g r s A : not_itakura g s -> constraint n m g r s A ->
  forall n' m', exists A', constraint n' m' g r s A'.
Proof.
  intros [H1 H2] H n' m'. unfold constraint in *. destruct g; try congruence; try contradiction.
  - destruct r, s; try contradiction; try (destruct H2; discriminate); eexists; try reflexivity. split; [apply H|reflexivity].
  - destruct r, s; try contradiction; try (destruct H2; discriminate); eexists; try reflexivity. split; [apply H|reflexivity].
  - eexists. split; [apply H|reflexivity].
Qed.
Lemma soft_sym be d s1 s2 gamma g r s allowed :
  0 < gamma -> real_series d s1 -> real_series d s2 -> not_itakura g s -> positive_slope s ->
  constraint (length s1) (length s2) g r s allowed ->
  soft_dtw be (Raw2 (lift s1)) (Raw2 (lift s2)) gamma g r s =
  soft_dtw be (Raw2 (lift s2)) (Raw2 (lift s1)) gamma g r s.
Proof.
  intros Hg F1 F2 Hni Hs Hc.
  pose proof (real_len _ _ F1) as L1. pose proof (real_len _ _ F2) as L2.
  destruct (constraint_transpose _ _ _ _ _ _ Hni Hc) as (B & HB & EB).
  rewrite (soft_public be d s1 s2 gamma g r s allowed), (soft_public be d s2 s1 gamma g r s B) by auto.
  do 4 f_equal.
  rewrite (total_enum gamma (costs s2 s1) _ _ _ (all_paths_enum _ _ B L2 L1)
     (enum_swap _ _ allowed B _ L1 L2 EB (all_paths_enum _ _ allowed L1 L2))).
  unfold total. rewrite map_map. apply rsum_map_ext. intros p _. unfold gibbs. rewrite cost_swap.
  replace (cost (fun i j => costs s2 s1 j i) p) with (cost (costs s1 s2) p); auto.
  unfold cost. apply rsum_map_ext. intros c _. apply costs_sym.
Qed.
(** the normalised version is a combination of three plain ones *)
Lemma normalized_public be d s1 s2 gamma g r s A12 A11 A22 : 0 < gamma -> real_series d s1 -> real_series d s2 ->
  positive_slope s -> constraint (length s1) (length s2) g r s A12 -> constraint (length s1) (length s1) g r s A11 ->
  constraint (length s2) (length s2) g r s A22 ->
  exists v12 v11 v22,
    soft_dtw be (Raw2 (lift s1)) (Raw2 (lift s2)) gamma g r s = Ok (XR v12) /\
    soft_dtw be (Raw2 (lift s1)) (Raw2 (lift s1)) gamma g r s = Ok (XR v11) /\
    soft_dtw be (Raw2 (lift s2)) (Raw2 (lift s2)) gamma g r s = Ok (XR v22) /\
    soft_dtw_normalized be (Raw2 (lift s1)) (Raw2 (lift s2)) gamma g r s = Ok (XR (v12 - (v11 + v22) / 2)).
Proof.
  intros Hg F1 F2 Hs C12 C11 C22.
  do 3 eexists. split; [apply (soft_public be d); eauto|split; [apply (soft_public be d); eauto|split; [apply (soft_public be d); eauto|]]].
  unfold soft_dtw_normalized. rewrite (validated_finite Xnum xnn xfin Xlaws d) by (apply lift_finite; auto).
  destruct (mask_of d s1 s2 g r s A12 F1 F2 Hs C12) as (code & mask & E1 & E2 & E3 & E4).
  destruct (mask_of d s1 s1 g r s A11 F1 F1 Hs C11) as (code' & mask1 & E1' & E21 & E31 & E41).
  assert (code' = code) by congruence. subst code'.
  destruct (mask_of d s2 s2 g r s A22 F2 F2 Hs C22) as (code' & mask2 & E1'' & E22 & E32 & E42).
  assert (code' = code) by congruence. subst code'.
  rewrite E1. cbn [bind]. rewrite is_zero_false by auto. unfold soft_dtw_normalized_generic.
  rewrite (soft_generic be d s1 s2 gamma g r s A12 code mask) by auto.
  rewrite (soft_generic be d s1 s1 gamma g r s A11 code mask1) by auto.
  rewrite (soft_generic be d s2 s2 gamma g r s A22 code mask2) by auto.
  cbn [bind]. simpl. do 2 f_equal. field.
Qed.

Theorem C29_soft_dtw_symmetric : forall be d s1 s2 gamma g radius slope allowed,
  0 <= gamma -> real_series d s1 -> real_series d s2 -> not_itakura g slope -> positive_slope slope ->
  constraint (length s1) (length s2) g radius slope allowed ->
  soft_dtw be (Raw2 (lift s1)) (Raw2 (lift s2)) gamma g radius slope =
  soft_dtw be (Raw2 (lift s2)) (Raw2 (lift s1)) gamma g radius slope.
Proof.
  intros be d s1 s2 gamma g r s allowed [Hg|<-] F1 F2 Hni Hs Hc; [eapply soft_sym; eauto|].
  rewrite (proj1 (soft_zero be d s1 s2 g r s F1 F2)), (proj1 (soft_zero be d s2 s1 g r s F2 F1)).
  rewrite (C03_dtw_symmetric Xnum xnn xfin Xlaws d _ _ g r s allowed); auto using lift_finite.
  rewrite !lift_length; auto.
Qed.
Print Assumptions C29_soft_dtw_symmetric.

(** for every constraint accepted on the lengths (Itakura included, when gamma > 0) *)
Theorem C29_normalized_self_zero : forall be d s gamma g radius slope allowed,
  0 < gamma \/ gamma = 0 /\ not_itakura g slope -> real_series d s -> positive_slope slope ->
  constraint (length s) (length s) g radius slope allowed ->
  soft_dtw_normalized be (Raw2 (lift s)) (Raw2 (lift s)) gamma g radius slope = Ok (XR 0).
Proof.
  intros be d s gamma g r sl A [Hg|[-> Hni]] F Hs Hc.
  - destruct (normalized_public be d s s gamma g r sl A A A Hg F F Hs Hc Hc Hc) as (v & v' & v'' & E1 & E2 & E3 & ->).
    assert (v' = v) by congruence. assert (v'' = v) by congruence. subst. do 2 f_equal. field.
  - rewrite (proj2 (soft_zero be d _ _ g r sl F F)).
    rewrite (C03_dtw_self_zero Xnum xnn xfin Xlaws d _ g r sl A); auto using lift_finite; [|rewrite lift_length; auto].
    cbn [bind]. simpl. do 2 f_equal. ring.
Qed.
Print Assumptions C29_normalized_self_zero.
Theorem C29_normalized_symmetric : forall be d s1 s2 gamma g radius slope allowed,
  0 <= gamma -> real_series d s1 -> real_series d s2 -> not_itakura g slope -> positive_slope slope ->
  constraint (length s1) (length s2) g radius slope allowed ->
  soft_dtw_normalized be (Raw2 (lift s1)) (Raw2 (lift s2)) gamma g radius slope =
  soft_dtw_normalized be (Raw2 (lift s2)) (Raw2 (lift s1)) gamma g radius slope.
Proof.
  intros be d s1 s2 gamma g r s A [Hg|<-] F1 F2 Hni Hs Hc.
  - destruct (constraint_any _ _ _ _ _ _ Hni Hc (length s1) (length s1)) as (A11 & C11).
    destruct (constraint_any _ _ _ _ _ _ Hni Hc (length s2) (length s2)) as (A22 & C22).
    destruct (constraint_any _ _ _ _ _ _ Hni Hc (length s2) (length s1)) as (A21 & C21).
    destruct (normalized_public be d s1 s2 gamma g r s A A11 A22 Hg F1 F2 Hs Hc C11 C22) as (v & v1 & v2 & E1 & E2 & E3 & ->).
    destruct (normalized_public be d s2 s1 gamma g r s A21 A22 A11 Hg F2 F1 Hs C21 C22 C11) as (u & u1 & u2 & E1' & E2' & E3' & ->).
    rewrite (soft_sym be d s1 s2 gamma g r s A) in E1 by auto.
    assert (u = v) by congruence. assert (u1 = v2) by congruence. assert (u2 = v1) by congruence. subst. do 2 f_equal. field.
  - rewrite (proj2 (soft_zero be d s1 s2 g r s F1 F2)), (proj2 (soft_zero be d s2 s1 g r s F2 F1)).
    rewrite (C03_dtw_symmetric Xnum xnn xfin Xlaws d _ _ g r s A); auto using lift_finite.
    rewrite !lift_length; auto.
Qed.
Print Assumptions C29_normalized_symmetric.
Example C29_nontrivial : real_series 1 [[0]; [1]; [4]] /\ real_series 1 [[2]; [5]] /\ not_itakura GcNone None /\
  constraint 3 2 GcNone (Some 0%Z) None (band 3 2 0).
Proof.
  split; [|split; [|split]].
  - repeat split; [lia|discriminate|]. intros r [<-|[<-|[<-|[]]]]; reflexivity.
  - repeat split; [lia|discriminate|]. intros r [<-|[<-|[]]]; reflexivity.
  - split; [discriminate|right; reflexivity].
  - simpl. split; [lia|reflexivity].
Qed.

(** ** C30 *)
Lemma total_filter_le gamma D f ps : 0 <= total gamma D (filter f ps) <= total gamma D ps.
Proof.
  unfold total. induction ps as [|p ps IH]; simpl; [lra|].
  assert (0 < gibbs gamma D p) by apply exp_pos. destruct (f p); simpl; lra.
Qed.
Lemma alignment_value be garbage d s1 s2 gamma g r s allowed ps : 0 < gamma -> real_series d s1 -> real_series d s2 ->
  positive_slope s -> constraint (length s1) (length s2) g r s allowed ->
  enumerates (warping_path (length s1) (length s2) allowed) ps ->
  exists E v, soft_dtw_alignment be garbage (Raw2 (lift s1)) (Raw2 (lift s2)) gamma g r s = Ok (E, v) /\
    soft_dtw be (Raw2 (lift s1)) (Raw2 (lift s2)) gamma g r s = Ok v /\
    forall i j, (i < length s1)%nat -> (j < length s2)%nat ->
      E i j = XR (total gamma (costs s1 s2) (filter (visits i j) ps) / total gamma (costs s1 s2) ps).
Proof.
  intros Hg F1 F2 Hs Hc Hps.
  pose proof (real_len _ _ F1) as L1. pose proof (real_len _ _ F2) as L2.
  destruct (mask_of d s1 s2 g r s allowed F1 F2 Hs Hc) as (code & mask & E1 & E2 & E3 & E4).
  unfold soft_dtw_alignment.
  rewrite (validated_finite Xnum xnn xfin Xlaws d) by (apply lift_finite; auto).
  rewrite E1. cbn [bind]. rewrite is_zero_false by auto. rewrite !lift_length, E2. cbn [bind]. cbv zeta.
  set (n := length s1) in *. set (m := length s2) in *. set (C := costs s1 s2).
  set (D := fun i j => if mask i j then sq_dists (N:=Xnum) (lift s1) (lift s2) i j else XInf).
  assert (HD : forall i j, (i < n)%nat -> (j < m)%nat -> D i j = if mask i j then XR (C i j) else XInf).
  { intros i j _ _. unfold D. destruct (mask i j); auto. apply sq_dists_lift. }
  assert (HD' : forall i j, (i < n)%nat -> (j < m)%nat -> mask i j = true -> D i j = XR (C i j)).
  { intros i j Hi Hj Hm. rewrite HD, Hm by auto. reflexivity. }
  assert (HR : forall i j, (i < n)%nat -> (j < m)%nat -> soft_acc0_on be gamma n m D mask i j = value gamma mask C i j).
  { intros i j Hi Hj. destruct be; simpl; [apply soft_acc0_value|apply torch_soft_acc_value]; auto. }
  assert (Z : psum mask (fun i j => exp (- (C i j / gamma))) (n - 1) (m - 1) = total gamma C (all_paths n m allowed)).
  { apply psum_mask; auto. }
  assert (P : 0 < total gamma C (all_paths n m allowed)).
  { apply total_pos. destruct (constraint_feasible _ _ _ _ _ _ L1 L2 Hs Hc) as (p & Hp).
    apply (all_paths_enum _ _ allowed L1 L2) in Hp. intros E. fold n m in E. rewrite E in Hp. contradiction. }
  do 2 eexists. split; [reflexivity|split].
  - rewrite (soft_public be d s1 s2 gamma g r s allowed) by auto. f_equal. fold n m C.
    rewrite HR by lia. unfold value. rewrite Z. rewrite (proj2 (Rltb_true _ _)) by auto. reflexivity.
  - intros i j Hi Hj. erewrite gibbs_value; eauto; [|rewrite Z; auto].
    rewrite Z. rewrite <- (total_enum gamma C _ _ _ Hps (all_paths_enum _ _ allowed L1 L2)). f_equal. f_equal.
    assert (En : enumerates (fun p => warping_path n m mask p /\ visits i j p = true) (filter (visits i j) ps)).
    { apply enumerates_filter. destruct Hps as [ND Hin]. split; auto. intros p. rewrite Hin.
      split; apply wpath_ext; auto. intros; symmetry; auto. }
    unfold total. rewrite (enumerates_rsum _ _ _ _ En (through_enum mask C n m L1 L2 i j Hi Hj)).
    destruct (mask i j) eqn:Em.
    + rewrite <- through_sum; auto; [|pose proof (exp_pos (- (C i j / gamma))); lra].
      apply rsum_map_ext. intros p _. apply pweight_cost. lra.
    + rewrite psum_out by auto. rewrite Rmult_0_l.
      destruct (through_enum mask C n m L1 L2 i j Hi Hj) as [_ Th]. destruct (through mask n m i j) as [|p l]; [reflexivity|].
      exfalso. destruct (proj1 (Th p) (or_introl eq_refl)) as [W V]. apply visits_in in V.
      destruct W as (_ & _ & _ & W). specialize (W _ _ V). congruence.
Qed.

(** Entry (i, j) is the probability that a path drawn with weight exp(-cost/gamma)
    visits (i, j): [ps] lists every admissible path once.  The uninitialised memory
    [garbage] the gradient table starts from has no influence, and the second
    result is [soft_dtw]. *)
Theorem C30_alignment_gibbs : forall be garbage d s1 s2 gamma g radius slope allowed ps,
  0 < gamma -> real_series d s1 -> real_series d s2 -> positive_slope slope ->
  constraint (length s1) (length s2) g radius slope allowed ->
  enumerates (warping_path (length s1) (length s2) allowed) ps ->
  let weight p := exp (- (cost (costs s1 s2) p / gamma)) in
  exists E v, soft_dtw_alignment be garbage (Raw2 (lift s1)) (Raw2 (lift s2)) gamma g radius slope = Ok (E, v) /\
    soft_dtw be (Raw2 (lift s1)) (Raw2 (lift s2)) gamma g radius slope = Ok v /\
    forall i j, (i < length s1)%nat -> (j < length s2)%nat ->
      E i j = XR (rsum (map weight (filter (visits i j) ps)) / rsum (map weight ps)).
Proof.
  intros be garbage d s1 s2 gamma g r s allowed ps Hg F1 F2 Hs Hc Hps weight.
  exact (alignment_value be garbage d s1 s2 gamma g r s allowed ps Hg F1 F2 Hs Hc Hps).
Qed.
Print Assumptions C30_alignment_gibbs.
Lemma filter_all {A} (f : A -> bool) l : (forall x, In x l -> f x = true) -> filter f l = l.
Proof.
  induction l as [|a l IH]; simpl; intros H; auto. rewrite (H a (or_introl eq_refl)). f_equal. apply IH. auto.
Qed.
Theorem C30_alignment_range : forall be garbage d s1 s2 gamma g radius slope allowed,
  0 < gamma -> real_series d s1 -> real_series d s2 -> positive_slope slope ->
  constraint (length s1) (length s2) g radius slope allowed ->
  exists E v, soft_dtw_alignment be garbage (Raw2 (lift s1)) (Raw2 (lift s2)) gamma g radius slope = Ok (E, v) /\
    (forall i j, (i < length s1)%nat -> (j < length s2)%nat -> exists x, E i j = XR x /\ 0 <= x <= 1 /\
       (allowed i j = false -> x = 0)) /\
    E 0%nat 0%nat = XR 1 /\ E (length s1 - 1)%nat (length s2 - 1)%nat = XR 1.
Proof.
  intros be garbage d s1 s2 gamma g r s allowed Hg F1 F2 Hs Hc.
  pose proof (real_len _ _ F1) as L1. pose proof (real_len _ _ F2) as L2.
  pose proof (all_paths_enum _ _ allowed L1 L2) as Hps. set (ps := all_paths _ _ _) in *.
  destruct (alignment_value be garbage d s1 s2 gamma g r s allowed ps Hg F1 F2 Hs Hc Hps) as (E & v & EE & _ & HE).
  assert (P : 0 < total gamma (costs s1 s2) ps).
  { apply total_pos. destruct (constraint_feasible _ _ _ _ _ _ L1 L2 Hs Hc) as (p & Hp).
    apply Hps in Hp. intros E0. rewrite E0 in Hp. contradiction. }
  exists E, v. split; [exact EE|split; [|split]].
  - intros i j Hi Hj. eexists. split; [apply HE; auto|]. pose proof (total_filter_le gamma (costs s1 s2) (visits i j) ps) as [B1 B2].
    split; [split|].
    + apply Rmult_le_pos; auto. left. apply Rinv_0_lt_compat; auto.
    + apply (Rmult_le_reg_r (total gamma (costs s1 s2) ps)); auto. unfold Rdiv. rewrite Rmult_assoc, Rinv_l by lra. lra.
    + intros Hal. assert (En : filter (visits i j) ps = []).
      { destruct (filter (visits i j) ps) as [|p l] eqn:Ef; auto. exfalso.
        assert (Hp : In p (filter (visits i j) ps)) by (rewrite Ef; left; auto).
        apply filter_In in Hp. destruct Hp as [Hp V]. apply Hps in Hp. apply visits_in in V.
        destruct Hp as (_ & _ & _ & W). specialize (W _ _ V). congruence. }
      rewrite En. unfold total at 1. simpl. field. lra.
  - rewrite HE by lia. f_equal. replace (filter (visits 0 0) ps) with ps; [field; lra|].
    symmetry. apply filter_all. intros p Hp. apply visits_in. apply Hps in Hp.
    destruct Hp as (Hf & _). eapply nth_error_In; exact Hf.
  - rewrite HE by lia. f_equal. replace (filter _ ps) with ps; [field; lra|].
    symmetry. apply filter_all. intros p Hp. apply visits_in. apply Hps in Hp.
    destruct Hp as (_ & Hl & _). eapply nth_error_In; exact Hl.
Qed.
Print Assumptions C30_alignment_range.
(** gamma = 0: the 0/1 matrix of an optimal alignment, and its squared cost *)
Theorem C30_alignment_gamma_zero : forall be garbage d s1 s2 g radius slope,
  real_series d s1 -> real_series d s2 ->
  soft_dtw_alignment be garbage (Raw2 (lift s1)) (Raw2 (lift s2)) 0 g radius slope =
  (do pd <- dtw_path (N:=Xnum) (Raw2 (lift s1)) (Raw2 (lift s2)) g radius slope ;;
   Ok ((fun i j => if visits i j (fst pd) then XR 1 else XR 0), xmul (snd pd) (snd pd))).
Proof.
  intros be garbage d s1 s2 g r s F1 F2. unfold soft_dtw_alignment, dtw_path, elastic_path.
  rewrite !(validated_finite Xnum xnn xfin Xlaws d) by (apply lift_finite; auto).
  assert (Z : is_zero 0 = true) by (unfold is_zero; destruct (Req_EM_T 0 0); [auto|lra]). rewrite Z.
  destruct (gc_code g); simpl; auto.
Qed.
Print Assumptions C30_alignment_gamma_zero.

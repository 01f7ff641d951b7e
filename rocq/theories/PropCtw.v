(** Property C33: canonical time warping.  Canonical correlation analysis is an
    arbitrary pair of functions throughout. *)
From Coq Require Import Bool List Arith ZArith QArith Lia Floats Reals Lra.
From Verif Require Import Num NumLaws Py Series Masks DtwModel Spec SpecDtw
  DpProofs DtwProofs DtwThms MaskThms PropDtw RList RealSeries CtwModel.
Import ListNotations.
Local Open Scope nat_scope.

(** ** specification *)
(** the first [n] features of every time step (zeros when there are fewer) *)
Definition first_features (n : nat) (s : list (list R)) : list (list R) :=
  map (fun row => map (fun k => nth k row 0%R) (seq 0 n)) s.

(** ** lemmas *)
Lemma path_eqb_refl p : path_eqb p p = true.
Proof. unfold path_eqb. destruct list_eq_dec; congruence. Qed.

Lemma ctw_loop_one cca fit tr f n s1 s2 g r sl p (m : option cca) v :
  ctw_loop fit tr (S f) n s1 s2 g r sl p m v = ctw_loop fit tr 1 n s1 s2 g r sl p m v.
Proof.
  simpl. destruct (fit n _ _) as [c|e]; simpl; auto. destruct (tr c s1 s2) as [t|e]; simpl; auto.
  destruct dtw_path as [q|e]; simpl; auto. rewrite path_eqb_refl. reflexivity.
Qed.
Lemma ctw_loop_score cca fit tr f n s1 s2 g r sl p (m : option cca) v q c w :
  ctw_loop fit tr f n s1 s2 g r sl p m v = Ok (q, c, w) -> w = v.
Proof.
  destruct f as [|f]; simpl; [congruence|].
  destruct (fit n _ _) as [c'|e]; simpl; [|congruence]. destruct (tr c' s1 s2) as [t|e]; simpl; [|congruence].
  destruct dtw_path as [u|e]; simpl; [|congruence]. rewrite path_eqb_refl. congruence.
Qed.
Lemma delta_sum (f : nat -> R) k : forall n a,
  rsum (map (fun j => (f j * (if (j =? k)%nat then 1 else 0))%R) (seq a n)) =
  if (a <=? k)%nat && (k <? a + n)%nat then f k else 0%R.
Proof.
  induction n as [|n IH]; intros a.
  - simpl. destruct (Nat.leb_spec a k), (Nat.ltb_spec k (a + 0)); simpl; auto; lia.
  - simpl. rewrite IH. destruct (Nat.eqb_spec a k) as [->|Hne].
    + destruct (Nat.leb_spec (S k) k), (Nat.leb_spec k k), (Nat.ltb_spec k (k + S n)); simpl; try lia. lra.
    + replace (a + S n) with (S a + n) by lia.
      destruct (Nat.leb_spec (S a) k), (Nat.leb_spec a k), (Nat.ltb_spec k (S a + n)); simpl; try lia; lra.
Qed.
Lemma eye_entry_real row k : eye_entry (map XR row) k = XR (nth k row 0%R).
Proof.
  unfold eye_entry. rewrite map_length.
  rewrite (map_ext_in _ (fun j => XR (nth j row 0%R * (if (j =? k)%nat then 1 else 0))%R)).
  2: { intros j Hj. apply in_seq in Hj. rewrite (nth_indep _ XNaN (XR 0%R)) by (rewrite map_length; lia).
       rewrite (map_nth XR row 0%R). reflexivity. }
  rewrite <- (map_map (fun j => (nth j row 0%R * (if (j =? k)%nat then 1 else 0))%R) XR).
  etransitivity; [apply fold_xadd_sum|]. f_equal. rewrite (delta_sum (fun j => nth j row 0%R) k).
  simpl. destruct (Nat.ltb_spec k (length row)); [lra|]. rewrite (nth_overflow row) by lia. lra.
Qed.
Lemma times_eye_real n s : times_eye n (lift s) = lift (first_features n s).
Proof.
  unfold times_eye, lift, first_features. rewrite !map_map. apply map_ext. intros row.
  rewrite map_map. apply map_ext. intros k. apply eye_entry_real.
Qed.
Lemma first_features_id d s : (forall r, In r s -> length r = d) -> first_features d s = s.
Proof.
  intros H. unfold first_features. rewrite <- (map_id s) at 2. apply map_ext_in. intros r Hr.
  rewrite <- (H r Hr). clear. induction r as [|x r IH]; simpl; auto. f_equal.
  rewrite <- seq_shift, map_map. exact IH.
Qed.
Lemma first_features_real d n s : 0 < n -> real_series d s -> real_series n (first_features n s).
Proof.
  intros Hn (_ & Hs & _). split; [auto|split].
  - destruct s; [congruence|discriminate].
  - intros r Hr. apply in_map_iff in Hr. destruct Hr as (x & <- & _). rewrite map_length, seq_length. auto.
Qed.
Lemma strip_lift d s : real_series d s -> to_time_series (N:=Xnum) true (Raw2 (lift s)) = lift s.
Proof. intros H. exact (to_time_series_finite Xnum xnn xfin Xlaws d _ (lift_finite d s H)). Qed.
Lemma ncols_lift d s : real_series d s -> ncols (lift s) = d.
Proof.
  intros (_ & Hs & Hr). destruct s as [|r s]; [congruence|]. unfold ncols. simpl.
  etransitivity; [apply map_length|]. apply Hr. left. reflexivity.
Qed.
Lemma dtw_path_dtw (x1 x2 : raw Xnum) g r sl p v :
  dtw_path x1 x2 g r sl = Ok (p, v) -> dtw x1 x2 g r sl = Ok v.
Proof.
  unfold dtw_path, dtw, elastic_path, elastic, validated, elastic_path_generic, elastic_generic.
  cbv zeta. destruct (_ || _); [discriminate|]. destruct (negb _); [discriminate|].
  destruct (gc_code g) as [c|e]; simpl; [|discriminate].
  destruct (compute_mask _ _ c r sl) as [m|e]; simpl; [|discriminate].
  destruct compute_path; [|discriminate]. intros H. inversion H. reflexivity.
Qed.

Lemma path_cost_costs s1 s2 p :
  path_cost (N:=Xnum) nadd (local_costs (N:=Xnum) (lift s1) (lift s2)) p = XR (cost (costs s1 s2) p).
Proof.
  etransitivity; [|apply path_cost_lift]. unfold path_cost.
  assert (G : forall a, fold_left (fun acc c => nadd (n:=Xnum) (local_costs (N:=Xnum) (lift s1) (lift s2) (fst c) (snd c)) acc) p a =
    fold_left (fun (acc : xr) (c : cell) => xadd (XR (costs s1 s2 (fst c) (snd c))) acc) p a).
  { induction p as [|c p IH]; intros a; auto. simpl fold_left. rewrite local_costs_lift. apply IH. }
  apply G.
Qed.

(** ** C33 *)
(** Whatever max_iter says, the loop stops after its first canonical correlation
    step: line 189 compares the new path with itself. *)
Theorem C33_stops_after_one_step : forall cca fit transform x1 x2 max_iter n_components g radius slope,
  (2 <= max_iter)%Z ->
  ctw_path (cca:=cca) fit transform x1 x2 max_iter n_components g radius slope =
  ctw_path fit transform x1 x2 2 n_components g radius slope.
Proof.
  intros cca fit tr x1 x2 mi n g r sl H. unfold ctw_path. cbv zeta.
  destruct dtw_path as [q|e]; [cbn [bind]|reflexivity].
  replace (Z.to_nat (mi - 1)) with (S (Z.to_nat (mi - 2))) by lia. apply ctw_loop_one.
Qed.
Print Assumptions C33_stops_after_one_step.

(** The returned score is the DTW distance of the first features of the inputs: the
    canonical correlation analysis never influences it. *)
Theorem C33_score_ignores_alignment : forall cca fit transform d1 d2 s1 s2 max_iter n g radius slope p (m : option cca) v,
  real_series d1 s1 -> real_series d2 s2 ->
  ctw_path fit transform (Raw2 (lift s1)) (Raw2 (lift s2)) max_iter (Some n) g radius slope = Ok (p, m, v) ->
  dtw (N:=Xnum) (Raw2 (lift (first_features n s1))) (Raw2 (lift (first_features n s2))) g radius slope = Ok v.
Proof.
  intros cca fit tr d1 d2 s1 s2 mi n g r sl p m v H1 H2. unfold ctw_path.
  rewrite (strip_lift d1), (strip_lift d2) by auto. cbv zeta. rewrite !times_eye_real.
  destruct dtw_path as [[q w]|e] eqn:E; [cbn [bind fst snd]|discriminate].
  intros H. apply ctw_loop_score in H. subst w. eapply dtw_path_dtw. exact E.
Qed.
Print Assumptions C33_score_ignores_alignment.

Theorem C33_ctw_is_dtw : forall cca fit transform d s1 s2 max_iter g radius slope v,
  real_series d s1 -> real_series d s2 ->
  ctw (cca:=cca) fit transform (Raw2 (lift s1)) (Raw2 (lift s2)) max_iter None g radius slope = Ok v ->
  dtw (N:=Xnum) (Raw2 (lift s1)) (Raw2 (lift s2)) g radius slope = Ok v.
Proof.
  intros cca fit tr d s1 s2 mi g r sl v H1 H2 H. unfold ctw in H.
  destruct ctw_path as [[[p m] w]|e] eqn:E; [|discriminate]. simpl in H. inversion H; subst w; clear H.
  assert (E' : ctw_path fit tr (Raw2 (lift s1)) (Raw2 (lift s2)) mi (Some d) g r sl = Ok (p, m, v)).
  { refine (eq_trans _ E). unfold ctw_path. rewrite (strip_lift d s1), (strip_lift d s2) by auto. cbv zeta.
    rewrite (ncols_lift d s1), (ncols_lift d s2) by auto. rewrite Nat.min_id. reflexivity. }
  apply (C33_score_ignores_alignment cca fit tr d d) in E'; auto.
  rewrite !first_features_id in E' by (apply H1 || apply H2). exact E'.
Qed.
Print Assumptions C33_ctw_is_dtw.

(** What does hold of the claim: the returned path is optimal in the space of the
    returned model, its cost being the DTW distance there. *)
Theorem C33_path_optimal_partial : forall cca fit transform d1 d2 s1 s2 max_iter n g radius slope p m v,
  real_series d1 s1 -> real_series d2 s2 -> (2 <= max_iter)%Z ->
  ctw_path (cca:=cca) fit transform (Raw2 (lift s1)) (Raw2 (lift s2)) max_iter n g radius slope = Ok (p, m, v) ->
  exists c t1 t2, m = Some c /\ transform c (lift s1) (lift s2) = Ok (t1, t2) /\
    forall k allowed, finite_series (N:=Xnum) xfin k t1 -> finite_series (N:=Xnum) xfin k t2 ->
      constraint (length t1) (length t2) g radius slope allowed ->
      exists w : xr, dtw (N:=Xnum) (Raw2 t1) (Raw2 t2) g radius slope = Ok w /\
        (w <> XInf -> warping_path (length t1) (length t2) allowed p /\
                      w = xsqrt (path_cost (N:=Xnum) xadd (local_costs (N:=Xnum) t1 t2) p)).
Proof.
  intros cca fit tr d1 d2 s1 s2 mi n g r sl p m v H1 H2 Hm H.
  rewrite C33_stops_after_one_step in H by auto. unfold ctw_path in H.
  rewrite (strip_lift d1), (strip_lift d2) in H by auto. cbv zeta in H.
  destruct dtw_path as [[q w]|e]; [cbn [bind fst snd] in H|discriminate].
  change (Z.to_nat (2 - 1)) with 1 in H. cbn [ctw_loop] in H.
  destruct (fit _ _ _) as [c|e]; [cbn [bind] in H|discriminate].
  destruct (tr c (lift s1) (lift s2)) as [[t1 t2]|e] eqn:Et; [cbn [bind fst snd] in H|discriminate].
  destruct (dtw_path (N:=Xnum) (Raw2 t1) (Raw2 t2) g r sl) as [[p' w']|e] eqn:E; [cbn [bind fst snd] in H|discriminate].
  rewrite path_eqb_refl in H. inversion H; subst p' m v; clear H.
  exists c, t1, t2. split; [auto|split; [auto|]]. intros k allowed F1 F2 Hc. exists w'.
  exact (C02_dtw_path_realises_score Xnum xnn xfin Xlaws k t1 t2 g r sl allowed p w' F1 F2 Hc E).
Qed.
Print Assumptions C33_path_optimal_partial.
(** without any canonical correlation step (max_iter <= 1) the claim holds *)
Theorem C33_no_iteration_partial : forall cca fit transform d s1 s2 max_iter g radius slope allowed p (m : option cca) v,
  real_series d s1 -> real_series d s2 -> (max_iter <= 1)%Z ->
  constraint (length s1) (length s2) g radius slope allowed ->
  ctw_path fit transform (Raw2 (lift s1)) (Raw2 (lift s2)) max_iter None g radius slope = Ok (p, m, v) ->
  v <> XInf -> warping_path (length s1) (length s2) allowed p /\ v = XR (sqrt (cost (costs s1 s2) p)).
Proof.
  intros cca fit tr d s1 s2 mi g r sl A p m v H1 H2 Hm Hc H Hv. unfold ctw_path in H.
  rewrite (strip_lift d), (strip_lift d) in H by auto. cbv zeta in H.
  rewrite (ncols_lift d s1), (ncols_lift d s2) in H by auto. rewrite Nat.min_id in H.
  rewrite !times_eye_real, !first_features_id in H by (apply H1 || apply H2).
  destruct dtw_path as [[q w]|e] eqn:E; [cbn [bind fst snd] in H|discriminate].
  replace (Z.to_nat (mi - 1)) with 0 in H by lia. simpl in H. inversion H; subst q m w; clear H.
  rewrite <- (lift_length s1), <- (lift_length s2) in Hc.
  destruct (C02_dtw_path_realises_score Xnum xnn xfin Xlaws d (lift s1) (lift s2) g r sl A p v
    (lift_finite d s1 H1) (lift_finite d s2 H2) Hc E) as [_ B]. destruct (B Hv) as [W V].
  rewrite !lift_length in W. split; [exact W|]. rewrite V.
  rewrite (path_cost_costs s1 s2 p : _ = _). simpl. rewrite (proj2 (Rleb_true _ _)); auto. apply cost_nonneg. intros; apply sqd_nonneg.
Qed.
Print Assumptions C33_no_iteration_partial.

(** The claim fails with a single iteration: the second series is twice the first,
    the alignment model rescales it and finds a perfect match, yet the reported
    score is not that of the returned path. *)
Definition ctw_ex1 : list (list R) := [[0%R]; [1%R]].
Definition ctw_ex2 : list (list R) := [[0%R]; [2%R]].
Definition halve (s : series Xnum) : series Xnum := map (map (fun x : xr => xmul (XR (/ 2)) x)) s.
Lemma ctw_ex_real : real_series 1 ctw_ex1 /\ real_series 1 ctw_ex2.
Proof.
  split; (split; [lia|split; [discriminate|]]); intros r [E|[E|[]]]; subst; reflexivity.
Qed.
Lemma dtw_ex_not_zero : dtw (N:=Xnum) (Raw2 (lift ctw_ex1)) (Raw2 (lift ctw_ex2)) GcNone None None <> Ok (XR 0).
Proof.
  destruct ctw_ex_real as [H1 H2]. intros H.
  destruct (C01_dtw_optimal Xnum xnn xfin Xlaws 1 (lift ctw_ex1) (lift ctw_ex2) GcNone None None everywhere
    (lift_finite _ _ H1) (lift_finite _ _ H2) eq_refl) as (w & E & _ & [(p & Hp & Hw)|[Hno _]]).
  - rewrite H in E. injection E. intros E'. clear E H.
    destruct Hp as (_ & Hl & _).
    assert (I : In (1, 1) p) by (eapply nth_error_In; exact Hl).
    rewrite path_cost_costs in Hw. subst w. simpl in E'. rewrite (proj2 (Rleb_true _ _)) in E'.
    2: { apply cost_nonneg. intros; apply sqd_nonneg. }
    injection E'. intros E''. symmetry in E''. apply sqrt_eq_0 in E''.
    2: { apply cost_nonneg. intros; apply sqd_nonneg. }
    clear E'. revert I E''. induction p as [|c p IH]; [contradiction|]. intros [->|I] Z.
    + unfold cost in Z. simpl in Z.
      assert (0 <= cost (costs ctw_ex1 ctw_ex2) p)%R by (apply cost_nonneg; intros; apply sqd_nonneg).
      unfold cost in *. unfold costs at 1, sqd in Z. simpl in Z. lra.
    + apply IH; auto. { clear -Hl I. destruct p; [contradiction|]. unfold last_is in *. simpl in *. rewrite Nat.sub_0_r in *. exact Hl. }
      unfold cost in *. simpl in Z.
      assert (0 <= rsum (map (fun c => costs ctw_ex1 ctw_ex2 (fst c) (snd c)) p))%R by (apply (cost_nonneg (costs ctw_ex1 ctw_ex2) p); intros; apply sqd_nonneg).
      assert (0 <= costs ctw_ex1 ctw_ex2 (fst c) (snd c))%R by apply sqd_nonneg. lra.
  - apply (Hno [(0, 0); (1, 1)]). repeat split; try reflexivity; simpl; auto. right. right. auto.
Qed.
Theorem C33_score_of_path_refuted : exists (fit : nat -> series Xnum -> series Xnum -> res unit) transform s1 s2 p v t1 t2,
  real_series 1 s1 /\ real_series 1 s2 /\
  ctw_path fit transform (Raw2 (lift s1)) (Raw2 (lift s2)) 100 None GcNone None None = Ok (p, Some tt, v) /\
  transform tt (lift s1) (lift s2) = Ok (t1, t2) /\
  dtw_path (N:=Xnum) (Raw2 t1) (Raw2 t2) GcNone None None = Ok (p, XR 0) /\ v <> XR 0.
Proof.
  destruct ctw_ex_real as [H1 H2].
  set (tr := fun (_ : unit) (a b : series Xnum) => Ok (a, halve b) : res (series Xnum * series Xnum)).
  set (ft := fun (_ : nat) (_ _ : series Xnum) => Ok tt : res unit).
  assert (Hh : halve (lift ctw_ex2) = lift ctw_ex1).
  { unfold halve, lift. simpl. repeat f_equal; lra. }
  destruct (C02_dtw_path_returns Xnum xnn xfin Xlaws 1 (lift ctw_ex1) (lift ctw_ex2) GcNone None None everywhere
    (lift_finite _ _ H1) (lift_finite _ _ H2) eq_refl) as (q & u & E1).
  destruct (C02_dtw_path_returns Xnum xnn xfin Xlaws 1 (lift ctw_ex1) (lift ctw_ex1) GcNone None None everywhere
    (lift_finite _ _ H1) (lift_finite _ _ H1) eq_refl) as (p & z & E2).
  assert (Z : z = XR 0).
  { assert (D := dtw_path_dtw _ _ _ _ _ _ _ E2).
    rewrite (C03_dtw_self_zero Xnum xnn xfin Xlaws 1 (lift ctw_ex1) GcNone None None everywhere (lift_finite _ _ H1)) in D.
    - inversion D. reflexivity.
    - split; [discriminate|right; reflexivity].
    - reflexivity. }
  subst z.
  exists ft, tr, ctw_ex1, ctw_ex2, p, u, (lift ctw_ex1), (lift ctw_ex1).
  split; [auto|split; [auto|split; [|split; [|split; [exact E2|]]]]].
  - rewrite C33_stops_after_one_step by lia. unfold ctw_path.
    rewrite (strip_lift 1), (strip_lift 1) by auto. cbv zeta.
    rewrite (ncols_lift 1 ctw_ex1), (ncols_lift 1 ctw_ex2) by auto. rewrite Nat.min_id.
    rewrite !times_eye_real, !first_features_id by (apply H1 || apply H2).
    rewrite E1. cbn [bind fst snd]. change (Z.to_nat (2 - 1)) with 1. cbn [ctw_loop].
    unfold ft, tr. cbn [bind fst snd]. rewrite Hh, E2. cbn [bind fst snd]. rewrite path_eqb_refl. reflexivity.
  - unfold tr. rewrite Hh. reflexivity.
  - intros ->. apply dtw_ex_not_zero. eapply dtw_path_dtw. exact E1.
Qed.
Print Assumptions C33_score_of_path_refuted.

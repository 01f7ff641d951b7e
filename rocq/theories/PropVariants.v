(** Properties C17-C20: limited warping length and subsequence DTW. *)
From Coq Require Import Floats Bool List Arith ZArith QArith Lia.
From Verif Require Import Num NumLaws Py Series Masks DtwModel Fill VariantModel Spec SpecDtw DpProofs DtwProofs DtwThms
  LimitedThms SubseqThms ValidThms.
Import ListNotations.
Local Open Scope nat_scope.

Definition v1 : list (list (carrier Fnum)) := [[0]; [0]; [3]; [0]]%float.
Definition v2 : list (list (carrier Fnum)) := [[0]; [3]; [3]; [3]; [0]]%float.

(** ** C17 *)
Theorem C17_limited_optimal : forall N nn fin, num_laws N nn fin ->
  forall d s1 s2 (L : Z), finite_series fin d s1 -> finite_series fin d s2 ->
  (Z.of_nat (Nat.max (length s1) (length s2)) <= L)%Z ->
  exists w : N, dtw_limited (Raw2 s1) (Raw2 s2) L = Ok (nsqrt w) /\
    least_cost (fun p => warping_path (length s1) (length s2) everywhere p /\ (Z.of_nat (length p) <= L)%Z)
               (path_cost nadd (local_costs s1 s2)) w.
Proof.
  intros N nn fin Laws d s1 s2 L F1 F2 HL. unfold dtw_limited.
  rewrite (to_time_series_finite N nn fin Laws d s1 F1), (to_time_series_finite N nn fin Laws d s2 F2).
  pose proof (finite_len N fin d s1 F1) as P1. pose proof (finite_len N fin d s2 F2) as P2.
  assert (E1 : (L <? Z.of_nat (Nat.max (length s1) (length s2)))%Z = false) by (apply Z.ltb_ge; exact HL). rewrite E1.
  assert (E2 : (length s1 =? 0) || (length s2 =? 0) = false).
  { apply orb_false_iff. split; apply Nat.eqb_neq; lia. }
  rewrite E2.
  destruct (min_values_least N nn fin Laws (length s1) (length s2) (Z.to_nat L) (sq_dists s1 s2)) as (w & E & Hw & Hlc); auto.
  { lia. }
  { intros. rewrite sq_dists_local. eapply local_costs_nn; eauto. }
  simpl. rewrite E. exists w. split; auto.
  eapply least_cost_ext; [| |exact Hlc].
  - intros p. unfold short. simpl. split; intros [A B]; split; auto; lia.
  - intros p _. apply path_cost_ext. intros. apply sq_dists_local.
Qed.
Print Assumptions C17_limited_optimal.

(** The bound is rejected exactly when it is shorter than the longer series, whatever the input. *)
Theorem C17_limited_value_error : forall (N : num) (x1 x2 : raw N) (L : Z),
  dtw_limited x1 x2 L = Err ValueError <->
  (L < Z.of_nat (Nat.max (length (to_time_series true x1)) (length (to_time_series true x2))))%Z.
Proof.
  intros N x1 x2 L. unfold dtw_limited.
  set (s1 := to_time_series true x1). set (s2 := to_time_series true x2).
  destruct (L <? _)%Z eqn:E; [apply Z.ltb_lt in E; tauto|].
  apply Z.ltb_ge in E. split; [|lia]. intros H. exfalso.
  destruct (Nat.eqb_spec (length s1) 0); [discriminate|]. destruct (Nat.eqb_spec (length s2) 0); [discriminate|].
  cbn [orb] in H.
  destruct (last_keys N (length s1) (length s2) (Z.to_nat L) (sq_dists s1 s2)) as (kn & K & _); try lia.
  unfold min_values in H. destruct (lim_costs (sq_dists s1 s2) (Z.to_nat L) (length s1) (length s2) (length s1 - 1) (length s2 - 1)) as [|[k v] r];
    [discriminate|]. simpl in H. discriminate.
Qed.
Print Assumptions C17_limited_value_error.

(** the length bound matters: five cells suffice here, and six do better than five *)
Example C17_nontrivial :
  dtw_limited (N:=Fnum) (Raw2 v1) (Raw2 v2) 4 = Err ValueError /\
  dtw_limited (N:=Fnum) (Raw2 v1) (Raw2 v2) 5 = Ok 3%float /\
  dtw_limited (N:=Fnum) (Raw2 v1) (Raw2 v2) 6 = Ok 0%float.
Proof. repeat split; vm_compute; reflexivity. Qed.

(** ** C18 *)
Theorem C18_limited_path : forall N nn fin, num_laws N nn fin ->
  forall d s1 s2 (L : Z), finite_series fin d s1 -> finite_series fin d s2 ->
  (Z.of_nat (Nat.max (length s1) (length s2)) <= L)%Z ->
  exists p, warping_path (length s1) (length s2) everywhere p /\ (Z.of_nat (length p) <= L)%Z /\
    dtw_path_limited (Raw2 s1) (Raw2 s2) L = Ok (p, nsqrt (path_cost nadd (local_costs s1 s2) p)) /\
    dtw_limited (N:=N) (Raw2 s1) (Raw2 s2) L = Ok (nsqrt (path_cost nadd (local_costs s1 s2) p)).
Proof.
  intros N nn fin Laws d s1 s2 L F1 F2 HL.
  destruct (C17_limited_optimal N nn fin Laws d s1 s2 L F1 F2 HL) as (w & Ew & Hw). rewrite Ew.
  unfold dtw_path_limited.
  rewrite (to_time_series_finite N nn fin Laws d s1 F1), (to_time_series_finite N nn fin Laws d s2 F2).
  pose proof (finite_len N fin d s1 F1) as P1. pose proof (finite_len N fin d s2 F2) as P2.
  assert (E1 : (L <? Z.of_nat (Nat.max (length s1) (length s2)))%Z = false) by (apply Z.ltb_ge; exact HL). rewrite E1.
  assert (E2 : (length s1 =? 0) || (length s2 =? 0) = false).
  { apply orb_false_iff. split; apply Nat.eqb_neq; lia. }
  rewrite E2.
  assert (Dnn : forall i j, nn (sq_dists s1 s2 i j)) by (intros; rewrite sq_dists_local; eapply local_costs_nn; eauto).
  pose proof (limited_path N nn fin Laws (length s1) (length s2) (Z.to_nat L) (sq_dists s1 s2) P1 P2 ltac:(lia) Dnn) as H.
  destruct (best_item _) as [k v]. destruct H as (p & Ep & [Hp Hl] & Hc & Hv & Hlc).
  assert (PC : forall p, path_cost nadd (sq_dists s1 s2) p = path_cost nadd (local_costs s1 s2) p).
  { intros q. apply path_cost_ext. intros. apply sq_dists_local. }
  exists p. split; auto. split; [lia|]. rewrite Ep. rewrite <- PC, Hc. split; auto. f_equal. f_equal.
  eapply (least_cost_unique N nn fin Laws); [| |].
  2: exact Hw.
  2: { eapply least_cost_ext; [| |exact Hlc].
       - intros q. unfold short. simpl. split; intros [A B]; split; auto; lia.
       - intros q _. apply PC. }
  intros q _. apply (path_cost_nn N nn fin Laws); [intros ? ?; apply (nn_add _ _ _ Laws)|]. intros. eapply local_costs_nn; eauto.
Qed.
Print Assumptions C18_limited_path.

Example C18_nontrivial :
  dtw_path_limited (N:=Fnum) (Raw2 v1) (Raw2 v2) 6 = Ok ([(0, 0); (1, 0); (2, 1); (2, 2); (2, 3); (3, 4)], 0%float).
Proof. vm_compute. reflexivity. Qed.

(** ** C19 *)
Theorem C19_limited_large_bound : forall N nn fin, num_laws N nn fin ->
  forall d s1 s2 (L : Z), finite_series fin d s1 -> finite_series fin d s2 ->
  (Z.of_nat (length s1 + length s2 - 1) <= L)%Z ->
  dtw_limited (Raw2 s1) (Raw2 s2) L = dtw (N:=N) (Raw2 s1) (Raw2 s2) GcNone None None.
Proof.
  intros N nn fin Laws d s1 s2 L F1 F2 HL.
  pose proof (finite_len N fin d s1 F1) as P1. pose proof (finite_len N fin d s2 F2) as P2.
  destruct (C17_limited_optimal N nn fin Laws d s1 s2 L F1 F2 ltac:(lia)) as (w & -> & Hw).
  destruct (elastic_optimal N nn fin Laws _ _ (comb_laws_dtw N nn fin Laws) (dtw_op N nn) d s1 s2 F1 F2 GcNone None None everywhere)
    as (w' & E & _ & H); [reflexivity|]. unfold dtw. rewrite E. f_equal. f_equal.
  eapply (least_cost_unique N nn fin Laws); [| |exact H].
  - intros q _. apply (path_cost_nn N nn fin Laws); [intros ? ?; apply (nn_add _ _ _ Laws)|]. intros. eapply local_costs_nn; eauto.
  - eapply least_cost_ext; [| |exact Hw]; auto. intros p. split; [tauto|]. intros Hp. split; auto.
    apply wpath_rpath in Hp; auto. apply rpath_len in Hp. rewrite rev_length in Hp. unfold cell in *. lia.
Qed.
Print Assumptions C19_limited_large_bound.

Theorem C19_limited_monotone : forall N nn fin, num_laws N nn fin ->
  forall d s1 s2 (L L' : Z), finite_series fin d s1 -> finite_series fin d s2 ->
  (Z.of_nat (Nat.max (length s1) (length s2)) <= L)%Z -> (L <= L')%Z ->
  exists v v' u : N, dtw_limited (Raw2 s1) (Raw2 s2) L = Ok v /\ dtw_limited (Raw2 s1) (Raw2 s2) L' = Ok v' /\
    dtw (Raw2 s1) (Raw2 s2) GcNone None None = Ok u /\ nleb u v' = true /\ nleb v' v = true.
Proof.
  intros N nn fin Laws d s1 s2 L L' F1 F2 HL HL'.
  destruct (C17_limited_optimal N nn fin Laws d s1 s2 L F1 F2 ltac:(lia)) as (w & -> & Hw).
  destruct (C17_limited_optimal N nn fin Laws d s1 s2 L' F1 F2 ltac:(lia)) as (w' & -> & Hw').
  destruct (elastic_optimal N nn fin Laws _ _ (comb_laws_dtw N nn fin Laws) (dtw_op N nn) d s1 s2 F1 F2 GcNone None None everywhere)
    as (u & E & _ & H); [reflexivity|]. unfold dtw. rewrite E.
  assert (PN : forall q, nn (path_cost nadd (local_costs s1 s2) q)).
  { intros q. apply (path_cost_nn N nn fin Laws); [intros ? ?; apply (nn_add _ _ _ Laws)|]. intros. eapply local_costs_nn; eauto. }
  exists (nsqrt w), (nsqrt w'), (nsqrt u). repeat split; auto; apply (sqrt_mono _ _ _ Laws);
    try (eapply (least_cost_nn N nn fin Laws); [|eassumption]; auto; fail).
  - eapply (least_cost_mono N nn fin Laws); [| |exact Hw'|exact H]; auto. intros p [A _]. exact A.
  - eapply (least_cost_mono N nn fin Laws); [| |exact Hw|exact Hw']; auto. intros p [A B]. split; auto. lia.
Qed.
Print Assumptions C19_limited_monotone.

Example C19_nontrivial : dtw_limited (N:=Fnum) (Raw2 v1) (Raw2 v2) 8 = dtw (N:=Fnum) (Raw2 v1) (Raw2 v2) GcNone None None.
Proof. vm_compute. reflexivity. Qed.

(** ** C20 *)
(** The returned path aligns the whole query with elements [a..b] of the long series,
    has the returned cost, and no alignment with any window is cheaper. *)
Theorem C20_subsequence_best_path : forall N nn fin, num_laws N nn fin ->
  forall d q s, finite_series fin d q -> finite_series fin d s ->
  exists p a b, dtw_subsequence_path (Raw2 q) (Raw2 s) = Ok (p, nsqrt (path_cost nadd (local_costs q s) p)) /\
    a <= b < length s /\ window_path (length q) a b p /\
    (forall a' b' p', b' < length s -> window_path (length q) a' b' p' ->
       nleb (path_cost (N:=N) nadd (local_costs q s) p) (path_cost nadd (local_costs q s) p') = true).
Proof.
  intros N nn fin Laws d q s F1 F2.
  pose proof (finite_len N fin d q F1) as P1. pose proof (finite_len N fin d s F2) as P2.
  assert (Dnn : forall i j, nn (sq_dists q s i j)) by (intros; rewrite sq_dists_local; eapply local_costs_nn; eauto).
  destruct (subseq_best N nn fin Laws (length q) (length s) (sq_dists q s) Dnn P1 P2) as (Hw & (p & a & E & He & Hp & Hc) & Hmin).
  unfold dtw_subsequence_path.
  rewrite (to_time_series_finite N nn fin Laws d q F1), (to_time_series_finite N nn fin Laws d s F2).
  destruct (Nat.eqb_spec (length q) 0); [lia|]. destruct (Nat.eqb_spec (length s) 0); [lia|].
  assert (PC : forall p, path_cost nadd (sq_dists q s) p = path_cost nadd (local_costs q s) p).
  { intros r. apply path_cost_ext. intros. apply sq_dists_local. }
  cbv zeta. rewrite E. exists p, a, (argmin (map (sub_matrix (sq_dists q s) (length q) (length s) (length q - 1)) (seq 0 (length s)))).
  rewrite <- PC, Hc. split; auto. split; [split; auto; eapply window_le; eauto|]. split; auto.
  intros a' b' p' Hb Hp'. rewrite <- PC. eapply Hmin; eauto.
Qed.
Print Assumptions C20_subsequence_best_path.

Lemma window_finite (N : num) (fin : N -> Prop) d (s : list (list N)) a b : finite_series fin d s -> a <= b < length s ->
  finite_series (N:=N) fin d (window a b s).
Proof.
  intros (Hd & Hne & H) Hab. split; auto. split.
  - intros X. pose proof (window_length a b s Hab) as Y. rewrite X in Y. simpl in Y. lia.
  - intros r Hr. apply H. eapply window_in; eauto.
Qed.

(** In terms of [dtw]: the returned score is the least [dtw] of the query and a
    non-empty contiguous part [s[a..b]]. *)
Theorem C20_subsequence_is_best_dtw : forall N nn fin, num_laws N nn fin ->
  forall d q s, finite_series fin d q -> finite_series fin d s ->
  exists p v, dtw_subsequence_path (Raw2 q) (Raw2 s) = Ok (p, v) /\
    (exists a b, a <= b < length s /\ first_is p (0, a) /\ last_is p (length q - 1, b) /\
       dtw (Raw2 q) (Raw2 (window a b s)) GcNone None None = Ok v) /\
    (forall a b, a <= b < length s ->
       exists u : N, dtw (Raw2 q) (Raw2 (window a b s)) GcNone None None = Ok u /\ nleb v u = true).
Proof.
  intros N nn fin Laws d q s F1 F2.
  destruct (C20_subsequence_best_path N nn fin Laws d q s F1 F2) as (p & a & b & E & Hab & Hp & Hmin).
  pose proof (finite_len N fin d q F1) as P1.
  set (w := path_cost nadd (local_costs q s) p) in *.
  assert (PN : forall q s r, finite_series fin d q -> finite_series fin d s -> nn (path_cost nadd (local_costs q s) r)).
  { intros q' s' r A B. apply (path_cost_nn N nn fin Laws); [intros ? ?; apply (nn_add _ _ _ Laws)|]. intros. eapply local_costs_nn; eauto. }
  assert (G : forall a b, a <= b < length s -> exists u, dtw (Raw2 q) (Raw2 (window a b s)) GcNone None None = Ok (nsqrt u) /\
     nn u /\ nleb w u = true /\ (forall r, window_path (length q) a b r -> nleb u (path_cost nadd (local_costs q s) r) = true)).
  { intros a' b' Hab'. pose proof (window_finite N fin d s a' b' F2 Hab') as F3.
    destruct (elastic_optimal N nn fin Laws _ _ (comb_laws_dtw N nn fin Laws) (dtw_op N nn) d q _ F1 F3 GcNone None None everywhere)
      as (u & Eu & _ & Hu); [reflexivity|].
    rewrite (window_length a' b' s Hab') in Hu.
    assert (Hcost : forall r, warping_path (length q) (b' - a' + 1) everywhere r ->
       path_cost nadd (local_costs q (window a' b' s)) r = path_cost nadd (local_costs q s) (shift a' r)).
    { intros r Hr. apply shift_cost; [lia|]. intros i j Hin. assert (Hpos : 0 < b' - a' + 1) by lia. destruct (wpath_bounds _ _ _ _ P1 Hpos Hr i j Hin). lia. }
    assert (Hnu : nn u) by (eapply (least_cost_nn N nn fin Laws); [|exact Hu]; intros; auto).
    exists u. split; [exact Eu|]. split; auto. destruct Hu as [U1 U2]. split.
    - destruct U2 as [(r & Hr & <-)|[_ ->]]; [|apply (leb_inf _ _ _ Laws); apply PN; auto].
      rewrite Hcost by auto. apply Hmin with (a' := a') (b' := b'); [lia|]. apply shift_window; auto. lia.
    - intros r Hr. destruct (window_shift _ _ _ _ Hr) as (r' & -> & Hr'). rewrite <- Hcost by auto. auto. }
  exists p, (nsqrt w). split; auto. split.
  - exists a, b. split; auto. destruct Hp as (A & B & C). repeat split; auto.
    destruct (G a b Hab) as (u & Eu & Hn & Hwu & Hu). rewrite Eu. f_equal. f_equal.
    apply (leb_antisym _ _ _ Laws); auto; [apply PN; auto|]. apply Hu. repeat split; auto.
  - intros a' b' Hab'. destruct (G a' b' Hab') as (u & Eu & Hn & Hwu & _). exists (nsqrt u). split; auto.
    apply (sqrt_mono _ _ _ Laws); auto. apply PN; auto.
Qed.
Print Assumptions C20_subsequence_is_best_dtw.

Definition v3 : list (list (carrier Fnum)) := [[3]; [0]]%float.
Example C20_nontrivial :
  dtw_subsequence_path (N:=Fnum) (Raw2 v3) (Raw2 v2) = Ok ([(0, 3); (1, 4)], 0%float).
Proof. vm_compute. reflexivity. Qed.

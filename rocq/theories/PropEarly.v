(** C61, C97-C99: decisions of the early classifier. *)
From Coq Require Import Bool List Arith Lia Reals Lra.
From Verif Require Import Num NumLaws Py RList PreModel Dataset KernelModel PropKernel2 EarlyModel.
Import ListNotations.
Local Open Scope R_scope.

(** ** Specification *)
(** shapes produced by [fit] on series of length [ec_sz M] *)
Definition fitted {L} (M : ec L) : Prop :=
  (1 <= ec_min_t M <= ec_sz M)%nat /\ length (ec_pyhatyck M) = (ec_sz M - ec_min_t M + 1)%nat /\ ec_centers M <> [] /\
  (forall c, In c (ec_centers M) -> length c = ec_sz M).
(** estimated cost of deciding at time [u], seen from a prefix with cluster probabilities [p]:
    sum over clusters, true classes and predicted classes, plus the cost of time *)
Definition cost_at {L} (M : ec L) (p : list R) (u : nat) : R :=
  rsum (map (fun k => nth k p 0 * rsum (map (fun y => nth k (nth y (ec_pyck M) []) 0 * rsum (nth y (nth k (nth (u - ec_min_t M) (ec_pyhatyck M) []) []) []))
                                            (seq 0 (length (ec_pyck M))))) (seq 0 (length p)))
  + INR u * ec_time M.
(** after the first [t] observations, no later time up to [ec_sz M] looks cheaper.  [None]: undefined probabilities, see C99 *)
Definition now {L} (M : ec L) (Xi : ecseries) (t : nat) : Prop :=
  match cluster_probas M (firstn t Xi) with
  | Ok (Some p) => forall u, (t <= u <= ec_sz M)%nat -> cost_at M p t <= cost_at M p u
  | Ok None => True
  | Err _ => False
  end.

(** ** Costs *)
Lemma error_cost_spec {L} (M : ec L) p u : error_cost (ec_pyck M) p (nth (u - ec_min_t M) (ec_pyhatyck M) []) + INR u * ec_time M = cost_at M p u.
Proof.
  unfold error_cost, cost_at. f_equal. apply rsum_map_ext. intros k _. rewrite Rmult_comm. f_equal. apply rsum_map_ext. intros y _. ring.
Qed.
Lemma skipn_nth {A} n (l : list A) j d : nth j (skipn n l) d = nth (n + j) l d.
Proof. revert l. induction n as [|n IH]; intros l; [auto|]. destruct l; cbn; [destruct j; auto|apply IH]. Qed.
Lemma costs_spec {L} (M : ec L) Xi : fitted M -> (ec_min_t M <= length Xi <= ec_sz M)%nat ->
  expected_costs M Xi = match cluster_probas M Xi with
    | Ok (Some p) => Ok (Some (map (fun j => cost_at M p (length Xi + j)) (seq 0 (ec_sz M + 1 - length Xi))))
    | Ok None => Ok None
    | Err e => Err e end.
Proof.
  intros (HM & HP & _) Hl. unfold expected_costs. destruct (cluster_probas M Xi) as [[p|]|e]; cbn [bind]; auto; rewrite (proj2 (Nat.leb_le _ _)) by lia.
  - unfold broadcast_add. rewrite !map_length, skipn_length, seq_length. replace (_ =? _)%nat with true by (symmetry; apply Nat.eqb_eq; lia). cbn [bind]. do 2 f_equal.
    set (n := (ec_sz M + 1 - length Xi)%nat). apply nth_ext with (d := 0) (d' := 0).
    + rewrite map_length, combine_length, !map_length, skipn_length, !seq_length. lia.
    + intros j Hj. rewrite map_length, combine_length, !map_length, skipn_length, seq_length in Hj.
      set (f := fun q : R * R => fst q + snd q).
      rewrite (nth_indep _ 0 (f (0, 0))) by (rewrite map_length, combine_length, !map_length, skipn_length, seq_length; lia). rewrite map_nth.
      rewrite combine_nth by (rewrite !map_length, skipn_length, seq_length; lia). unfold f. cbn [fst snd].
      rewrite map_seq_nth_gen by lia. rewrite <- error_cost_spec. f_equal.
      * rewrite (nth_indep _ 0 (error_cost (ec_pyck M) p [])) by (rewrite map_length, skipn_length; lia). rewrite map_nth. f_equal. rewrite skipn_nth. f_equal. lia.
      * set (g := fun t => INR t * ec_time M). rewrite (nth_indep _ 0 (g 0%nat)) by (rewrite map_length, seq_length; lia). rewrite map_nth, seq_nth by lia. reflexivity.
  - unfold broadcast_add. rewrite !map_length, skipn_length, seq_length. replace (_ =? _)%nat with true by (symmetry; apply Nat.eqb_eq; lia). cbn [bind].
    rewrite map_length, combine_length, !map_length, skipn_length, seq_length. destruct (Nat.eqb_spec (Nat.min (length (ec_pyhatyck M) - (length Xi - ec_min_t M)) (ec_sz M + 1 - length Xi)) 0); [lia|auto].
Qed.
Lemma probas_ok {L} (M : ec L) Xi : (1 <= length Xi <= ec_sz M)%nat -> exists p, cluster_probas M Xi = Ok p.
Proof.
  intros H. unfold cluster_probas. destruct (Nat.eqb_spec (length Xi) 0); [lia|]. destruct (Nat.ltb_spec (ec_sz M) (length Xi)); [lia|]. cbn [orb]. destruct (Req_EM_T _ _); eauto.
Qed.
Lemma tau_spec {L} (M : ec L) Xi : fitted M -> (ec_min_t M <= length Xi <= ec_sz M)%nat ->
  exists tau, tau_star M Xi = Ok tau /\ (length Xi + tau <= ec_sz M)%nat /\ (tau = 0%nat <-> now M Xi (length Xi)).
Proof.
  intros HF Hl. pose proof HF as (HM & _). destruct (probas_ok M Xi ltac:(lia)) as (p & EP). unfold tau_star. rewrite costs_spec by auto. unfold now. rewrite firstn_all, EP.
  destruct p as [p|]; cbn [bind]. 2:{ exists 0%nat. split; auto. split; [lia|tauto]. }
  set (n := (ec_sz M + 1 - length Xi)%nat). set (f := fun j => cost_at M p (length Xi + j)). assert (Hn : (0 < n)%nat) by (unfold n; lia).
  assert (NE : map f (seq 0 n) <> []) by (destruct n; [lia|discriminate]).
  destruct (rargmin_spec _ NE) as (A & B). rewrite map_length, seq_length in A, B. set (r := rargmin (map f (seq 0 n))) in *.
  exists r. split; [unfold r; destruct (map f (seq 0 n)); [congruence|auto]|]. split; [unfold n in A; lia|]. split.
  - intros E u Hu. destruct (B (u - length Xi)%nat ltac:(unfold n; lia)) as [Q _]. rewrite !map_seq_nth_gen in Q by (unfold n; lia). rewrite E in Q. unfold f in Q.
    rewrite Nat.add_0_r in Q. replace (length Xi + (u - length Xi))%nat with u in Q by lia. exact Q.
  - intros H. destruct (Nat.eq_dec r 0) as [E|E]; auto. exfalso. destruct (B 0%nat ltac:(lia)) as [_ Q]. specialize (Q ltac:(lia)). rewrite !map_seq_nth_gen in Q by lia.
    unfold f in Q. rewrite Nat.add_0_r in Q. specialize (H (length Xi + r)%nat ltac:(unfold n in A; lia)). lra.
Qed.
Lemma now_prefix {L} (M : ec L) Xi t : (t <= length Xi)%nat -> now M (firstn t Xi) (length (firstn t Xi)) <-> now M Xi t.
Proof. intros H. assert (E : length (firstn t Xi) = t) by (rewrite firstn_length; lia). unfold now. rewrite firstn_all, E. tauto. Qed.

(** ** C61 *)
Lemma scan_spec {L} (M : ec L) Xi n : fitted M -> (ec_sz M <= length Xi)%nat -> forall a, (ec_min_t M <= a)%nat -> (a + n = ec_sz M + 1)%nat -> (0 < n)%nat ->
  exists t, scan_times M Xi (seq a n) = Ok (Some t) /\ (a <= t <= ec_sz M)%nat /\ (t = ec_sz M \/ now M Xi t) /\ forall u, (a <= u < t)%nat -> ~ now M Xi u.
Proof.
  intros HF HL. induction n as [|n IH]; intros a Ha Hn Hp; [lia|]. cbn [seq scan_times].
  assert (La : length (firstn a Xi) = a) by (rewrite firstn_length; lia).
  destruct (tau_spec M (firstn a Xi) HF ltac:(lia)) as (tau & E & _ & Q). rewrite E. cbn [bind]. rewrite (now_prefix M Xi a ltac:(lia)) in Q.
  destruct (Nat.eqb_spec a (ec_sz M)) as [->|N]; cbn [orb].
  - exists (ec_sz M). split; auto. split; [lia|]. split; [auto|]. intros u Hu. lia.
  - destruct (Nat.eqb_spec tau 0) as [E0|E0].
    + exists a. split; auto. split; [lia|]. split; [right; apply Q; auto|]. intros u Hu. lia.
    + destruct (IH (S a) ltac:(lia) ltac:(lia) ltac:(lia)) as (t & Et & Ht & Hs & Hf). exists t. split; auto. split; [lia|]. split; auto.
      intros u Hu. destruct (Nat.eq_dec u a) as [->|]; [tauto|]. apply Hf. lia.
Qed.
(** Series at least as long as the training series: the decision is taken at the first time from [min_t] on at which waiting
    does not look cheaper, at the training length at the latest, by the classifier of that time on the observations so far. *)
Theorem C61_decision_partial {L} (M : ec L) Xi : fitted M -> (ec_sz M <= length Xi)%nat ->
  exists t, (ec_min_t M <= t <= ec_sz M)%nat /\ (t = ec_sz M \/ now M Xi t) /\ (forall u, (ec_min_t M <= u < t)%nat -> ~ now M Xi u) /\
    predict_single M Xi = match ec_clf M t (firstn t Xi) with Ok l => Ok (l, t) | Err e => Err e end.
Proof.
  intros HF HL. pose proof HF as (HM & _). destruct (scan_spec M Xi (ec_sz M + 1 - ec_min_t M) HF HL (ec_min_t M) ltac:(lia) ltac:(lia) ltac:(lia)) as (t & E & Ht & Hs & Hf).
  exists t. split; [lia|]. split; auto. split; auto. unfold predict_single, prediction_time. rewrite E. cbn [bind]. destruct (ec_clf M t (firstn t Xi)); reflexivity.
Qed.
Print Assumptions C61_decision_partial.
Lemma scan_ge {L} (M : ec L) Xi t n : forall lo, scan_times M Xi (seq lo n) = Ok (Some t) -> (lo <= t)%nat.
Proof.
  induction n as [|n IH]; intros lo H; cbn [seq scan_times] in H; [discriminate|]. destruct (tau_star M (firstn lo Xi)) as [tau|]; cbn [bind] in H; [|discriminate].
  destruct (_ || _); [injection H as ->; lia|]. apply IH in H. lia.
Qed.
Lemma scan_causal {L} (M : ec L) Xi Xi' t n : firstn t Xi' = firstn t Xi -> forall lo, scan_times M Xi (seq lo n) = Ok (Some t) -> scan_times M Xi' (seq lo n) = Ok (Some t).
Proof.
  intros HP. induction n as [|n IH]; intros lo H; [discriminate|]. pose proof (scan_ge M Xi t (S n) lo H) as Hlo. cbn [seq scan_times] in *.
  assert (E : firstn lo Xi' = firstn lo Xi). { replace lo with (Nat.min lo t) by lia. rewrite <- !firstn_firstn, HP. auto. }
  rewrite E. destruct (tau_star M (firstn lo Xi)) as [tau|]; cbn [bind] in *; [|discriminate]. destruct (_ || _); auto.
Qed.
(** No look-ahead, for series of any length: observations after the decision time do not matter. *)
Theorem C61_causal {L} (M : ec L) Xi Xi' l t : predict_single M Xi = Ok (l, t) -> firstn t Xi' = firstn t Xi -> predict_single M Xi' = Ok (l, t).
Proof.
  intros H HP. unfold predict_single, prediction_time in *. destruct (scan_times M Xi _) as [[t'|]|] eqn:E; cbn [bind] in H; try discriminate.
  destruct (ec_clf M t' (firstn t' Xi)) as [l'|] eqn:EC; cbn [bind] in H; try discriminate. injection H as -> ->.
  rewrite (scan_causal M Xi Xi' t _ HP _ E). cbn [bind]. rewrite HP, EC. reflexivity.
Qed.
Print Assumptions C61_causal.
(** A shorter series at whose end waiting still looks cheaper: the decision time is the training length, beyond its end. *)
Theorem C61_short_refuted : (forall L (M : ec L) Xi, fitted M -> (ec_min_t M <= length Xi < ec_sz M)%nat -> (forall u, (ec_min_t M <= u <= length Xi)%nat -> ~ now M Xi u) ->
    prediction_time M Xi = Ok (Some (ec_sz M))) /\
  exists (M : ec nat) Xi, fitted M /\ length Xi = 1%nat /\ predict_single M Xi = Ok (7, 2)%nat.
Proof.
  assert (G : forall L (M : ec L) Xi, fitted M -> (ec_min_t M <= length Xi < ec_sz M)%nat -> (forall u, (ec_min_t M <= u <= length Xi)%nat -> ~ now M Xi u) ->
    prediction_time M Xi = Ok (Some (ec_sz M))).
  { intros L M Xi HF HL HN. unfold prediction_time.
    assert (K : forall n a, (ec_min_t M <= a)%nat -> (a + n = ec_sz M + 1)%nat -> (0 < n)%nat -> scan_times M Xi (seq a n) = Ok (Some (ec_sz M))).
    { induction n as [|n IH]; intros a Ha Hn Hp; [lia|]. cbn [seq scan_times]. set (b := Nat.min a (length Xi)).
      assert (Lb : length (firstn a Xi) = b) by (rewrite firstn_length; auto). destruct (tau_spec M (firstn a Xi) HF ltac:(lia)) as (tau & E & _ & Q). rewrite E. cbn [bind].
      assert (EB : firstn a Xi = firstn b Xi). { unfold b. destruct (Nat.le_gt_cases a (length Xi)); [rewrite Nat.min_l; auto|]. rewrite Nat.min_r by lia. rewrite firstn_all, firstn_all2; auto. lia. }
      rewrite EB in Q. rewrite (now_prefix M Xi b ltac:(lia)) in Q. specialize (HN b ltac:(lia)).
      destruct (Nat.eqb_spec a (ec_sz M)) as [->|N]; cbn [orb]; auto. destruct (Nat.eqb_spec tau 0); [tauto|]. apply IH; lia. }
    pose proof HF as (HM & _). apply K; lia. }
  split; [exact G|].
  set (M := {| ec_min_t := 1; ec_lamb := 0; ec_time := 0; ec_sz := 2; ec_d := 1; ec_centers := [[[0]; [0]]; [[1]; [1]]];
               ec_pyhatyck := [[[[0; 1]; [1; 0]]; [[0; 1]; [1; 0]]]; [[[0; 0]; [0; 0]]; [[0; 0]; [0; 0]]]]; ec_pyck := [[1; 1]; [0; 0]]; ec_clf := fun _ _ => Ok 7%nat |}).
  assert (HF : fitted M). { unfold fitted, M. cbn. split; [lia|]. split; auto. split; [discriminate|]. intros c [<-|[<-|[]]]; reflexivity. }
  exists M, [[0]]. split; auto. split; auto. unfold predict_single. rewrite (G nat M [[0]] HF); [reflexivity|cbn; lia|]. intros u Hu. cbn in Hu. assert (u = 1%nat) as -> by lia.
  unfold now. cbn [firstn]. unfold cluster_probas. cbn [length Nat.eqb ec_sz M Nat.ltb Nat.leb orb ec_centers map].
  assert (D0 : center_dist [[0]] [[0]; [0]] = 0). { unfold center_dist. cbn. replace ((0 - 0) * (0 - 0) + 0) with 0 by ring. apply sqrt_0. }
  assert (D1 : center_dist [[0]] [[1]; [1]] = 1). { unfold center_dist. cbn. replace ((0 - 1) * (0 - 1) + 0) with 1 by ring. apply sqrt_1. }
  rewrite D0, D1. destruct (Req_EM_T _ 0) as [E|E]; [exfalso; cbn in E; lra|]. cbn [ec_lamb M].
  intros H. specialize (H 2%nat ltac:(cbn; lia)). unfold cost_at in H. cbn [map length seq ec_pyck ec_pyhatyck ec_min_t ec_time M nth Nat.sub] in H.
  rewrite !Ropp_0, !Rmult_0_l, exp_0 in H. unfold rsum in H. cbn [fold_right] in H.
  assert (1 / (1 + 1) / (1 / (1 + 1) + (1 / (1 + 1) + 0)) = / 2) as Q by (field; lra). rewrite Q in H. lra.
Qed.
Print Assumptions C61_short_refuted.
(** a fitted model and a series for the hypotheses of C61 *)
Example C61_nontrivial : exists (M : ec nat) Xi, fitted M /\ (ec_sz M <= length Xi)%nat /\ predict_single M Xi = Ok (7, 1)%nat.
Proof.
  set (M := {| ec_min_t := 1; ec_lamb := 0; ec_time := 0; ec_sz := 2; ec_d := 1; ec_centers := [[[0]; [0]]]; ec_pyhatyck := [[[[0]]]; [[[0]]]]; ec_pyck := [[1]]; ec_clf := fun _ _ => Ok 7%nat |}).
  assert (HF : fitted M). { unfold fitted, M. cbn. split; [lia|]. split; auto. split; [discriminate|]. intros c [<-|[]]; reflexivity. }
  exists M, [[1]; [3]; [4]]. split; auto. split; [cbn; lia|].
  destruct (C61_decision_partial M [[1]; [3]; [4]] HF) as (t & Ht & _ & Hf & ->); [cbn; lia|]. cbn in Ht. assert (J : (t = 1 \/ t = 2)%nat) by lia. destruct J as [-> | ->]; auto.
  exfalso. apply (Hf 1%nat); [cbn; lia|]. unfold now. destruct (probas_ok M (firstn 1 [[1]; [3]; [4]])) as ([p|] & ->); [cbn; lia| |auto]. intros u Hu.
  assert (C : forall u, (1 <= u <= 2)%nat -> cost_at M p u = 0). { intros v Hv. unfold cost_at. cbn [M ec_time ec_pyck ec_pyhatyck ec_min_t length seq map]. rewrite Rmult_0_r, Rplus_0_r.
    rewrite (rsum_map_ext _ (fun _ => 0)); [rewrite rsum_const; ring|]. intros k _. assert (J : (v = 1 \/ v = 2)%nat) by lia.
    assert (Z : forall k, rsum (nth 0 (nth k (nth (v - 1) [[[[0]]]; [[[0]]]] []) []) []) = 0). { intros q. destruct J as [-> | ->]; cbn [Nat.sub nth]; destruct q as [|[|q]]; cbn; lra. }
    rewrite Z. cbn. ring. }
  cbn in Hu. rewrite !C by lia. lra.
Qed.

(** ** C97, C98: [early_predict] *)
(** At every time before the decision, [early_predict] on the prefix announces a positive delay; at the decision time it
    announces 0 and the same class. *)
Theorem C97_prefixes {L} (M : ec L) Xi l t : fitted M -> (ec_sz M <= length Xi)%nat -> (forall u X, exists l, ec_clf M u X = Ok l) -> predict_single M Xi = Ok (l, t) ->
  early_one M (firstn t Xi) = Ok (Some l, Some 0%nat) /\
  forall u, (u < t)%nat -> exists o, early_one M (firstn u Xi) = Ok o /\
    if (u <? ec_min_t M)%nat then o = (None, None) else exists l' delay, o = (Some l', Some delay) /\ (1 <= delay <= ec_sz M - u)%nat.
Proof.
  intros HF HL HC H. pose proof HF as (HM & _). destruct (C61_decision_partial M Xi HF HL) as (t' & Ht & Hs & Hf & E). rewrite E in H.
  destruct (ec_clf M t' (firstn t' Xi)) as [l'|] eqn:EC; [|discriminate]. injection H as -> ->.
  assert (LF : forall u, (u <= t)%nat -> length (firstn u Xi) = u) by (intros; rewrite firstn_length; lia). split.
  - unfold early_one. rewrite LF by lia. destruct (Nat.ltb_spec t (ec_min_t M)); [lia|]. rewrite EC. cbn [bind].
    destruct (tau_spec M (firstn t Xi) HF) as (tau & ET & Hb & Q); [rewrite LF; lia|]. rewrite (now_prefix M Xi t ltac:(lia)) in Q. rewrite ET. cbn [bind].
    assert (tau = 0%nat) as ->; [|reflexivity]. destruct Hs as [->|Hs]; [rewrite LF in Hb by lia; lia|apply Q; auto].
  - intros u Hu. unfold early_one. rewrite LF by lia. destruct (Nat.ltb_spec u (ec_min_t M)); [eexists; split; reflexivity|].
    destruct (HC u (firstn u Xi)) as (lu & ->). cbn [bind]. destruct (tau_spec M (firstn u Xi) HF) as (tau & ET & Hb & Q); [rewrite LF; lia|]. rewrite (now_prefix M Xi u ltac:(lia)) in Q. rewrite ET. cbn [bind].
    eexists. split; [reflexivity|]. exists lu, tau. split; auto. rewrite LF in Hb by lia. specialize (Hf u ltac:(lia)). destruct (Nat.eq_dec tau 0); [tauto|lia].
Qed.
Print Assumptions C97_prefixes.
(** whatever is announced: the time now plus the delay is at most the training length, and deciding then looks cheapest *)
Theorem C98_delay {L} (M : ec L) ts l delay : fitted M -> (length ts <= ec_sz M)%nat -> early_one M ts = Ok (Some l, Some delay) ->
  (ec_min_t M <= length ts + delay <= ec_sz M)%nat /\
  match cluster_probas M ts with
  | Ok (Some p) => forall u, (length ts <= u <= ec_sz M)%nat -> cost_at M p (length ts + delay) <= cost_at M p u
  | _ => delay = 0%nat end.
Proof.
  intros HF HL H. pose proof HF as (HM & _). unfold early_one in H. destruct (Nat.ltb_spec (length ts) (ec_min_t M)); [discriminate|].
  destruct (ec_clf M (length ts) ts); cbn [bind] in H; [|discriminate]. destruct (tau_spec M ts HF ltac:(lia)) as (tau & ET & Hb & _). rewrite ET in H. cbn [bind] in H.
  injection H as _ <-. split; [lia|]. unfold tau_star in ET. rewrite costs_spec in ET by (auto; lia). destruct (cluster_probas M ts) as [[p|]|]; cbn [bind] in ET; [|congruence|discriminate].
  set (n := (ec_sz M + 1 - length ts)%nat) in *. set (f := fun j => cost_at M p (length ts + j)) in *. assert (Hn : (0 < n)%nat) by (unfold n; lia).
  assert (NE : map f (seq 0 n) <> []) by (destruct n; [lia|discriminate]). destruct (rargmin_spec _ NE) as (A & B). rewrite map_length, seq_length in A, B.
  assert (ER : rargmin (map f (seq 0 n)) = tau) by (destruct (map f (seq 0 n)); [congruence|injection ET; auto]). rewrite ER in *.
  intros u Hu. destruct (B (u - length ts)%nat ltac:(unfold n; lia)) as [Q _]. rewrite !map_seq_nth_gen in Q by (unfold n; lia). unfold f in Q. replace (length ts + (u - length ts))%nat with u in Q by lia. exact Q.
Qed.
Print Assumptions C98_delay.

(** ** C99: cluster probabilities *)
Lemma rsum_pos l : l <> [] -> (forall x, In x l -> 0 < x) -> 0 < rsum l.
Proof.
  destruct l as [|x l]; [congruence|]. intros _ H. cbn. pose proof (H x (or_introl eq_refl)). change (fold_right Rplus 0 l) with (rsum l).
  assert (0 <= rsum l) by (apply rsum_nonneg; intros y Hy; left; apply H; right; auto). lra.
Qed.
(** Euclidean distance between a prefix and the beginning of a centre *)
Definition prefix_dist (d : nat) (Xi c : ecseries) : R :=
  sqrt (rsum (map (fun t => rsum (map (fun f => (nth f (nth t Xi []) 0 - nth f (nth t c []) 0) ^ 2) (seq 0 d))) (seq 0 (length Xi)))).
Lemma row_sq a : forall b, length a = length b -> rsum (map (fun p => (fst p - snd p) * (fst p - snd p)) (combine a b)) = rsum (map (fun f => (nth f a 0 - nth f b 0) ^ 2) (seq 0 (length a))).
Proof.
  induction a as [|x a IH]; intros [|y b] H; try discriminate; auto. cbn [combine map length seq]. cbn [rsum fold_right fst snd nth]. change (fold_right Rplus 0) with rsum. rewrite <- seq_shift, map_map. cbn [nth].
  rewrite IH by (cbn in H; lia). ring.
Qed.
Lemma center_dist_spec d Xi : forall c, (length Xi <= length c)%nat -> (forall r, In r Xi -> length r = d) -> (forall r, In r c -> length r = d) -> center_dist Xi c = prefix_dist d Xi c.
Proof.
  intros c. unfold center_dist, prefix_dist. intros HL HX HC. f_equal. revert c HL HC HX. induction Xi as [|r Xi IH]; intros [|r' c] HL HC HX; cbn in HL; try lia; auto.
  cbn [length firstn concat seq map]. cbn [rsum fold_right nth]. change (fold_right Rplus 0) with rsum. pose proof (HX r (or_introl eq_refl)) as R1. pose proof (HC r' (or_introl eq_refl)) as R2.
  assert (A : forall (a a' b b' : list R), length a = length b -> combine (a ++ a') (b ++ b') = combine a b ++ combine a' b').
  { clear. induction a as [|x a IH]; intros a' [|y b] b' H; try discriminate; auto. cbn. f_equal. apply IH. cbn in H. lia. }
  rewrite A by lia. rewrite map_app, rsum_app, row_sq by lia. rewrite R1, <- seq_shift, map_map. cbn [nth]. f_equal. apply IH; [lia| |]; intros q Hq; [apply HC|apply HX]; right; auto.
Qed.
Theorem C99_distribution_partial {L} (M : ec L) Xi p : fitted M -> (length Xi <= ec_sz M)%nat ->
  (forall r, In r Xi -> length r = ec_d M) -> (forall c r, In c (ec_centers M) -> In r c -> length r = ec_d M) -> cluster_probas M Xi = Ok (Some p) ->
  length p = length (ec_centers M) /\ rsum p = 1 /\ (forall x, In x p -> 0 < x) /\
  forall i j, (i < length p)%nat -> (j < length p)%nat -> 0 < ec_lamb M ->
    (nth i p 0 < nth j p 0 <-> prefix_dist (ec_d M) Xi (nth j (ec_centers M) []) < prefix_dist (ec_d M) Xi (nth i (ec_centers M) [])).
Proof.
  intros (_ & _ & HC & HZ) HX HR HCR H. unfold cluster_probas in H. destruct (_ || _); [discriminate|]. set (ds := map (center_dist Xi) (ec_centers M)) in *. set (avg := rsum ds / INR (length ds)) in *.
  destruct (Req_EM_T avg 0) as [|HA]; [discriminate|]. rewrite (map_map (fun x => 1 - x / avg) (fun x => 1 / (1 + exp (- ec_lamb M * x)))) in H. set (s := map (fun x => 1 / (1 + exp (- ec_lamb M * (1 - x / avg)))) ds) in H. injection H as <-.
  assert (LD : length ds = length (ec_centers M)) by (unfold ds; apply map_length). assert (LS : length s = length ds) by (unfold s; apply map_length).
  assert (NE : s <> []) by (intros E; rewrite E in LS; destruct (ec_centers M); [congruence|cbn in *; lia]).
  assert (PS : forall x, In x s -> 0 < x). { intros x Hx. apply in_map_iff in Hx. destruct Hx as (v & <- & _). cbv beta. unfold Rdiv. rewrite Rmult_1_l. apply Rinv_0_lt_compat. pose proof (exp_pos (- ec_lamb M * (1 - v / avg))). lra. }
  assert (SP : 0 < rsum s) by (apply rsum_pos; auto).
  assert (AP : 0 < avg). { assert (0 <= avg); [|lra]. unfold avg. apply Rmult_le_pos.
    - apply rsum_nonneg. intros x Hx. apply in_map_iff in Hx. destruct Hx as (c & <- & _). apply sqrt_pos.
    - left. apply Rinv_0_lt_compat, lt_0_INR. rewrite LD. destruct (ec_centers M); [congruence|cbn; lia]. }
  split; [rewrite map_length; lia|]. split.
  { rewrite (rsum_map_ext _ (fun x => / rsum s * x)) by (intros; field; lra). rewrite rsum_map_scal, map_id. field. lra. }
  split. { intros x Hx. apply in_map_iff in Hx. destruct Hx as (v & <- & Hv). apply Rmult_lt_0_compat; auto. apply Rinv_0_lt_compat. auto. }
  rewrite map_length. intros i j Hi Hj HL. set (q := fun v => 1 / (1 + exp (- ec_lamb M * (1 - v / avg)))).
  assert (NP : forall k, (k < length s)%nat -> nth k (map (fun x => x / rsum s) s) 0 = q (center_dist Xi (nth k (ec_centers M) [])) / rsum s).
  { intros k Hk. rewrite (nth_indep _ 0 (0 / rsum s)) by (rewrite map_length; auto). rewrite (map_nth (fun x => x / rsum s)). f_equal. unfold s. fold q.
    rewrite (nth_indep _ 0 (q 0)) by (rewrite map_length; lia). rewrite map_nth. f_equal. unfold ds. rewrite (nth_indep _ 0 (center_dist Xi [])) by (rewrite map_length; lia). apply map_nth. }
  rewrite !NP by auto. assert (PD : forall k, (k < length s)%nat -> center_dist Xi (nth k (ec_centers M) []) = prefix_dist (ec_d M) Xi (nth k (ec_centers M) [])).
  { intros k Hk. assert (IC : In (nth k (ec_centers M) []) (ec_centers M)) by (apply nth_In; lia). apply center_dist_spec; [rewrite (HZ _ IC); auto|auto|intros r Hr; exact (HCR _ r IC Hr)]. }
  rewrite <- !PD by auto. set (a := center_dist Xi (nth i (ec_centers M) [])). set (b := center_dist Xi (nth j (ec_centers M) [])).
  assert (MONO : forall u v, u < v -> q v < q u).
  { intros u v Huv. unfold q, Rdiv. rewrite !Rmult_1_l. pose proof (exp_pos (- ec_lamb M * (1 - u * / avg))). pose proof (exp_pos (- ec_lamb M * (1 - v * / avg))). apply Rinv_lt_contravar; [nra|].
    apply Rplus_lt_compat_l, exp_increasing. assert (0 < / avg) by (apply Rinv_0_lt_compat; auto). assert (u * / avg < v * / avg) by (apply Rmult_lt_compat_r; auto). nra. }
  assert (DIV : forall u v, u / rsum s < v / rsum s <-> u < v). { intros u v. assert (0 < / rsum s) by (apply Rinv_0_lt_compat; auto). unfold Rdiv. split; intros; nra. }
  rewrite DIV. split.
  - intros Hq. destruct (Rtotal_order a b) as [C|[C|C]]; auto; [apply MONO in C; lra|rewrite C in Hq; lra].
  - apply MONO.
Qed.
Print Assumptions C99_distribution_partial.
Example C99_nontrivial : exists (M : ec nat) Xi p, fitted M /\ (length Xi <= ec_sz M)%nat /\ (forall r, In r Xi -> length r = ec_d M) /\
  (forall c r, In c (ec_centers M) -> In r c -> length r = ec_d M) /\ cluster_probas M Xi = Ok (Some p) /\ 0 < ec_lamb M.
Proof.
  set (M := {| ec_min_t := 1; ec_lamb := 2; ec_time := 0; ec_sz := 2; ec_d := 1; ec_centers := [[[0]; [0]]; [[1]; [1]]]; ec_pyhatyck := [[]; []]; ec_pyck := []; ec_clf := fun _ _ => Ok 7%nat |}).
  exists M, [[0]]. destruct (probas_ok M [[0]]) as ([p|] & E); [cbn; lia| |].
  - exists p. split; [unfold fitted, M; cbn; split; [lia|]; split; auto; split; [discriminate|]; intros c [<-|[<-|[]]]; reflexivity|]. split; [cbn; lia|].
    split; [intros r [<-|[]]; auto|]. split; [intros c r [<-|[<-|[]]] [<-|[<-|[]]]; auto|]. split; auto. cbn. lra.
  - exfalso. unfold cluster_probas in E. cbn [length Nat.eqb ec_sz M Nat.ltb Nat.leb orb ec_centers map] in E.
    assert (D0 : center_dist [[0]] [[0]; [0]] = 0) by (unfold center_dist; cbn; replace ((0 - 0) * (0 - 0) + 0) with 0 by ring; apply sqrt_0).
    assert (D1 : center_dist [[0]] [[1]; [1]] = 1) by (unfold center_dist; cbn; replace ((0 - 1) * (0 - 1) + 0) with 1 by ring; apply sqrt_1).
    rewrite D0, D1 in E. destruct (Req_EM_T _ 0) as [Q|Q]; [cbn in Q; lra|discriminate].
Qed.
(** A prefix that coincides with every centre, which is the case for one cluster and its centre: 0/0, no probabilities, and the
    classifier decides at once although deciding at the end is free and deciding now costs 1. *)
Theorem C99_undefined_refuted :
  (forall L (M : ec L) Xi, fitted M -> (1 <= length Xi <= ec_sz M)%nat -> (forall c, In c (ec_centers M) -> firstn (length Xi) c = Xi) -> cluster_probas M Xi = Ok None) /\
  exists (M : ec nat) Xi, fitted M /\ length Xi = ec_sz M /\ predict_single M Xi = Ok (7, 1)%nat /\ cost_at M [1] 1 = 1 /\ cost_at M [1] 2 = 0.
Proof.
  assert (G : forall L (M : ec L) Xi, fitted M -> (1 <= length Xi <= ec_sz M)%nat -> (forall c, In c (ec_centers M) -> firstn (length Xi) c = Xi) -> cluster_probas M Xi = Ok None).
  { intros L M Xi HF Hl HC. unfold cluster_probas. destruct (Nat.eqb_spec (length Xi) 0); [lia|]. destruct (Nat.ltb_spec (ec_sz M) (length Xi)); [lia|]. cbn [orb].
    destruct (Req_EM_T _ 0) as [|N]; auto. exfalso. apply N. rewrite (rsum_map_ext _ (fun _ => 0)); [rewrite rsum_const; unfold Rdiv; ring|].
    intros c Hc. unfold center_dist. rewrite (HC c Hc). replace (rsum _) with 0; [apply sqrt_0|]. generalize (concat Xi). intros q. induction q as [|x q IH]; [auto|]. cbn [combine map]. cbn [rsum fold_right fst snd]. change (fold_right Rplus 0) with rsum. rewrite <- IH. ring. }
  split; [exact G|].
  set (M := {| ec_min_t := 1; ec_lamb := 1; ec_time := 0; ec_sz := 2; ec_d := 1; ec_centers := [[[0]; [5]]]; ec_pyhatyck := [[[[0; 1]; [0; 0]]]; [[[0; 0]; [0; 0]]]]; ec_pyck := [[1]; [0]]; ec_clf := fun _ _ => Ok 7%nat |}).
  assert (HF : fitted M). { unfold fitted, M. cbn. split; [lia|]. split; auto. split; [discriminate|]. intros c [<-|[]]; reflexivity. }
  exists M, [[0]; [5]]. split; auto. split; auto. split; [|split; unfold cost_at; cbn; lra].
  destruct (C61_decision_partial M [[0]; [5]] HF) as (t & Ht & _ & Hf & ->); [cbn; lia|]. cbn in Ht. assert (J : (t = 1 \/ t = 2)%nat) by lia. destruct J as [-> | ->]; auto.
  exfalso. apply (Hf 1%nat); [cbn; lia|]. unfold now. rewrite (G nat M (firstn 1 [[0]; [5]]) HF); auto; [cbn; lia|]. intros c [<-|[]]. reflexivity.
Qed.
Print Assumptions C99_undefined_refuted.

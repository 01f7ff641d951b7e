(** C169, C170: probabilities and cost of the early classifier. *)
From Coq Require Import Bool List Arith Lia Reals Lra.
From Verif Require Import Num NumLaws Py RList PreModel Dataset CdistThms KernelModel PropKernel2 EarlyModel EarlyCostModel PropEarly.
Import ListNotations.
Local Open Scope R_scope.

(** ** C169 *)
(** Probabilities and classes are given at the same times, and whatever relates the two
    outputs of the base classifiers relates those of the early classifier. *)
Theorem C169_proba {L} (M : ec L) proba (related : L -> list R -> Prop) X ps :
  (forall t x, exists p, proba t x = Ok p) -> (forall t x l p, ec_clf M t x = Ok l -> proba t x = Ok p -> related l p) ->
  predict_class_and_earliness M X = Ok ps ->
  exists qs, predict_proba_and_earliness M proba X = Ok qs /\ map snd qs = map snd ps /\ Forall2 (fun a b => related (fst a) (fst b)) ps qs.
Proof.
  intros HP HR H. unfold predict_class_and_earliness, predict_proba_and_earliness in *. apply mapM_spec in H.
  assert (G : exists qs, Forall2 (fun x q => predict_single_proba M proba x = Ok q) X qs /\ map snd qs = map snd ps /\ Forall2 (fun a b => related (fst a) (fst b)) ps qs).
  { induction H as [|x [l t] X ps E H IH]; [exists []; repeat split; constructor|]. destruct IH as (qs & F & Es & R).
    unfold predict_single in E. destruct (prediction_time M x) as [[t'|]|] eqn:ET; cbn [bind] in E; try discriminate.
    destruct (ec_clf M t' (firstn t' x)) as [l'|] eqn:EC; cbn [bind] in E; [|discriminate]. injection E as -> ->.
    destruct (HP t (firstn t x)) as (p & Ep). exists ((p, t) :: qs). split; [constructor; [|auto]|split].
    - unfold predict_single_proba. rewrite ET. cbn [bind]. rewrite Ep. reflexivity.
    - cbn [map snd]. f_equal. auto.
    - constructor; [|auto]. cbn [fst]. eapply HR; eauto. }
  destruct G as (qs & F & Es & R). exists qs. split; [apply mapM_spec; auto|auto].
Qed.
Print Assumptions C169_proba.
(** [early_predict_proba] gives the delays of [early_predict]; its rows have one entry for
    each class; they are empty (NaN) where [early_predict] gives no label, and otherwise
    related to the label as the outputs of the base classifiers are. *)
Theorem C169_early_proba {L} (M : ec L) n proba (related : L -> list R -> Prop) X ps :
  (forall t x, exists p, proba t x = Ok p /\ length p = n) -> (forall t x l p, ec_clf M t x = Ok l -> proba t x = Ok p -> related l p) ->
  early_predict M X = Ok ps ->
  exists qs, early_predict_proba M n proba X = Ok qs /\ map snd qs = map snd ps /\
    Forall2 (fun a b => length (fst b) = n /\ match fst a with None => forall v, In v (fst b) -> v = None | Some l => exists p, fst b = map Some p /\ related l p end) ps qs.
Proof.
  intros HP HR H. unfold early_predict, early_predict_proba in *. destruct (ec_sz M <? length (hd [] X))%nat; [discriminate|]. apply mapM_spec in H.
  assert (G : exists qs, Forall2 (fun x q => early_one_proba M n proba x = Ok q) X qs /\ map snd qs = map snd ps /\
    Forall2 (fun a b => length (fst b) = n /\ match fst a with None => forall v, In v (fst b) -> v = None | Some l => exists p, fst b = map Some p /\ related l p end) ps qs).
  { induction H as [|x [l t] X ps E H IH]; [exists []; repeat split; constructor|]. destruct IH as (qs & F & Es & R).
    unfold early_one in E. unfold early_one_proba. destruct (length x <? ec_min_t M)%nat eqn:EM.
    - injection E as <- <-. exists ((repeat None n, None) :: qs). split; [constructor; [rewrite EM; auto|auto]|]. split; [cbn [map snd]; f_equal; auto|].
      constructor; [|auto]. cbn [fst]. split; [apply repeat_length|]. intros v Hv. apply repeat_spec in Hv. auto.
    - destruct (ec_clf M (length x) x) as [c|] eqn:EC; cbn [bind] in E; [|discriminate]. destruct (tau_star M x) as [tau|] eqn:ET; cbn [bind] in E; [|discriminate].
      injection E as <- <-. destruct (HP (length x) x) as (p & Ep & Lp). exists ((map Some p, Some tau) :: qs). split; [constructor; [rewrite EM, Ep; cbn [bind]; rewrite ET; reflexivity|auto]|].
      split; [cbn [map snd]; f_equal; auto|]. constructor; [|auto]. cbn [fst]. split; [rewrite map_length; auto|]. exists p. split; [auto|]. eapply HR; eauto. }
  destruct G as (qs & F & Es & R). exists qs. split; [apply mapM_spec; auto|auto].
Qed.
Print Assumptions C169_early_proba.

(** number of series with a wrong label *)
Definition wrong {L} (eqb : L -> L -> bool) (y y_pred : list L) : nat := length (filter (fun p => negb (eqb (fst p) (snd p))) (combine y y_pred)).
Lemma filter_count {A} (f : A -> bool) l : (length (filter f l) + length (filter (fun x => negb (f x)) l) = length l)%nat.
Proof. induction l as [|x l IH]; simpl; auto. destruct (f x); simpl; lia. Qed.
Lemma rsum_scale {A} (f : A -> R) a l : rsum (map (fun x => f x * a) l) = a * rsum (map f l).
Proof. induction l as [|x l IH]; simpl; [lra|]. rewrite IH. lra. Qed.
Lemma rsum_between lo hi l : (forall x, In x l -> lo <= x <= hi) -> INR (length l) * lo <= rsum l <= INR (length l) * hi.
Proof.
  induction l as [|x l IH]; intros H; [simpl; lra|]. cbn [length]. rewrite S_INR. change (rsum (x :: l)) with (x + rsum l).
  pose proof (H x (or_introl eq_refl)). specialize (IH (fun z Hz => H z (or_intror Hz))). lra.
Qed.
(** The cost is the error rate plus [cost_time_parameter] times the mean decision time;
    with a parameter that is not negative it lies between the costs of deciding at once
    and of waiting for the last observation. *)
Theorem C169_cost {L} (eqb : L -> L -> bool) (M : ec L) X y ps : X <> [] -> length y = length X -> predict_class_and_earliness M X = Ok ps ->
  exists c, early_cost eqb M X y = Ok c /\
    c = INR (wrong eqb y (map fst ps)) / INR (length X) + ec_time M * (rsum (map (fun p => INR (snd p)) ps) / INR (length X)) /\
    (fitted M -> (forall x, In x X -> (ec_sz M <= length x)%nat) -> 0 <= ec_time M ->
       INR (wrong eqb y (map fst ps)) / INR (length X) + ec_time M * INR (ec_min_t M) <= c <=
       INR (wrong eqb y (map fst ps)) / INR (length X) + ec_time M * INR (ec_sz M)).
Proof.
  intros NE Hy H. assert (F := H). unfold predict_class_and_earliness in F. apply mapM_spec in F. assert (Hl : length ps = length X) by (symmetry; eapply Forall2_len; exact F).
  assert (HN : 0 < INR (length X)) by (apply lt_0_INR; destruct X; [congruence|simpl; lia]).
  assert (E : early_cost eqb M X y = Ok (INR (wrong eqb y (map fst ps)) / INR (length X) + ec_time M * (rsum (map (fun p => INR (snd p)) ps) / INR (length X)))).
  { unfold early_cost. destruct X as [|x X]; [congruence|]. rewrite H. cbn [bind]. unfold accuracy. rewrite map_length, Hl, Hy, Nat.eqb_refl. cbn [bind]. f_equal.
    rewrite map_length, Hl, rsum_scale. unfold wrong. set (n := length (x :: X)) in *.
    pose proof (filter_count (fun p : L * L => eqb (fst p) (snd p)) (combine y (map fst ps))) as K. rewrite combine_length, map_length, Hl, Hy, Nat.min_id in K. fold n in K.
    apply (f_equal INR) in K. rewrite plus_INR in K. set (a := INR (length (filter (fun p => eqb (fst p) (snd p)) _))) in *. set (b := INR (length (filter (fun p => negb (eqb (fst p) (snd p))) _))) in *.
    replace b with (INR n - a) by lra. field. lra. }
  eexists. split; [exact E|]. split; [reflexivity|]. intros HF HX Ha.
  assert (B : INR (length (map (fun p => INR (snd p)) ps)) * INR (ec_min_t M) <= rsum (map (fun p => INR (snd p)) ps) <= INR (length (map (fun p => INR (snd p)) ps)) * INR (ec_sz M)).
  { apply rsum_between. intros z Hz. apply in_map_iff in Hz. destruct Hz as ((l & t) & <- & Hi). cbn [snd].
    assert (Q : exists x, In x X /\ predict_single M x = Ok (l, t)).
    { clear -F Hi. induction F as [|x p X ps E F IH]; [destruct Hi|]. destruct Hi as [->|Hi]; [exists x; simpl; auto|]. destruct (IH Hi) as (x' & I' & E'). exists x'. simpl. auto. }
    destruct Q as (x & Ix & Ex). destruct (C61_decision_partial M x HF (HX x Ix)) as (t' & Ht & _ & _ & Ep). rewrite Ex in Ep. destruct (ec_clf M t' (firstn t' x)); [|discriminate].
    injection Ep as _ ->. split; apply le_INR; lia. }
  rewrite map_length, Hl in B.
  assert (D : INR (ec_min_t M) <= rsum (map (fun p => INR (snd p)) ps) / INR (length X) <= INR (ec_sz M)).
  { split; [apply (Rmult_le_reg_r (INR (length X)))|apply (Rmult_le_reg_r (INR (length X)))]; auto; unfold Rdiv; rewrite Rmult_assoc, Rinv_l by lra; lra. }
  split; apply Rplus_le_compat_l; apply Rmult_le_compat_l; lra.
Qed.
Print Assumptions C169_cost.

(** ** C170: a higher cost of time never delays a decision *)
Lemma probas_time {L} (M : ec L) a x : cluster_probas (with_time M a) x = cluster_probas M x.
Proof. reflexivity. Qed.
Lemma cost_time {L} (M : ec L) a p u : cost_at (with_time M a) p u = cost_at (with_time M 0) p u + INR u * a.
Proof. unfold cost_at. cbn [with_time ec_time ec_pyck ec_pyhatyck ec_min_t]. lra. Qed.
Lemma fitted_time {L} (M : ec L) a : fitted M -> fitted (with_time M a).
Proof. intros H. exact H. Qed.
Lemma now_time {L} (M : ec L) a a' x t : a <= a' -> now (with_time M a) x t -> now (with_time M a') x t.
Proof.
  unfold now. rewrite !probas_time. cbn [with_time ec_sz]. destruct (cluster_probas M (firstn t x)) as [[p|]|]; auto. intros Ha H u Hu. specialize (H u Hu).
  rewrite (cost_time M a), (cost_time M a p u) in H. rewrite (cost_time M a'), (cost_time M a' p u). assert (INR t <= INR u) by (apply le_INR; lia). nra.
Qed.
(** Two models that differ in [cost_time_parameter] only: the one for which time is dearer
    decides no later ([predict_class_and_earliness]), and announces no longer a delay
    ([early_predict]). *)
Theorem C170_time {L} (M : ec L) a a' x l t l' t' : fitted M -> (ec_sz M <= length x)%nat -> a <= a' ->
  predict_single (with_time M a) x = Ok (l, t) -> predict_single (with_time M a') x = Ok (l', t') -> (t' <= t)%nat.
Proof.
  intros HF HX Ha E E'. destruct (C61_decision_partial (with_time M a) x (fitted_time M a HF) HX) as (u & Hu & Su & Fu & Eu).
  destruct (C61_decision_partial (with_time M a') x (fitted_time M a' HF) HX) as (u' & Hu' & Su' & Fu' & Eu').
  rewrite E in Eu. rewrite E' in Eu'. destruct (ec_clf _ u _); [|discriminate]. destruct (ec_clf _ u' _); [|discriminate].
  injection Eu as _ ->. injection Eu' as _ ->. cbn [with_time ec_sz ec_min_t] in *. destruct Su as [->|N]; [lia|].
  apply (now_time M a a') in N; auto. destruct (le_lt_dec u' u) as [|C]; auto. exfalso. apply (Fu' u); [lia|auto].
Qed.
Print Assumptions C170_time.
Lemma tau_min {L} (M : ec L) x tau : fitted M -> (ec_min_t M <= length x <= ec_sz M)%nat -> tau_star M x = Ok tau ->
  match cluster_probas M x with
  | Ok (Some p) => (length x + tau <= ec_sz M)%nat /\ forall j, (length x + j <= ec_sz M)%nat ->
      cost_at M p (length x + tau) <= cost_at M p (length x + j) /\ ((j < tau)%nat -> cost_at M p (length x + tau) < cost_at M p (length x + j))
  | _ => tau = 0%nat
  end.
Proof.
  intros HF Hl E. unfold tau_star in E. rewrite costs_spec in E by auto. destruct (cluster_probas M x) as [[p|]|]; cbn [bind] in E; [|injection E as <-; auto|discriminate].
  set (n := (ec_sz M + 1 - length x)%nat) in *. set (f := fun j => cost_at M p (length x + j)) in *. assert (Hn : (0 < n)%nat) by (unfold n; lia).
  assert (NE : map f (seq 0 n) <> []) by (destruct n; [lia|discriminate]).
  destruct (rargmin_spec _ NE) as (A & B). rewrite map_length, seq_length in A, B. assert (Et : tau = rargmin (map f (seq 0 n))) by (destruct (map f (seq 0 n)); [congruence|injection E; auto]).
  rewrite <- Et in *. split; [unfold n in A; lia|]. intros j Hj. specialize (B j ltac:(unfold n; lia)). rewrite !map_seq_nth_gen in B by (unfold n in *; lia). exact B.
Qed.
Theorem C170_delay {L} (M : ec L) a a' x l d l' d' : fitted M -> (length x <= ec_sz M)%nat -> a <= a' ->
  early_one (with_time M a) x = Ok (l, Some d) -> early_one (with_time M a') x = Ok (l', Some d') -> l' = l /\ (d' <= d)%nat.
Proof.
  intros HF HX Ha E E'. unfold early_one in *. cbn [with_time ec_min_t ec_clf] in *. destruct (Nat.ltb_spec (length x) (ec_min_t M)); [discriminate|].
  destruct (ec_clf M (length x) x) as [c|]; cbn [bind] in *; [|discriminate]. destruct (tau_star (with_time M a) x) as [tau|] eqn:T; cbn [bind] in E; [|discriminate].
  destruct (tau_star (with_time M a') x) as [tau'|] eqn:T'; cbn [bind] in E'; [|discriminate]. injection E as <- <-. injection E' as <- <-. split; [auto|].
  apply (tau_min (with_time M a)) in T; [|exact HF|cbn; lia]. apply (tau_min (with_time M a')) in T'; [|exact HF|cbn; lia]. rewrite probas_time in T, T'. cbn [with_time ec_sz] in *.
  destruct (cluster_probas M x) as [[p|]|]; [|lia|lia]. destruct T as [A B]. destruct T' as [A' B'].
  destruct (le_lt_dec tau' tau) as [|C]; auto. exfalso. destruct (B tau' ltac:(lia)) as [B1 _]. destruct (B' tau ltac:(lia)) as [_ B2]. specialize (B2 ltac:(lia)).
  rewrite (cost_time M a), (cost_time M a p (length x + tau')) in B1. rewrite (cost_time M a'), (cost_time M a' p (length x + tau)) in B2.
  rewrite !plus_INR in *. assert (INR tau <= INR tau') by (apply le_INR; lia). nra.
Qed.
Print Assumptions C170_delay.

(** One series of two observations, two clusters: with free time the classifier waits for
    the second observation, at ten per observation it decides at the first. *)
Definition two_clusters : ec nat :=
  {| ec_min_t := 1; ec_lamb := 0; ec_time := 0; ec_sz := 2; ec_d := 1; ec_centers := [[[0]; [0]]; [[1]; [1]]];
     ec_pyhatyck := [[[[0; 1]; [1; 0]]; [[0; 1]; [1; 0]]]; [[[0; 0]; [0; 0]]; [[0; 0]; [0; 0]]]]; ec_pyck := [[1; 1]; [0; 0]]; ec_clf := fun _ _ => Ok 7%nat |}.
Lemma two_fitted : fitted two_clusters.
Proof. unfold fitted, two_clusters. cbn. split; [lia|]. split; auto. split; [discriminate|]. intros c [<-|[<-|[]]]; reflexivity. Qed.
Lemma two_probas : cluster_probas two_clusters [[0]] = Ok (Some [1 / 2; 1 / 2]).
Proof.
  unfold cluster_probas. cbn [length Nat.eqb ec_sz two_clusters Nat.ltb Nat.leb orb ec_centers map].
  assert (D0 : center_dist [[0]] [[0]; [0]] = 0). { unfold center_dist. cbn. replace ((0 - 0) * (0 - 0) + 0) with 0 by ring. apply sqrt_0. }
  assert (D1 : center_dist [[0]] [[1]; [1]] = 1). { unfold center_dist. cbn. replace ((0 - 1) * (0 - 1) + 0) with 1 by ring. apply sqrt_1. }
  rewrite D0, D1. destruct (Req_EM_T _ 0) as [E|E]; [exfalso; cbn in E; lra|]. cbn [ec_lamb two_clusters map]. rewrite !Ropp_0, !Rmult_0_l, exp_0. unfold rsum. cbn [fold_right].
  do 2 f_equal. assert (Q : 1 / (1 + 1) / (1 / (1 + 1) + (1 / (1 + 1) + 0)) = 1 / 2) by (field; lra). rewrite Q. auto.
Qed.
Lemma two_cost a u : (1 <= u <= 2)%nat -> cost_at (with_time two_clusters a) [1 / 2; 1 / 2] u = (if (u =? 1)%nat then 1 else 0) + INR u * a.
Proof.
  intros Hu. unfold cost_at. assert (J : (u = 1 \/ u = 2)%nat) by lia. destruct J as [-> | ->]; cbn [map length seq ec_pyck ec_pyhatyck ec_min_t ec_time with_time two_clusters nth Nat.sub Nat.eqb]; unfold rsum; cbn [fold_right]; lra.
Qed.
Lemma two_now a : now (with_time two_clusters a) [[0]; [0]] 1 <-> 1 <= a.
Proof.
  unfold now. cbn [firstn]. rewrite probas_time, two_probas. cbn [with_time two_clusters ec_sz]. split.
  - intros H. specialize (H 2%nat ltac:(lia)). fold two_clusters in H. change (cost_at (with_time two_clusters a) [1 / 2; 1 / 2] 1 <= cost_at (with_time two_clusters a) [1 / 2; 1 / 2] 2) in H.
    rewrite !two_cost in H by lia. cbn in H. lra.
  - intros H u Hu. change (cost_at (with_time two_clusters a) [1 / 2; 1 / 2] 1 <= cost_at (with_time two_clusters a) [1 / 2; 1 / 2] u).
    rewrite !two_cost by lia. assert (J : (u = 1 \/ u = 2)%nat) by lia. destruct J as [-> | ->]; cbn; lra.
Qed.
Example C170_nontrivial : predict_single (with_time two_clusters 0) [[0]; [0]] = Ok (7, 2)%nat /\ predict_single (with_time two_clusters 10) [[0]; [0]] = Ok (7, 1)%nat.
Proof.
  split.
  - destruct (C61_decision_partial (with_time two_clusters 0) [[0]; [0]] two_fitted) as (t & Ht & S & _ & ->); [cbn; lia|]. cbn in Ht, S. destruct S as [->|N]; [auto|].
    assert (J : (t = 1 \/ t = 2)%nat) by lia. destruct J as [-> | ->]; auto. apply two_now in N. lra.
  - destruct (C61_decision_partial (with_time two_clusters 10) [[0]; [0]] two_fitted) as (t & Ht & _ & F & ->); [cbn; lia|]. cbn in Ht.
    assert (J : (t = 1 \/ t = 2)%nat) by lia. destruct J as [-> | ->]; auto. exfalso. apply (F 1%nat); [cbn; lia|]. apply two_now. lra.
Qed.
Example C170_delay_nontrivial : early_one (with_time two_clusters 0) [[0]] = Ok (Some 7%nat, Some 1%nat) /\ early_one (with_time two_clusters 10) [[0]] = Ok (Some 7%nat, Some 0%nat).
Proof.
  assert (K : forall a, exists d, early_one (with_time two_clusters a) [[0]] = Ok (Some 7%nat, Some d) /\ (d <= 1)%nat /\
    forall j, (j <= 1)%nat -> cost_at (with_time two_clusters a) [1 / 2; 1 / 2] (1 + d) <= cost_at (with_time two_clusters a) [1 / 2; 1 / 2] (1 + j)).
  { intros a. unfold early_one. cbn [with_time two_clusters ec_min_t ec_clf length Nat.ltb Nat.leb bind].
    destruct (tau_spec (with_time two_clusters a) [[0]] two_fitted) as (d & E & _); [cbn; lia|]. change (tau_star _ _) with (tau_star (with_time two_clusters a) [[0]]). rewrite E. cbn [bind].
    apply tau_min in E; [|exact two_fitted|cbn; lia]. rewrite probas_time, two_probas in E. destruct E as [A B]. cbn in A. exists d. split; [auto|]. split; [lia|].
    intros j Hj. apply (B j). cbn. lia. }
  split; [destruct (K 0) as (d & E & D & B)|destruct (K 10) as (d & E & D & B)]; rewrite E; assert (J : (d = 0 \/ d = 1)%nat) by lia; destruct J as [-> | ->]; auto; exfalso;
    [specialize (B 1%nat ltac:(lia))|specialize (B 0%nat ltac:(lia))]; rewrite !two_cost in B by (cbn; lia); cbn in B; lra.
Qed.
(** two series, one of them labelled differently from the prediction: error one half, decided at the first observation at ten each *)
Example C169_nontrivial : early_cost Nat.eqb (with_time two_clusters 10) [[[0]; [0]]; [[0]; [0]]] [7; 8]%nat = Ok (1 / 2 + 10).
Proof.
  assert (P : predict_class_and_earliness (with_time two_clusters 10) [[[0]; [0]]; [[0]; [0]]] = Ok [(7, 1); (7, 1)]%nat).
  { unfold predict_class_and_earliness. cbn [mapM]. rewrite (proj2 C170_nontrivial). reflexivity. }
  destruct (C169_cost Nat.eqb (with_time two_clusters 10) [[[0]; [0]]; [[0]; [0]]] [7; 8]%nat _ ltac:(discriminate) eq_refl P) as (c & -> & -> & _).
  f_equal. unfold wrong, rsum. cbn. lra.
Qed.
Example C169_proba_nontrivial : predict_proba_and_earliness (with_time two_clusters 10) (fun _ _ => Ok [1 / 4; 3 / 4]) [[[0]; [0]]] = Ok [([1 / 4; 3 / 4], 1%nat)].
Proof.
  assert (P : predict_class_and_earliness (with_time two_clusters 10) [[[0]; [0]]] = Ok [(7, 1)]%nat).
  { unfold predict_class_and_earliness. cbn [mapM]. rewrite (proj2 C170_nontrivial). reflexivity. }
  destruct (C169_proba (with_time two_clusters 10) (fun _ _ => Ok [1 / 4; 3 / 4]) (fun _ p => p = [1 / 4; 3 / 4]) [[[0]; [0]]] [(7, 1)]%nat) with (3 := P) as (qs & E & S & F); [eauto|congruence|].
  rewrite E. destruct qs as [|[p t] [|]]; try discriminate. cbn in S. injection S as ->. inversion F as [|? ? ? ? K]. cbn in K. congruence.
Qed.

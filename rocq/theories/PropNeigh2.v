(** C59: the [metric] attribute of the neighbour estimators through histories of calls. *)
From Coq Require Import Bool List Arith Lia.
From Verif Require Import Num Py NeighModel.
Import ListNotations.

(** ** Specification: the metric the user asked for last *)
Definition asked (m : metric_name) (l : list kn_call) : metric_name := fold_left (fun m c => match c with KSet m' => m' | _ => m end) l m.
Definition elastic (m : metric_name) : Prop := In m [MCtw; MDtw; MGak; MSax; MSoftdtw; MSoftdtwNorm; MLcss; MFrechet].
Definition sets (P : metric_name -> Prop) (l : list kn_call) : Prop := forall m, In (KSet m) l -> P m.

Lemma elastic_valid m : elastic m <-> ts_valid m = true.
Proof. unfold elastic. split; [intros [<-|[<-|[<-|[<-|[<-|[<-|[<-|[<-|[]]]]]]]]]; reflexivity|destruct m; cbn; try discriminate; tauto]. Qed.
Ltac cases := repeat match goal with
  | H : context [fails ?o ?p] |- _ => destruct (fails o p) eqn:?; cbn in H
  | H : context [kn_ts_fit ?s] |- _ => destruct (kn_ts_fit s) eqn:?; cbn in H
  | H : context [kn_X_fit ?s] |- _ => destruct (kn_X_fit s) eqn:?; cbn in H end.
(** successful calls, elastic metrics only *)
Lemma step_elastic c s s' : ts_valid (kn_metric s) = true -> (forall m, c = KSet m -> ts_valid m = true) -> kn_step c s = (s', Ok tt) ->
  kn_metric s' = match c with KSet m => m | _ => kn_metric s end.
Proof.
  intros V W H. destruct c as [o|o|via o|m]; cbn [kn_step] in H.
  - unfold kn_fit in H. rewrite V in H. cbn in H. destruct o; cbn in H; try discriminate. injection H as <-. reflexivity.
  - unfold kn_search in H. rewrite V in H. cbn in H. destruct (kn_ts_fit s); cbn in H; [|discriminate]. destruct o; cbn in H; try discriminate;
      destruct (search_known (kn_metric s)); cbn in H; try discriminate. injection H as <-. reflexivity.
  - unfold kn_predict in H. rewrite V in H. cbn in H. destruct (kn_ts_fit s); cbn in H; [|discriminate]. destruct o; cbn in H; try discriminate;
      destruct (cross_known (kn_metric s)); cbn in H; try discriminate; destruct via; cbn in H; try discriminate; injection H as <-; reflexivity.
  - injection H as <-. reflexivity.
Qed.
(** other metrics only, failing calls included *)
Lemma step_plain c s : ts_valid (kn_metric s) = false -> kn_ts_metric s = None ->
  kn_metric (fst (kn_step c s)) = match c with KSet m => m | _ => kn_metric s end /\ kn_ts_metric (fst (kn_step c s)) = None.
Proof.
  intros V N. destruct c as [o|o|via o|m]; cbn [kn_step].
  - unfold kn_fit. rewrite V, N. rewrite andb_false_r. destruct o; cbn; unfold restore; cbn; rewrite N; cbn; auto.
  - unfold kn_search. rewrite V. destruct (kn_X_fit s); cbn; auto. destruct o; cbn; unfold mixin_kneighbors, restore; cbn; rewrite ?N; auto.
  - unfold kn_predict. rewrite V. destruct (kn_X_fit s); cbn; auto. destruct o, via; cbn; unfold mixin_kneighbors, restore; cbn; rewrite ?N; auto.
  - cbn. auto.
Qed.
(** any calls but set_params, started with an elastic metric *)
Lemma step_any c s m : ts_valid m = true -> (kn_metric s = m \/ (kn_metric s = MPrecomputed /\ kn_ts_metric s = Some m)) -> (forall m', c <> KSet m') ->
  let s' := fst (kn_step c s) in
  (kn_metric s' = m \/ (kn_metric s' = MPrecomputed /\ kn_ts_metric s' = Some m)) /\ (c = KFit Fine -> kn_metric s' = m).
Proof.
  intros V I W. destruct c as [o|o|via o|m']; [| | |exfalso; eapply W; reflexivity]; cbn [kn_step].
  - unfold kn_fit. destruct I as [E|[E E']].
    + rewrite E, V. destruct o; cbn; rewrite E; auto; split; auto; discriminate.
    + rewrite E. cbn. destruct o; cbn; unfold restore; cbn; rewrite E'; cbn; split; auto; try discriminate.
  - split; [|discriminate]. unfold kn_search. destruct I as [E|[E E']].
    + rewrite E, V. cbn. destruct (kn_ts_fit s); cbn; [|rewrite E; auto]. destruct o; cbn; rewrite ?E; auto; destruct (search_known m); cbn; rewrite ?E; auto.
    + rewrite E. cbn. destruct (kn_X_fit s); cbn; auto. destruct o; cbn; auto; unfold mixin_kneighbors, restore; cbn; rewrite ?E'; auto.
  - split; [|discriminate]. unfold kn_predict. destruct I as [E|[E E']].
    + rewrite E, V. destruct (kn_ts_fit s); cbn; [|auto]. destruct o; cbn; auto; rewrite E; destruct (cross_known m); cbn; rewrite ?E; auto; destruct via; cbn; rewrite ?E; auto.
    + rewrite E. cbn. destruct (kn_X_fit s); cbn; auto. destruct o, via; cbn; auto; unfold mixin_kneighbors, restore; cbn; rewrite ?E'; auto.
Qed.

(** ** C59 *)
(** Every call returning and every metric asked for elastic: the attribute is what was asked last. *)
Theorem C59_elastic_partial l m s : elastic m -> sets elastic l -> kn_run l (kn_new m) = (s, true) -> kn_metric s = asked m l.
Proof.
  intros Hm Hl. change m with (kn_metric (kn_new m)) at 2. apply elastic_valid in Hm. change (ts_valid (kn_metric (kn_new m)) = true) in Hm. revert Hm Hl. generalize (kn_new m). clear m.
  induction l as [|c l IH]; intros s0 V W H; cbn [kn_run] in H; [injection H as <-; reflexivity|].
  destruct (kn_step c s0) as [s1 r] eqn:E1. destruct (kn_run l s1) as [s2 ok] eqn:E2. injection H as -> H. destruct r as [[]|e]; [subst ok|discriminate].
  assert (Q : kn_metric s1 = match c with KSet m => m | _ => kn_metric s0 end). { apply (step_elastic c s0 s1 V); auto. intros m ->. apply elastic_valid, W. left. auto. }
  change (asked (kn_metric s0) (c :: l)) with (asked (match c with KSet m' => m' | _ => kn_metric s0 end) l). rewrite <- Q. apply IH; auto.
  - rewrite Q. destruct c; auto. apply elastic_valid, W. left. auto.
  - intros m Hm. apply W. right. auto.
Qed.
Print Assumptions C59_elastic_partial.
(** a history with two metrics, refits and predictions in which every call returns *)
Example C59_elastic_nontrivial : let l := [KFit Fine; KSearch Fine; KSet MSoftdtw; KPredict true Fine; KFit Fine; KPredict false Fine] in
  elastic MDtw /\ sets elastic l /\ snd (kn_run l (kn_new MDtw)) = true /\ asked MDtw l = MSoftdtw.
Proof.
  split; [apply elastic_valid; reflexivity|]. split; [|split; reflexivity].
  intros m [H|[H|[H|[H|[H|[H|[]]]]]]]; try discriminate. injection H as <-. apply elastic_valid. reflexivity.
Qed.
(** Never an elastic metric asked for: the same, even after calls that raised. *)
Theorem C59_other_partial l m : ~ elastic m -> sets (fun m => ~ elastic m) l -> kn_metric (fst (kn_run l (kn_new m))) = asked m l.
Proof.
  assert (NV : forall m, ~ elastic m -> ts_valid m = false) by (intros q Hq; destruct (ts_valid q) eqn:E; auto; exfalso; apply Hq, elastic_valid, E).
  intros Hm Hl. change m with (kn_metric (kn_new m)) at 2. apply NV in Hm. change (ts_valid (kn_metric (kn_new m)) = false) in Hm.
  assert (N : kn_ts_metric (kn_new m) = None) by reflexivity. revert Hm N Hl. generalize (kn_new m). clear m.
  induction l as [|c l IH]; intros s0 V N W; [reflexivity|]. cbn [kn_run]. destruct (step_plain c s0 V N) as [Q1 Q2].
  destruct (kn_step c s0) as [s1 r]. cbn in Q1, Q2. specialize (IH s1). destruct (kn_run l s1) as [s2 ok]. cbn [fst] in *.
  change (asked (kn_metric s0) (c :: l)) with (asked (match c with KSet m' => m' | _ => kn_metric s0 end) l). rewrite <- Q1. apply IH; auto.
  - rewrite Q1. destruct c; auto. apply NV, W. left. auto.
  - intros m Hm. apply W. right. auto.
Qed.
Print Assumptions C59_other_partial.
(** a history with a failing fit and a change of metric *)
Example C59_other_nontrivial : let l := [KFit BadCompute; KFit Fine; KSet MCityblock; KSearch BadInput; KPredict true Fine] in
  ~ elastic MEuclidean /\ sets (fun m => ~ elastic m) l /\ snd (kn_run l (kn_new MEuclidean)) = false /\ asked MEuclidean l = MCityblock.
Proof.
  split; [rewrite elastic_valid; discriminate|]. split; [|split; reflexivity].
  intros m [H|[H|[H|[H|[H|[]]]]]]; try discriminate. injection H as <-. rewrite elastic_valid. discriminate.
Qed.
(** Elastic metric, no set_params: whatever calls raised before, a [fit] that returns restores the attribute. *)
Theorem C59_heals_partial l m s ok : elastic m -> (forall m', ~ In (KSet m') l) -> kn_run (l ++ [KFit Fine]) (kn_new m) = (s, ok) -> kn_metric s = m.
Proof.
  intros Hm Hl. apply elastic_valid in Hm.
  assert (I : kn_metric (kn_new m) = m \/ (kn_metric (kn_new m) = MPrecomputed /\ kn_ts_metric (kn_new m) = Some m)) by auto. revert I Hl. generalize (kn_new m).
  revert s ok. induction l as [|c l IH]; intros s ok s0 I W H.
  - cbn [app kn_run] in H. destruct (step_any (KFit Fine) s0 m Hm I) as [_ Q]; [congruence|]. destruct (kn_step (KFit Fine) s0) as [s1 r]. injection H as <- _. apply Q. auto.
  - cbn [app kn_run] in H. destruct (step_any c s0 m Hm I) as [Q _]. { intros m' ->. apply (W m'). left. auto. }
    destruct (kn_step c s0) as [s1 r]. cbn [fst] in Q. destruct (kn_run (l ++ [KFit Fine]) s1) as [s2 ok2] eqn:E. injection H as <- _.
    apply (IH s2 ok2 s1); auto. intros m' Hm'. apply (W m'). right. auto.
Qed.
Print Assumptions C59_heals_partial.
(** failures really move the attribute before the last fit puts it back *)
Example C59_heals_nontrivial : let l := [KFit BadInput; KFit BadCompute] in
  kn_metric (fst (kn_run l (kn_new MDtw))) = MPrecomputed /\ kn_metric (fst (kn_run (l ++ [KFit Fine]) (kn_new MDtw))) = MDtw.
Proof. split; reflexivity. Qed.
(** A [fit] that raises leaves "precomputed" behind.  A metric of TSLEARN_VALID_METRICS that [predict] does not know does so too.
    After fitting with "dtw", asking for "euclidean" and fitting again gives back "dtw". *)
Theorem C59_refuted :
  (forall m, elastic m -> kn_metric (fst (kn_run [KFit BadInput] (kn_new m))) = MPrecomputed) /\
  (forall m via o, In m [MGak; MLcss; MSoftdtwNorm] -> kn_metric (fst (kn_run [KFit Fine; KPredict via o] (kn_new m))) = match o with BadInput => m | _ => MPrecomputed end) /\
  (forall m m', elastic m -> ~ elastic m' -> exists s, kn_run [KFit Fine; KSet m'; KFit Fine] (kn_new m) = (s, true) /\ kn_metric s = m).
Proof.
  split; [|split].
  - intros m Hm. apply elastic_valid in Hm. cbn. unfold kn_fit. cbn. rewrite Hm. reflexivity.
  - intros m via o [<-|[<-|[<-|[]]]]; destruct o; reflexivity.
  - intros m m' Hm Hm'. apply elastic_valid in Hm. assert (V : ts_valid m' = false) by (destruct (ts_valid m') eqn:E; auto; exfalso; apply Hm', elastic_valid, E).
    cbn. unfold kn_fit. cbn. rewrite Hm. cbn. rewrite V. cbn. unfold restore. cbn. eexists. split; reflexivity.
Qed.
Print Assumptions C59_refuted.

(** C233: the entries of [metric_params] reach the metric. *)
From Coq Require Import Bool List Arith String Lia.
From Verif Require Import Num Py ParamsModel.
Import ListNotations.
Local Open Scope string_scope.
Local Open Scope list_scope.

(** ** specification *)
(** a Python dictionary: no key twice; [entry d k v]: d[k] is v *)
Definition is_dict {A} (d : list (string * A)) : Prop := NoDup (map fst d).
Definition entry {A} (d : list (string * A)) (k : string) (v : A) : Prop := In (k, v) d.
Definition given {A} (mp : option (list (string * A))) : list (string * A) := match mp with Some d => d | None => [] end.
(** the parameter [k] of the metric gets what the dictionary says, and its default when the dictionary says nothing *)
Definition as_said {A} (f : string -> option A) (d : list (string * A)) (k : string) : Prop := forall v, f k = Some v <-> entry d k v.

(** the parameters of the metrics, besides the datasets *)
Definition common (k : string) : Prop := In k ["global_constraint"; "sakoe_chiba_radius"; "itakura_max_slope"; "n_jobs"; "verbose"; "be"].
Definition kmeans_knows (m : kmeans_metric) (k : string) : Prop := common k \/ (m = KmSoftdtw /\ k = "gamma").
Definition knn_knows (m : knn_metric) (k : string) : Prop := common k \/ (m = NnSoftdtw /\ k = "gamma") \/ (m = NnCtw /\ (k = "max_iter" \/ k = "n_components")).
Definition dbscan_knows (m : dbscan_metric) (k : string) : Prop := common k \/ (m = DbSoftdtwNormalized /\ k = "gamma") \/ (m = DbCtw /\ (k = "max_iter" \/ k = "n_components")).

(** ** lemmas *)
Section L.
Context {A : Type}.
Implicit Types d : list (string * A).
Lemma has_in k l : has k l = true <-> In k l.
Proof. unfold has. rewrite existsb_exists. split; [intros (x & H & E); apply String.eqb_eq in E; subst; auto|intros H; exists k; split; auto; apply String.eqb_refl]. Qed.
Lemma distinct_iff l : distinct l = true <-> NoDup l.
Proof.
  induction l as [|k l IH]; cbn [distinct]; [split; auto; constructor|]. rewrite andb_true_iff, IH, negb_true_iff. split.
  - intros [H N]. constructor; auto. intros I. apply has_in in I. congruence.
  - intros N. inversion N as [|? ? H H']. split; auto. destruct (has k l) eqn:E; auto. apply has_in in E. tauto.
Qed.
Lemma get_in d k v : get A k d = Some v -> In (k, v) d.
Proof.
  unfold get. destruct (find _ d) as [[k' v']|] eqn:E; cbn; intros H; [|discriminate]. injection H as <-. apply find_some in E. destruct E as [I E]. cbn in E. apply String.eqb_eq in E. subst. auto.
Qed.
Lemma get_none d k : get A k d = None -> ~ In k (map fst d).
Proof.
  unfold get. destruct (find _ d) as [?|] eqn:E; cbn; intros H; [discriminate|]. intros I. apply in_map_iff in I. destruct I as (p & <- & I). pose proof (find_none _ _ E p I) as F. cbn in F. rewrite String.eqb_refl in F. discriminate.
Qed.
Lemma nodup_fun d k v v' : NoDup (map fst d) -> In (k, v) d -> In (k, v') d -> v = v'.
Proof.
  induction d as [|[k0 v0] d IH]; intros N H H'; [destruct H|]. cbn in N. inversion N as [|? ? N1 N2]. subst.
  destruct H as [H|H], H' as [H'|H']; try congruence; auto; exfalso; apply N1; [injection H as <- _; apply (in_map fst) in H'; auto|injection H' as <- _; apply (in_map fst) in H; auto].
Qed.
Lemma get_iff d k v : NoDup (map fst d) -> (get A k d = Some v <-> In (k, v) d).
Proof.
  intros N. split; [apply get_in|]. intros H. destruct (get A k d) as [v'|] eqn:E; [f_equal; apply (nodup_fun d k); auto; apply get_in; auto|].
  exfalso. apply (get_none d k E). apply (in_map fst) in H. auto.
Qed.
Lemma del_in k d k' v : In (k', v) (del A k d) <-> In (k', v) d /\ k' <> k.
Proof. unfold del. rewrite filter_In. cbn. rewrite negb_true_iff. rewrite String.eqb_neq. tauto. Qed.
Lemma nodup_filter f d : NoDup (map fst d) -> NoDup (map fst (filter f d)).
Proof.
  induction d as [|p d IH]; intros N; cbn; [constructor|]. cbn in N. inversion N as [|? ? N1 N2]. destruct (f p); cbn; auto. constructor; auto.
  intros I. apply N1. apply in_map_iff in I. destruct I as (q & E & I). apply filter_In in I. rewrite <- E. apply in_map. tauto.
Qed.
Lemma set_keys k v d : map fst (set A k v d) = if has k (map fst d) then map fst d else map fst d ++ [k].
Proof.
  unfold set, keys. destruct (has k (map fst d)); [|rewrite map_app; auto]. rewrite map_map. apply map_ext. intros [k' v']. cbn. destruct (String.eqb_spec k' k); subst; auto.
Qed.
Lemma nodup_set k v d : NoDup (map fst d) -> NoDup (map fst (set A k v d)).
Proof.
  intros N. rewrite set_keys. destruct (has k (map fst d)) eqn:E; auto. rewrite <- (rev_involutive (map fst d ++ [k])). apply NoDup_rev. rewrite rev_app_distr. cbn. constructor; [|apply NoDup_rev; auto].
  intros I. apply in_rev in I. apply has_in in I. congruence.
Qed.
Lemma set_in k v d k' v' : NoDup (map fst d) -> (In (k', v') (set A k v d) <-> (k' = k /\ v' = v) \/ (k' <> k /\ In (k', v') d)).
Proof.
  intros N. unfold set, keys. destruct (has k (map fst d)) eqn:E.
  - rewrite in_map_iff. split.
    + intros ([k0 v0] & Q & I). cbn in Q. destruct (String.eqb_spec k0 k); [injection Q as <- <-; auto|injection Q as <- <-; auto].
    + intros [[-> ->]|[D I]]; [|exists (k', v'); cbn; destruct (String.eqb_spec k' k); tauto]. apply has_in, in_map_iff in E. destruct E as ([k0 v0] & E & I). cbn in E. subst. exists (k, v0). cbn. rewrite String.eqb_refl. auto.
  - rewrite in_app_iff. cbn. split.
    + intros [I|[Q|[]]]; [right; split; auto; intros ->; apply (in_map fst) in I; apply has_in in I; cbn in I; congruence|injection Q as <- <-; auto].
    + intros [[-> ->]|[D I]]; auto.
Qed.
(** a call is accepted when the names are known and distinct, and then every name gets the value given for it *)
Lemma bind_ok sig (pos : list A) kws : List.length pos <= List.length sig -> NoDup (map fst (combine sig pos ++ kws)) -> (forall k, In k (map fst (combine sig pos ++ kws)) -> In k sig) ->
  exists f, bind_args A sig pos kws = Ok f /\ forall k v, f k = Some v <-> In (k, v) (combine sig pos ++ kws).
Proof.
  intros L N K. unfold bind_args. replace (List.length sig <? List.length pos)%nat with false by (symmetry; apply Nat.ltb_ge; auto).
  exists (fun k => get A k (combine sig pos ++ kws)). split; [|intros k v; apply get_iff; auto].
  replace (distinct (keys A (combine sig pos ++ kws))) with true by (symmetry; apply distinct_iff; auto).
  replace (forallb (fun k => has k sig) (keys A (combine sig pos ++ kws))) with true by (symmetry; apply forallb_forall; intros k Hk; apply has_in; auto). auto.
Qed.
Lemma bind_unknown sig (pos : list A) kws k : In k (map fst kws) -> ~ In k sig -> bind_args A sig pos kws = Err TypeError.
Proof.
  intros I N. unfold bind_args. destruct (_ <? _)%nat; auto. replace (forallb _ _) with false; [rewrite andb_false_r; auto|]. symmetry. apply not_true_iff_false. rewrite forallb_forall. intros F. apply N, has_in, F.
  unfold keys. rewrite map_app. apply in_or_app. auto.
Qed.
Lemma bind_twice sig (pos : list A) kws : ~ NoDup (map fst (combine sig pos ++ kws)) -> bind_args A sig pos kws = Err TypeError.
Proof. intros N. unfold bind_args. destruct (_ <? _)%nat; auto. replace (distinct _) with false; auto. symmetry. apply not_true_iff_false. rewrite distinct_iff. auto. Qed.
End L.
Ltac nodup_names := repeat (constructor; [cbn; intuition discriminate|]); constructor.
Ltac sigs m := destruct m; cbn [kmeans_sig knn_sig dbscan_sig sig_dtw sig_ctw sig_softdtw].

Lemma kmeans_right A (m : kmeans_metric) (mp : option (list (string * A))) n_jobs verbose X centers : is_dict (given mp) ->
  (forall k v, entry (given mp) k v -> In k (kmeans_sig m) /\ k <> "dataset1" /\ k <> "dataset2" /\ k <> "verbose") ->
  exists f, kmeans_call A m mp n_jobs verbose X centers = Ok f /\
    f "dataset1" = Some X /\ f "dataset2" = Some centers /\ f "n_jobs" = Some n_jobs /\ f "verbose" = Some verbose /\
    forall k, k <> "dataset1" -> k <> "dataset2" -> k <> "n_jobs" -> k <> "verbose" -> as_said f (given mp) k.
Proof.
  intros N K. set (d := given mp) in *. assert (Ed : or_empty A mp = d) by (destruct mp; auto).
  assert (HC : exists rest, combine (kmeans_sig m) [X; centers] = [("dataset1", X); ("dataset2", centers)] /\ kmeans_sig m = "dataset1" :: "dataset2" :: rest /\ In "n_jobs" rest /\ In "verbose" rest) by (sigs m; eexists; repeat split; cbn; auto 20).
  destruct HC as (rest & HC & HS & H1 & H2).
  destruct (bind_ok (kmeans_sig m) [X; centers] (("n_jobs", n_jobs) :: ("verbose", verbose) :: kmeans_params A mp)) as (f & E & F).
  - rewrite HS. cbn. lia.
  - rewrite HC. unfold kmeans_params. rewrite Ed. cbn [app map fst].
    assert (NI : forall k, In k (map fst (del A "n_jobs" d)) -> k <> "n_jobs" /\ k <> "dataset1" /\ k <> "dataset2" /\ k <> "verbose").
    { intros k Hk. apply in_map_iff in Hk. destruct Hk as ([k' v'] & <- & I). apply del_in in I. destruct I as [I D]. destruct (K k' v' I) as (_ & ? & ? & ?). auto. }
    repeat constructor; try (cbn; intros I; repeat (destruct I as [I|I]; [discriminate|]); specialize (NI _ I); tauto). apply nodup_filter. auto.
  - rewrite HC. unfold kmeans_params. rewrite Ed. cbn [app map fst]. intros k [<-|[<-|[<-|[<-|I]]]]; try (rewrite HS; cbn; auto; fail).
    apply in_map_iff in I. destruct I as ([k' v'] & <- & I). apply del_in in I. apply (K k' v'). tauto.
  - exists f. split; [exact E|]. rewrite HC in F. cbn [app] in F. repeat (split; [apply F; cbn; auto 10|]).
    intros k D1 D2 D3 D4 v. rewrite F. unfold kmeans_params. rewrite Ed. cbn [In]. rewrite del_in. unfold entry. intuition congruence.
Qed.
Lemma kmeans_refused A (m : kmeans_metric) (mp : option (list (string * A))) n_jobs verbose X centers k v :
  entry (given mp) k v -> ~ In k (kmeans_sig m) -> kmeans_call A m mp n_jobs verbose X centers = Err TypeError.
Proof.
  intros H N. apply (bind_unknown _ _ _ k); auto. right. right. apply (in_map fst ((kmeans_params A mp)) (k, v)). unfold kmeans_params. assert (Ed : or_empty A mp = given mp) by (destruct mp; auto). rewrite Ed. apply del_in. split; auto.
  intros ->. apply N. sigs m; cbn; auto 20.
Qed.
Lemma knn_right A (m : knn_metric) (mp : option (list (string * A))) n_jobs X fit_X : is_dict (given mp) ->
  (forall k v, entry (given mp) k v -> (In k (knn_sig m) /\ k <> "dataset1" /\ k <> "dataset2") \/ (k = "gamma_sdtw" /\ In "gamma" (knn_sig m))) ->
  exists f, knn_call A m mp n_jobs X fit_X = Ok f /\ f "dataset1" = Some X /\ f "dataset2" = Some fit_X /\ f "verbose" = None /\
    (forall v, entry (given mp) "gamma_sdtw" v -> f "gamma" = Some v) /\ ((forall v, ~ entry (given mp) "gamma_sdtw" v) -> as_said f (given mp) "gamma") /\
    forall k, k <> "dataset1" -> k <> "dataset2" -> k <> "n_jobs" -> k <> "verbose" -> k <> "gamma" -> k <> "gamma_sdtw" -> as_said f (given mp) k.
Proof.
  intros N K. set (d := given mp) in *. assert (Ed : or_empty A mp = d) by (destruct mp; auto).
  set (d1 := match get A "gamma_sdtw" d with Some v => del A "gamma_sdtw" (set A "gamma" v d) | None => d end).
  assert (P : knn_params A mp = del A "verbose" (del A "n_jobs" d1)) by (unfold knn_params; rewrite Ed; auto).
  assert (N1 : NoDup (map fst d1)) by (unfold d1; destruct (get A "gamma_sdtw" d); auto; apply nodup_filter, nodup_set; auto).
  assert (I1 : forall k v, In (k, v) d1 <-> k <> "gamma_sdtw" /\ ((k = "gamma" /\ entry d "gamma_sdtw" v) \/ ((k <> "gamma" \/ forall u, ~ entry d "gamma_sdtw" u) /\ entry d k v))).
  { intros k v. unfold d1. destruct (get A "gamma_sdtw" d) as [g|] eqn:G.
    - apply get_in in G. rewrite del_in, set_in by auto. unfold entry. split.
      + intros [[[-> ->]|[D I]] D']; split; auto. 
      + intros [D [[-> I]|[[D'|Q] I]]]; [split; auto; left; split; auto; apply (nodup_fun d "gamma_sdtw"); auto|split; auto|destruct (Q g G)].
    - pose proof (get_none d _ G) as NG. unfold entry. assert (NG' : forall u, ~ In ("gamma_sdtw", u) d) by (intros u Hu; apply NG; apply (in_map fst) in Hu; auto). split.
      + intros I. split; [intros ->; apply (NG' v I)|]. right. split; auto.
      + intros [D [[-> I]|[_ I]]]; auto. destruct (NG' v I). }
  assert (IP : forall k v, In (k, v) (knn_params A mp) <-> In (k, v) d1 /\ k <> "n_jobs" /\ k <> "verbose") by (intros k v; rewrite P, !del_in; tauto).
  assert (NP : NoDup (map fst (knn_params A mp))) by (rewrite P; repeat apply nodup_filter; auto).
  assert (KP : forall k, In k (map fst (knn_params A mp)) -> In k (knn_sig m) /\ k <> "dataset1" /\ k <> "dataset2" /\ k <> "n_jobs" /\ k <> "verbose").
  { intros k Hk. apply in_map_iff in Hk. destruct Hk as ([k' v'] & <- & I). apply IP in I. destruct I as (I & D1 & D2). apply I1 in I. cbn [fst]. destruct I as [D3 [[-> I]|[_ I]]].
    - destruct (K _ _ I) as [(S1 & _)|[_ S1]]; [exfalso; revert S1; sigs m; cbn; intuition discriminate|]. repeat split; auto; discriminate.
    - destruct (K _ _ I) as [(S1 & ? & ?)|[? _]]; [auto|congruence]. }
  assert (HC : exists rest, combine (knn_sig m) [X; fit_X] = [("dataset1", X); ("dataset2", fit_X)] /\ knn_sig m = "dataset1" :: "dataset2" :: rest /\ In "n_jobs" rest) by (sigs m; eexists; repeat split; cbn; auto 20).
  destruct HC as (rest & HC & HS & HJ).
  set (kws := match m with NnDtw | NnFrechet => ("n_jobs", n_jobs) :: knn_params A mp | NnCtw | NnSoftdtw => knn_params A mp end).
  assert (IK : forall k v, k <> "n_jobs" -> (In (k, v) kws <-> In (k, v) (knn_params A mp))) by (intros k v D; unfold kws; destruct m; cbn [In]; try tauto; split; auto; intros [Q|]; auto; congruence).
  assert (KK : forall k, In k (map fst kws) -> k = "n_jobs" \/ In k (map fst (knn_params A mp))) by (intros k; unfold kws; destruct m; cbn [map fst In]; intuition).
  destruct (bind_ok (knn_sig m) [X; fit_X] kws) as (f & E & F).
  - rewrite HS. cbn. lia.
  - rewrite HC. cbn [app map fst]. constructor; [|constructor].
    + intros [Q|Q]; [discriminate|]. apply KK in Q. destruct Q as [Q|Q]; [discriminate|]. apply KP in Q. tauto.
    + intros Q. apply KK in Q. destruct Q as [Q|Q]; [discriminate|]. apply KP in Q. tauto.
    + unfold kws. destruct m; auto; cbn [map fst]; constructor; auto; intros Q; apply KP in Q; tauto.
  - rewrite HC. cbn [app map fst]. intros k [<-|[<-|Q]]; try (rewrite HS; cbn; auto; fail). apply KK in Q. destruct Q as [->|Q]; [rewrite HS; cbn; auto|]. apply KP in Q. tauto.
  - rewrite HC in F. cbn [app] in F. exists f. split; [exact E|]. split; [apply F; cbn; auto|]. split; [apply F; cbn; auto|].
    assert (G : forall k v, k <> "dataset1" -> k <> "dataset2" -> k <> "n_jobs" -> (f k = Some v <-> In (k, v) d1 /\ k <> "verbose")).
    { intros k v D1 D2 D3. rewrite F. cbn [In]. rewrite IK, IP by auto. intuition congruence. }
    split; [|split; [|split]].
    + destruct (f "verbose") as [v|] eqn:Q; auto. apply G in Q; try discriminate. tauto.
    + intros v H. apply G; try discriminate. split; [|discriminate]. apply I1. split; [discriminate|]. auto.
    + intros H v. rewrite G by discriminate. rewrite I1. split; [intros [[_ [[_ Q]|[_ Q]]] _]; auto; destruct (H v Q)|]. intros Q. repeat split; try discriminate. auto.
    + intros k D1 D2 D3 D4 D5 D6 v. rewrite G by auto. rewrite I1. unfold entry. tauto.
Qed.
Lemma dbscan_right A (m : dbscan_metric) (mp : option (list (string * A))) n_jobs X : is_dict (given mp) -> (forall v, ~ entry (given mp) "dataset1" v) ->
  exists f, dbscan_call A m mp n_jobs X = Ok f /\ f "dataset1" = Some X /\
    (forall n, n_jobs = Some n -> f "n_jobs" = Some n) /\ (n_jobs = None -> as_said f (given mp) "n_jobs") /\
    (forall k, In k (dbscan_sig m) -> k <> "dataset1" -> k <> "n_jobs" -> as_said f (given mp) k) /\ (forall k, ~ In k (dbscan_sig m) -> f k = None).
Proof.
  intros N K. set (d := given mp) in *. assert (Ed : or_empty A mp = d) by (destruct mp; auto).
  assert (I1 : forall k v, In (k, v) (dbscan_params A mp n_jobs) <-> (k = "n_jobs" /\ n_jobs = Some v) \/ ((k <> "n_jobs" \/ n_jobs = None) /\ In (k, v) d)).
  { intros k v. unfold dbscan_params. rewrite Ed. destruct n_jobs as [n|]; [rewrite set_in by auto|]; intuition congruence. }
  assert (NP : NoDup (map fst (dbscan_params A mp n_jobs))) by (unfold dbscan_params; rewrite Ed; destruct n_jobs; auto; apply nodup_set; auto).
  set (kws := filter (fun p => has (fst p) (dbscan_sig m)) (dbscan_params A mp n_jobs)).
  assert (IK : forall k v, In (k, v) kws <-> In (k, v) (dbscan_params A mp n_jobs) /\ In k (dbscan_sig m)) by (intros k v; unfold kws; rewrite filter_In; cbn [fst]; rewrite has_in; tauto).
  assert (HC : exists rest, combine (dbscan_sig m) [X] = [("dataset1", X)] /\ dbscan_sig m = "dataset1" :: rest /\ In "n_jobs" rest) by (sigs m; eexists; repeat split; cbn; auto 20).
  destruct HC as (rest & HC & HS & HJ).
  destruct (bind_ok (dbscan_sig m) [X] kws) as (f & E & F).
  - rewrite HS. cbn. lia.
  - rewrite HC. cbn [app map fst]. constructor; [|apply nodup_filter; auto]. intros I. apply in_map_iff in I. destruct I as ([k v] & Q & I). cbn in Q. subst. apply IK in I. destruct I as [I _]. apply I1 in I. destruct I as [[? _]|[_ I]]; [discriminate|apply (K v I)].
  - rewrite HC. cbn [app map fst]. intros k [<-|I]; [rewrite HS; left; auto|]. apply in_map_iff in I. destruct I as ([k' v] & <- & I). apply IK in I. tauto.
  - rewrite HC in F. cbn [app] in F. exists f. split; [exact E|]. split; [apply F; left; auto|].
    assert (G : forall k v, k <> "dataset1" -> (f k = Some v <-> In (k, v) (dbscan_params A mp n_jobs) /\ In k (dbscan_sig m))) by (intros k v D; rewrite F; cbn [In]; rewrite IK; intuition congruence).
    assert (J : In "n_jobs" (dbscan_sig m)) by (rewrite HS; right; auto).
    split; [|split; [|split]].
    + intros n Hn. apply G; [discriminate|]. rewrite I1. auto.
    + intros Hn v. rewrite G by discriminate. rewrite I1. unfold entry. rewrite Hn. intuition congruence.
    + intros k Hk D1 D2 v. rewrite G by auto. rewrite I1. unfold entry. tauto.
    + intros k Hk. destruct (f k) as [v|] eqn:Q; auto. exfalso. destruct (String.eqb_spec k "dataset1") as [->|D]; [apply Hk; rewrite HS; left; auto|]. apply G in Q; tauto.
Qed.
Lemma kmeans_known m k : kmeans_knows m k <-> In k (kmeans_sig m) /\ k <> "dataset1" /\ k <> "dataset2".
Proof.
  unfold kmeans_knows, common. split.
  - intros H. assert (F : forall a : string, k = a -> In a (kmeans_sig m) -> a <> "dataset1" -> a <> "dataset2" -> In k (kmeans_sig m) /\ k <> "dataset1" /\ k <> "dataset2") by (intros a ->; auto).
    cbn [In] in H. revert F. sigs m; intros F; repeat match goal with X : _ \/ _ |- _ => destruct X | X : _ /\ _ |- _ => destruct X | X : False |- _ => destruct X end; try discriminate; subst k; eapply F; try reflexivity; try discriminate; cbn; auto 20.
  - intros (H & D1 & D2). revert H. sigs m; cbn [In]; intros H; repeat (destruct H as [H|H]; [subst k; try congruence; auto 20|]); destruct H.
Qed.
Lemma knn_known m k : knn_knows m k <-> In k (knn_sig m) /\ k <> "dataset1" /\ k <> "dataset2".
Proof.
  unfold knn_knows, common. split.
  - intros H. assert (F : forall a : string, k = a -> In a (knn_sig m) -> a <> "dataset1" -> a <> "dataset2" -> In k (knn_sig m) /\ k <> "dataset1" /\ k <> "dataset2") by (intros a ->; auto).
    cbn [In] in H. revert F. sigs m; intros F; repeat match goal with X : _ \/ _ |- _ => destruct X | X : _ /\ _ |- _ => destruct X | X : False |- _ => destruct X end; try discriminate; subst k; eapply F; try reflexivity; try discriminate; cbn; auto 20.
  - intros (H & D1 & D2). revert H. sigs m; cbn [In]; intros H; repeat (destruct H as [H|H]; [subst k; try congruence; auto 20|]); destruct H.
Qed.
Lemma dbscan_known m k : dbscan_knows m k <-> In k (dbscan_sig m) /\ k <> "dataset1" /\ k <> "dataset2".
Proof.
  unfold dbscan_knows, common. split.
  - intros H. assert (F : forall a : string, k = a -> In a (dbscan_sig m) -> a <> "dataset1" -> a <> "dataset2" -> In k (dbscan_sig m) /\ k <> "dataset1" /\ k <> "dataset2") by (intros a ->; auto).
    cbn [In] in H. revert F. sigs m; intros F; repeat match goal with X : _ \/ _ |- _ => destruct X | X : _ /\ _ |- _ => destruct X | X : False |- _ => destruct X end; try discriminate; subst k; eapply F; try reflexivity; try discriminate; cbn; auto 20.
  - intros (H & D1 & D2). revert H. sigs m; cbn [In]; intros H; repeat (destruct H as [H|H]; [subst k; try congruence; auto 20|]); destruct H.
Qed.

(** ** C233 *)
(** TimeSeriesKMeans: [n_jobs] is the estimator's; everything else that the metric knows is as said in metric_params. *)
Theorem C233_kmeans A (m : kmeans_metric) (mp : option (list (string * A))) n_jobs verbose X centers : is_dict (given mp) ->
  (forall k v, entry (given mp) k v -> kmeans_knows m k /\ k <> "verbose") ->
  exists f, kmeans_call A m mp n_jobs verbose X centers = Ok f /\
    f "dataset1" = Some X /\ f "dataset2" = Some centers /\ f "n_jobs" = Some n_jobs /\ f "verbose" = Some verbose /\
    forall k, k <> "dataset1" -> k <> "dataset2" -> k <> "n_jobs" -> k <> "verbose" -> as_said f (given mp) k.
Proof. intros N K. apply kmeans_right; auto. intros k v H. destruct (K k v H) as [Q V]. apply kmeans_known in Q. tauto. Qed.
Print Assumptions C233_kmeans.
(** a key the metric does not know is refused *)
Theorem C233_kmeans_unknown A (m : kmeans_metric) (mp : option (list (string * A))) n_jobs verbose X centers k v :
  entry (given mp) k v -> ~ kmeans_knows m k -> kmeans_call A m mp n_jobs verbose X centers = Err TypeError.
Proof.
  intros H N. destruct (in_dec string_dec k (kmeans_sig m)) as [I|I]; [|apply (kmeans_refused A m mp n_jobs verbose X centers k v); auto].
  assert (D : k = "dataset1" \/ k = "dataset2") by (destruct (string_dec k "dataset1"); auto; destruct (string_dec k "dataset2"); auto; exfalso; apply N, kmeans_known; auto).
  apply bind_twice. intros ND. rewrite map_app in ND.
  assert (J : In k (map fst (kmeans_params A mp))). { apply (in_map fst (kmeans_params A mp) (k, v)). unfold kmeans_params. assert (Ed : or_empty A mp = given mp) by (destruct mp; auto). rewrite Ed. apply del_in. split; auto. destruct D; subst; discriminate. }
  assert (HC : map fst (combine (kmeans_sig m) [X; centers]) = ["dataset1"; "dataset2"]) by (sigs m; reflexivity). rewrite HC in ND. cbn [app map fst] in ND.
  inversion ND as [|? ? N1 N2]. inversion N2 as [|? ? N3 _]. destruct D; subst k; [apply N1|apply N3]; cbn; auto 10.
Qed.
Print Assumptions C233_kmeans_unknown.
(** but so is "verbose", a parameter of both metrics: it is neither overridden nor passed on *)
Theorem C233_kmeans_verbose_refuted A (m : kmeans_metric) (d : list (string * A)) v n_jobs verbose X centers :
  entry d "verbose" v -> kmeans_knows m "verbose" /\ kmeans_call A m (Some d) n_jobs verbose X centers = Err TypeError.
Proof.
  intros H. split; [left; unfold common; cbn; auto 20|]. apply bind_twice. assert (I : In "verbose" (map fst (kmeans_params A (Some d)))).
  { apply (in_map fst (kmeans_params A (Some d)) ("verbose", v)). unfold kmeans_params. cbn [or_empty]. apply del_in. split; auto. discriminate. }
  intros N. rewrite map_app in N. cbn [map fst] in N. apply NoDup_remove_1 in N. apply NoDup_remove_2 in N. apply N. apply in_or_app. auto.
Qed.
Print Assumptions C233_kmeans_verbose_refuted.
(** Neighbour searches: "n_jobs" and "verbose" are dropped, "gamma_sdtw" is another name of "gamma" that wins over it, the rest is as said. *)
Theorem C233_neighbours A (m : knn_metric) (mp : option (list (string * A))) n_jobs X fit_X : is_dict (given mp) ->
  (forall k v, entry (given mp) k v -> knn_knows m k \/ (k = "gamma_sdtw" /\ m = NnSoftdtw)) ->
  exists f, knn_call A m mp n_jobs X fit_X = Ok f /\ f "dataset1" = Some X /\ f "dataset2" = Some fit_X /\ f "verbose" = None /\
    (forall v, entry (given mp) "gamma_sdtw" v -> f "gamma" = Some v) /\ ((forall v, ~ entry (given mp) "gamma_sdtw" v) -> as_said f (given mp) "gamma") /\
    forall k, k <> "dataset1" -> k <> "dataset2" -> k <> "n_jobs" -> k <> "verbose" -> k <> "gamma" -> k <> "gamma_sdtw" -> as_said f (given mp) k.
Proof. intros N K. apply knn_right; auto. intros k v H. destruct (K k v H) as [Q|[-> ->]]; [apply knn_known in Q; auto|right; split; auto; cbn; auto 20]. Qed.
Print Assumptions C233_neighbours.
(** the estimator's n_jobs overrides the entry for "dtw" and "frechet"; for "ctw" and "softdtw" neither of the two is used *)
Theorem C233_neighbours_n_jobs_refuted A (mp : option (list (string * A))) n_jobs X fit_X : is_dict (given mp) ->
  (forall m f, (m = NnDtw \/ m = NnFrechet) -> knn_call A m mp n_jobs X fit_X = Ok f -> f "n_jobs" = Some n_jobs) /\
  (forall m f, (m = NnCtw \/ m = NnSoftdtw) -> knn_call A m mp n_jobs X fit_X = Ok f -> f "n_jobs" = None).
Proof.
  intros N. split; intros m f Hm E; unfold knn_call, bind_args in E; destruct (_ <? _)%nat; try discriminate; destruct (_ && _) eqn:B; try discriminate; injection E as <-; apply andb_prop in B; destruct B as [B _]; apply distinct_iff in B.
  - apply get_iff; auto. apply in_or_app. right. destruct Hm as [-> | ->]; left; auto.
  - destruct (get A "n_jobs" _) as [v|] eqn:G; auto. apply get_in in G. apply in_app_or in G. exfalso. destruct G as [G|G].
    + destruct Hm as [-> | ->]; cbn in G; destruct G as [G|[G|[]]]; discriminate.
    + assert (Q : In ("n_jobs", v) (knn_params A mp)) by (destruct Hm as [-> | ->]; auto). unfold knn_params in Q. apply del_in in Q. destruct Q as [Q _]. apply del_in in Q. tauto.
Qed.
Print Assumptions C233_neighbours_n_jobs_refuted.
(** TimeSeriesDBSCAN: entries the metric does not know are ignored, n_jobs is the estimator's when it has one, the rest is as said. *)
Theorem C233_dbscan A (m : dbscan_metric) (mp : option (list (string * A))) n_jobs X : is_dict (given mp) -> (forall v, ~ entry (given mp) "dataset1" v) -> (forall v, ~ entry (given mp) "dataset2" v) ->
  exists f, dbscan_call A m mp n_jobs X = Ok f /\ f "dataset1" = Some X /\
    (forall n, n_jobs = Some n -> f "n_jobs" = Some n) /\ (n_jobs = None -> as_said f (given mp) "n_jobs") /\
    (forall k, dbscan_knows m k -> k <> "n_jobs" -> as_said f (given mp) k) /\ (forall k, ~ dbscan_knows m k -> k <> "dataset1" -> f k = None).
Proof.
  intros N K1 K2. destruct (dbscan_right A m mp n_jobs X N K1) as (f & E & FX & J1 & J2 & F & G). exists f. repeat (split; [assumption|]). split.
  - intros k Q D. apply dbscan_known in Q. apply F; tauto.
  - intros k Q D. destruct (in_dec string_dec k (dbscan_sig m)) as [I|I]; [|auto]. destruct (string_dec k "dataset2") as [->|D2]; [|exfalso; apply Q, dbscan_known; auto].
    destruct (f "dataset2") as [v|] eqn:V; auto. apply (F "dataset2") in V; auto; [destruct (K2 v V)|discriminate].
Qed.
Print Assumptions C233_dbscan.
Example C233_instance : let mp := Some [("gamma_sdtw", 7); ("sakoe_chiba_radius", 3); ("n_jobs", 9); ("gamma", 1)] in
  is_dict (given mp) /\ (forall k v, entry (given mp) k v -> knn_knows NnSoftdtw k \/ (k = "gamma_sdtw" /\ NnSoftdtw = NnSoftdtw)) /\
  exists f, knn_call nat NnSoftdtw mp 2 10 11 = Ok f /\ map f ["dataset1"; "gamma"; "sakoe_chiba_radius"; "n_jobs"] = [Some 10; Some 7; Some 3; None].
Proof.
  cbv zeta. split; [unfold is_dict; cbn; nodup_names|]. split; [|eexists; split; reflexivity].
  intros k v [H|[H|[H|[H|[]]]]]; injection H as <- <-; unfold knn_knows, common; cbn; intuition (try discriminate; auto 20).
Qed.

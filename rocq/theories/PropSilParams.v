(** C235: [metric_params] and keyword arguments of [silhouette_score] reach the metric. *)
From Coq Require Import Bool List Arith String Lia.
From Verif Require Import Num Py ParamsModel PropParams SilParamsModel.
Import ListNotations.
Local Open Scope string_scope.
Local Open Scope list_scope.

(** ** specification: the parameters of the metrics that are not about how to compute; [is_dict], [entry], [given] are from PropParams *)
Definition sil_knows (m : sil_metric) (k : string) : Prop := In k ["global_constraint"; "sakoe_chiba_radius"; "itakura_max_slope"] \/ (m = SilSoftdtw /\ k = "gamma").

Lemma updated A (kw : list (string * A)) : forall d, NoDup (map fst d) -> NoDup (map fst kw) ->
  let e := fold_left (fun d p => set A (fst p) (snd p) d) kw d in
  NoDup (map fst e) /\ forall k v, In (k, v) e <-> In (k, v) kw \/ (In (k, v) d /\ ~ In k (map fst kw)).
Proof.
  induction kw as [|[k0 v0] kw IH]; intros d N Nk; cbn [fold_left map fst snd]; [cbn; split; auto; intuition|].
  cbn [map fst] in Nk. inversion Nk as [|? ? N1 N2]. subst. destruct (IH (set A k0 v0 d)) as (Q & F); [apply nodup_set; auto|auto|]. split; [exact Q|].
  intros k v. rewrite F, set_in by auto. cbn [In]. destruct (string_dec k0 k) as [->|D].
  - split.
    + intros [I|[[[_ ->]|[D _]] _]]; auto; congruence.
    + intros [[E|I]|[_ D]]; [injection E as ->; right; split; auto|auto|exfalso; apply D; auto].
  - split.
    + intros [I|[[[-> _]|[_ I]] NI]]; auto; [congruence|]. right. split; auto. intros [E|E]; auto.
    + intros [[E|I]|[I NI]]; [congruence|auto|]. right. split; auto.
Qed.
Lemma sil_in A mp kw (N : NoDup (map fst (given mp))) (Nk : NoDup (map fst kw)) : NoDup (map fst (sil_params A mp kw)) /\
  forall k v, In (k, v) (sil_params A mp kw) <-> (In (k, v) kw \/ (In (k, v) (given mp) /\ ~ In k (map fst kw))) /\ k <> "n_jobs".
Proof.
  assert (Ed : or_empty A mp = given mp) by (destruct mp; auto). unfold sil_params. rewrite Ed. destruct (updated A kw (given mp) N Nk) as (Q & F). split; [apply nodup_filter; exact Q|].
  intros k v. rewrite del_in, F. tauto.
Qed.
Lemma sil_known m k : sil_knows m k -> In k (sil_sig m) /\ k <> "dataset1" /\ k <> "dataset2" /\ k <> "n_jobs" /\ k <> "verbose" /\ k <> "be".
Proof.
  intros [H|[-> ->]]; [|repeat split; try discriminate; cbn; auto 20]. cbn [In] in H.
  destruct H as [<-|[<-|[<-|[]]]]; (split; [destruct m; cbn; auto 20|repeat split; discriminate]).
Qed.
Lemma not_key {A} k (d : list (string * A)) : ~ In k (map fst d) <-> forall u, ~ In (k, u) d.
Proof. split; [intros H u I; apply H; apply (in_map fst) in I; auto|]. intros H I. apply in_map_iff in I. destruct I as ([k' u] & <- & I). apply (H u I). Qed.

(** ** C235 *)
(** A keyword argument wins over the entry of metric_params with the same name; every other entry is handed on; an n_jobs entry is not.
    For "dtw" the metric gets the arguments n_jobs and verbose, for "softdtw" neither. *)
Theorem C235_silhouette A (m : sil_metric) (mp : option (list (string * A))) kwds n_jobs verbose be X : is_dict (given mp) -> is_dict kwds ->
  (forall k v, entry (given mp) k v -> sil_knows m k \/ k = "n_jobs") -> (forall k v, entry kwds k v -> sil_knows m k) ->
  exists f, sil_call A m mp kwds n_jobs verbose be X = Ok f /\ f "dataset1" = Some X /\ f "dataset2" = None /\ f "be" = Some be /\
    f "n_jobs" = (match m with SilDtw => Some n_jobs | SilSoftdtw => None end) /\ f "verbose" = (match m with SilDtw => Some verbose | SilSoftdtw => None end) /\
    forall k, sil_knows m k -> forall v, f k = Some v <-> entry kwds k v \/ (entry (given mp) k v /\ forall u, ~ entry kwds k u).
Proof.
  intros N Nk K Kk. destruct (sil_in A mp kwds N Nk) as (NP & IP).
  assert (KP : forall k, In k (map fst (sil_params A mp kwds)) -> sil_knows m k).
  { intros k Hk. apply in_map_iff in Hk. destruct Hk as ([k' v'] & <- & I). apply IP in I. destruct I as [[I|[I _]] D]; cbn [fst]; [apply (Kk _ _ I)|]. destruct (K _ _ I); auto. congruence. }
  set (first := match m with SilDtw => [("n_jobs", n_jobs); ("verbose", verbose); ("be", be)] | SilSoftdtw => [("be", be)] end).
  assert (EC : sil_call A m mp kwds n_jobs verbose be X = bind_args A (sil_sig m) [X] (first ++ sil_params A mp kwds)) by (unfold first; destruct m; reflexivity).
  assert (HC : combine (sil_sig m) [X] = [("dataset1", X)]) by (destruct m; reflexivity).
  assert (NP' : forall k, ~ sil_knows m k -> ~ In k (map fst (sil_params A mp kwds))) by (intros k H I; apply H, KP; auto).
  assert (B : forall k, In k ["dataset1"; "dataset2"; "n_jobs"; "verbose"; "be"] -> ~ sil_knows m k) by (intros k I Q; apply sil_known in Q; cbn [In] in I; intuition congruence).
  destruct (bind_ok (sil_sig m) [X] (first ++ sil_params A mp kwds)) as (f & E & F).
  - destruct m; cbn; lia.
  - rewrite HC. unfold first. destruct m; cbn [app map fst]; repeat (constructor; [cbn [In]; intros I; repeat (destruct I as [I|I]; [discriminate|]); revert I; apply NP', B; cbn; auto 10|]); exact NP.
  - rewrite HC. cbn [app map fst]. intros k [<-|I]; [destruct m; cbn; auto|]. rewrite map_app in I. apply in_app_or in I. destruct I as [I|I]; [|apply KP, sil_known in I; tauto].
    unfold first in I. destruct m; cbn [map fst In] in I; repeat (destruct I as [<-|I]; [cbn; auto 20|]); destruct I.
  - exists f. rewrite EC. split; [exact E|]. rewrite HC in F. cbn [app] in F.
    assert (G : forall k v, In k ["dataset2"; "n_jobs"; "verbose"; "be"] -> (f k = Some v <-> In (k, v) first)).
    { intros k v I. rewrite F. cbn [In]. rewrite in_app_iff. split; [|auto]. intros [Q|[Q|Q]]; auto; exfalso.
      - injection Q as <- _. cbn in I. intuition discriminate.
      - apply (in_map fst) in Q. cbn [fst] in Q. revert Q. apply NP', B. cbn in *; intuition. }
    assert (Z : forall k, In k ["dataset2"; "n_jobs"; "verbose"; "be"] -> (forall v, ~ In (k, v) first) -> f k = None).
    { intros k I H. destruct (f k) as [v|] eqn:Q; auto. apply (G k v I) in Q. destruct (H v Q). }
    split; [apply F; left; auto|]. split; [apply Z; [cbn; auto|]; intros v; unfold first; destruct m; cbn; intuition discriminate|].
    split; [apply G; [cbn; auto|]; unfold first; destruct m; cbn; auto|].
    split; [destruct m; [apply G; [cbn; auto|]; cbn; auto|apply Z; [cbn; auto|]; intros v; cbn; intuition discriminate]|].
    split; [destruct m; [apply G; [cbn; auto|]; cbn; auto|apply Z; [cbn; auto|]; intros v; cbn; intuition discriminate]|].
    intros k Q v. rewrite F. cbn [In]. rewrite in_app_iff, IP. unfold entry. rewrite not_key. apply sil_known in Q. destruct Q as (_ & D1 & D2 & D3 & D4 & D5). split.
    + intros [H|[H|[H _]]]; [congruence| |exact H]. exfalso. unfold first in H. destruct m; cbn [In] in H; repeat (destruct H as [H|H]; [congruence|]); destruct H.
    + intros H. right. right. auto.
Qed.
Print Assumptions C235_silhouette.
(** "verbose" and "be" are parameters of both metrics, but an entry "be", and for "dtw" an entry "verbose", is refused. *)
Theorem C235_refuted A (m : sil_metric) (d : list (string * A)) k v n_jobs verbose be X : is_dict d -> entry d k v -> k = "be" \/ (m = SilDtw /\ k = "verbose") ->
  sil_call A m (Some d) [] n_jobs verbose be X = Err TypeError.
Proof.
  intros N H Hk. assert (I : In k (map fst (sil_params A (Some d) []))).
  { apply (in_map fst (sil_params A (Some d) []) (k, v)). apply (sil_in A (Some d) [] N (NoDup_nil _)). split; [right; split; auto|]. destruct Hk as [->|[_ ->]]; discriminate. }
  destruct m; unfold sil_call; apply bind_twice; intros ND; rewrite map_app in ND; cbn [sil_sig sig_dtw sig_softdtw combine app map fst] in ND.
  - inversion ND as [|? ? _ M1]. inversion M1 as [|? ? _ M2]. inversion M2 as [|? ? Q1 M3]. inversion M3 as [|? ? Q2 _]. destruct Hk as [->|[_ ->]]; [auto|]. apply Q1. right. auto.
  - inversion ND as [|? ? _ M1]. inversion M1 as [|? ? Q1 _]. destruct Hk as [->|[E _]]; [auto|discriminate].
Qed.
Print Assumptions C235_refuted.
Example C235_instance : let mp := Some [("gamma", 1); ("n_jobs", 8)] in let kwds := [("gamma", 2); ("sakoe_chiba_radius", 3)] in
  (is_dict (given mp) /\ is_dict kwds /\ (forall k v, entry (given mp) k v -> sil_knows SilSoftdtw k \/ k = "n_jobs") /\ (forall k v, entry kwds k v -> sil_knows SilSoftdtw k)) /\
  exists f, sil_call nat SilSoftdtw mp kwds 4 5 6 7 = Ok f /\ map f ["dataset1"; "gamma"; "sakoe_chiba_radius"; "n_jobs"; "be"] = [Some 7; Some 2; Some 3; None; Some 6].
Proof.
  cbv zeta. split; [|eexists; split; reflexivity]. split; [unfold is_dict; cbn; nodup_names|]. split; [unfold is_dict; cbn; nodup_names|]. split.
  - intros k v [H|[H|[]]]; injection H as <- <-; auto. left. right. auto.
  - intros k v [H|[H|[]]]; injection H as <- <-; [right; auto|]. left. cbn. auto.
Qed.

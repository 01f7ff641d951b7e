(** C67, C101, C103, C104: forecasts of VARIMA for given coefficients. *)
From Coq Require Import Bool List Arith Lia Reals Lra.
From Verif Require Import Num Py RList ArimaModel ArimaLaws.
Import ListNotations.
Local Open Scope R_scope.

(** ** Specification *)
(** the same model for a series that needs no differencing *)
Definition undifferenced (V : spec) : spec := {| v_p := v_p V; v_d := 0; v_q := v_q V; v_s := 0; v_m := v_m V; v_C := v_C V |}.
(** the series the model is fitted on *)
Definition stationary_part (V : spec) (X : list orow) : list orow := diffs (v_d V) (seasonal (v_s V) X).

(** ** last rows *)
Lemma skipn_skipn_le {A} n m (l : list A) : skipn n (skipn m l) = skipn (m + n) l.
Proof. revert l. induction m as [|m IH]; intros l; cbn; auto. destruct l; [destruct n; auto|apply IH]. Qed.
Lemma last_full V X : full (v_m V) X -> (v_s V + v_d V + v_p V > 0)%nat -> last_timestamps V X = skipn (length X - (v_s V + v_d V + v_p V)) X.
Proof.
  intros HF H. unfold last_timestamps. rewrite (rolled_full V (v_m V)) by auto. destruct (Nat.eqb_spec (Nat.max (Nat.max (v_p V) (v_q V)) (Nat.max (v_d V) (v_s V))) 0); [lia|].
  destruct (Nat.eqb_spec (v_s V + v_d V + v_p V) 0); [lia|auto].
Qed.
Lemma stationary_full V X : full (v_m V) X -> full (v_m V) (stationary_part V X).
Proof. intros H. apply full_diffs, full_seasonal. auto. Qed.
Lemma stationary_len V X : length (stationary_part V X) = (length X - v_s V - v_d V)%nat.
Proof. unfold stationary_part. rewrite diffs_len, seasonal_len. auto. Qed.
Lemma stationary_last V X : full (v_m V) X -> (v_p V > 0)%nat -> (v_s V + v_d V + v_p V <= length X)%nat ->
  diffs (v_d V) (seasonal (v_s V) (last_timestamps V X)) = skipn (length (stationary_part V X) - v_p V) (stationary_part V X).
Proof.
  intros HF Hp HL. rewrite last_full by (auto; lia). rewrite seasonal_skipn, diffs_skipn. rewrite stationary_len. f_equal. lia.
Qed.
(** the forecast of the differenced series, in terms of the whole series *)
Definition raw_forecast (V : spec) (X : list orow) : orow := varma_next (v_m V) (v_C V) (stationary_part V X) (loss_residuals (v_m V) (v_C V) (stationary_part V X)).
Lemma next_tail V X res : shaped V -> full (v_m V) X -> (v_s V + v_d V + v_p V <= length X)%nat ->
  varma_next (v_m V) (v_C V) (diffs (v_d V) (seasonal (v_s V) (last_timestamps V X))) res = varma_next (v_m V) (v_C V) (stationary_part V X) res.
Proof.
  intros (HA & _) HF HL. apply next_last. rewrite HA. intros k Hk. rewrite stationary_last by (auto; lia). rewrite skipn_length, nth_skip. rewrite stationary_len. f_equal. lia.
Qed.
Lemma raw_fin V X : shaped V -> full (v_m V) X -> (min_samples V <= length X)%nat -> fin (v_m V) (raw_forecast V X).
Proof. intros HS HF HL. unfold raw_forecast, min_samples in *. apply next_fin; auto; [rewrite stationary_len; lia|apply stationary_full; auto]. Qed.
Lemma last_nth V X k : full (v_m V) X -> (k < v_s V + v_d V + v_p V)%nat -> (v_s V + v_d V + v_p V <= length X)%nat ->
  nth (length (last_timestamps V X) - 1 - k) (last_timestamps V X) None = nth (length X - 1 - k) X None.
Proof. intros HF Hk HL. rewrite last_full by (auto; lia). rewrite nth_skip, skipn_length. f_equal. lia. Qed.
(** the forecast of the series itself *)
Definition integrate (V : spec) (X : list orow) (e : orow) : orow :=
  let e := if (0 <? v_d V)%nat then oadd e (nth (length X - v_s V - 1) (seasonal (v_s V) X) None) else e in
  if (0 <? v_s V)%nat then oadd e (nth (length X - v_s V) X None) else e.
Lemma sd_nth V X : full (v_m V) X -> (1 <= v_d V)%nat -> (v_s V + v_d V + v_p V <= length X)%nat ->
  nth (length (seasonal (v_s V) (last_timestamps V X)) - 1) (seasonal (v_s V) (last_timestamps V X)) None = nth (length X - v_s V - 1) (seasonal (v_s V) X) None.
Proof.
  intros HF Hd HL. rewrite last_full by (auto; lia). rewrite seasonal_skipn, nth_skip, skipn_length, seasonal_len. f_equal. lia.
Qed.
Lemma predict_one V X : shaped V -> full (v_m V) X -> (min_samples V <= length X)%nat -> predict_fitted V X 1 = [integrate V X (raw_forecast V X)].
Proof.
  intros HS HF HL. unfold min_samples in HL. unfold predict_fitted, predict_from. change (1 <? 1)%nat with false. cbn [forecast]. rewrite next_tail by (auto; lia). fold (stationary_part V X). fold (raw_forecast V X).
  unfold integrate. do 1 f_equal.
  assert (E : (if (0 <? v_d V)%nat then undifference (v_m V) (v_d V) (seasonal (v_s V) (last_timestamps V X)) (raw_forecast V X) else raw_forecast V X)
            = if (0 <? v_d V)%nat then oadd (raw_forecast V X) (nth (length X - v_s V - 1) (seasonal (v_s V) X) None) else raw_forecast V X).
  { destruct (Nat.ltb_spec 0 (v_d V)); auto. rewrite undiff_spec.
    - rewrite sd_nth by (auto; lia). auto.
    - rewrite seasonal_len. rewrite last_full by (auto; lia). rewrite skipn_length. lia.
    - apply full_seasonal. rewrite last_full by (auto; lia). apply full_skipn. auto.
    - apply raw_fin; auto; unfold min_samples; lia. }
  rewrite E. destruct (Nat.ltb_spec 0 (v_s V)); auto. f_equal. pose proof (last_nth V X (v_s V - 1) HF ltac:(lia) ltac:(lia)) as Q.
  rewrite last_full in * by (auto; lia). rewrite skipn_length in *. replace (length X - v_s V)%nat with (length X - 1 - (v_s V - 1))%nat by lia. rewrite <- Q. f_equal. lia.
Qed.

(** ** C67 *)
Lemma last_snoc {A} (l : list A) x d : last (l ++ [x]) d = x.
Proof. apply last_last. Qed.
(** Orders 0 and 1, with or without seasonal differencing: a perfect forecast of the differenced series (what the same model
    predicts for that series) gives a perfect forecast of the series. *)
Theorem C67_integration_partial V X x : shaped V -> (v_d V <= 1)%nat -> full (v_m V) X -> length x = v_m V -> (min_samples V <= length X)%nat ->
  predict_fitted (undifferenced V) (stationary_part V X) 1 = [last (stationary_part V (X ++ [Some x])) None] ->
  predict_fitted V X 1 = [Some x].
Proof.
  intros HS Hd HF Hx HL H. rewrite predict_one by auto. rewrite predict_one in H.
  2:{ exact HS. } 2:{ apply (stationary_full V X). auto. } 2:{ unfold min_samples, undifferenced in *. cbn. rewrite stationary_len. lia. }
  unfold integrate in H. cbn [undifferenced v_d v_s Nat.ltb Nat.leb] in H. injection H as H.
  assert (ER : raw_forecast (undifferenced V) (stationary_part V X) = raw_forecast V X) by reflexivity. rewrite ER in H. rewrite H. unfold min_samples in HL.
  assert (FX : fin (v_m V) (Some x)) by (exists x; auto). unfold integrate, stationary_part.
  assert (J : (v_d V = 0 \/ v_d V = 1)%nat) by lia. destruct J as [E|E]; rewrite E in *; cbn [diffs]; change (0 <? 0)%nat with false; change (0 <? 1)%nat with true; cbn [Nat.ltb].
  - unfold seasonal. destruct (Nat.eqb_spec (v_s V) 0) as [Z|Z]; [rewrite Z; change (0 <? 0)%nat with false|destruct (Nat.ltb_spec 0 (v_s V)); [|lia]].
    + rewrite last_snoc. auto.
    + rewrite lag_snoc by lia. rewrite last_snoc. f_equal. apply (oadd_osub (v_m V)); auto. apply full_nth; auto. lia.
  - assert (ES : seasonal (v_s V) (X ++ [Some x]) = seasonal (v_s V) X ++ [if (0 <? v_s V)%nat then osub (Some x) (nth (length X - v_s V) X None) else Some x]).
    { unfold seasonal. destruct (Nat.eqb_spec (v_s V) 0) as [Z|Z]; [rewrite Z; auto|]. destruct (Nat.ltb_spec 0 (v_s V)); [|lia]. apply lag_snoc. lia. }
    rewrite ES, lag_snoc by (rewrite seasonal_len; lia). rewrite last_snoc, seasonal_len. set (y := if (0 <? v_s V)%nat then osub (Some x) (nth (length X - v_s V) X None) else Some x).
    assert (FY : fin (v_m V) y) by (unfold y; destruct (Nat.ltb_spec 0 (v_s V)); auto; apply fin_osub; auto; apply full_nth; auto; lia).
    rewrite (oadd_osub (v_m V)); auto. 2:{ apply full_nth; [apply full_seasonal; auto|rewrite seasonal_len; lia]. }
    unfold y. destruct (Nat.ltb_spec 0 (v_s V)); auto. f_equal. apply (oadd_osub (v_m V)); auto. apply full_nth; auto. lia.
Qed.
Print Assumptions C67_integration_partial.
(** a straight line 0, 1, 2, ... *)
Definition line (n : nat) : list orow := map (fun t => Some [INR t]) (seq 0 n).
Lemma lag_map (f : nat -> orow) n : lag_diff 1 (map f (seq 0 n)) = map (fun t => osub (f (S t)) (f t)) (seq 0 (n - 1)).
Proof.
  apply orow_ext; [rewrite lag_len, !map_length, !seq_length; auto|]. rewrite lag_len, map_length, seq_length. intros j Hj. rewrite lag_nth.
  assert (G : forall (g : nat -> orow) k i, (i < k)%nat -> nth i (map g (seq 0 k)) None = g i). { intros g k i Hi. rewrite (nth_indep _ None (g 0%nat)) by (rewrite map_length, seq_length; auto). rewrite map_nth, seq_nth; auto. }
  rewrite !G by lia. auto.
Qed.
Lemma diffs_const d c n : (1 <= d)%nat -> diffs d (map (fun _ => Some [c]) (seq 0 n)) = map (fun _ => Some [0]) (seq 0 (n - d)).
Proof.
  revert c n. induction d as [|d IH]; intros c n Hd; [lia|]. cbn [diffs]. rewrite lag_map. cbn. replace (c - c) with 0 by ring. destruct d as [|d]; [cbn; auto|]. rewrite IH by lia. f_equal. f_equal. lia.
Qed.
Lemma diffs_line d n : (2 <= d)%nat -> diffs d (line n) = map (fun _ => Some [0]) (seq 0 (n - d)).
Proof.
  intros Hd. destruct d as [|d]; [lia|]. cbn [diffs]. unfold line. rewrite lag_map. rewrite (map_ext _ (fun _ => Some [1])) by (intros t; cbn [osub]; unfold vsub; cbn [combine map fst snd]; rewrite S_INR; do 2 f_equal; ring).
  rewrite diffs_const by lia. f_equal. f_equal. lia.
Qed.
Lemma full_line n : full 1 (line n).
Proof. intros r Hr. apply in_map_iff in Hr. destruct Hr as (t & <- & _). exists [INR t]. auto. Qed.
(** For every order d >= 2: on a straight line every d-th difference is 0; a model that predicts this 0 forecasts the last value
    again instead of going on along the line. *)
Theorem C67_order2_refuted : forall d, (2 <= d)%nat -> exists V, v_d V = d /\ shaped V /\ forall n, (min_samples V <= n)%nat -> full (v_m V) (line n) /\
  predict_fitted (undifferenced V) (stationary_part V (line n)) 1 = [last (stationary_part V (line n ++ [Some [INR n]])) None] /\
  predict_fitted V (line n) 1 = [Some [INR (n - 1)]] /\ predict_fitted V (line n) 1 <> [Some [INR n]].
Proof.
  intros d Hd. set (V := {| v_p := 0; v_d := d; v_q := 0; v_s := 0; v_m := 1; v_C := {| c_const := []; c_ar := []; c_ma := [] |} |}). exists V. split; auto.
  assert (HS : shaped V) by (unfold shaped, V; cbn; auto). split; auto. intros n Hn. split; [apply full_line|].
  assert (EL : line n ++ [Some [INR n]] = line (S n)) by (unfold line; rewrite seq_S, map_app; auto). rewrite EL.
  assert (ST : forall k, stationary_part V (line k) = map (fun _ => Some [0]) (seq 0 (k - d))) by (intros k; unfold stationary_part; cbn [V v_d v_s seasonal Nat.eqb]; apply diffs_line; auto).
  unfold min_samples, V in Hn. cbn in Hn.
  assert (Z : forall X res, varma_next 1 (v_C V) X res = Some [0]) by (intros; unfold varma_next; cbn; do 2 f_equal; ring).
  assert (P : predict_fitted V (line n) 1 = [Some [INR (n - 1)]]).
  { rewrite predict_one; auto; [|apply full_line|unfold min_samples, V, line; cbn; rewrite map_length, seq_length; lia]. unfold integrate, raw_forecast. change (v_m V) with 1%nat. rewrite Z. cbn [V v_d v_s seasonal Nat.eqb].
    destruct (Nat.ltb_spec 0 d); [|lia]. cbn [Nat.ltb Nat.leb]. unfold line at 1 2. rewrite map_length, seq_length. replace (n - 0 - 1)%nat with (n - 1)%nat by lia.
    rewrite (nth_indep _ None (Some [INR 0])) by (rewrite map_length, seq_length; lia). rewrite (map_nth (fun t => Some [INR t])), seq_nth by lia. cbn. do 2 f_equal. f_equal. ring. }
  split.
  - rewrite predict_one; [|exact HS|apply (stationary_full V); apply full_line|change (min_samples (undifferenced V)) with 1%nat; rewrite ST, map_length, seq_length; lia].
    unfold integrate, raw_forecast. cbn [undifferenced v_d v_s Nat.ltb Nat.leb v_m v_C]. change (v_m V) with 1%nat. rewrite Z, ST.
    replace (S n - d)%nat with (S (n - d)) by lia. rewrite seq_S, map_app. cbn [map]. rewrite last_last. auto.
  - split; auto. rewrite P. intros E. injection E as E. apply INR_eq in E. lia.
Qed.
Print Assumptions C67_order2_refuted.
Example C67_nontrivial : exists V X x, shaped V /\ v_d V = 1%nat /\ v_s V = 2%nat /\ full (v_m V) X /\ length x = v_m V /\ (min_samples V <= length X)%nat /\
  predict_fitted (undifferenced V) (stationary_part V X) 1 = [last (stationary_part V (X ++ [Some x])) None].
Proof.
  set (V := {| v_p := 0; v_d := 1; v_q := 0; v_s := 2; v_m := 1; v_C := {| c_const := [5]; c_ar := []; c_ma := [] |} |}).
  exists V, [Some [1]; Some [4]; Some [2]; Some [9]], [12]. split; [unfold shaped; cbn; auto|]. split; auto. split; auto. split; [intros r [<-|[<-|[<-|[<-|[]]]]]; eexists; split; reflexivity|]. split; auto. split; [cbn; lia|].
  cbn. do 2 f_equal. f_equal. ring.
Qed.

(** ** C101: longer horizons *)
Lemma forecast_multi V dd res sd last : forecast V false 1 dd res sd last = forecast V true 1 dd res sd last.
Proof. reflexivity. Qed.
Lemma forecast_prefix V n : forall k dd res sd last, (k <= n)%nat -> firstn k (forecast V true n dd res sd last) = forecast V true k dd res sd last.
Proof. induction n as [|n IH]; intros [|k] dd res sd last H; auto; [lia|]. cbn [forecast firstn]. f_equal. apply IH. lia. Qed.
Lemma forecast_len V multi n : forall dd res sd last, length (forecast V multi n dd res sd last) = n.
Proof. induction n as [|n IH]; intros; cbn [forecast length]; auto. Qed.
Lemma from_multi V n last res : predict_from V n last res = forecast V true n (diffs (v_d V) (seasonal (v_s V) last)) res (seasonal (v_s V) last) last.
Proof. unfold predict_from. destruct n as [|[|n]]; auto. Qed.
(** The first k of n forecasts are the forecasts with horizon k, for every series (padded or not) and all orders. *)
Theorem C101_horizon V X k n : (k <= n)%nat -> firstn k (predict_fitted V X n) = predict_fitted V X k /\ length (predict_fitted V X n) = n /\
  forall f, predict_given V X n = Ok f -> predict_given V X k = Ok (firstn k f).
Proof.
  intros H. unfold predict_fitted, predict_given. rewrite !from_multi. split; [apply forecast_prefix; auto|]. split.
  - apply forecast_len.
  - intros f Hf. destruct (_ <? _)%nat; [discriminate|]. injection Hf as <-. rewrite forecast_prefix by auto. auto.
Qed.
Print Assumptions C101_horizon.

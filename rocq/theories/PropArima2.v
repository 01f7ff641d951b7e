(** C69, C103, C104: coefficients of a fit without moving average; forecasts from stored and from given data; iterated forecasts. *)
From Coq Require Import Bool List Arith Lia Reals Lra.
From Verif Require Import Num Py RList ArimaModel ArimaLaws PropArima.
Import ListNotations.
Local Open Scope R_scope.

(** ** residuals of longer series *)
Definition start (C : coefs) : nat := Nat.max (length (c_ar C)) (length (c_ma C)).
Lemma fold_ext {A B} (f g : A -> B -> A) l : (forall a x, In x l -> f a x = g a x) -> forall a, fold_left f l a = fold_left g l a.
Proof. induction l as [|x l IH]; intros H a; auto. cbn. rewrite H by (left; auto). apply IH. intros; apply H; right; auto. Qed.
Lemma fold_id {A B} (f : A -> B -> A) l : (forall a x, In x l -> f a x = a) -> forall a, fold_left f l a = a.
Proof. induction l as [|x l IH]; intros H a; auto. cbn. rewrite H by (left; auto). apply IH. intros; apply H; right; auto. Qed.
Lemma slice_app {A} a b (l l' : list A) : (b <= length l)%nat -> slice a b (l ++ l') = slice a b l.
Proof.
  intros H. unfold slice. destruct (Nat.le_gt_cases a (length l)).
  - rewrite skipn_app, firstn_app, skipn_length. replace (b - a - (length l - a))%nat with 0%nat by lia. rewrite firstn_O, app_nil_r. auto.
  - replace (b - a)%nat with 0%nat by lia. auto.
Qed.
Lemma slice_shift {A} a b k (pad l : list A) : length pad = k -> slice (k + a) (k + b) (pad ++ l) = slice a b l.
Proof.
  intros <-. unfold slice. replace (length pad + b - (length pad + a))%nat with (b - a)%nat by lia. f_equal. rewrite skipn_app.
  replace (length pad + a - length pad)%nat with a by lia. rewrite skipn_all2 by lia. auto.
Qed.
Lemma step_app m C (X Y : list orow) res i : (i < length X)%nat -> residual_step m C (X ++ Y) res i = residual_step m C X res i.
Proof. intros H. unfold residual_step. rewrite app_nth1 by auto. rewrite slice_app by lia. auto. Qed.
Lemma residuals_snoc m C (X : list orow) x : (start C <= length X)%nat -> loss_residuals m C (X ++ [x]) = residual_step m C (X ++ [x]) (loss_residuals m C X) (length X).
Proof.
  intros H. unfold loss_residuals. fold (start C). rewrite app_length. cbn [length]. replace (length X + 1 - start C)%nat with (S (length X - start C)) by lia. rewrite seq_S, fold_left_app. cbn [fold_left].
  replace (start C + (length X - start C))%nat with (length X) by lia. f_equal. apply fold_ext. intros r i Hi. apply in_seq in Hi. apply step_app. lia.
Qed.
Lemma nth_first {A} i j (l : list A) d : (j < i)%nat -> nth j (firstn i l) d = nth j l d.
Proof. revert j l. induction i as [|i IH]; intros [|j] [|x l] H; auto; try lia. cbn. apply IH. lia. Qed.
Lemma slice_window m C (X : list orow) i res : (start C <= i <= length X)%nat -> varma_next m C (slice (i - start C) i X) res = varma_next m C (firstn i X) res.
Proof.
  intros H. apply next_last. intros k Hk. rewrite slice_length, firstn_length. unfold start in *. set (s := Nat.max _ _) in *. assert (k < s)%nat by lia.
  rewrite slice_nth by lia. rewrite nth_first by lia. f_equal. lia.
Qed.

(** ** C103 *)
(** [fit] then [predict()], and [fit] then [predict(X)] on the same data, for one series [x] padded with [k] missing rows. *)
Lemma lag_pad_end s (x : list orow) k : lag_diff s (x ++ @repeat orow None k) = lag_diff s x ++ @repeat orow None (length x + k - s - (length x - s)).
Proof.
  apply orow_ext; [rewrite app_length, !lag_len, app_length, !repeat_length; lia|]. rewrite lag_len, app_length, repeat_length. intros j Hj. rewrite lag_nth.
  destruct (Nat.lt_ge_cases j (length x - s)) as [A|A].
  - rewrite (app_nth1 (lag_diff s x)) by (rewrite lag_len; lia). rewrite lag_nth, !app_nth1 by lia. auto.
  - rewrite (app_nth2 (lag_diff s x)) by (rewrite lag_len; lia). rewrite (app_nth2 x) by lia. rewrite !nth_repeat. auto.
Qed.
Lemma lag_pad_front s (x : list orow) k : (s <= length x)%nat -> lag_diff s (@repeat orow None k ++ x) = @repeat orow None k ++ lag_diff s x.
Proof.
  intros Hs. apply orow_ext; [rewrite app_length, !lag_len, app_length, !repeat_length; lia|]. rewrite lag_len, app_length, repeat_length. intros j Hj. rewrite lag_nth.
  destruct (Nat.lt_ge_cases j k) as [A|A].
  - rewrite !(app_nth1 (@repeat orow None k)) with (n := j) by (rewrite repeat_length; lia). rewrite !nth_repeat. destruct (nth (s + j) _ _); auto.
  - rewrite !app_nth2 by (rewrite repeat_length; lia). rewrite !repeat_length, lag_nth. f_equal. f_equal. lia.
Qed.
Lemma stationary_pad_end V (x : list orow) k : (v_s V + v_d V <= length x)%nat -> stationary_part V (x ++ @repeat orow None k) = stationary_part V x ++ @repeat orow None k.
Proof.
  intros H. unfold stationary_part. assert (D : forall d y, (d <= length y)%nat -> diffs d (y ++ @repeat orow None k) = diffs d y ++ @repeat orow None k).
  { induction d as [|d IH]; intros y Hy; cbn [diffs]; auto. rewrite lag_pad_end. replace (length y + k - 1 - (length y - 1))%nat with k by lia. apply IH. rewrite lag_len. lia. }
  assert (S : seasonal (v_s V) (x ++ @repeat orow None k) = seasonal (v_s V) x ++ @repeat orow None k).
  { unfold seasonal. destruct (v_s V =? 0)%nat; auto. rewrite lag_pad_end. do 2 f_equal. lia. }
  rewrite S. apply D. rewrite seasonal_len. lia.
Qed.
Lemma stationary_pad_front V (x : list orow) k : (v_s V + v_d V <= length x)%nat -> stationary_part V (@repeat orow None k ++ x) = @repeat orow None k ++ stationary_part V x.
Proof.
  intros H. unfold stationary_part. assert (D : forall d y, (d <= length y)%nat -> diffs d (@repeat orow None k ++ y) = @repeat orow None k ++ diffs d y).
  { induction d as [|d IH]; intros y Hy; cbn [diffs]; auto. rewrite lag_pad_front by lia. apply IH. rewrite lag_len. lia. }
  assert (S : seasonal (v_s V) (@repeat orow None k ++ x) = @repeat orow None k ++ seasonal (v_s V) x).
  { unfold seasonal. destruct (v_s V =? 0)%nat; auto. apply lag_pad_front. lia. }
  rewrite S. apply D. rewrite seasonal_len. lia.
Qed.
Lemma residuals_pad_end m C (y : list orow) k : loss_residuals m C (y ++ @repeat orow None k) = loss_residuals m C y.
Proof.
  unfold loss_residuals. fold (start C). rewrite app_length, repeat_length.
  destruct (Nat.le_gt_cases (start C) (length y)) as [H|H].
  - replace (length y + k - start C)%nat with ((length y - start C) + k)%nat by lia. rewrite seq_app, fold_left_app. rewrite fold_id.
    + apply fold_ext. intros r i Hi. apply in_seq in Hi. apply step_app. lia.
    + intros r i Hi. apply in_seq in Hi. unfold residual_step. rewrite app_nth2 by lia. rewrite nth_repeat. auto.
  - replace (length y - start C)%nat with 0%nat by lia. cbn [seq fold_left]. apply fold_id. intros r i Hi. apply in_seq in Hi. unfold residual_step. rewrite app_nth2 by lia. rewrite nth_repeat. auto.
Qed.
Lemma residuals_pad_front m C (y : list orow) k : (length (c_ma C) <= length (c_ar C))%nat -> (length (c_ar C) <= length y)%nat -> loss_residuals m C (@repeat orow None k ++ y) = loss_residuals m C y.
Proof.
  intros HQ HY. unfold loss_residuals. fold (start C). assert (ES : start C = length (c_ar C)) by (unfold start; lia). rewrite app_length, repeat_length.
  replace (k + length y - start C)%nat with (k + (length y - start C))%nat by lia. rewrite seq_app, fold_left_app.
  rewrite (fold_id (residual_step m C (@repeat orow None k ++ y)) (seq (start C) k)).
  - replace (seq (start C + k) (length y - start C)) with (map (fun i => (k + i)%nat) (seq (start C) (length y - start C))).
    + generalize (repeat (vzero m) (length (c_ma C))). assert (G : forall l r, (forall i, In i l -> (start C <= i)%nat) -> fold_left (residual_step m C (@repeat orow None k ++ y)) (map (fun i => (k + i)%nat) l) r = fold_left (residual_step m C y) l r).
      { induction l as [|i l IH]; intros r Hl; auto. cbn [map fold_left]. rewrite IH by (intros; apply Hl; right; auto). f_equal. specialize (Hl i (or_introl eq_refl)).
        unfold residual_step. fold (start C). rewrite app_nth2 by (rewrite repeat_length; lia). rewrite repeat_length. replace (k + i - k)%nat with i by lia.
        replace (k + i - start C)%nat with (k + (i - start C))%nat by lia. rewrite slice_shift by apply repeat_length. auto. }
      intros r. apply G. intros i Hi. apply in_seq in Hi. lia.
    + clear. generalize (start C) at 1 3. generalize (length y - start C)%nat. intros n. induction n as [|n IH]; intros a; auto. cbn [seq map]. f_equal; [lia|]. rewrite IH. auto.
  - intros r i Hi. apply in_seq in Hi. unfold residual_step. fold (start C). destruct (Nat.lt_ge_cases i k) as [A|A].
    + rewrite app_nth1 by (rewrite repeat_length; auto). rewrite nth_repeat. auto.
    + rewrite (next_nan m C _ r (i - k)); [destruct (nth i _ _); auto|lia|]. rewrite slice_length, app_length, repeat_length. rewrite slice_nth by lia.
      rewrite app_nth1 by (rewrite repeat_length; lia). apply nth_repeat.
Qed.
(** Forecasts from the data kept by [fit] are the forecasts for the training data given again: for complete series, and for padded
    ones if q <= p. *)
Theorem C103_refit_partial V (x : list orow) k n : shaped V -> full (v_m V) x -> (min_samples V <= length x)%nat -> (k = 0 \/ v_q V <= v_p V)%nat ->
  predict_given V (x ++ @repeat orow None k) n = Ok (predict_fitted V (x ++ @repeat orow None k) n).
Proof.
  intros (HA & HM & _) HF HL HK. unfold predict_given, predict_fitted, min_samples in *. unfold ts_size at 1. rewrite (trim_padded (v_m V)) by auto. destruct (Nat.ltb_spec (length x) (v_p V + v_q V + v_d V + 1 + v_s V)); [lia|].
  do 2 f_equal. change (loss_residuals (v_m V) (v_C V) (stationary_part V (rolled V (x ++ @repeat orow None k))) = loss_residuals (v_m V) (v_C V) (stationary_part V (x ++ @repeat orow None k))).
  unfold rolled. destruct (_ =? 0)%nat; auto. unfold ts_size. rewrite (trim_padded (v_m V)) by auto. rewrite skipn_app, skipn_all, Nat.sub_diag. cbn [skipn app]. rewrite firstn_app, firstn_all, Nat.sub_diag, firstn_O, app_nil_r.
  rewrite stationary_pad_front, stationary_pad_end by lia. rewrite residuals_pad_end. destruct HK as [->|HK]; [auto|].
  apply residuals_pad_front; [lia|]. rewrite HA, stationary_len. lia.
Qed.
Print Assumptions C103_refit_partial.
(** With q > p a padded series gets other forecasts: [predict(X)] evaluates residuals at times [fit] leaves out. *)
Theorem C103_padded_refuted : exists V x, shaped V /\ full (v_m V) x /\ (min_samples V <= length x)%nat /\
  predict_fitted V (x ++ [None]) 1 = [Some [0]] /\ predict_given V (x ++ [None]) 1 = Ok [Some [-1]].
Proof.
  exists {| v_p := 0; v_d := 0; v_q := 1; v_s := 0; v_m := 1; v_C := {| c_const := []; c_ar := []; c_ma := [[[1]]] |} |}, [Some [1]; Some [0]].
  split; [unfold shaped; cbn; auto|]. split; [intros r [<-|[<-|[]]]; eexists; split; reflexivity|]. split; [cbn; lia|]. split; cbn; repeat f_equal; lra.
Qed.
Print Assumptions C103_padded_refuted.

(** ** C104 *)
Definition wf_state (V : spec) (X : list orow) : Prop := full (v_m V) X /\ (min_samples V <= length X)%nat.
Lemma integrate_fin V X e : full (v_m V) X -> (min_samples V <= length X)%nat -> fin (v_m V) e -> fin (v_m V) (integrate V X e).
Proof.
  intros HF HL He. unfold min_samples in HL. unfold integrate. assert (F1 : fin (v_m V) (if (0 <? v_d V)%nat then oadd e (nth (length X - v_s V - 1) (seasonal (v_s V) X) None) else e)).
  { destruct (Nat.ltb_spec 0 (v_d V)); auto. apply fin_oadd; auto. apply full_nth; [apply full_seasonal; auto|rewrite seasonal_len; lia]. }
  destruct (Nat.ltb_spec 0 (v_s V)); auto. apply fin_oadd; auto. apply full_nth; auto. lia.
Qed.
(** the differenced series, extended by a forecast *)
Lemma stationary_extended V X e : (v_d V <= 1)%nat -> full (v_m V) X -> (min_samples V <= length X)%nat -> fin (v_m V) e ->
  stationary_part V (X ++ [integrate V X e]) = stationary_part V X ++ [e].
Proof.
  intros Hd HF HL He. unfold min_samples in HL. unfold stationary_part, integrate. set (e1 := if (0 <? v_d V)%nat then _ else e).
  assert (F1 : fin (v_m V) e1). { unfold e1. destruct (Nat.ltb_spec 0 (v_d V)); auto. apply fin_oadd; auto. apply full_nth; [apply full_seasonal; auto|rewrite seasonal_len; lia]. }
  assert (ES : seasonal (v_s V) (X ++ [if (0 <? v_s V)%nat then oadd e1 (nth (length X - v_s V) X None) else e1]) = seasonal (v_s V) X ++ [e1]).
  { unfold seasonal. destruct (Nat.eqb_spec (v_s V) 0) as [Z|Z]; [rewrite Z; auto|]. destruct (Nat.ltb_spec 0 (v_s V)); [|lia]. rewrite lag_snoc by lia. do 2 f_equal. apply (osub_oadd (v_m V)); auto. apply full_nth; auto. lia. }
  rewrite ES. unfold e1. assert (J : (v_d V = 0 \/ v_d V = 1)%nat) by lia. destruct J as [E|E]; rewrite E; cbn [diffs]; auto. change (0 <? 1)%nat with true. cbv iota.
  rewrite lag_snoc by (rewrite seasonal_len; lia). rewrite seasonal_len. do 2 f_equal. apply (osub_oadd (v_m V)); auto. apply full_nth; [apply full_seasonal; auto|rewrite seasonal_len; lia].
Qed.
Lemma residuals_extended V X : shaped V -> full (v_m V) X -> (min_samples V <= length X)%nat ->
  loss_residuals (v_m V) (v_C V) (stationary_part V X ++ [raw_forecast V X]) =
  if (0 <? v_q V)%nat then tl (loss_residuals (v_m V) (v_C V) (stationary_part V X)) ++ [vzero (v_m V)] else loss_residuals (v_m V) (v_C V) (stationary_part V X).
Proof.
  intros HS HF HL. pose proof (raw_fin V X HS HF HL) as (v & EV & LV). pose proof HS as (HA & HM & _). unfold min_samples in HL. assert (LS : (start (v_C V) <= length (stationary_part V X))%nat) by (unfold start; rewrite stationary_len; lia).
  rewrite residuals_snoc by auto. unfold residual_step. fold (start (v_C V)). rewrite slice_window by (rewrite app_length; cbn; lia).
  rewrite firstn_app, firstn_all, Nat.sub_diag, firstn_O, app_nil_r. rewrite app_nth2, Nat.sub_diag by lia. cbn [nth]. fold (raw_forecast V X). rewrite EV. cbn [osub]. rewrite HM, vsub_self, LV. auto.
Qed.
(** what the loop of [predict] reads *)
Lemma forecast_reads V multi n : forall dd dd' res res' sd sd' last last', shaped V ->
  (v_p V = 0%nat \/ dd = dd') -> (v_q V = 0%nat \/ res = res') -> (v_d V = 0%nat \/ sd = sd') -> (v_s V = 0%nat \/ last = last') ->
  forecast V multi n dd res sd last = forecast V multi n dd' res' sd' last'.
Proof.
  induction n as [|n IH]; intros dd dd' res res' sd sd' last last' HS Hp Hq Hd Hs; auto. cbn [forecast].
  assert (EN : varma_next (v_m V) (v_C V) dd res = varma_next (v_m V) (v_C V) dd' res').
  { destruct HS as (HA & HM & _). transitivity (varma_next (v_m V) (v_C V) dd' res).
    - destruct Hp as [Z| ->]; auto. apply next_last. rewrite HA, Z. lia.
    - destruct Hq as [Z| ->]; auto. unfold varma_next. rewrite HM, Z. auto. }
  rewrite <- EN. set (e := varma_next _ _ dd res).
  assert (E1 : (if (0 <? v_d V)%nat then undifference (v_m V) (v_d V) sd e else e) = if (0 <? v_d V)%nat then undifference (v_m V) (v_d V) sd' e else e) by (destruct Hd as [->| ->]; auto).
  rewrite <- E1. set (e1 := if (0 <? v_d V)%nat then undifference (v_m V) (v_d V) sd e else e).
  assert (E2 : (if (0 <? v_s V)%nat then oadd e1 (nth (length last - v_s V) last None) else e1) = if (0 <? v_s V)%nat then oadd e1 (nth (length last' - v_s V) last' None) else e1) by (destruct Hs as [->| ->]; auto).
  rewrite <- E2. f_equal. apply IH; auto.
  - destruct Hp as [->| ->]; auto.
  - destruct Hq as [->| ->]; auto.
  - destruct Hd as [->| ->]; auto.
  - destruct Hs as [->| ->]; auto.
Qed.
Lemma last_extended V X e : full (v_m V) X -> fin (v_m V) e -> (0 < v_s V + v_d V + v_p V <= length X)%nat -> last_timestamps V (X ++ [e]) = tl (last_timestamps V X) ++ [e].
Proof.
  intros HF He HL. rewrite !last_full by (auto; try lia; apply full_app; auto; apply full_one; auto). rewrite app_length. cbn [length]. set (a := (v_s V + v_d V + v_p V)%nat) in *.
  replace (length X + 1 - a)%nat with (S (length X - a)) by lia. rewrite skipn_app. replace (S (length X - a) - length X)%nat with 0%nat by lia. change (skipn 0 [e]) with [e]. f_equal.
  replace (S (length X - a)) with ((length X - a) + 1)%nat by lia. rewrite <- skipn_skipn_le. destruct (skipn (length X - a) X); auto.
Qed.
(** The forecast for step n+1 is the one-step forecast from the series extended by the first n forecasts. *)
Lemma forecast_iterate V n : shaped V -> (v_d V <= 1)%nat -> forall X, full (v_m V) X -> (min_samples V <= length X)%nat ->
  predict_fitted V X (S n) = integrate V X (raw_forecast V X) :: predict_fitted V (X ++ [integrate V X (raw_forecast V X)]) n.
Proof.
  intros HS Hd X HF HL. pose proof (predict_one V X HS HF HL) as P1. pose proof (raw_fin V X HS HF HL) as FR. set (e := raw_forecast V X) in *. set (x := integrate V X e) in *.
  assert (FX : fin (v_m V) x) by (apply integrate_fin; auto). pose proof (stationary_extended V X e Hd HF HL FR) as SE. fold x in SE.
  unfold predict_fitted in *. rewrite !from_multi in *. cbn [forecast] in P1 |- *. injection P1 as P1. rewrite P1. f_equal. unfold min_samples in HL.
  assert (EN : varma_next (v_m V) (v_C V) (diffs (v_d V) (seasonal (v_s V) (last_timestamps V X))) (loss_residuals (v_m V) (v_C V) (diffs (v_d V) (seasonal (v_s V) X))) = e) by (rewrite next_tail by (auto; lia); reflexivity).
  rewrite EN in *. fold (stationary_part V X). fold (stationary_part V (X ++ [x])).
  assert (EXT : full (v_m V) (X ++ [x])) by (apply full_app; auto; apply full_one; auto).
  apply forecast_reads; auto.
  - destruct (Nat.eq_dec (v_p V) 0) as [Z|Z]; auto. right. destruct (Nat.ltb_spec 0 (v_p V)); [|lia]. cbn [andb]. rewrite !stationary_last by (auto; rewrite ?app_length; cbn; lia).
    rewrite SE, app_length. cbn [length]. assert (LS : (v_p V <= length (stationary_part V X))%nat) by (rewrite stationary_len; lia). set (Y := stationary_part V X) in *.
    replace (length Y + 1 - v_p V)%nat with ((length Y - v_p V) + 1)%nat by lia. rewrite <- skipn_skipn_le. rewrite skipn_app. replace (length Y - v_p V - length Y)%nat with 0%nat by lia. cbn [skipn].
    assert (L0 : length (skipn (length Y - v_p V) Y) = v_p V) by (rewrite skipn_length; lia). destruct (skipn (length Y - v_p V) Y); [cbn in L0; lia|]. auto.
  - right. rewrite SE. unfold e. rewrite residuals_extended by (auto; unfold min_samples; lia). rewrite andb_true_r. auto.
  - destruct (Nat.eq_dec (v_d V) 0) as [Z|Z]; auto. right. assert (E1 : v_d V = 1%nat) by lia. rewrite E1 in *. change (0 <? 1)%nat with true in *. cbn [andb] in *. cbv iota in *.
    rewrite last_extended by (auto; lia). assert (LL : length (last_timestamps V X) = (v_s V + 1 + v_p V)%nat) by (rewrite last_full by (auto; lia); rewrite skipn_length, E1; lia).
    assert (FLast : full (v_m V) (last_timestamps V X)) by (rewrite last_full by (auto; lia); apply full_skipn; auto).
    set (u := undifference (v_m V) 1 (seasonal (v_s V) (last_timestamps V X)) e) in *.
    assert (FU : fin (v_m V) u). { unfold u. rewrite undiff_spec; auto; [|rewrite seasonal_len; lia|apply full_seasonal; auto]. apply fin_oadd; auto. apply full_nth; [apply full_seasonal; auto|rewrite seasonal_len; lia]. }
    unfold seasonal. destruct (Nat.eqb_spec (v_s V) 0) as [Z0|Z0].
    + rewrite Z0 in P1. change (0 <? 0)%nat with false in P1. cbv iota in P1. rewrite P1. auto.
    + rewrite lag_slide by lia. do 2 f_equal. destruct (Nat.ltb_spec 0 (v_s V)) in P1; [|lia]. rewrite <- P1. symmetry. apply (osub_oadd (v_m V)); auto. apply full_nth; auto. lia.
  - destruct (Nat.eq_dec (v_s V) 0) as [Z|Z]; auto. right. destruct (Nat.ltb_spec 0 (v_s V)); [|lia]. cbn [andb]. symmetry. apply last_extended; auto. lia.
Qed.
Theorem C104_iterated_partial V X n : shaped V -> (v_d V <= 1)%nat -> full (v_m V) X -> (min_samples V <= length X)%nat ->
  predict_fitted V X (S n) = predict_fitted V X n ++ predict_fitted V (X ++ predict_fitted V X n) 1.
Proof.
  intros HS Hd. revert X. induction n as [|n IH]; intros X HF HL; [cbn [app]; unfold predict_fitted at 2 3; cbn; rewrite app_nil_r; auto|].
  rewrite (forecast_iterate V (S n) HS Hd X HF HL). rewrite (forecast_iterate V n HS Hd X HF HL). cbn [app]. f_equal.
  set (x := integrate V X (raw_forecast V X)) in *. rewrite IH; [rewrite <- app_assoc; auto| |rewrite app_length; cbn; lia].
  apply full_app; auto. apply full_one. apply integrate_fin; auto. apply raw_fin; auto.
Qed.
Print Assumptions C104_iterated_partial.
(** d = 2: not so *)
Theorem C104_order2_refuted : exists V X, shaped V /\ v_d V = 2%nat /\ full (v_m V) X /\ (min_samples V <= length X)%nat /\
  predict_fitted V X 2 = [Some [2]; Some [3]] /\ predict_fitted V (X ++ predict_fitted V X 1) 1 = [Some [2]].
Proof.
  set (V := {| v_p := 1; v_d := 2; v_q := 0; v_s := 0; v_m := 1; v_C := {| c_const := []; c_ar := [[[1]]]; c_ma := [] |} |}). set (X := [Some [0]; Some [0]; Some [0]; Some [1]]).
  assert (HS : shaped V) by (unfold shaped; cbn; auto). assert (HF : full 1 X) by (intros r [<-|[<-|[<-|[<-|[]]]]]; eexists; split; reflexivity).
  assert (U0 : undiff_coef 2 0 = 0) by (unfold undiff_coef; cbn; ring). assert (U1 : undiff_coef 2 1 = -1) by (unfold undiff_coef; cbn; ring).
  assert (P1 : predict_fitted V X 1 = [Some [2]]) by (cbn; rewrite ?U0, ?U1; match goal with |- [Some [?a]] = [Some [?b]] => replace a with b by ring; reflexivity end).
  exists V, X. split; auto. split; auto. split; [exact HF|]. split; [cbn; lia|]. split; [|rewrite P1]; cbn; rewrite ?U0, ?U1.
  - match goal with |- [Some [?a]; Some [?b]] = [Some [?c]; Some [?d]] => replace b with d by ring; replace a with c by ring; reflexivity end.
  - match goal with |- [Some [?a]] = [Some [?b]] => replace a with b by ring; reflexivity end.
Qed.
Print Assumptions C104_order2_refuted.
Example C104_nontrivial : exists V X, shaped V /\ v_d V = 1%nat /\ v_s V = 2%nat /\ v_q V = 1%nat /\ v_p V = 1%nat /\ full (v_m V) X /\ (min_samples V <= length X)%nat.
Proof.
  exists {| v_p := 1; v_d := 1; v_q := 1; v_s := 2; v_m := 2; v_C := {| c_const := [5; 1]; c_ar := [[[1; 0]; [2; 1]]]; c_ma := [[[1; 1]; [0; 1]]] |} |}, (repeat (Some [1; 2]) 7).
  split; [unfold shaped; cbn; auto|]. do 4 (split; [reflexivity|]). split; [|cbn; lia]. intros r Hr. apply repeat_spec in Hr. subst. eexists. split; reflexivity.
Qed.

(** ** C69 *)
(** Specification: the average over the series of the least squares coefficient of feature [i] at lag [k+1] for feature [j] *)
Definition estimated (m : nat) (lstsq : list (list row)) (k i j : nat) : R := rsum (map (fun A => nth j (nth (k * m + i) A []) 0) lstsq) / INR (length lstsq).
Lemma concat_nth {A} (w : nat) (l : list (list A)) q r d : (forall x, In x l -> length x = w) -> (r < w)%nat -> nth (q * w + r) (concat l) d = nth r (nth q l []) d.
Proof.
  revert q. induction l as [|x l IH]; intros q H Hr.
  - cbn [concat]. transitivity d; [destruct (q * w + r)%nat; auto|destruct q, r; auto].
  - cbn [concat]. pose proof (H x (or_introl eq_refl)) as Lx. destruct q as [|q]; cbn [nth]; [rewrite app_nth1 by lia; auto|]. rewrite app_nth2 by lia. rewrite Lx. replace (S q * w + r - w)%nat with (q * w + r)%nat by lia. apply IH; auto. intros; apply H; right; auto.
Qed.
Lemma map_seq_nth' {A} (f : nat -> A) n j d : (j < n)%nat -> nth j (map f (seq 0 n)) d = f j.
Proof. intros H. rewrite (nth_indep _ d (f 0%nat)) by (rewrite map_length, seq_length; auto). rewrite map_nth, seq_nth; auto. Qed.
(** which estimated coefficient ends up where *)
Lemma ar_entry p m L k i j : (k < p)%nat -> (i < m)%nat -> (j < m)%nat -> (forall A, In A L -> length A = (p * m)%nat) ->
  let idx := ((k * m + i) * m + j)%nat in
  nth j (nth i (nth k (ar_of_lstsq p m L) []) []) 0 = rsum (map (fun A => nth (idx / (p * m)) (nth (idx mod (p * m)) A []) 0) L) / INR (length L).
Proof.
  intros Hk Hi Hj HL idx. unfold ar_of_lstsq, reshape3. rewrite map_seq_nth' by auto. rewrite map_seq_nth' by auto. rewrite slice_nth by nia. fold idx.
  assert (HI : (idx < m * (m * p))%nat) by (unfold idx; nia). unfold mean_params. rewrite map_seq_nth' by auto. rewrite map_map, map_length. f_equal. apply rsum_map_ext. intros A HA. unfold ravel_t.
  assert (W : (p * m <> 0)%nat) by nia. rewrite (Nat.div_mod idx (p * m) W) at 1. rewrite (Nat.mul_comm (p * m)). rewrite concat_nth.
  - rewrite map_seq_nth' by (apply Nat.div_lt_upper_bound; nia). pose proof (Nat.mod_upper_bound idx (p * m) W). set (c := (idx / (p * m))%nat). set (f := fun r : row => nth c r 0).
    rewrite (nth_indep _ 0 (f [])) by (rewrite map_length, HL; auto). rewrite map_nth. reflexivity.
  - intros x Hx. apply in_map_iff in Hx. destruct Hx as (q & <- & _). rewrite map_length. auto.
  - apply Nat.mod_upper_bound. auto.
Qed.
(** One feature: the coefficients are applied as estimated. *)
Theorem C69_univariate_partial p L k : (k < p)%nat -> (forall A, In A L -> length A = p) -> nth 0 (nth 0 (nth k (ar_of_lstsq p 1 L) []) []) 0 = estimated 1 L k 0 0.
Proof.
  intros Hk HL. rewrite ar_entry by (auto; try lia; intros; rewrite HL; auto; lia). unfold estimated. rewrite !Nat.mul_1_r, !Nat.add_0_r. rewrite Nat.div_small, Nat.mod_small by auto. auto.
Qed.
Print Assumptions C69_univariate_partial.
(** Several features and one lag: the matrix applied is the transpose of the one estimated. *)
Theorem C69_transposed_refuted : (forall m L i j, (i < m)%nat -> (j < m)%nat -> (forall A, In A L -> length A = m) ->
    nth j (nth i (nth 0 (ar_of_lstsq 1 m L) []) []) 0 = estimated m L 0 j i) /\
  (* a series that follows x_t = x_{t-1} A exactly, so that least squares finds A: the forecast is wrong *)
  exists A X next, let V := {| v_p := 1; v_d := 0; v_q := 0; v_s := 0; v_m := 2; v_C := {| c_const := []; c_ar := ar_of_lstsq 1 2 [A]; c_ma := [] |} |} in
    (forall t, (S t < length (X ++ [next]))%nat -> nth (S t) (X ++ [next]) [] = vmat 2 (nth t (X ++ [next]) []) A) /\ (min_samples V <= length X)%nat /\ shaped V /\
    predict_fitted V (map Some X) 1 = [Some [-1; 0]] /\ next = [1; 0].
Proof.
  split.
  - intros m L i j Hi Hj HL. rewrite ar_entry by (auto; try lia; intros; rewrite HL; auto; lia). unfold estimated. cbn [Nat.mul Nat.add]. rewrite Nat.add_0_r.
    replace ((i * m + j) / m)%nat with i by (apply Nat.div_unique with j; lia). replace ((i * m + j) mod m)%nat with j by (apply Nat.mod_unique with i; lia). auto.
  - set (A := [[0; 1]; [-1; 0]] : list row). exists A, [[1; 0]; [0; 1]; [-1; 0]; [0; -1]], [1; 0]. cbv zeta.
    assert (EA : ar_of_lstsq 1 2 [A] = [[[0; -1]; [1; 0]]]) by (unfold A, ar_of_lstsq, reshape3, mean_params, ravel_t, slice; cbn; repeat f_equal; field).
    split; [intros [|[|[|[|t]]]] Ht; cbn in Ht; try lia; cbn; f_equal; try ring; f_equal; ring|]. split; [cbn; lia|]. split; [unfold shaped; cbn; auto|]. split; auto.
    rewrite EA. cbn. match goal with |- [Some [?a; ?b]] = [Some [?c; ?d]] => replace b with d by ring; replace a with c by ring; reflexivity end.
Qed.
Print Assumptions C69_transposed_refuted.

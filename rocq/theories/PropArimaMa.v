(** C231: the moving average of VARIMA: which errors it uses, and the coefficients the optimiser starts from. *)
From Coq Require Import Bool List Arith Lia Reals Lra.
From Verif Require Import Num Py RList ArimaModel ArimaLaws PropArima PropArima2.
Import ListNotations.
Local Open Scope R_scope.

(** ** model: the start values, l.279-324 *)
(** l.42 [Z = [X[t - p : t][::-1].ravel() ...]]: one row of regressors, the most recent time first *)
Definition regressors (p : nat) (X : list row) (t : nat) : row := concat (rev (slice (t - p) t X)).
(** l.290-300 [_default_params_per_ts]: [const] is [] without constant; [A] and [M] are the results of [numpy.linalg.lstsq] for the
    series and for the residuals of that fit (arbitrary matrices here) *)
Definition start_per_ts (m : nat) (s : row * list row * list row) : list R := let '(const, A, M) := s in const ++ ravel_t m A ++ ravel_t m M.
(** l.279-288 [_default_params] *)
Definition start_params (m p q : nat) (with_constant : bool) (L : list (row * list row * list row)) : list R :=
  mean_params ((if with_constant then m else 0) + (m * (m * p) + m * (m * q))) (map (start_per_ts m) L).
(** l.302-324 [_unravel_params] *)
Definition unravel (m p q : nat) (with_constant : bool) (params : list R) : coefs :=
  let const := if with_constant then firstn m params else [] in
  let params := if with_constant then skipn m params else params in
  let ar := if (0 <? p)%nat then reshape3 p m (firstn (m * (m * p)) params) else [] in
  let params := if (0 <? p)%nat then skipn (m * (m * p)) params else params in
  let ma := if (0 <? q)%nat then reshape3 q m (firstn (m * (m * q)) params) else [] in
  {| c_const := const; c_ar := ar; c_ma := ma |}.

(** ** specification: one feature *)
Definition sum_to (n : nat) (f : nat -> R) : R := rsum (map f (seq 0 n)).
(** the errors of the one-step forecasts of [x]: nothing is forecast before time max(p, q); from then on
    x_t = c + a_0 x_{t-1} + ... + a_{p-1} x_{t-p} + b_0 e_{t-q} + ... + b_{q-1} e_{t-1} + e_t *)
Definition errors (a b : list R) (c : R) (x e : nat -> R) : Prop :=
  (forall t, (t < Nat.max (length a) (length b))%nat -> e t = 0) /\
  (forall t, (Nat.max (length a) (length b) <= t)%nat ->
     x t = c + sum_to (length a) (fun k => nth k a 0 * x (t - 1 - k)%nat) + sum_to (length b) (fun k => nth k b 0 * e (t - length b + k)%nat) + e t).
Definition coefs1 (a b : list R) (const : option R) : coefs :=
  {| c_const := match const with Some c => [c] | None => [] end; c_ar := map (fun v => [[v]]) a; c_ma := map (fun v => [[v]]) b |}.
Definition const1 (const : option R) : R := match const with Some c => c | None => 0 end.
Definition series1 (x : nat -> R) (n : nat) : list orow := map (fun t => Some [x t]) (seq 0 n).

(** ** lemmas *)
Lemma sum_to_S n f : sum_to (S n) f = sum_to n f + f n.
Proof. unfold sum_to. rewrite seq_S, map_app, rsum_app. unfold rsum at 2. cbn [map fold_right Nat.add]. ring. Qed.
Lemma coef_nth (a : list R) k : (k < length a)%nat -> nth k (map (fun v => [[v]]) a) [] = [[nth k a 0]].
Proof. intros H. rewrite (nth_indep _ [] ((fun v => [[v]]) 0)) by (rewrite map_length; auto). exact (map_nth (fun v => [[v]]) a 0 k). Qed.
Lemma series_nth x n t : (t < n)%nat -> nth t (series1 x n) None = Some [x t].
Proof. intros H. unfold series1. apply (map_seq_nth' (fun t => Some [x t])); auto. Qed.
Lemma vmat1 u v : vmat 1 [u] [[v]] = [v * u].
Proof. unfold vmat, rsum. cbn. f_equal. ring. Qed.
Lemma fold_ar (a : list R) x n l : (l <= length a)%nat -> (length a <= n)%nat ->
  fold_left (fun acc k => oadd acc (omap (fun y => vmat 1 y (nth k (map (fun v => [[v]]) a) [])) (nth (length (series1 x n) - k - 1) (series1 x n) None))) (seq 0 l) (Some (vzero 1))
  = Some [sum_to l (fun k => nth k a 0 * x (n - 1 - k)%nat)].
Proof.
  intros Hl Hn. unfold series1 at 1. rewrite map_length, seq_length. induction l as [|l IH]; [reflexivity|].
  rewrite seq_S, fold_left_app, IH by lia. cbn [fold_left Nat.add]. rewrite series_nth by lia. rewrite coef_nth by lia. cbn [omap oadd]. rewrite vmat1.
  cbn [vadd combine map fst snd]. rewrite sum_to_S. replace (n - l - 1)%nat with (n - 1 - l)%nat by lia. auto.
Qed.
Lemma fold_ma (b : list R) (e : nat -> R) f l : (l <= length b)%nat ->
  fold_left (fun acc k => vadd acc (vmat 1 (nth k (map (fun t => [e t]) (seq f (length b))) []) (nth k (map (fun v => [[v]]) b) []))) (seq 0 l) (vzero 1)
  = [sum_to l (fun k => nth k b 0 * e (f + k)%nat)].
Proof.
  intros Hl. induction l as [|l IH]; [reflexivity|]. rewrite seq_S, fold_left_app, IH by lia. cbn [fold_left Nat.add]. rewrite coef_nth by lia.
  replace (nth l (map (fun t => [e t]) (seq f (length b))) []) with [e (f + l)%nat].
  - rewrite vmat1. cbn [vadd combine map fst snd]. rewrite sum_to_S. auto.
  - rewrite (nth_indep _ [] ((fun t => [e t]) 0%nat)) by (rewrite map_length, seq_length; lia). rewrite (map_nth (fun t => [e t]) (seq f (length b)) 0%nat l). rewrite seq_nth by lia. auto.
Qed.
Lemma next1 a b const x e n f : (length a <= n)%nat ->
  varma_next 1 (coefs1 a b const) (series1 x n) (map (fun t => [e t]) (seq f (length b)))
  = Some [const1 const + sum_to (length a) (fun k => nth k a 0 * x (n - 1 - k)%nat) + sum_to (length b) (fun k => nth k b 0 * e (f + k)%nat)].
Proof.
  intros Hn. unfold varma_next. cbn [c_ar c_ma c_const coefs1]. rewrite !map_length. rewrite fold_ar by auto. rewrite fold_ma by auto.
  destruct const as [c|]; cbn [length Nat.eqb oadd vadd combine map fst snd vzero repeat const1]; do 2 f_equal; ring.
Qed.
Lemma firstn_series x n i : (i <= n)%nat -> firstn i (series1 x n) = series1 x i.
Proof. intros H. unfold series1. rewrite firstn_map. f_equal. replace n with (i + (n - i))%nat by lia. rewrite seq_app, firstn_app, seq_length, Nat.sub_diag, firstn_O, app_nil_r. rewrite firstn_all2 by (rewrite seq_length; auto). auto. Qed.

Lemma shift_window {A} (g : nat -> A) f r : tl (map g (seq f (S r))) ++ [g (f + S r)%nat] = map g (seq (S f) (S r)).
Proof. cbn [seq map tl]. change (g (S f) :: map g (seq (S (S f)) r)) with (map g (seq (S f) (S r))). rewrite seq_S, map_app. cbn [map]. replace (f + S r)%nat with (S f + r)%nat by lia. auto. Qed.

(** ** C231 *)
(** After [fit] on a complete series the residuals kept are its last q one-step errors, the oldest first. *)
Theorem C231_window a b const x e n : errors a b (const1 const) x e -> (Nat.max (length a) (length b) <= n)%nat ->
  loss_residuals 1 (coefs1 a b const) (series1 x n) = map (fun t => [e t]) (seq (n - length b) (length b)).
Proof.
  intros [E0 E1] Hn. set (C := coefs1 a b const). assert (Hs : start C = Nat.max (length a) (length b)) by (unfold start, C; cbn; rewrite !map_length; auto).
  assert (HL : forall k, length (series1 x k) = k) by (intros; unfold series1; rewrite map_length, seq_length; auto).
  set (s := Nat.max (length a) (length b)) in *. remember (n - s)%nat as d eqn:Hd. assert (n = s + d)%nat as -> by lia. clear Hd Hn. induction d as [|d IH].
  - unfold loss_residuals. fold (start C). rewrite Hs, HL, Nat.add_0_r, Nat.sub_diag. cbn [seq fold_left]. unfold C. cbn [c_ma coefs1]. rewrite map_length.
    assert (G : forall k f, (f + k <= s)%nat -> repeat (vzero 1) k = map (fun t => [e t]) (seq f k)).
    { induction k as [|k IHk]; intros f H; auto. cbn [repeat seq map]. rewrite (IHk (S f)) by lia. rewrite E0 by lia. auto. }
    apply G. lia.
  - assert (HX : series1 x (s + S d) = series1 x (s + d) ++ [Some [x (s + d)%nat]]) by (unfold series1; rewrite Nat.add_succ_r, seq_S, map_app; auto).
    rewrite HX. rewrite residuals_snoc by (rewrite HL, Hs; lia). rewrite IH. match goal with |- context [residual_step _ _ ?Y _ _] => replace Y with (series1 x (s + S d)) by exact HX end. rewrite HL. unfold residual_step. fold (start C).
    rewrite slice_window by (rewrite HL, Hs; lia). rewrite firstn_series by lia. rewrite series_nth by lia. unfold C at 1. rewrite next1 by lia.
    pose proof (E1 (s + d)%nat ltac:(lia)) as Q. cbn [osub vsub combine map fst snd]. unfold C. cbn [c_ma coefs1]. rewrite map_length.
    match goal with |- context [[?u - ?v]] => replace (u - v) with (e (s + d)%nat) by (rewrite Q; ring) end.
    destruct (length b) as [|r] eqn:Er; [reflexivity|]. cbn [Nat.ltb Nat.leb]. replace (s + S d - S r)%nat with (S (s + d - S r)) by lia.
    rewrite <- (shift_window (fun t => [e t])). replace (s + d - S r + S r)%nat with (s + d)%nat by lia. auto.
Qed.
Print Assumptions C231_window.
(** and the forecast of the next value is the model's: b_k multiplies the error at lag q - k, so b_{q-1} the most recent one. *)
Theorem C231_forecast a b const x e n : errors a b (const1 const) x e -> (length a + length b + 1 <= n)%nat ->
  let V := {| v_p := length a; v_d := 0; v_q := length b; v_s := 0; v_m := 1; v_C := coefs1 a b const |} in
  predict_fitted V (series1 x n) 1 = [Some [const1 const + sum_to (length a) (fun k => nth k a 0 * x (n - 1 - k)%nat) + sum_to (length b) (fun k => nth k b 0 * e (n - length b + k)%nat)]].
Proof.
  intros HE Hn V. assert (HL : length (series1 x n) = n) by (unfold series1; rewrite map_length, seq_length; auto).
  rewrite predict_one.
  - unfold integrate, V. cbn [v_d v_s Nat.ltb Nat.leb]. f_equal. unfold raw_forecast, stationary_part. cbn [v_d v_s v_m v_C diffs seasonal Nat.eqb].
    rewrite (C231_window a b const x e n HE) by lia. apply next1. lia.
  - unfold shaped, V. cbn [v_p v_q v_m v_C coefs1 c_ar c_ma c_const]. rewrite !map_length. repeat split; auto. destruct const; auto.
  - intros r Hr. unfold series1 in Hr. apply in_map_iff in Hr. destruct Hr as (t & <- & _). exists [x t]. auto.
  - unfold min_samples, V. cbn [v_p v_d v_q v_s]. rewrite HL. lia.
Qed.
Print Assumptions C231_forecast.
(** every series has such errors, so the two theorems speak about all coefficients and all complete series *)
Fixpoint errs (a b : list R) (c : R) (x : nat -> R) (n : nat) : list R :=
  match n with
  | O => []
  | S n => errs a b c x n ++ [if (n <? Nat.max (length a) (length b))%nat then 0
      else x n - (c + sum_to (length a) (fun k => nth k a 0 * x (n - 1 - k)%nat) + sum_to (length b) (fun k => nth k b 0 * nth (n - length b + k) (errs a b c x n) 0))]
  end.
Lemma errs_len a b c x n : length (errs a b c x n) = n.
Proof. induction n as [|n IH]; auto. cbn [errs]. rewrite app_length, IH. cbn [length]. lia. Qed.
Lemma errs_prefix a b c x n : forall t, (t < n)%nat -> nth t (errs a b c x n) 0 = nth t (errs a b c x (S t)) 0.
Proof.
  induction n as [|n IH]; intros t Ht; [lia|]. destruct (Nat.eq_dec t n) as [->|D]; auto. transitivity (nth t (errs a b c x n) 0); [cbn [errs]; rewrite app_nth1 by (rewrite errs_len; lia); auto|]. apply IH. lia.
Qed.
Theorem C231_errors_exist a b c x : exists e, errors a b c x e.
Proof.
  exists (fun t => nth t (errs a b c x (S t)) 0). split; intros t Ht; cbn [errs]; rewrite app_nth2 by (rewrite errs_len; lia); rewrite errs_len, Nat.sub_diag; cbn [nth].
  - apply Nat.ltb_lt in Ht. rewrite Ht. auto.
  - assert (F : (t <? Nat.max (length a) (length b))%nat = false) by (apply Nat.ltb_ge; auto). rewrite F.
    match goal with |- _ = _ + sum_to ?q ?f + (_ - (_ + _ + sum_to ?q ?g)) => assert (Q : sum_to q f = sum_to q g) end.
    { unfold sum_to. f_equal. apply map_ext_in. intros k Hk. apply in_seq in Hk. f_equal. symmetry. apply (errs_prefix a b c x t). lia. }
    rewrite Q. ring.
Qed.
Print Assumptions C231_errors_exist.

Lemma mean_app {S} (u v : S -> list R) (L : list S) la lb : (forall s, In s L -> length (u s) = la) ->
  mean_params (la + lb) (map (fun s => u s ++ v s) L) = mean_params la (map u L) ++ mean_params lb (map v L).
Proof.
  intros HU. unfold mean_params. rewrite !map_length. rewrite seq_app, map_app. f_equal.
  - apply map_ext_in. intros j Hj. apply in_seq in Hj. rewrite !map_map. f_equal. f_equal. apply map_ext_in. intros s Hs. rewrite app_nth1 by (rewrite HU; auto; lia). auto.
  - rewrite Nat.add_0_l. rewrite <- (Nat.add_0_r la) at 1. rewrite <- (map_id (seq (la + 0) lb)).
    assert (G : forall n f, map (fun j => j) (seq (la + f) n) = map (fun j => (la + j)%nat) (seq f n)) by (induction n as [|n IH]; intros f; auto; cbn [seq map]; f_equal; rewrite <- IH; rewrite Nat.add_succ_r; auto).
    rewrite G, map_map. apply map_ext_in. intros j Hj. rewrite !map_map. f_equal. f_equal. apply map_ext_in. intros s Hs. rewrite app_nth2 by (rewrite HU; auto; lia). rewrite HU by auto. replace (la + j - la)%nat with j by lia. auto.
Qed.
Lemma mean_len n ps : length (mean_params n ps) = n.
Proof. unfold mean_params. rewrite map_length, seq_length. auto. Qed.
Lemma ravel_len m A : length (ravel_t m A) = (m * length A)%nat.
Proof.
  unfold ravel_t. assert (G : forall n f, length (concat (map (fun j => map (fun r => nth j r 0) A) (seq f n))) = (n * length A)%nat); [|apply G].
  induction n as [|n IH]; intros f; auto. cbn [seq map concat]. rewrite app_length, map_length, IH. reflexivity.
Qed.
Definition sized (m p q : nat) (wc : bool) (s : row * list row * list row) : Prop :=
  length (fst (fst s)) = (if wc then m else 0%nat) /\ length (snd (fst s)) = (p * m)%nat /\ length (snd s) = (q * m)%nat.
Lemma start_split m p q wc L : (forall s, In s L -> sized m p q wc s) ->
  unravel m p q wc (start_params m p q wc L)
  = {| c_const := mean_params (if wc then m else 0) (map (fun s => fst (fst s)) L); c_ar := ar_of_lstsq p m (map (fun s => snd (fst s)) L); c_ma := ar_of_lstsq q m (map snd L) |}.
Proof.
  intros H. unfold start_params. 
  replace (map (start_per_ts m) L) with (map (fun s => fst (fst s) ++ (fun s : row * list row * list row => ravel_t m (snd (fst s)) ++ ravel_t m (snd s)) s) L)
    by (apply map_ext; intros [[? ?] ?]; auto).
  rewrite (mean_app (fun s : row * list row * list row => fst (fst s))) by (intros s Hs; apply H; auto).
  rewrite (mean_app (fun s : row * list row * list row => ravel_t m (snd (fst s)))) by (intros s Hs; rewrite ravel_len; destruct (H s Hs) as (_ & -> & _); lia).
  set (mc := mean_params (if wc then m else 0%nat) (map (fun s => fst (fst s)) L)).
  assert (Lc : length mc = if wc then m else 0%nat) by (apply mean_len).
  unfold ar_of_lstsq. rewrite !map_map. cbv beta. set (ma := mean_params (m * (m * p)) _). set (mm := mean_params (m * (m * q)) _).
  assert (La : length ma = (m * (m * p))%nat) by apply mean_len. assert (Lm : length mm = (m * (m * q))%nat) by apply mean_len.
  unfold unravel.
  assert (E1 : (if wc then firstn m (mc ++ ma ++ mm) else []) = mc).
  { destruct wc; [rewrite firstn_app, Lc, Nat.sub_diag, firstn_O, app_nil_r; apply firstn_all2; lia|destruct mc; auto; discriminate]. }
  assert (E2 : (if wc then skipn m (mc ++ ma ++ mm) else mc ++ ma ++ mm) = ma ++ mm).
  { destruct wc; [rewrite skipn_app, Lc, Nat.sub_diag, skipn_all2 by lia; auto|destruct mc; auto; discriminate]. }
  match goal with |- context [skipn m (?u ++ ma ++ mm)] => change u with mc end. rewrite E1, E2. f_equal.
  - destruct p as [|p]; auto. cbn [Nat.ltb Nat.leb]. f_equal. rewrite firstn_app, La, Nat.sub_diag, firstn_O, app_nil_r. apply firstn_all2. lia.
  - destruct q as [|q]; auto. cbn [Nat.ltb Nat.leb]. f_equal. destruct p as [|p].
    + cbn [Nat.ltb Nat.leb]. rewrite !Nat.mul_0_r in La. destruct ma; [|discriminate]. apply firstn_all2. cbn [app]. lia.
    + cbn [Nat.ltb Nat.leb]. rewrite skipn_app, La, Nat.sub_diag, skipn_all2 by lia. apply firstn_all2. cbn [app skipn]. lia.
Qed.
(** One feature: intercept and coefficients of the start are the averages of the least squares estimates, kept apart from each other and in their order. *)
Theorem C231_start p q (wc : bool) L : (forall s, In s L -> sized 1 p q wc s) ->
  unravel 1 p q wc (start_params 1 p q wc L)
  = coefs1 (map (fun k => estimated 1 (map (fun s => snd (fst s)) L) k 0 0) (seq 0 p)) (map (fun k => estimated 1 (map snd L) k 0 0) (seq 0 q))
           (if wc then Some (rsum (map (fun s => nth 0 (fst (fst s)) 0) L) / INR (length L)) else None).
Proof.
  intros H. rewrite start_split by auto.
  assert (G : forall n (K : list (list row)), (forall A, In A K -> length A = n) -> ar_of_lstsq n 1 K = map (fun v => [[v]]) (map (fun k => estimated 1 K k 0 0) (seq 0 n))).
  { intros n K HK. rewrite map_map. unfold ar_of_lstsq at 1, reshape3. apply map_ext_in. intros k Hk. apply in_seq in Hk. cbn [seq map]. f_equal.
    pose proof (C69_univariate_partial n K k ltac:(lia) HK) as Q. unfold ar_of_lstsq, reshape3 in Q. rewrite map_seq_nth' in Q by lia. cbn [seq map nth] in Q. rewrite <- Q.
    match goal with |- slice ?i ?j ?l = _ => assert (W : length (slice i j l) = 1%nat) by (unfold slice; rewrite firstn_length, skipn_length, mean_len; lia); destruct (slice i j l) as [|y [|z r]]; cbn in W; try lia; reflexivity end. }
  unfold coefs1. f_equal.
  - destruct wc; auto. unfold mean_params. cbn [seq map]. rewrite !map_map, map_length. auto.
  - apply G. intros A HA. apply in_map_iff in HA. destruct HA as (s & <- & Hs). destruct (H s Hs) as (_ & -> & _). lia.
  - apply G. intros A HA. apply in_map_iff in HA. destruct HA as (s & <- & Hs). destruct (H s Hs) as (_ & _ & ->). lia.
Qed.
Print Assumptions C231_start.
(** What is wanted of the start: the coefficient estimated for lag k+1 of the residuals multiplies the error at lag k+1. *)
Definition start_forecast (p q : nat) (L : list (row * list row * list row)) (c : R) (x e : nat -> R) (n : nat) : R :=
  c + sum_to p (fun k => estimated 1 (map (fun s => snd (fst s)) L) k 0 0 * x (n - 1 - k)%nat) + sum_to q (fun k => estimated 1 (map snd L) k 0 0 * e (n - 1 - k)%nat).
Definition mean_const (wc : bool) (L : list (row * list row * list row)) : R := if wc then rsum (map (fun s => nth 0 (fst (fst s)) 0) L) / INR (length L) else 0.
Lemma nth_est K n k : (k < n)%nat -> nth k (map (fun k => estimated 1 K k 0 0) (seq 0 n)) 0 = estimated 1 K k 0 0.
Proof. intros H. apply (map_seq_nth' (fun k => estimated 1 K k 0 0)); auto. Qed.
Lemma start_next p q (wc : bool) L x e n f : (forall s, In s L -> sized 1 p q wc s) -> (p <= n)%nat ->
  varma_next 1 (unravel 1 p q wc (start_params 1 p q wc L)) (series1 x n) (map (fun t => [e t]) (seq f q))
  = Some [mean_const wc L + sum_to p (fun k => estimated 1 (map (fun s => snd (fst s)) L) k 0 0 * x (n - 1 - k)%nat) + sum_to q (fun k => estimated 1 (map snd L) k 0 0 * e (f + k)%nat)].
Proof.
  intros H Hp. rewrite C231_start by auto. set (a := map _ (seq 0 p)). set (b := map _ (seq 0 q)).
  assert (La : length a = p) by (unfold a; rewrite map_length, seq_length; auto). assert (Lb : length b = q) by (unfold b; rewrite map_length, seq_length; auto).
  rewrite <- Lb at 1. rewrite next1 by lia. rewrite La, Lb. do 2 f_equal. f_equal; [f_equal|].
  - destruct wc; auto.
  - unfold sum_to. f_equal. apply map_ext_in. intros k Hk. apply in_seq in Hk. unfold a. rewrite nth_est by lia. auto.
  - unfold sum_to. f_equal. apply map_ext_in. intros k Hk. apply in_seq in Hk. unfold b. rewrite nth_est by lia. auto.
Qed.
(** It does with one lag, *)
Theorem C231_one_lag_partial p (wc : bool) L x e n : (forall s, In s L -> sized 1 p 1 wc s) -> (p <= n)%nat -> (1 <= n)%nat ->
  varma_next 1 (unravel 1 p 1 wc (start_params 1 p 1 wc L)) (series1 x n) (map (fun t => [e t]) (seq (n - 1) 1)) = Some [start_forecast p 1 L (mean_const wc L) x e n].
Proof.
  intros H Hp Hn. rewrite start_next by auto. unfold start_forecast. do 2 f_equal. f_equal. unfold sum_to. cbn [seq map]. rewrite Nat.add_0_r, Nat.sub_0_r. auto.
Qed.
Print Assumptions C231_one_lag_partial.
(** with several the coefficients are applied in the opposite order (first part, for all q).  Second part: p = 0, so the residuals of the
    first fit are the series itself; it follows x_t = x_{t-2}, which least squares finds exactly; the start does not. *)
Theorem C231_lags_refuted :
  (forall p q (wc : bool) L x e n, (forall s, In s L -> sized 1 p q wc s) -> (p <= n)%nat -> (q <= n)%nat ->
     varma_next 1 (unravel 1 p q wc (start_params 1 p q wc L)) (series1 x n) (map (fun t => [e t]) (seq (n - q) q))
     = Some [mean_const wc L + sum_to p (fun k => estimated 1 (map (fun s => snd (fst s)) L) k 0 0 * x (n - 1 - k)%nat) + sum_to q (fun k => estimated 1 (map snd L) k 0 0 * e (n - q + k)%nat)]) /\
  exists x M, sized 1 0 2 false ([], [], M) /\
    (forall n t, (2 <= t < n)%nat -> [x t] = vmat 1 (regressors 2 (map (fun t => [x t]) (seq 0 n)) t) M) /\
    forall n, (2 <= n)%nat -> start_forecast 0 2 [([], [], M)] 0 x x n = x n /\
      varma_next 1 (unravel 1 0 2 false (start_params 1 0 2 false [([], [], M)])) (series1 x n) (map (fun t => [x t]) (seq (n - 2) 2)) <> Some [x n].
Proof.
  split; [intros; apply start_next; auto|].
  set (x := fun t : nat => if Nat.even t then 1 else 2). exists x, [[0]; [1]]. 
  assert (X2 : forall t, x (S (S t)) = x t) by (intros; reflexivity).
  assert (X1 : forall t, x (S t) = 3 - x t) by (intros t; unfold x; rewrite Nat.even_succ, <- Nat.negb_even; destruct (Nat.even t); cbn; lra).
  assert (XV : forall t, x t = 1 \/ x t = 2) by (intros t; unfold x; destruct (Nat.even t); auto). clearbody x.
  assert (S0 : sized 1 0 2 false ([], [], [[0]; [1]])) by (repeat split; auto).
  assert (B0 : forall K, K = [[[0]; [1]]] -> estimated 1 K 0 0 0 = 0) by (intros K ->; unfold estimated, rsum; cbn; field).
  assert (B1 : forall K, K = [[[0]; [1]]] -> estimated 1 K 1 0 0 = 1) by (intros K ->; unfold estimated, rsum; cbn; field).
  split; [exact S0|]. split.
  - intros n t Ht. destruct t as [|[|t]]; try lia. unfold regressors. 
    match goal with |- context [@slice ?T ?i ?j ?l] => assert (W : @slice T i j l = [[x t]; [x (S t)]]) end.
    { unfold slice. replace (S (S t) - 2)%nat with t by lia. replace (S (S t) - t)%nat with 2%nat by lia. replace n with (t + (2 + (n - t - 2)))%nat by lia.
      rewrite seq_app, map_app, skipn_app, map_length, seq_length, Nat.sub_diag. rewrite skipn_all2 by (rewrite map_length, seq_length; auto). cbn [app skipn Nat.add seq map firstn]. auto. }
    rewrite W. cbn. rewrite X2. f_equal. ring.
  - intros n Hn. destruct n as [|[|n]]; try lia. split.
    + unfold start_forecast, sum_to, rsum. cbn [seq map fold_right snd]. rewrite B0, B1 by reflexivity. replace (S (S n) - 1 - 1)%nat with n by lia. rewrite X2. ring.
    + rewrite start_next by (try lia; intros s [<-|[]]; exact S0). intros Q. injection Q as Q. unfold sum_to, rsum in Q. cbn [seq map fold_right mean_const snd] in Q. rewrite B0, B1 in Q by reflexivity.
      replace (n - 0 + 1)%nat with (S n) in Q by lia. rewrite (X2 n), (X1 n) in Q. destruct (XV n); lra.
Qed.
Print Assumptions C231_lags_refuted.
Example C231_instance : (forall s, In s [([1], [[2]], [[3]; [4]]); ([3], [[4]], [[5]; [6]])] -> sized 1 1 2 true s) /\
  unravel 1 1 2 true (start_params 1 1 2 true [([1], [[2]], [[3]; [4]]); ([3], [[4]], [[5]; [6]])]) = coefs1 [3] [4; 5] (Some 2).
Proof.
  assert (H : forall s, In s [([1], [[2]], [[3]; [4]]); ([3], [[4]], [[5]; [6]])] -> sized 1 1 2 true s) by (intros s [<-|[<-|[]]]; repeat split; auto).
  split; [exact H|]. rewrite C231_start by exact H. unfold estimated, rsum. cbn. f_equal; [f_equal; field|repeat f_equal; field|repeat f_equal; field].
Qed.

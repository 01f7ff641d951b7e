(** Lemmas on the forecasting model. *)
From Coq Require Import Bool List Arith Lia Reals Lra.
From Verif Require Import Num Py RList ArimaModel.
Import ListNotations.
Local Open Scope R_scope.

(** ** rows *)
Lemma vadd_len a b : length a = length b -> length (vadd a b) = length a.
Proof. intros H. unfold vadd. rewrite map_length, combine_length. lia. Qed.
Lemma vsub_len a b : length a = length b -> length (vsub a b) = length a.
Proof. intros H. unfold vsub. rewrite map_length, combine_length. lia. Qed.
Lemma vadd_vsub a : forall b, length a = length b -> vadd (vsub a b) b = a.
Proof. induction a as [|x a IH]; intros [|y b] H; try discriminate; auto. cbn. f_equal; [ring|]. apply IH. cbn in H. lia. Qed.
Lemma vsub_vadd a : forall b, length a = length b -> vsub (vadd a b) b = a.
Proof. induction a as [|x a IH]; intros [|y b] H; try discriminate; auto. cbn. f_equal; [ring|]. apply IH. cbn in H. lia. Qed.
Lemma vsub_self a : vsub a a = vzero (length a).
Proof. induction a as [|x a IH]; auto. cbn. f_equal; [ring|]. exact IH. Qed.
Lemma vadd_zero a : vadd (vzero (length a)) a = a.
Proof. induction a as [|x a IH]; auto. cbn. f_equal; [ring|]. exact IH. Qed.
Lemma vadd_zero_r a : vadd a (vzero (length a)) = a.
Proof. induction a as [|x a IH]; auto. cbn. f_equal; [ring|]. exact IH. Qed.
Lemma vscal_zero a : vscal 0 a = vzero (length a).
Proof. induction a as [|x a IH]; auto. cbn. f_equal; [ring|]. exact IH. Qed.
Lemma vsub_neg a : forall b, length a = length b -> vsub a (vscal (-1) b) = vadd a b.
Proof. induction a as [|x a IH]; intros [|y b] H; try discriminate; auto. cbn. f_equal; [ring|]. apply IH. cbn in H. lia. Qed.
Lemma vmat_len m x A : length (vmat m x A) = m.
Proof. unfold vmat. rewrite map_length, seq_length. auto. Qed.
Lemma vzero_len m : length (vzero m) = m.
Proof. apply repeat_length. Qed.

(** rows of [m] finite numbers *)
Definition fin (m : nat) (r : orow) : Prop := exists v, r = Some v /\ length v = m.
Definition full (m : nat) (X : list orow) : Prop := forall r, In r X -> fin m r.
Lemma full_nth m (X : list orow) i : full m X -> (i < length X)%nat -> fin m (nth i X None).
Proof. intros H Hi. apply H, nth_In. auto. Qed.
Lemma full_app m X Y : full m X -> full m Y -> full m (X ++ Y).
Proof. intros H H' r Hr. apply in_app_iff in Hr. destruct Hr; auto. Qed.
Lemma full_one m r : fin m r -> full m [r].
Proof. intros H x [<-|[]]. auto. Qed.
Lemma fin_oadd m a b : fin m a -> fin m b -> fin m (oadd a b).
Proof. intros (v & -> & L) (w & -> & L'). exists (vadd v w). split; auto. rewrite vadd_len; lia. Qed.
Lemma fin_osub m a b : fin m a -> fin m b -> fin m (osub a b).
Proof. intros (v & -> & L) (w & -> & L'). exists (vsub v w). split; auto. rewrite vsub_len; lia. Qed.
Lemma osub_oadd m a b : fin m a -> fin m b -> osub (oadd a b) b = a.
Proof. intros (v & -> & L) (w & -> & L'). cbn. f_equal. apply vsub_vadd. lia. Qed.
Lemma oadd_osub m a b : fin m a -> fin m b -> oadd (osub a b) b = a.
Proof. intros (v & -> & L) (w & -> & L'). cbn. f_equal. apply vadd_vsub. lia. Qed.

(** ** differencing *)
Lemma nth_tl {A} (l : list A) j d : nth j (tl l) d = nth (S j) l d.
Proof. destruct l; auto. destruct j; auto. Qed.
Lemma tl_len {A} (l : list A) : length (tl l) = (length l - 1)%nat.
Proof. destruct l; cbn; lia. Qed.
Lemma lag_len s X : length (lag_diff s X) = (length X - s)%nat.
Proof. unfold lag_diff. rewrite map_length, combine_length, skipn_length. lia. Qed.
Lemma nth_skip {A} n (l : list A) j d : nth j (skipn n l) d = nth (n + j) l d.
Proof. revert l. induction n as [|n IH]; intros l; [auto|]. destruct l; cbn; [destruct j; auto|apply IH]. Qed.
Lemma lag_nth s X j : nth j (lag_diff s X) None = osub (nth (s + j) X None) (nth j X None).
Proof.
  destruct (Nat.lt_ge_cases j (length X - s)) as [H|H].
  - unfold lag_diff. set (f := fun p : orow * orow => osub (fst p) (snd p)).
    transitivity (nth j (map f (combine (skipn s X) X)) (f (None, None))); [apply nth_indep; unfold f; rewrite map_length, combine_length, skipn_length; lia|].
    rewrite map_nth. assert (E : nth j (combine (skipn s X) X) (None, None) = (nth j (skipn s X) None, nth j X None)).
    { clear -H. assert (G : forall (a b : list orow) j, (j < length a)%nat -> (j < length b)%nat -> nth j (combine a b) (None, None) = (nth j a None, nth j b None)).
      { induction a as [|x a IH]; intros [|y b] [|i] A B; cbn in *; try lia; auto. apply IH; lia. }
      apply G; [rewrite skipn_length; lia|lia]. }
    rewrite E. unfold f. cbn [fst snd]. rewrite nth_skip. reflexivity.
  - rewrite nth_overflow by (rewrite lag_len; lia). destruct (nth (s + j) X None) eqn:E; auto. rewrite nth_overflow in E by lia. discriminate.
Qed.
Lemma orow_ext (X Y : list orow) : length X = length Y -> (forall j, (j < length X)%nat -> nth j X None = nth j Y None) -> X = Y.
Proof. intros L H. apply nth_ext with (d := None) (d' := None); auto. Qed.
Lemma lag_skipn s k X : lag_diff s (skipn k X) = skipn k (lag_diff s X).
Proof.
  apply orow_ext; [rewrite lag_len, !skipn_length, lag_len; lia|]. intros j Hj. rewrite lag_nth, !nth_skip, lag_nth. f_equal; f_equal; lia.
Qed.
Lemma seasonal_skipn s k X : seasonal s (skipn k X) = skipn k (seasonal s X).
Proof. unfold seasonal. destruct (s =? 0)%nat; auto. apply lag_skipn. Qed.
Lemma diffs_skipn d : forall k X, diffs d (skipn k X) = skipn k (diffs d X).
Proof. induction d as [|d IH]; intros k X; cbn [diffs]; auto. rewrite lag_skipn. apply IH. Qed.
Lemma seasonal_len s X : length (seasonal s X) = (length X - s)%nat.
Proof. unfold seasonal. destruct (Nat.eqb_spec s 0) as [->|]; [lia|apply lag_len]. Qed.
Lemma diffs_len d : forall X, length (diffs d X) = (length X - d)%nat.
Proof. induction d as [|d IH]; intros X; cbn [diffs]; [lia|]. rewrite IH, lag_len. lia. Qed.
Lemma full_lag m s X : full m X -> full m (lag_diff s X).
Proof.
  intros H r Hr. apply In_nth with (d := None) in Hr. destruct Hr as (j & Hj & <-). rewrite lag_len in Hj. rewrite lag_nth. apply fin_osub; apply full_nth; auto; lia.
Qed.
Lemma full_seasonal m s X : full m X -> full m (seasonal s X).
Proof. intros H. unfold seasonal. destruct (s =? 0)%nat; auto. apply full_lag. auto. Qed.
Lemma full_diffs m d : forall X, full m X -> full m (diffs d X).
Proof. induction d as [|d IH]; intros X H; cbn [diffs]; auto. apply IH, full_lag. auto. Qed.
Lemma full_skipn m k X : full m X -> full m (skipn k X).
Proof. intros H r Hr. apply H. rewrite <- (firstn_skipn k X). apply in_or_app. auto. Qed.
(** differences of a series with one more row *)
Lemma lag_snoc s X x : (1 <= s <= length X)%nat -> lag_diff s (X ++ [x]) = lag_diff s X ++ [osub x (nth (length X - s) X None)].
Proof.
  intros H. apply orow_ext; [rewrite app_length, !lag_len, app_length; cbn; lia|]. intros j Hj. rewrite lag_len, app_length in Hj. cbn in Hj. rewrite lag_nth.
  destruct (Nat.lt_ge_cases j (length X - s)) as [A|A].
  - rewrite !app_nth1 by (rewrite ?lag_len; lia). rewrite lag_nth. auto.
  - assert (j = length X - s)%nat as -> by lia. rewrite (app_nth2 X) by lia. rewrite (app_nth2 (lag_diff s X)) by (rewrite lag_len; lia). rewrite lag_len, app_nth1 by lia.
    replace (s + (length X - s) - length X)%nat with 0%nat by lia. replace (length X - s - (length X - s))%nat with 0%nat by lia. reflexivity.
Qed.
Lemma lag_slide s X x : (1 <= s < length X)%nat -> lag_diff s (tl X ++ [x]) = tl (lag_diff s X) ++ [osub x (nth (length X - s) X None)].
Proof.
  intros H. rewrite lag_snoc by (rewrite tl_len; lia). f_equal.
  - change (tl X) with (skipn 1 X) || replace (tl X) with (skipn 1 X) by (destruct X; auto). rewrite lag_skipn. destruct (lag_diff s X); auto.
  - rewrite tl_len, nth_tl. do 3 f_equal. lia.
Qed.

(** ** [undifference] only adds the last value *)
Lemma binom_gt n : forall k, (n < k)%nat -> binom n k = 0%nat.
Proof. induction n as [|n IH]; intros [|k] H; cbn; try lia; auto. rewrite !IH by lia. auto. Qed.
Lemma binom_diag n : binom n n = 1%nat.
Proof. induction n as [|n IH]; auto. cbn. rewrite IH, binom_gt by lia. auto. Qed.
Lemma undiff_spec m d init e : (1 <= d <= length init)%nat -> full m init -> fin m e -> undifference m d init e = oadd e (nth (length init - 1) init None).
Proof.
  intros Hd HF He. unfold undifference. replace (seq 0 d) with (seq 0 (d - 1) ++ [(d - 1)%nat]) by (replace d with (S (d - 1)) at 3 by lia; rewrite seq_S; auto). rewrite fold_left_app. cbn [fold_left].
  set (g := fun acc j => oadd acc (omap (vscal (undiff_coef d j)) (nth (length init - d + j) init None))).
  assert (Z : forall n, (n < d)%nat -> fold_left g (seq 0 n) (Some (vzero m)) = Some (vzero m)).
  { induction n as [|n IH]; intros Hn; auto. rewrite seq_S, fold_left_app, IH by lia. cbn [fold_left Nat.add]. unfold g, undiff_coef. rewrite binom_gt by lia. cbn [INR]. rewrite Rmult_0_r.
    destruct (full_nth m init (length init - d + n) HF ltac:(lia)) as (v & -> & L). cbn [omap oadd]. rewrite vscal_zero, L. f_equal. rewrite <- (vzero_len m) at 1. apply vadd_zero. }
  rewrite Z by lia. unfold undiff_coef. replace (d - 1 + 1)%nat with d by lia. rewrite binom_diag, pow1. replace (length init - d + (d - 1))%nat with (length init - 1)%nat by lia.
  destruct (full_nth m init (length init - 1) HF ltac:(lia)) as (v & -> & L). destruct He as (w & -> & L'). cbn [omap oadd osub]. f_equal. replace (- (1) * INR 1) with (-1) by (cbn; ring).
  replace (vzero m) with (vzero (length (vscal (-1) v))) by (unfold vscal; rewrite map_length, L; auto). rewrite vadd_zero. apply vsub_neg. lia.
Qed.

(** ** one step *)
(** coefficients of the right shape *)
Definition shaped (V : spec) : Prop :=
  length (c_ar (v_C V)) = v_p V /\ length (c_ma (v_C V)) = v_q V /\ (c_const (v_C V) = [] \/ length (c_const (v_C V)) = v_m V).
Lemma next_fin V X res : shaped V -> (v_p V <= length X)%nat -> full (v_m V) X -> fin (v_m V) (varma_next (v_m V) (v_C V) X res).
Proof.
  intros (HA & HM & HC) HL HF. set (m := v_m V) in *. set (C := v_C V) in *. unfold varma_next. apply fin_oadd; [apply fin_oadd|].
  - rewrite HA. assert (G : forall n, (n <= v_p V)%nat -> fin m (fold_left (fun acc k => oadd acc (omap (fun x => vmat m x (nth k (c_ar C) [])) (nth (length X - k - 1) X None))) (seq 0 n) (Some (vzero m)))).
    { induction n as [|n IH]; intros Hn; [exists (vzero m); split; auto; apply vzero_len|]. rewrite seq_S, fold_left_app. cbn [fold_left Nat.add]. apply fin_oadd; [apply IH; lia|].
      destruct (full_nth m X (length X - n - 1) HF ltac:(lia)) as (v & -> & _). cbn [omap]. eexists. split; [reflexivity|]. apply vmat_len. }
    apply G. lia.
  - eexists. split; [reflexivity|]. generalize (seq 0 (length (c_ma C))). intros l. rewrite <- fold_left_rev_right. induction (rev l) as [|k l' IH]; cbn [fold_right]; [apply vzero_len|]. rewrite vadd_len; auto. rewrite IH, vmat_len. auto.
  - destruct HC as [-> | HC]; cbn [length Nat.eqb]; [exists (vzero m); split; auto; apply vzero_len|].
    destruct (length (c_const C) =? 0)%nat; eexists; split; try reflexivity; auto. apply vzero_len.
Qed.
(** only the last p rows count *)
Lemma next_last m C (X Y : list orow) res : (forall k, (k < length (c_ar C))%nat -> nth (length X - k - 1) X None = nth (length Y - k - 1) Y None) -> varma_next m C X res = varma_next m C Y res.
Proof.
  intros H. unfold varma_next. f_equal. f_equal.
  assert (G : forall n, (n <= length (c_ar C))%nat -> forall a, fold_left (fun acc k => oadd acc (omap (fun x => vmat m x (nth k (c_ar C) [])) (nth (length X - k - 1) X None))) (seq 0 n) a
     = fold_left (fun acc k => oadd acc (omap (fun x => vmat m x (nth k (c_ar C) [])) (nth (length Y - k - 1) Y None))) (seq 0 n) a).
  { induction n as [|n IH]; intros Hn a; auto. rewrite seq_S, !fold_left_app, IH by lia. cbn [fold_left Nat.add]. rewrite H by lia. auto. }
  apply G. lia.
Qed.
Lemma next_nan m C (X : list orow) res k : (k < length (c_ar C))%nat -> nth (length X - k - 1) X None = None -> varma_next m C X res = None.
Proof.
  intros Hk H. unfold varma_next.
  assert (G : forall n, (k < n)%nat -> forall a, fold_left (fun acc k => oadd acc (omap (fun x => vmat m x (nth k (c_ar C) [])) (nth (length X - k - 1) X None))) (seq 0 n) a = None).
  { induction n as [|n IH]; intros Hn a; [lia|]. rewrite seq_S, fold_left_app. cbn [fold_left Nat.add]. destruct (Nat.eq_dec k n) as [->|]; [|rewrite IH by lia; auto]. rewrite H. cbn. destruct (fold_left _ _ _); auto. }
  rewrite G by auto. auto.
Qed.

(** ** complete series *)
Lemma trim_full m X : full m X -> trim X = X.
Proof.
  induction X as [|x X IH]; auto. intros H. cbn [trim]. rewrite IH by (intros r Hr; apply H; right; auto). destruct (H x (or_introl eq_refl)) as (v & -> & _). auto.
Qed.
Lemma rolled_full V m X : full m X -> rolled V X = X.
Proof. intros H. unfold rolled. destruct (_ =? 0)%nat; auto. unfold ts_size. rewrite (trim_full m) by auto. rewrite skipn_all, firstn_all. auto. Qed.
Lemma trim_padded m x k : full m x -> trim (x ++ @repeat orow None k) = x.
Proof.
  induction x as [|r x IH]; intros H; cbn [app trim].
  - induction k as [|k IH]; auto. cbn. rewrite IH. auto.
  - rewrite IH by (intros s Hs; apply H; right; auto). destruct (H r (or_introl eq_refl)) as (v & -> & _). auto.
Qed.

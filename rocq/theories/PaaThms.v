(** Lemmas on the PAA / SAX models: arrays of reals as grids [i k => f i k]. *)
From Coq Require Import Bool List Arith Lia ZArith QArith Reals Lra.
From Verif Require Import Num NumLaws Py Series DtwProofs Spec RList SoftModel GakModel RealSeries PaaModel.
Import ListNotations.
Local Open Scope R_scope.

Definition grow (d : nat) (f : nat -> R) : list xr := map (fun k => XR (f k)) (seq 0 d).
Definition xgrid (n d : nat) (f : nat -> nat -> R) : series Xnum := map (fun i => grow d (f i)) (seq 0 n).
Definition entry (s : list (list R)) (i k : nat) : R := nth k (nth i s []) 0.

Lemma grow_len d f : length (grow d f) = d.
Proof. unfold grow. rewrite map_length, seq_length. auto. Qed.
Lemma grow_nth d f k x : (k < d)%nat -> nth k (grow d f) x = XR (f k).
Proof.
  intros H. unfold grow. rewrite (nth_indep _ x (XR (f 0%nat))) by (rewrite map_length, seq_length; auto).
  rewrite (map_nth (fun k => XR (f k))). rewrite seq_nth by auto. reflexivity.
Qed.
Lemma grow_ext d f g : (forall k, (k < d)%nat -> f k = g k) -> grow d f = grow d g.
Proof. intros H. apply map_ext_in. intros k Hk. apply in_seq in Hk. f_equal. apply H. lia. Qed.
Lemma xgrid_len n d f : length (xgrid n d f) = n.
Proof. unfold xgrid. rewrite map_length, seq_length. auto. Qed.
Lemma map_seq_nth {A} (f : nat -> A) n a i x : (i < n)%nat -> nth i (map f (seq a n)) x = f (a + i)%nat.
Proof.
  intros H. rewrite (nth_indep _ x (f a)) by (rewrite map_length, seq_length; auto).
  rewrite map_nth. rewrite seq_nth by auto. reflexivity.
Qed.
Lemma xgrid_nth n d f i x : (i < n)%nat -> nth i (xgrid n d f) x = grow d (f i).
Proof. intros H. unfold xgrid. rewrite map_seq_nth by auto. reflexivity. Qed.
Lemma xgrid_ext n d f g : (forall i k, (i < n)%nat -> (k < d)%nat -> f i k = g i k) -> xgrid n d f = xgrid n d g.
Proof. intros H. apply map_ext_in. intros i Hi. apply in_seq in Hi. apply grow_ext. intros. apply H; lia. Qed.
Lemma map_nth_seq {A B} (f : A -> B) l x : map f l = map (fun i => f (nth i l x)) (seq 0 (length l)).
Proof.
  rewrite <- (map_map (fun i => nth i l x) f). f_equal.
  apply nth_ext with (d := x) (d' := x); [rewrite map_length, seq_length; auto|].
  intros i Hi. rewrite map_seq_nth by auto. reflexivity.
Qed.
Lemma lift_grid d s : real_series d s -> lift s = xgrid (length s) d (entry s).
Proof.
  intros (Hd & Hs & Hr). unfold lift, xgrid. rewrite (map_nth_seq _ s []). apply map_ext_in.
  intros i Hi. apply in_seq in Hi. unfold grow, entry.
  rewrite (map_nth_seq XR (nth i s []) 0). rewrite (Hr (nth i s [])) by (apply nth_In; lia). reflexivity.
Qed.
Lemma ts_size_grid n d f : (0 < d)%nat -> ts_size (N:=Xnum) (xgrid n d f) = n.
Proof.
  intros Hd. rewrite ts_size_full; [apply xgrid_len|].
  intros r H. unfold xgrid in H. apply in_map_iff in H. destruct H as (i & <- & _).
  unfold nan_row, grow. destruct d; [lia|reflexivity].
Qed.
Lemma ncols_grid n d f : (0 < n)%nat -> ncols (N:=Xnum) (xgrid n d f) = d.
Proof. intros H. destruct n; [lia|]. apply (grow_len d (f 0%nat)). Qed.

Lemma slice_map {A B} (g : A -> B) a b l : slice a b (map g l) = map g (slice a b l).
Proof. unfold slice. rewrite skipn_map, firstn_map. reflexivity. Qed.
Lemma skipn_seq n a len : skipn n (seq a len) = seq (a + n) (len - n).
Proof.
  revert a len. induction n as [|n IH]; intros a len; simpl; [f_equal; lia|]. destruct len as [|len]; simpl; auto.
  rewrite IH. f_equal. lia.
Qed.
Lemma firstn_seq n a len : (n <= len)%nat -> firstn n (seq a len) = seq a n.
Proof.
  revert a len. induction n as [|n IH]; intros a len H; simpl; auto. destruct len as [|len]; [lia|]. simpl. f_equal. apply IH. lia.
Qed.
Lemma slice_seq a len n : (a + len <= n)%nat -> slice a (a + len) (seq 0 n) = seq a len.
Proof. intros H. unfold slice. rewrite skipn_seq. replace (a + len - a)%nat with len by lia. rewrite firstn_seq by lia. f_equal. Qed.
Lemma column_grid n d f a len k : (k < d)%nat -> (a + len <= n)%nat ->
  column k (slice a (a + len) (xgrid n d f)) = map (fun u => XR (f u k)) (seq a len).
Proof.
  intros Hk H. unfold xgrid. rewrite slice_map, slice_seq by auto. unfold column. rewrite map_map.
  apply map_ext. intros u. apply grow_nth. auto.
Qed.
Lemma xsum_reals l : xsum (map XR l) = XR (rsum l).
Proof. unfold xsum. rewrite fold_xadd_sum. f_equal. lra. Qed.
Lemma xdiv_real a b : b <> 0 -> xdiv (XR a) (XR b) = XR (a / b).
Proof. intros H. unfold xdiv. destruct (Req_EM_T b 0); [congruence|]. reflexivity. Qed.
Lemma xmean_reals l : l <> [] -> xmean (map XR l) = XR (rsum l / INR (length l)).
Proof.
  intros H. unfold xmean. rewrite xsum_reals, map_length. apply xdiv_real. apply not_0_INR. destruct l; [congruence|simpl; lia].
Qed.
(** mean of feature [k] over the [len] time steps from [a] *)
Definition gavg (f : nat -> nat -> R) (a len k : nat) : R := rsum (map (fun u => f u k) (seq a len)) / INR len.
Lemma seg_fit m n i : (0 < m)%nat -> (i < m)%nat -> (i * (n / m) + n / m <= n)%nat.
Proof.
  intros Hm Hi. assert (m * (n / m) <= n)%nat by (apply Nat.mul_div_le; lia).
  assert ((i + 1) * (n / m) <= m * (n / m))%nat by (apply Nat.mul_le_mono_r; lia). lia.
Qed.
Lemma paa_grid m n d f : (0 < d)%nat -> (0 < m <= n)%nat ->
  paa_series m d (xgrid n d f) = xgrid m d (fun i k => gavg f (i * (n / m)) (n / m) k).
Proof.
  intros Hd Hm. unfold paa_series. rewrite ts_size_grid by auto. unfold xgrid at 2.
  apply map_ext_in. intros i Hi. apply in_seq in Hi. unfold paa_segment, grow.
  apply map_ext_in. intros k Hk. apply in_seq in Hk.
  rewrite column_grid by (try apply seg_fit; lia). rewrite <- (map_map (fun u => f u k) XR).
  assert (0 < n / m)%nat by (apply Nat.div_str_pos; lia).
  rewrite xmean_reals.
  - unfold gavg. rewrite map_length, seq_length. reflexivity.
  - destruct (n / m)%nat; [lia|discriminate].
Qed.

Definition sq (x : R) : R := x * x.
Lemma sq_nonneg x : 0 <= sq x. Proof. apply Rle_0_sqr. Qed.
(** sum over a grid *)
Definition gsum (n d : nat) (h : nat -> nat -> R) : R := rsum (map (fun i => rsum (map (h i) (seq 0 d))) (seq 0 n)).
Lemma combine_map_same {A B C} (f : A -> B) (g : A -> C) l : combine (map f l) (map g l) = map (fun x => (f x, g x)) l.
Proof. induction l; simpl; f_equal; auto. Qed.
Lemma combine_app {A B} (l1 l1' : list A) (l2 l2' : list B) : length l1 = length l2 ->
  combine (l1 ++ l1') (l2 ++ l2') = combine l1 l2 ++ combine l1' l2'.
Proof. revert l2. induction l1; intros [|b l2] H; simpl in *; try discriminate; auto. f_equal. apply IHl1. lia. Qed.
Lemma combine_concat {A B C} (f : C -> list A) (g : C -> list B) l : (forall x, In x l -> length (f x) = length (g x)) ->
  combine (concat (map f l)) (concat (map g l)) = concat (map (fun x => combine (f x) (g x)) l).
Proof.
  induction l as [|x l IH]; intros H; simpl; auto. rewrite combine_app by (apply H; left; auto). f_equal. apply IH.
  intros. apply H. right; auto.
Qed.
Lemma rsum_concat l : rsum (concat l) = rsum (map rsum l).
Proof. induction l; simpl; auto. rewrite rsum_app. lra. Qed.
Lemma sq_diffs_grid n d f g : xsum (sq_diffs (xgrid n d f) (xgrid n d g)) = XR (gsum n d (fun i k => sq (f i k - g i k))).
Proof.
  unfold sq_diffs, xgrid. rewrite combine_concat by (intros; rewrite !grow_len; auto).
  rewrite concat_map, map_map.
  replace (map _ (seq 0 n)) with (map (map XR) (map (fun i => map (fun k => sq (f i k - g i k)) (seq 0 d)) (seq 0 n))).
  - rewrite <- concat_map, xsum_reals. f_equal. rewrite rsum_concat, map_map. reflexivity.
  - rewrite map_map. apply map_ext. intros i. unfold grow. rewrite combine_map_same, !map_map. apply map_ext. intros k.
    simpl. unfold sq. f_equal. 
Qed.
Lemma gsum_nonneg n d h : (forall i k, 0 <= h i k) -> 0 <= gsum n d h.
Proof.
  intros H. apply rsum_nonneg. intros x Hx. apply in_map_iff in Hx. destruct Hx as (i & <- & _).
  apply rsum_nonneg. intros y Hy. apply in_map_iff in Hy. destruct Hy as (k & <- & _). auto.
Qed.
Lemma gsum_le n d h h' : (forall i k, (i < n)%nat -> (k < d)%nat -> h i k <= h' i k) -> gsum n d h <= gsum n d h'.
Proof.
  intros H. apply rsum_map_le. intros i Hi. apply in_seq in Hi. apply rsum_map_le. intros k Hk. apply in_seq in Hk. apply H; lia.
Qed.
Lemma gsum_ext n d h h' : (forall i k, (i < n)%nat -> (k < d)%nat -> h i k = h' i k) -> gsum n d h = gsum n d h'.
Proof. intros H. apply Rle_antisym; apply gsum_le; intros; rewrite H by auto; lra. Qed.
Lemma gsum_scal c n d h : gsum n d (fun i k => c * h i k) = c * gsum n d h.
Proof.
  unfold gsum. rewrite <- rsum_map_scal. apply rsum_map_ext. intros. apply rsum_map_scal.
Qed.
(** exchange of the two sums *)
Lemma rsum_swap {A B} (h : A -> B -> R) la lb :
  rsum (map (fun a => rsum (map (h a) lb)) la) = rsum (map (fun b => rsum (map (fun a => h a b) la)) lb).
Proof.
  induction la as [|a la IH]; simpl.
  - symmetry. transitivity (rsum (map (fun _ : B => 0) lb)); [reflexivity|]. rewrite rsum_const. lra.
  - rewrite IH. rewrite <- rsum_map_plus. reflexivity.
Qed.
Lemma rsum_sq_le l : sq (rsum l) <= INR (length l) * rsum (map sq l).
Proof.
  induction l as [|x l IH]; [simpl; unfold sq; lra|].
  change (length (x :: l)) with (S (length l)). rewrite S_INR. simpl map. simpl rsum.
  (* (x+S)^2 <= (n+1)(x^2+Q), n Q >= S^2: 2 x S <= n x^2 + Q *)
  assert (H : 2 * x * rsum l <= INR (length l) * sq x + rsum (map sq l)).
  { clear IH. induction l as [|y l IH]; [simpl; unfold sq; lra|].
    change (length (y :: l)) with (S (length l)). rewrite S_INR. simpl map. simpl rsum.
    assert (0 <= sq (x - y)) by apply sq_nonneg. unfold sq in *. nra. }
  unfold sq in *. nra.
Qed.
Lemma seq_blocks n q : concat (map (fun i => seq (i * q) q) (seq 0 n)) = seq 0 (n * q).
Proof.
  induction n as [|n IH]; [reflexivity|]. rewrite seq_S, map_app, concat_app, IH. simpl. rewrite app_nil_r.
  replace (q + n * q)%nat with (n * q + q)%nat by lia. rewrite seq_app. reflexivity.
Qed.
Lemma rsum_blocks (h : nat -> R) n q :
  rsum (map (fun i => rsum (map h (seq (i * q) q))) (seq 0 n)) = rsum (map h (seq 0 (n * q))).
Proof. rewrite <- seq_blocks, concat_map, rsum_concat, !map_map. reflexivity. Qed.
Lemma rsum_seq_mono (h : nat -> R) n m : (forall i, 0 <= h i) -> (n <= m)%nat ->
  rsum (map h (seq 0 n)) <= rsum (map h (seq 0 m)).
Proof.
  intros H L. replace m with (n + (m - n))%nat by lia. rewrite seq_app, map_app, rsum_app.
  assert (0 <= rsum (map h (seq (0 + n) (m - n)))); [|lra].
  apply rsum_nonneg. intros x Hx. apply in_map_iff in Hx. destruct Hx as (i & <- & _). auto.
Qed.
(** the segment means of a difference have a small square sum *)
Lemma gavg_jensen n m d f g : (0 < m <= n)%nat ->
  INR (n / m) * gsum m d (fun i k => sq (gavg f (i * (n / m)) (n / m) k - gavg g (i * (n / m)) (n / m) k))
  <= gsum n d (fun u k => sq (f u k - g u k)).
Proof.
  intros H. set (q := (n / m)%nat). assert (Hq : (0 < q)%nat) by (apply Nat.div_str_pos; lia).
  assert (Hq' : 0 < INR q) by (apply lt_0_INR; auto).
  rewrite <- gsum_scal.
  apply Rle_trans with (gsum m d (fun i k => rsum (map (fun u => sq (f u k - g u k)) (seq (i * q) q)))).
  - apply gsum_le. intros i k _ _. unfold gavg.
    pose proof (rsum_sq_le (map (fun u => f u k - g u k) (seq (i * q) q))) as J.
    rewrite map_length, seq_length, map_map in J.
    replace (rsum (map (fun u => f u k) (seq (i * q) q)) / INR q - rsum (map (fun u => g u k) (seq (i * q) q)) / INR q)
      with (rsum (map (fun u => f u k - g u k) (seq (i * q) q)) / INR q).
    + set (A := rsum (map (fun u => f u k - g u k) (seq (i * q) q))) in *.
      unfold sq at 1. apply (Rmult_le_reg_r (INR q)); [auto|].
      replace (INR q * (A / INR q * (A / INR q)) * INR q) with (sq A) by (unfold sq; field; lra). rewrite Rmult_comm. exact J.
    + transitivity ((rsum (map (fun u => f u k) (seq (i * q) q)) + (-1) * rsum (map (fun u => g u k) (seq (i * q) q))) / INR q).
      * rewrite <- rsum_map_scal, <- rsum_map_plus. f_equal. apply rsum_map_ext. intros; lra.
      * field. lra.
  - unfold gsum. rewrite (rsum_swap (fun i k => rsum (map (fun u => sq (f u k - g u k)) (seq (i * q) q)))).
    rewrite (rsum_swap (fun u k => sq (f u k - g u k)) (seq 0 n)).
    apply rsum_map_le. intros k _. rewrite rsum_blocks. apply rsum_seq_mono; [intros; apply sq_nonneg|].
    rewrite Nat.mul_comm. unfold q. rewrite Nat.mul_comm. apply Nat.mul_div_le. lia.
Qed.

(** *** checks *)
Lemma check_arr_grids n d (fs : list (nat -> nat -> R)) : fs <> [] -> (0 < n)%nat ->
  check_arr (map (xgrid n d) fs) = Ok (map (xgrid n d) fs).
Proof.
  intros H Hn. destruct fs as [|f fs]; [congruence|]. unfold check_arr. simpl map.
  assert (Es : arr_sz (xgrid n d f :: map (xgrid n d) fs) = n) by apply xgrid_len.
  assert (Ed : arr_d (xgrid n d f :: map (xgrid n d) fs) = d) by (apply ncols_grid; auto).
  rewrite Es, Ed.
  assert (F : forall f, (length (xgrid n d f) =? n)%nat && forallb (fun r => (length r =? d)%nat) (xgrid n d f) = true).
  { intros g. rewrite xgrid_len, Nat.eqb_refl. simpl. apply forallb_forall. intros r Hr. unfold xgrid in Hr.
    apply in_map_iff in Hr. destruct Hr as (i & <- & _). rewrite grow_len. apply Nat.eqb_refl. }
  replace (forallb _ _) with true; auto. symmetry. apply forallb_forall. intros s Hs.
  destruct Hs as [<-|Hs]; [apply F|]. apply in_map_iff in Hs. destruct Hs as (g & <- & _). apply F.
Qed.
Lemma arr_sz_grids n d f fs : arr_sz (map (xgrid n d) (f :: fs)) = n.
Proof. apply xgrid_len. Qed.
Lemma arr_d_grids n d f fs : (0 < n)%nat -> arr_d (map (xgrid n d) (f :: fs)) = d.
Proof. intros H. apply ncols_grid. auto. Qed.

(** *** writing rows *)
Lemma write_fold_general (q m : nat) (step : nat -> nat -> list xr) z u :
  fold_left (fun out t => fun u => if ((t * q <=? u) && (u <? t * q + q))%nat then step t u else out u) (seq 0 m) z u =
  if (u <? m * q)%nat then step (u / q)%nat u else z u.
Proof.
  induction m as [|m IH]; [reflexivity|]. rewrite seq_S, fold_left_app. simpl. rewrite IH. clear IH.
  destruct (Nat.leb_spec (m * q) u); destruct (Nat.ltb_spec u (m * q + q)); simpl.
  - replace (u <? q + m * q)%nat with true by (symmetry; apply Nat.ltb_lt; lia).
    assert (E : (u / q = m)%nat); [|rewrite E; reflexivity].
    symmetry. apply (Nat.div_unique u q m (u - m * q)); lia.
  - replace (u <? m * q)%nat with false by (symmetry; apply Nat.ltb_ge; lia).
    replace (u <? q + m * q)%nat with false by (symmetry; apply Nat.ltb_ge; lia). reflexivity.
  - replace (u <? m * q)%nat with true by (symmetry; apply Nat.ltb_lt; lia).
    replace (u <? q + m * q)%nat with true by (symmetry; apply Nat.ltb_lt; lia). reflexivity.
  - lia.
Qed.
Lemma inv_paa_grid n m d f : (0 < m)%nat ->
  inv_paa_series n d (xgrid m d f) =
  xgrid n d (fun u k => if (u <? m * (n / m))%nat then f (u / (n / m))%nat k else 0).
Proof.
  intros Hm. unfold inv_paa_series. rewrite xgrid_len. unfold rows_of, xgrid at 2. apply map_ext_in. intros u Hu. apply in_seq in Hu.
  unfold write_rows. rewrite (write_fold_general (n / m) m (fun t _ => nth t (xgrid m d f) [])).
  destruct (Nat.ltb_spec u (m * (n / m))).
  - rewrite xgrid_nth; auto. apply Nat.div_lt_upper_bound; [intros E; rewrite E in H; lia|lia].
  - unfold grow. clear. generalize 0%nat. induction d as [|d IH]; intros a; simpl; auto. f_equal. apply IH.
Qed.

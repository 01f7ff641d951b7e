(** Properties C36, C37, C39, C77, C78, C79: SAX and 1d-SAX, exact arithmetic. *)
From Coq Require Import Bool List Arith Lia ZArith QArith Reals Lra.
From Verif Require Import Num NumLaws Py Series Spec RList SoftModel GakModel RealSeries PropSoft PaaModel PaaThms PropPaa.
Import ListNotations.
Local Open Scope R_scope.

(** ** specification *)
(** quantile functions: strictly increasing on (0, 1), as [norm.ppf] is *)
Definition quantile (ppf : R -> R) : Prop := forall p q, 0 < p -> p < q -> q < 1 -> ppf p < ppf q.
Definition increasing (l : list R) : Prop := forall i j, (i < j)%nat -> (j < length l)%nat -> nth i l 0 < nth j l 0.
(** all the values of feature [k] in a dataset; their mean and standard deviation, with
    1 in place of a standard deviation of 0 *)
Definition values (X : list (list (list R))) (k : nat) : list R := concat (map (map (fun r => nth k r 0)) X).
Definition avg_of (l : list R) : R := rsum l / INR (length l).
Definition std_of (l : list R) : R := sqrt (avg_of (map (fun v => (v - avg_of l) * (v - avg_of l)) l)).
Definition dev (X : list (list (list R))) (k : nat) : R := if Req_EM_T (std_of (values X k)) 0 then 1 else std_of (values X k).
(** [s] standardised, feature by feature, with the statistics of [X] *)
Definition standardised (X : list (list (list R))) (s : list (list R)) : list (list R) :=
  map (fun r => map (fun k => (nth k r 0 - avg_of (values X k)) / dev X k) (seq 0 (length r))) s.
Definition scaled (scale : bool) X s := if scale then standardised X s else s.
(** number of breakpoints at or below a value *)
Definition at_or_below (bps : list R) (v : R) : nat := length (filter (fun b => Rleb b v) bps).

(** ** C37: symbols *)
Lemma symbol_fold x bps : forall a,
  match fold_left (symbol_step x) (combine (seq a (length bps)) bps) None with
  | Some k => (a <= k < a + length bps)%nat /\ xltb x (XR (nth (k - a) bps 0)) = true /\
              forall i, (i < k - a)%nat -> xltb x (XR (nth i bps 0)) = false
  | None => forall i, (i < length bps)%nat -> xltb x (XR (nth i bps 0)) = false
  end.
Proof.
  assert (K : forall l k, fold_left (symbol_step x) l (Some k) = Some k) by (induction l; simpl; auto).
  induction bps as [|b bps IH]; intros a; [simpl; intros; lia|].
  cbn [length seq combine fold_left]. unfold symbol_step at 2. cbn [fst snd]. destruct (xltb x (XR b)) eqn:E.
  - rewrite K. replace (a - a)%nat with 0%nat by lia. split; [lia|]. split; [exact E|]. intros; lia.
  - specialize (IH (S a)). destruct (fold_left _ _ None) as [k|].
    + destruct IH as (H1 & H2 & H3). split; [lia|]. replace (k - a)%nat with (S (k - S a)) by lia. split; [exact H2|].
      intros i Hi. destruct i as [|i]; [exact E|]. apply H3. lia.
    + intros i Hi. destruct i as [|i]; [exact E|]. apply IH. lia.
Qed.
Lemma to_symbol_first bps x : let k := to_symbol bps x in
  (k <= length bps)%nat /\ (forall i, (i < k)%nat -> xltb x (XR (nth i bps 0)) = false) /\
  ((k < length bps)%nat -> xltb x (XR (nth k bps 0)) = true).
Proof.
  pose proof (symbol_fold x bps 0) as H. unfold to_symbol. destruct (fold_left _ _ None) as [k|].
  - destruct H as (H1 & H2 & H3). rewrite Nat.sub_0_r in *. split; [lia|]. split; auto.
  - split; [lia|]. split; [intros; apply H; lia|lia].
Qed.
Lemma filter_length_le' {A} (P : A -> bool) l : (length (filter P l) <= length l)%nat.
Proof. induction l; simpl; auto. destruct (P a); simpl; lia. Qed.
Lemma filter_prefix {A} (P : A -> bool) (x : A) l k : (k <= length l)%nat ->
  (forall i, (i < k)%nat -> P (nth i l x) = true) -> (forall i, (k <= i < length l)%nat -> P (nth i l x) = false) ->
  length (filter P l) = k.
Proof.
  revert k. induction l as [|a l IH]; intros k Hk H1 H2; simpl in *; [lia|]. destruct k as [|k].
  - rewrite (H2 0%nat) by lia. apply (IH 0%nat); [lia|intros; lia|]. intros i Hi. apply (H2 (S i)). lia.
  - rewrite (H1 0%nat) by lia. simpl. f_equal. apply IH; [lia| |].
    + intros i Hi. apply (H1 (S i)). lia.
    + intros i Hi. apply (H2 (S i)). lia.
Qed.
Lemma xltb_le x b : xisnan x = false -> xltb x (XR b) = false <-> xleb (XR b) x = true.
Proof.
  destruct x as [r| | |]; simpl; intros H; try discriminate; try (split; congruence).
  rewrite Rltb_false, Rleb_true. lra.
Qed.
(** the symbol of a value is the number of breakpoints at or below it *)
Theorem C37_symbol_counts bps x : increasing bps -> xisnan x = false ->
  to_symbol bps x = length (filter (fun b => xleb (XR b) x) bps).
Proof.
  intros Hb Hx. destruct (to_symbol_first bps x) as (H1 & H2 & H3). set (k := to_symbol bps x) in *. symmetry.
  apply (filter_prefix _ 0); auto.
  - intros i Hi. apply xltb_le; auto.
  - intros i Hi. specialize (H3 ltac:(lia)). destruct (xleb (XR (nth i bps 0)) x) eqn:E; auto. exfalso.
    destruct x as [r| | |]; simpl in *; try discriminate. apply Rltb_true in H3. apply Rleb_true in E.
    destruct (Nat.eq_dec i k) as [->|]; [lra|]. pose proof (Hb k i). lra || (specialize (H ltac:(lia) ltac:(lia)); lra).
Qed.
Print Assumptions C37_symbol_counts.
(** symbols are monotone; NaN gets the top symbol *)
Theorem C37_symbol_monotone bps x y : increasing bps -> xleb x y = true -> (to_symbol bps x <= to_symbol bps y)%nat.
Proof.
  intros Hb H. destruct (to_symbol_first bps x) as (H1 & H2 & H3), (to_symbol_first bps y) as (G1 & G2 & G3).
  set (k := to_symbol bps x) in *. set (l := to_symbol bps y) in *.
  destruct (le_lt_dec k l) as [|L]; auto. exfalso. specialize (H2 l L). specialize (G3 ltac:(lia)).
  destruct x as [r| | |], y as [q| | |]; simpl in *; try discriminate.
  apply Rleb_true in H. apply Rltb_true in G3. apply Rltb_false in H2. lra.
Qed.
Print Assumptions C37_symbol_monotone.
Theorem C37_symbol_nan bps : to_symbol bps XNaN = length bps.
Proof.
  destruct (to_symbol_first bps XNaN) as (H1 & _ & H3). destruct (le_lt_dec (length bps) (to_symbol bps XNaN)); [lia|].
  specialize (H3 l). discriminate.
Qed.
Print Assumptions C37_symbol_nan.

(** *** breakpoints *)
Lemma bp_len ppf n c : length (breakpoints ppf n c) = (n - 1)%nat.
Proof. unfold breakpoints. rewrite map_length, seq_length. auto. Qed.
Lemma bp_nth ppf n c i : (i < n - 1)%nat -> nth i (breakpoints ppf n c) 0 = ppf (INR (1 + i) / INR n) * c.
Proof. intros H. unfold breakpoints. rewrite map_seq_nth by auto. reflexivity. Qed.
Lemma mid_nth ppf n c i : (i < n)%nat -> nth i (bin_medians ppf n c) 0 = ppf (INR (2 * i + 1) / INR (2 * n)) * c.
Proof. intros H. unfold bin_medians. rewrite map_seq_nth by auto. reflexivity. Qed.
Lemma frac_lt a b n m : (0 < n)%nat -> (0 < m)%nat -> (a * m < b * n)%nat -> INR a / INR n < INR b / INR m.
Proof.
  intros Hn Hm H. apply lt_INR in H. rewrite !mult_INR in H. apply lt_0_INR in Hn, Hm.
  apply (Rmult_lt_reg_r (INR n * INR m)); [apply Rmult_lt_0_compat; auto|].
  replace (INR a / INR n * (INR n * INR m)) with (INR a * INR m) by (field; lra).
  replace (INR b / INR m * (INR n * INR m)) with (INR b * INR n) by (field; lra). auto.
Qed.
Lemma frac_pos a n : (0 < n)%nat -> (0 < a)%nat -> 0 < INR a / INR n.
Proof. intros Hn Ha. apply lt_0_INR in Hn, Ha. apply Rmult_lt_0_compat; auto. apply Rinv_0_lt_compat; auto. Qed.
Lemma frac_lt1 a n : (0 < n)%nat -> (a < n)%nat -> INR a / INR n < 1.
Proof.
  intros Hn H. apply lt_INR in H. apply lt_0_INR in Hn. apply (Rmult_lt_reg_r (INR n)); auto.
  replace (INR a / INR n * INR n) with (INR a) by (field; lra). lra.
Qed.
Lemma bp_increasing ppf n c : quantile ppf -> 0 < c -> increasing (breakpoints ppf n c).
Proof.
  intros Hp Hc i j Hij Hj. rewrite bp_len in Hj. rewrite !bp_nth by lia. apply Rmult_lt_compat_r; auto.
  apply Hp; [apply frac_pos; lia| |apply frac_lt1; lia].
  apply frac_lt; [lia|lia|]. apply Nat.mul_lt_mono_pos_r; lia.
Qed.
(** the median of a bin lies in the bin *)
Lemma median_symbol ppf n c a : quantile ppf -> 0 < c -> (a < n)%nat ->
  to_symbol (breakpoints ppf n c) (XR (nth a (bin_medians ppf n c) 0)) = a.
Proof.
  intros Hp Hc Ha. rewrite C37_symbol_counts by (auto; apply bp_increasing; auto).
  apply (filter_prefix _ 0); [rewrite bp_len; lia| |]; intros i Hi; [|rewrite bp_len in Hi]; rewrite bp_nth, mid_nth by lia; unfold xleb.
  - apply Rleb_true. apply Rmult_le_compat_r; [lra|]. left. apply Hp; [apply frac_pos; lia| |apply frac_lt1; lia].
    apply frac_lt; [lia|lia|]. nia.
  - apply Rleb_false. apply Rmult_lt_compat_r; auto. apply Hp; [apply frac_pos; lia| |apply frac_lt1; lia].
    apply frac_lt; [lia|lia|]. nia.
Qed.

(** *** fitting and scaling *)
Lemma concat_lift X : concat (map lift X) = lift (concat X).
Proof. unfold lift. rewrite concat_map. reflexivity. Qed.
Lemma column_values d sz X k : real_dataset d sz X -> (k < d)%nat -> column k (concat (map lift X)) = map XR (values X k).
Proof.
  intros [_ H] Hk. rewrite concat_lift. unfold column, lift, values. rewrite map_map, <- concat_map, map_map.
  apply map_ext_in. intros r Hr. apply in_concat in Hr. destruct Hr as (s & Hs & Hr). destruct (H s Hs) as [(_ & _ & Hl) _].
  specialize (Hl r Hr). rewrite (nth_indep _ XNaN (XR 0)) by (rewrite map_length; lia). apply map_nth.
Qed.
Lemma values_ne d sz X k : real_dataset d sz X -> values X k <> [].
Proof.
  intros [Hne H]. destruct X as [|s X]; [congruence|]. destruct (H s) as [(_ & Hs & _) _]; [left; auto|].
  destruct s; [congruence|discriminate].
Qed.
Lemma not_nan_reals l : not_nan (map XR l) = map XR l.
Proof. induction l; auto. cbn. f_equal. exact IHl. Qed.
Lemma nanmean_reals l : l <> [] -> nanmean (map XR l) = XR (avg_of l).
Proof. intros H. unfold nanmean. rewrite not_nan_reals. apply xmean_reals. auto. Qed.
Lemma avg_nonneg l : (forall v, In v l -> 0 <= v) -> 0 <= avg_of l.
Proof.
  intros H. unfold avg_of. destruct l as [|x l]; [simpl; lra|]. apply Rmult_le_pos; [apply rsum_nonneg; auto|].
  left. apply Rinv_0_lt_compat, lt_0_INR. simpl. lia.
Qed.
Lemma nanstd_reals l : l <> [] -> nanstd (map XR l) = XR (std_of l).
Proof.
  intros H. unfold nanstd. rewrite nanmean_reals, not_nan_reals by auto. rewrite map_map.
  rewrite (map_ext _ (fun v => XR ((v - avg_of l) * (v - avg_of l)))) by (intros; reflexivity).
  rewrite <- (map_map (fun v => (v - avg_of l) * (v - avg_of l)) XR). rewrite xmean_reals by (apply map_ne; auto).
  unfold xsqrt. rewrite (proj2 (Rleb_true _ _)); [reflexivity|]. apply avg_nonneg. intros v Hv.
  apply in_map_iff in Hv. destruct Hv as (x & <- & _). apply Rle_0_sqr.
Qed.
Lemma dev_pos X k : 0 < dev X k.
Proof.
  unfold dev. destruct (Req_EM_T _ 0); [lra|]. assert (0 <= std_of (values X k)) by apply sqrt_pos. lra.
Qed.
Lemma sax_fit_value ppf m a scale d sz X : real_dataset d sz X ->
  sax_fit ppf m a scale (map lift X) =
  Ok {| s_paa := {| p_nseg := m; p_sz := sz; p_d := d |}; s_bp := breakpoints ppf a 1; s_mid := bin_medians ppf a 1;
        s_scaling := if scale then Some (grow d (fun k => avg_of (values X k)), grow d (fun k => dev X k)) else None |}.
Proof.
  intros H. unfold sax_fit. rewrite (fit_dataset _ _ _ m H). simpl bind. f_equal. f_equal. destruct scale; auto. f_equal.
  assert (E : arr_d (map lift X) = d).
  { rewrite (dataset_grids _ _ _ H). pose proof (dataset_pos _ _ _ H). destruct H as [Hne _]. destruct X as [|s X]; [congruence|].
    simpl map. apply (arr_d_grids sz d (entry s)). lia. }
  rewrite E. rewrite !map_map. unfold grow. f_equal; apply map_ext_in; intros k Hk; apply in_seq in Hk;
    rewrite (column_values _ _ _ _ H) by lia.
  - apply nanmean_reals. eapply values_ne; eauto.
  - rewrite nanstd_reals by (eapply values_ne; eauto). unfold is_xzero, is_zero, dev.
    destruct (Req_EM_T (std_of (values X k)) 0); reflexivity.
Qed.
Lemma scale_row_grow d f mu sd : (forall k, (k < d)%nat -> sd k <> 0) ->
  scale_row (grow d mu) (grow d sd) (grow d f) = grow d (fun k => (f k - mu k) / sd k).
Proof.
  intros H. unfold scale_row, grow. rewrite !combine_map_same, map_map. apply map_ext_in. intros k Hk. apply in_seq in Hk.
  cbn [fst snd]. unfold xsub. simpl xadd. rewrite xdiv_real by (apply H; lia). reflexivity.
Qed.
Lemma unscale_row_grow d f mu sd : unscale_row (grow d mu) (grow d sd) (grow d f) = grow d (fun k => f k * sd k + mu k).
Proof. unfold unscale_row, grow. rewrite !combine_map_same, map_map. reflexivity. Qed.
Lemma lift_rows d s : real_series d s -> forall r, In r s -> map XR r = grow d (fun k => nth k r 0).
Proof. intros (_ & _ & H) r Hr. unfold grow. rewrite (map_nth_seq XR r 0). rewrite H by auto. reflexivity. Qed.
Lemma scaled_real d scale X s : real_series d s -> real_series d (scaled scale X s) /\ length (scaled scale X s) = length s.
Proof.
  intros H. destruct scale; [|auto]. simpl. unfold standardised. rewrite map_length. split; auto.
  destruct H as (Hd & Hs & Hr). split; auto. split; [apply map_ne; auto|]. intros r Hin. apply in_map_iff in Hin.
  destruct Hin as (r' & <- & Hin). rewrite map_length, seq_length. auto.
Qed.
Definition fitted (ppf : R -> R) (m a : nat) (scale : bool) (d sz : nat) (X : list (list (list R))) : sax_state :=
  {| s_paa := {| p_nseg := m; p_sz := sz; p_d := d |}; s_bp := breakpoints ppf a 1; s_mid := bin_medians ppf a 1;
     s_scaling := if scale then Some (grow d (fun k => avg_of (values X k)), grow d (fun k => dev X k)) else None |}.
Lemma scale_dataset ppf m a scale d sz X n Y : real_dataset d n Y ->
  sax_scale (fitted ppf m a scale d sz X) (map lift Y) = map lift (map (scaled scale X) Y).
Proof.
  intros [_ H]. unfold sax_scale. destruct scale; simpl; [|rewrite map_id; auto]. rewrite !map_map. apply map_ext_in.
  intros s Hs. destruct (H s Hs) as [Hr _]. unfold lift, scaled, standardised. rewrite !map_map. apply map_ext_in. intros r Hin.
  rewrite (lift_rows d s Hr r Hin). rewrite scale_row_grow by (intros k _; pose proof (dev_pos X k); lra).
  destruct Hr as (_ & _ & Hr). rewrite (Hr r Hin), map_map. reflexivity.
Qed.
Lemma scaled_dataset d n scale X Y : real_dataset d n Y -> real_dataset d n (map (scaled scale X) Y).
Proof.
  intros [Hne H]. split; [apply map_ne; auto|]. intros s Hs. apply in_map_iff in Hs. destruct Hs as (t & <- & Ht).
  destruct (H t Ht) as [Hr <-]. apply scaled_real. auto.
Qed.
Lemma real_check d n Y : real_dataset d n Y -> check_arr (map lift Y) = Ok (map lift Y) /\ arr_d (map lift Y) = d /\ arr_sz (map lift Y) = n.
Proof.
  intros H. pose proof (dataset_pos _ _ _ H) as [Hn Hd]. pose proof (proj1 H) as Hne. rewrite (dataset_grids _ _ _ H). split.
  - apply check_arr_grids; auto. apply map_ne; auto.
  - destruct Y as [|s Y]; [congruence|]. simpl map. split; [apply (arr_d_grids n d (entry s)); auto|apply (arr_sz_grids n d (entry s))].
Qed.
Definition ngrid (n d : nat) (f : nat -> nat -> nat) : list (list nat) := map (fun i => map (f i) (seq 0 d)) (seq 0 n).
Lemma sax_transform_value ppf m a scale d sz X n Y : real_dataset d n Y -> (0 < m <= n)%nat ->
  sax_transform_ (fitted ppf m a scale d sz X) (map lift Y) =
  Ok (map (fun s => ngrid m d (fun i k => to_symbol (breakpoints ppf a 1) (XR (block_mean (scaled scale X s) (n / m) i k)))) Y).
Proof.
  intros H Hm. unfold sax_transform_. rewrite (scale_dataset _ _ _ _ _ _ _ n) by auto.
  pose proof (scaled_dataset d n scale X Y H) as HS.
  pose proof (transform_dataset d n _ {| p_nseg := m; p_sz := sz; p_d := d |} HS eq_refl Hm) as T.
  unfold paa_transform in T. destruct (real_check _ _ _ HS) as (C1 & C2 & _). rewrite C1 in T. simpl bind in T.
  unfold check_features in T. rewrite C2 in T. simpl p_d in T. rewrite Nat.eqb_refl in T. simpl bind in T. simpl p_nseg in *.
  cbn [fitted s_paa p_nseg]. rewrite T. simpl bind. f_equal. unfold paa_to_symbols. rewrite !map_map. apply map_ext. intros s.
  unfold xgrid, ngrid. rewrite map_map. apply map_ext. intros i. unfold grow. rewrite map_map. reflexivity.
Qed.
Lemma sax_public ppf m a scale d sz X n Y : real_dataset d n Y -> (0 < m <= n)%nat ->
  sax_transform (fitted ppf m a scale d sz X) (map lift Y) =
  Ok (map (fun s => ngrid m d (fun i k => to_symbol (breakpoints ppf a 1) (XR (block_mean (scaled scale X s) (n / m) i k)))) Y).
Proof.
  intros H Hm. unfold sax_transform. destruct (real_check _ _ _ H) as (C1 & C2 & _). rewrite C1. simpl bind.
  unfold check_features. rewrite C2. simpl p_d. rewrite Nat.eqb_refl. simpl bind. apply sax_transform_value; auto.
Qed.
Lemma count_real ppf a c v : quantile ppf -> 0 < c ->
  to_symbol (breakpoints ppf a c) (XR v) = at_or_below (breakpoints ppf a c) v.
Proof. intros Hp Hc. rewrite C37_symbol_counts by (auto using bp_increasing). reflexivity. Qed.

(** fitting on [X] and transforming [Y]: every symbol counts the quantiles
    1/a, ..., (a-1)/a at or below the segment mean of the (standardised) series *)
Theorem C37_sax_transform_symbols ppf m a scale d sz X n Y :
  quantile ppf -> real_dataset d sz X -> real_dataset d n Y -> (0 < m <= n)%nat -> (0 < a)%nat ->
  exists T, bind (sax_fit ppf m a scale (map lift X)) (fun st => sax_transform st (map lift Y)) = Ok T /\
    length T = length Y /\
    forall j i k, (j < length Y)%nat -> (i < m)%nat -> (k < d)%nat ->
      length (nth j T []) = m /\ length (nth i (nth j T []) []) = d /\
      nth k (nth i (nth j T []) []) 0%nat =
        length (filter (fun b => Rleb (ppf (INR b / INR a)) (block_mean (scaled scale X (nth j Y [])) (n / m) i k)) (seq 1 (a - 1))) /\
      (nth k (nth i (nth j T []) []) 0%nat < a)%nat.
Proof.
  intros Hp HX HY Hm Ha. rewrite (sax_fit_value _ _ _ _ _ _ _ HX). simpl bind. fold (fitted ppf m a scale d sz X).
  rewrite (sax_public _ _ _ _ _ _ _ n) by auto. eexists. split; [reflexivity|]. rewrite map_length. split; auto.
  intros j i k Hj Hi Hk. set (F := fun s => ngrid m d (fun i k => to_symbol (breakpoints ppf a 1) (XR (block_mean (scaled scale X s) (n / m) i k)))).
  rewrite (nth_indep _ [] (F [])) by (rewrite map_length; auto). rewrite (map_nth F). unfold F, ngrid.
  rewrite map_length, seq_length. split; auto. rewrite map_seq_nth by auto. rewrite map_length, seq_length. split; auto.
  rewrite map_seq_nth by auto. simpl plus. rewrite count_real by (auto; lra). unfold at_or_below, breakpoints.
  assert (E : forall v l, length (filter (fun b => Rleb b v) (map (fun b => ppf (INR b / INR a) * 1) l)) =
    length (filter (fun b => Rleb (ppf (INR b / INR a)) v) l)).
  { intros v. induction l as [|b l IH]; simpl; auto. rewrite Rmult_1_r. destruct (Rleb _ v); simpl; auto. }
  rewrite E. split; auto. eapply Nat.le_lt_trans; [apply filter_length_le'|]. rewrite seq_length. lia.
Qed.
Print Assumptions C37_sax_transform_symbols.

(** ** C36 *)
Lemma sax_term_bound bps x y : increasing bps ->
  sax_term bps (to_symbol bps (XR x)) (to_symbol bps (XR y)) <= sq (x - y).
Proof.
  intros Hb. unfold sax_term.
  assert (W : forall x y, (to_symbol bps (XR x) + 1 < to_symbol bps (XR y))%nat ->
    0 <= nth (to_symbol bps (XR y) - 1) bps 0 - nth (to_symbol bps (XR x)) bps 0 <= y - x).
  { clear x y. intros x y L. destruct (to_symbol_first bps (XR x)) as (H1 & H2 & H3), (to_symbol_first bps (XR y)) as (G1 & G2 & G3).
    set (k := to_symbol bps (XR x)) in *. set (l := to_symbol bps (XR y)) in *.
    specialize (H3 ltac:(lia)). specialize (G2 (l - 1)%nat ltac:(lia)). simpl in *. apply Rltb_true in H3. apply Rltb_false in G2.
    assert (nth k bps 0 <= nth (l - 1) bps 0) by (destruct (Nat.eq_dec k (l - 1)) as [->|]; [lra|left; apply Hb; lia]). lra. }
  set (a := to_symbol bps (XR x)) in *. set (b := to_symbol bps (XR y)) in *.
  destruct (Nat.ltb_spec 1 (a - b)); [|destruct (Nat.ltb_spec 1 (b - a))]; simpl; try apply sq_nonneg.
  - rewrite Nat.max_l, Nat.min_r by lia. specialize (W y x ltac:(fold a b; lia)). fold a b in W. unfold sq. nra.
  - rewrite Nat.max_r, Nat.min_l by lia. specialize (W x y ltac:(fold a b; lia)). fold a b in W. unfold sq. nra.
Qed.
Lemma same_shape_ngrid n d f g : same_shape (ngrid n d f) (ngrid n d g) = true.
Proof.
  unfold same_shape, ngrid. rewrite !map_length, Nat.eqb_refl. simpl. apply forallb_forall. intros p Hp.
  rewrite combine_map_same in Hp. apply in_map_iff in Hp. destruct Hp as (i & <- & _). simpl. rewrite !map_length. apply Nat.eqb_refl.
Qed.
Lemma cydist_ngrid n d f g bps sz : (0 < n)%nat ->
  cydist_sax (ngrid n d f) (ngrid n d g) bps sz =
  Ok (sqrt (gsum n d (fun i k => sax_term bps (f i k) (g i k)) * INR sz / INR n)).
Proof.
  intros Hn. unfold cydist_sax. rewrite same_shape_ngrid. simpl negb. cbv iota. unfold ngrid at 1. rewrite map_length, seq_length.
  destruct (Nat.eqb_spec n 0); [lia|]. unfold ngrid at 3. rewrite map_length, seq_length. f_equal. f_equal. f_equal. f_equal.
  unfold ngrid. rewrite combine_concat by (intros; rewrite !map_length; auto). rewrite concat_map, rsum_concat, !map_map. unfold gsum.
  f_equal. apply map_ext. intros i. rewrite combine_map_same, map_map. reflexivity.
Qed.
(** MINDIST of two series is at most the PAA distance of the (standardised) series,
    for every alphabet size and every number of segments *)
Theorem C36_mindist_lower_bounds_paa ppf m a scale d sz X s1 s2 n :
  quantile ppf -> real_dataset d sz X -> real_series d s1 -> real_series d s2 -> length s1 = n -> length s2 = n -> (0 < m <= n)%nat ->
  exists u v, bind (sax_fit ppf m a scale (map lift X)) (fun st => sax_distance st (lift s1) (lift s2)) = Ok u /\
    bind (paa_fit m (map lift X)) (fun st => paa_distance st (lift (scaled scale X s1)) (lift (scaled scale X s2))) = Ok (XR v) /\
    0 <= u <= v.
Proof.
  intros Hp HX H1 H2 L1 L2 Hm. rewrite (sax_fit_value _ _ _ _ _ _ _ HX). simpl bind at 1. fold (fitted ppf m a scale d sz X).
  unfold sax_distance. change [lift s1; lift s2] with (map lift [s1; s2]). rewrite (sax_public ppf m a scale d sz X n [s1; s2]) by (auto using pair_dataset). simpl bind at 1.
  change (nth 0 _ []) with (ngrid m d (fun i k => to_symbol (breakpoints ppf a 1) (XR (block_mean (scaled scale X s1) (n / m) i k)))).
  change (nth 1 _ []) with (ngrid m d (fun i k => to_symbol (breakpoints ppf a 1) (XR (block_mean (scaled scale X s2) (n / m) i k)))).
  rewrite cydist_ngrid by lia. eexists. eexists. split; [reflexivity|].
  destruct (scaled_real d scale X s1 H1) as [R1 E1], (scaled_real d scale X s2 H2) as [R2 E2].
  split; [apply (C35_paa_distance_value d sz X m _ _ n); auto; lia|]. split; [apply sqrt_pos|]. apply sqrt_le_1_alt.
  simpl p_sz. simpl s_bp.
  assert (Hq : 0 <= INR sz / INR m).
  { apply Rmult_le_pos; [apply pos_INR|]. left. apply Rinv_0_lt_compat, lt_0_INR. lia. }
  unfold Rdiv at 1. rewrite Rmult_assoc. fold (INR sz / INR m). rewrite Rmult_comm. apply Rmult_le_compat_l; auto.
  apply gsum_le. intros i k _ _. apply sax_term_bound. apply bp_increasing; auto. lra.
Qed.
Print Assumptions C36_mindist_lower_bounds_paa.
(** ... hence at most the Euclidean distance when the segments divide the length *)
Theorem C36_mindist_lower_bounds_euclid ppf m a scale d sz X s1 s2 :
  quantile ppf -> real_dataset d sz X -> real_series d s1 -> real_series d s2 -> length s1 = sz -> length s2 = sz ->
  (0 < m)%nat -> Nat.divide m sz ->
  exists u, bind (sax_fit ppf m a scale (map lift X)) (fun st => sax_distance st (lift s1) (lift s2)) = Ok u /\
    0 <= u <= euclid (scaled scale X s1) (scaled scale X s2).
Proof.
  intros Hp HX H1 H2 L1 L2 Hm Hdv. pose proof (dataset_pos _ _ _ HX) as [Hn _].
  assert (Hle : (m <= sz)%nat) by (apply Nat.divide_pos_le; auto).
  destruct (C36_mindist_lower_bounds_paa ppf m a scale d sz X s1 s2 sz) as (u & v & Eu & Ev & B); auto.
  destruct (scaled_real d scale X s1 H1) as [R1 E1], (scaled_real d scale X s2 H2) as [R2 E2].
  destruct (C35_paa_lower_bound_partial d sz X m (scaled scale X s1) (scaled scale X s2)) as (w & Ew & C); auto; try lia.
  exists u. split; auto. rewrite Ew in Ev. injection Ev as ->. lra.
Qed.
Print Assumptions C36_mindist_lower_bounds_euclid.

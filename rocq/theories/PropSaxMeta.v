(** C201, C202: PAA follows a change of unit and origin; the words of SAX with
    [scale=True] do not see it, those of 1d-SAX do. *)
From Coq Require Import Bool List Arith Lia ZArith QArith Reals Lra.
From Verif Require Import Num NumLaws Py Series Spec RList SoftModel GakModel RealSeries PropSoft PaaModel PaaThms PropPaa PropSax PropSax1d
  PreModel PropScale PropScaleMeta.
Import ListNotations.
Local Open Scope R_scope.

(** ** PAA *)
Definition aff (a b : R) (x : xr) : xr := match x with XR v => XR (a * v + b) | XInf => XInf | XNInf => XNInf | XNaN => XNaN end.
Lemma xsum_nan_in l : In XNaN l -> xsum l = XNaN.
Proof.
  assert (G : forall l, fold_left xadd l XNaN = XNaN) by (induction l0; auto).
  assert (K : forall l acc, In XNaN l -> fold_left xadd l acc = XNaN).
  { induction l0 as [|x l0 IH]; intros acc H; [contradiction|]. destruct H as [->|H]; simpl; auto. destruct acc; simpl; auto. }
  intros H. apply K. auto.
Qed.
Lemma xr_dec (x y : xr) : {x = y} + {x <> y}.
Proof. decide equality. apply Req_EM_T. Qed.
Lemma xmean_aff a b l : plain l -> xmean (map (aff a b) l) = aff a b (xmean l).
Proof.
  intros P. destruct (in_dec xr_dec XNaN l) as [I|I].
  - assert (I' : In XNaN (map (aff a b) l)) by (apply in_map_iff; exists XNaN; auto).
    unfold xmean. rewrite (xsum_nan_in _ I), (xsum_nan_in _ I').
    rewrite map_length. unfold xdiv. destruct (Req_EM_T (INR (length l)) 0); auto.
  - assert (E : exists s, l = map XR s).
    { clear - P I. induction l as [|x l IH]; [exists []; auto|]. destruct IH as [s ->].
      - intros y Hy. apply P. right; auto.
      - intros H. apply I. right; auto.
      - destruct (P x (or_introl eq_refl)) as [->|[v ->]]; [exfalso; apply I; left; auto|]. exists (v :: s). auto. }
    destruct E as [s ->]. rewrite map_map. cbn [aff]. destruct s as [|v s].
    + unfold xmean, xsum. simpl. unfold xdiv. destruct (Req_EM_T 0 0); [|lra].
      destruct (Rltb 0 0) eqn:E1; [apply Rltb_true in E1; lra|]. auto.
    + rewrite <- (map_map (fun v => a * v + b) XR). rewrite !xmean_reals by discriminate. cbn [aff]. f_equal.
      exact (mean_aff a b (v :: s) ltac:(discriminate)).
Qed.
Lemma ts_size_same (s s' : series Xnum) : length s = length s' ->
  (forall t, (t < length s)%nat -> nan_row (N:=Xnum) (nth t s []) = nan_row (N:=Xnum) (nth t s' [])) -> ts_size (N:=Xnum) s = ts_size (N:=Xnum) s'.
Proof.
  intros L H. unfold ts_size.
  assert (M : map (nan_row (N:=Xnum)) s = map (nan_row (N:=Xnum)) s').
  { apply (nth_ext_at _ _ (nan_row (N:=Xnum) [])); rewrite !map_length; auto. intros i Hi.
    rewrite (map_nth (nan_row (N:=Xnum))). rewrite (map_nth (nan_row (N:=Xnum))). auto. }
  assert (G : forall l l' : list (list (carrier Xnum)), map (nan_row (N:=Xnum)) l = map (nan_row (N:=Xnum)) l' -> length (skip_nan (N:=Xnum) l) = length (skip_nan (N:=Xnum) l')).
  { induction l as [|r l IH]; intros [|r' l'] E; try discriminate; auto. cbn [map] in E. injection E as E1 E2.
    cbn [skip_nan]. rewrite E1. destruct (nan_row r'); auto.
    cbn [length]. f_equal. apply (f_equal (@length _)) in E2. rewrite !map_length in E2. exact E2. }
  apply G. rewrite !map_rev. rewrite M. reflexivity.
Qed.
Lemma remeasured_row a b n sz d X X' i t : remeasured a b n sz d X X' -> (i < n)%nat -> (t < sz)%nat ->
  nan_row (N:=Xnum) (nth t (nth i X []) []) = nan_row (N:=Xnum) (nth t (nth i X' []) []).
Proof.
  intros (HX & HX' & H) Hi Ht. pose proof (shape_row n sz d X i t HX Hi Ht) as L1. pose proof (shape_row n sz d X' i t HX' Hi Ht) as L2.
  assert (E : nth t (nth i X' []) [] = map (fun k => match nth k (nth t (nth i X []) []) XNaN with XR v => XR (a i k * v + b i k) | x => x end) (seq 0 d)).
  { apply (nth_ext_at _ _ XNaN); [rewrite map_length, seq_length; exact L2|]. intros k Hk. norm. rewrite L2 in Hk.
    rewrite map_seq_nth by auto. apply (H i t k); auto. }
  rewrite E. rewrite (list_nth_seq (nth t (nth i X []) []) XNaN) at 1. norm. rewrite L1.
  unfold nan_row. clear. induction (seq 0 d) as [|k l IH]; auto. cbn [map forallb]. rewrite IH. f_equal.
  simpl. destruct (nth k _ XNaN); reflexivity.
Qed.
Lemma nth_column k t (s : series Xnum) : (t < length s)%nat -> nth t (column k s) XNaN = nth k (nth t s []) XNaN.
Proof.
  intros H. unfold column. rewrite (nth_indep _ XNaN ((fun r => nth k r XNaN) [])) by (rewrite map_length; auto).
  apply (map_nth (fun r => nth k r XNaN)).
Qed.
(** the representation of the converted series is the converted representation *)
Theorem C201_paa a b st n sz d X X' : (0 < n)%nat -> (0 < sz)%nat -> (0 < p_nseg st)%nat -> p_d st = d ->
  numeric X -> remeasured a b n sz d X X' ->
  exists P P', paa_transform st X = Ok P /\ paa_transform st X' = Ok P' /\ remeasured a b n (p_nseg st) d P P'.
Proof.
  intros Hn Hsz Hm Hd HN R. pose proof R as (HX & HX' & H). unfold paa_transform.
  rewrite (check_arr_shape n sz d X HX Hn Hsz), (check_arr_shape n sz d X' HX' Hn Hsz). cbn [bind]. unfold check_features.
  rewrite (arr_d_shape n sz d X), (arr_d_shape n sz d X') by auto. rewrite Hd, Nat.eqb_refl. cbn [bind]. unfold paa_transform_.
  destruct (Nat.eqb_spec (p_nseg st) 0); [lia|]. eexists. eexists. split; [reflexivity|]. split; [reflexivity|].
  rewrite (arr_d_shape n sz d X), (arr_d_shape n sz d X') by auto. set (m := p_nseg st) in *.
  assert (S : forall Z, shape3 n sz d Z -> shape3 n m d (map (paa_series m d) Z)).
  { intros Z [HZ _]. split; [rewrite map_length; auto|]. intros s Hs. apply in_map_iff in Hs. destruct Hs as (s0 & <- & _).
    unfold paa_series. rewrite map_length, seq_length. split; auto. intros r Hr. apply in_map_iff in Hr. destruct Hr as (u & <- & _).
    unfold paa_segment. rewrite map_length, seq_length. auto. }
  split; [auto|]. split; [auto|]. intros i u k Hi Hu Hk.
  assert (V : forall Z, shape3 n sz d Z -> entry3 (map (paa_series m d) Z) i u k =
    xmean (column k (slice (u * (ts_size (N:=Xnum) (nth i Z []) / m)) (u * (ts_size (N:=Xnum) (nth i Z []) / m) + ts_size (N:=Xnum) (nth i Z []) / m) (nth i Z [])))).
  { intros Z HZ. unfold entry3. pose proof HZ as [LZ _].
    rewrite (nth_indep _ [] (paa_series m d [])) by (rewrite map_length; norm; lia). rewrite (map_nth (paa_series m d)).
    unfold paa_series. rewrite map_seq_nth by auto. cbn [plus]. unfold paa_segment. rewrite map_seq_nth by auto. reflexivity. }
  rewrite (V X HX), (V X' HX'). destruct (shape_series n sz d X i HX Hi) as [L1 _]. destruct (shape_series n sz d X' i HX' Hi) as [L2 _].
  assert (T : ts_size (N:=Xnum) (nth i X []) = ts_size (N:=Xnum) (nth i X' [])).
  { apply ts_size_same; [norm; lia|]. intros t Ht. norm. rewrite L1 in Ht. apply (remeasured_row a b n sz d); auto. }
  rewrite <- T. set (q := (ts_size (N:=Xnum) (nth i X []) / m)%nat).
  assert (C : column k (nth i X' []) = map (aff (a i k) (b i k)) (column k (nth i X []))).
  { assert (LC : forall s : series Xnum, length (column k s) = length s) by (intros; apply map_length).
    apply (nth_ext_at _ _ XNaN); [rewrite map_length, !LC; norm; lia|]. intros t Ht. rewrite LC in Ht. norm. rewrite L2 in Ht.
    rewrite nth_column by (norm; lia). change XNaN with (aff (a i k) (b i k) XNaN) at 2. rewrite map_nth. rewrite nth_column by (norm; lia).
    etransitivity; [exact (H i t k Hi Ht Hk)|]. unfold aff, entry3. norm. destruct (nth k (nth t (nth i X []) []) XNaN); reflexivity. }
  assert (SC : forall s : series Xnum, column k (slice (u * q) (u * q + q) s) = slice (u * q) (u * q + q) (column k s)).
  { intros s. unfold column. symmetry. apply slice_map. }
  rewrite !SC, C, slice_map. rewrite xmean_aff; [reflexivity|].
  intros x Hx. apply (in_slice_iff _ _ _ _ XNaN) in Hx. destruct Hx as (t & _ & Ht & <-).
  unfold column in Ht. rewrite map_length in Ht. norm. rewrite L1 in Ht.
  rewrite nth_column by (norm; lia). exact (entry_numeric n sz d X i t k HX HN Hi Ht Hk).
Qed.
Print Assumptions C201_paa.

(** ** SAX *)
(** [sax.fit(X).transform(Z)], [sax.fit(X).distance(s1, s2)] *)
Definition sax_words (ppf : R -> R) (m al : nat) (X Z : array3) : res (list (list (list nat))) :=
  do st <- sax_fit ppf m al true X ;; sax_transform st Z.
Definition mindist (ppf : R -> R) (m al : nat) (X : array3) (s1 s2 : series Xnum) : res R :=
  do st <- sax_fit ppf m al true X ;; sax_distance st s1 s2.
(** scaling before SAX is the mean-variance scaler for whole features *)
Definition standard : mv_params := {| mv_mu := 0; mv_std := 1; mv_per_ts := false; mv_per_feat := true |}.
Lemma scale_row_nth mu sd row d k : length mu = d -> length sd = d -> length row = d -> (k < d)%nat ->
  nth k (scale_row mu sd row) XNaN = xdiv (xsub (nth k row XNaN) (nth k mu XNaN)) (nth k sd XNaN).
Proof.
  intros L1 L2 L3 Hk. unfold scale_row.
  set (f := fun p : xr * (xr * xr) => xdiv (xsub (fst p) (fst (snd p))) (snd (snd p))).
  rewrite (nth_indep _ XNaN (f (XNaN, (XNaN, XNaN)))) by (rewrite map_length, !combine_length; lia).
  rewrite (map_nth f). rewrite combine_nth by (rewrite combine_length; lia). rewrite combine_nth by lia. reflexivity.
Qed.
Lemma scale_row_len mu sd row d : length mu = d -> length sd = d -> length row = d -> length (scale_row mu sd row) = d.
Proof. intros. unfold scale_row. rewrite map_length, !combine_length. lia. Qed.
Lemma xdiv_nan y : xdiv XNaN y = XNaN.
Proof. destruct y; simpl; auto. destruct (Req_EM_T r 0); auto. Qed.
Lemma sax_scale_standard ppf m al n sz n' sz' d X Z st : (0 < n)%nat -> (0 < sz)%nat -> shape3 n sz d X -> numeric X ->
  (0 < n')%nat -> (0 < sz')%nat -> shape3 n' sz' d Z -> numeric Z -> sax_fit ppf m al true X = Ok st ->
  mean_var standard X Z = Ok (sax_scale st Z).
Proof.
  intros Hn Hsz HX HNX Hn' Hsz' HZ HNZ Ef. unfold sax_fit, paa_fit in Ef. rewrite (check_arr_shape n sz d X HX Hn Hsz) in Ef. cbn [bind] in Ef.
  injection Ef as <-. rewrite (arr_d_shape n sz d X) by auto. unfold sax_scale. cbn [s_scaling].
  set (mu := map nanmean _). set (sd := map _ (map _ (seq 0 d))).
  destruct (mv_entries n sz n' sz' d X Z Hn Hsz HX HNX Hn' Hsz' HZ HNZ standard) as (Y & E & S & G). rewrite E. f_equal.
  assert (Lmu : length mu = d) by (unfold mu; rewrite !map_length, seq_length; auto).
  assert (Lsd : length sd = d) by (unfold sd; rewrite !map_length, seq_length; auto).
  assert (SR : shape3 n' sz' d (map (map (scale_row mu sd)) Z)).
  { destruct HZ as [H1 H2]. split; [rewrite map_length; auto|]. intros s Hs. apply in_map_iff in Hs. destruct Hs as (s0 & <- & Hs).
    destruct (H2 s0 Hs) as [H3 H4]. split; [rewrite map_length; auto|]. intros r Hr. apply in_map_iff in Hr. destruct Hr as (r0 & <- & Hr).
    apply scale_row_len; auto. }
  apply (array_ext n' sz' d); auto. intros i t k Hi Ht Hk. rewrite G by auto. unfold learnt, standard. cbn [mv_per_ts mv_per_feat].
  assert (EV : entry3 (map (map (scale_row mu sd)) Z) i t k = xdiv (xsub (entry3 Z i t k) (nth k mu XNaN)) (nth k sd XNaN)).
  { unfold entry3. destruct (shape_series n' sz' d Z i HZ Hi) as [A _]. pose proof (shape_row n' sz' d Z i t HZ Hi Ht) as B. pose proof HZ as [L _].
    rewrite (nth_indep _ [] (map (scale_row mu sd) [])) by (rewrite map_length; norm; lia). rewrite (map_nth (map (scale_row mu sd))).
    rewrite (nth_indep _ [] (scale_row mu sd [])) by (rewrite map_length; norm; lia). rewrite (map_nth (scale_row mu sd)).
    apply (scale_row_nth mu sd _ d k); auto. }
  rewrite EV.
  assert (Emu : nth k mu XNaN = nanmean (column k (concat X))) by (unfold mu; rewrite map_map, map_seq_nth by auto; reflexivity).
  assert (Esd : nth k sd XNaN = let sd := nanstd (column k (concat X)) in if is_xzero sd then XR 1 else sd)
    by (unfold sd; rewrite map_map, map_seq_nth by auto; reflexivity).
  rewrite Emu, Esd. cbv zeta. change (column k (concat X)) with (group false true X 0 k).
  rewrite (group_cells false true n sz d X 0 k HX Hn). pose proof (group_plain false true n sz d X 0 k HX HNX Hn Hk) as P.
  rewrite (scope_cells false true n sz d X 0 k). rewrite (nanmean_numbers _ P).
  destruct (entry_numeric n' sz' d Z i t k HZ HNZ Hi Ht Hk) as [->|[v ->]].
  - unfold xsub. cbn [xadd]. rewrite xdiv_nan. reflexivity.
  - destruct (numbers _) as [|x l] eqn:El.
    + unfold xsub. cbn [xadd xopp]. rewrite xdiv_nan. reflexivity.
    + rewrite (nanstd_numbers _ P) by congruence. rewrite El. unfold is_xzero, is_zero, mv_affine. cbn [mv_std mv_mu xsub xadd xopp].
      destruct (Req_EM_T (std_dev (x :: l)) 0); unfold xsub; cbn [xadd xopp]; rewrite xdiv_real by lra; f_equal; field; lra.
Qed.
Definition per_feature (a b : nat -> nat -> R) : Prop := units false true a b.
Theorem C201_words ppf m al a b n sz n' sz' d X X' Z Z' : per_feature a b ->
  (0 < n)%nat -> (0 < sz)%nat -> numeric X -> remeasured a b n sz d X X' ->
  (0 < n')%nat -> (0 < sz')%nat -> numeric Z -> remeasured a b n' sz' d Z Z' ->
  well_spread false true n sz n' sz' d X Z ->
  sax_words ppf m al X' Z' = sax_words ppf m al X Z.
Proof.
  intros U Hn Hsz HX R1 Hn' Hsz' HZ R2 W. pose proof R1 as (A1 & A2 & _). pose proof R2 as (A3 & A4 & _).
  pose proof (remeasured_numeric _ _ _ _ _ _ _ R1 HX) as HX'. pose proof (remeasured_numeric _ _ _ _ _ _ _ R2 HZ) as HZ'.
  destruct (C200_meanvariance standard a b n sz n' sz' d X X' Z Z' U Hn Hsz HX R1 Hn' Hsz' HZ R2 W) as (Y & E & E').
  unfold sax_words.
  assert (F : forall V, shape3 n sz d V -> exists st, sax_fit ppf m al true V = Ok st /\ s_paa st = {| p_nseg := m; p_sz := sz; p_d := d |} /\ s_bp st = breakpoints ppf al 1).
  { intros V HV. unfold sax_fit, paa_fit. rewrite (check_arr_shape n sz d V HV Hn Hsz). cbn [bind].
    rewrite (arr_d_shape n sz d V) by auto. rewrite (arr_sz_shape n sz d V) by auto. eexists. split; [reflexivity|]. split; reflexivity. }
  destruct (F X A1) as (st & Ef & E1 & E2). destruct (F X' A2) as (st' & Ef' & E1' & E2').
  rewrite Ef, Ef'. cbn [bind]. unfold sax_transform.
  rewrite (check_arr_shape n' sz' d Z A3 Hn' Hsz'), (check_arr_shape n' sz' d Z' A4 Hn' Hsz'). cbn [bind]. unfold check_features.
  rewrite (arr_d_shape n' sz' d Z), (arr_d_shape n' sz' d Z') by auto. rewrite E1, E1'. cbn [p_d]. rewrite Nat.eqb_refl. cbn [bind].
  unfold sax_transform_. rewrite E1, E1', E2, E2'.
  pose proof (sax_scale_standard ppf m al n sz n' sz' d X Z st Hn Hsz A1 HX Hn' Hsz' A3 HZ Ef) as K.
  pose proof (sax_scale_standard ppf m al n sz n' sz' d X' Z' st' Hn Hsz A2 HX' Hn' Hsz' A4 HZ' Ef') as K'.
  rewrite E in K. rewrite E' in K'. injection K as <-. injection K' as <-. reflexivity.
Qed.
Print Assumptions C201_words.
(** the words of the training data itself, constant features included *)
Theorem C201_own_words ppf m al a b n sz d X X' : per_feature a b ->
  (0 < n)%nat -> (0 < sz)%nat -> numeric X -> remeasured a b n sz d X X' ->
  sax_words ppf m al X' X' = sax_words ppf m al X X.
Proof. intros. apply (C201_words ppf m al a b n sz n sz d); auto. apply own_spread; auto. Qed.
Print Assumptions C201_own_words.
Theorem C201_distance ppf m al a b n sz sz' d X X' s1 s2 s1' s2' : per_feature a b ->
  (0 < n)%nat -> (0 < sz)%nat -> numeric X -> remeasured a b n sz d X X' ->
  (0 < sz')%nat -> numeric [s1; s2] -> remeasured a b 2 sz' d [s1; s2] [s1'; s2'] ->
  well_spread false true n sz 2 sz' d X [s1; s2] ->
  mindist ppf m al X' s1' s2' = mindist ppf m al X s1 s2.
Proof.
  intros U Hn Hsz HX R1 Hsz' HZ R2 W. pose proof R1 as (A1 & A2 & _).
  pose proof (C201_words ppf m al a b n sz 2 sz' d X X' [s1; s2] [s1'; s2'] U Hn Hsz HX R1 (le_S _ _ (le_n _)) Hsz' HZ R2 W) as K.
  unfold sax_words, mindist, sax_distance in *.
  assert (F : forall V, shape3 n sz d V -> exists st, sax_fit ppf m al true V = Ok st /\ s_paa st = {| p_nseg := m; p_sz := sz; p_d := d |} /\ s_bp st = breakpoints ppf al 1).
  { intros V HV. unfold sax_fit, paa_fit. rewrite (check_arr_shape n sz d V HV Hn Hsz). cbn [bind].
    rewrite (arr_d_shape n sz d V) by auto. rewrite (arr_sz_shape n sz d V) by auto. eexists. split; [reflexivity|]. split; reflexivity. }
  destruct (F X A1) as (st & Ef & E1 & E2). destruct (F X' A2) as (st' & Ef' & E1' & E2').
  rewrite Ef, Ef' in *. cbn [bind] in *. rewrite K, E1, E1', E2, E2'. reflexivity.
Qed.
Print Assumptions C201_distance.

(** ** 1d-SAX *)
(** a row in other units *)
Definition convert (a b : nat -> R) (r : list R) : list R := map (fun k => a k * nth k r 0 + b k) (seq 0 (length r)).
Definition converted (a b : nat -> R) (X : list (list (list R))) : list (list (list R)) := map (map (convert a b)) X.
Definition words1d (ppf : R -> R) (m al be : nat) (sigma_l : option R) (X Z : list (list (list R))) : res (list (list (list nat))) :=
  do st <- sax1d_fit ppf m al be sigma_l true (map lift X) ;; sax1d_transform st (map lift Z).

Lemma convert_len a b r : length (convert a b r) = length r.
Proof. unfold convert. rewrite map_length, seq_length. reflexivity. Qed.
Lemma convert_nth a b r k : (k < length r)%nat -> nth k (convert a b r) 0 = a k * nth k r 0 + b k.
Proof. intros H. unfold convert. rewrite map_seq_nth by auto. reflexivity. Qed.
Lemma converted_dataset a b d sz X : real_dataset d sz X -> real_dataset d sz (converted a b X).
Proof.
  intros [H1 H2]. split; [apply map_ne; auto|]. intros s Hs. apply in_map_iff in Hs. destruct Hs as (s0 & <- & Hs).
  destruct (H2 s0 Hs) as ((A & B & C) & <-). rewrite map_length. split; auto. split; auto. split; [apply map_ne; auto|].
  intros r Hr. apply in_map_iff in Hr. destruct Hr as (r0 & <- & Hr). rewrite convert_len. auto.
Qed.
Lemma values_converted a b d sz X k : real_dataset d sz X -> (k < d)%nat -> values (converted a b X) k = map (fun v => a k * v + b k) (values X k).
Proof.
  intros [_ H] Hk. unfold values, converted. rewrite concat_map, !map_map. f_equal. apply map_ext_in. intros s Hs.
  destruct (H s Hs) as ((_ & _ & C) & _). rewrite !map_map. apply map_ext_in. intros r Hr. apply convert_nth. rewrite (C r Hr). auto.
Qed.
(** standardised once, the unit is gone *)
Lemma scaled_converted a b d sz X s n : (forall k, 0 < a k) -> real_dataset d sz X -> real_series d s ->
  (forall k, (k < d)%nat -> exists u w, In u (values X k) /\ In w (values X k) /\ u <> w) -> length s = n ->
  scaled true (converted a b X) (map (convert a b) s) = scaled true X s.
Proof.
  intros Ha HX (_ & _ & HC) W _. unfold scaled, standardised. rewrite map_map. apply map_ext_in. intros r Hr.
  rewrite convert_len. apply map_ext_in. intros k Hk. apply in_seq in Hk. pose proof (HC r Hr) as L.
  rewrite convert_nth by lia. unfold dev. rewrite (values_converted a b d sz X k HX) by lia.
  destruct (W k) as (u & w & Hu & Hw & Huw); [lia|].
  assert (K : spread (values X k) (nth k r 0)) by (right; eauto).
  pose proof (mv_affine_aff standard (a k) (b k) (values X k) (nth k r 0) (Ha k) K) as E. unfold mv_affine in E. cbn [standard mv_std mv_mu] in E.
  change avg_of with mean. change std_of with std_dev.
  unfold Rdiv in *. lra.
Qed.
(** the symbols of the slopes do not see unit and origin *)
Theorem C202_slopes_partial ppf m al be sigma_l a b d sz n X Z : (forall k, 0 < a k) ->
  real_dataset d sz X -> real_dataset d n Z -> (0 < m <= n)%nat -> (m <= sz)%nat ->
  (forall k, (k < d)%nat -> exists u w, In u (values X k) /\ In w (values X k) /\ u <> w) ->
  exists T T', words1d ppf m al be sigma_l X Z = Ok T /\ words1d ppf m al be sigma_l (converted a b X) (converted a b Z) = Ok T' /\
    forall j i k, (j < length Z)%nat -> (i < m)%nat -> (k < d)%nat ->
      nth (d + k) (nth i (nth j T' []) []) 0%nat = nth (d + k) (nth i (nth j T []) []) 0%nat.
Proof.
  intros Ha HX HZ Hm Hms W. pose proof (converted_dataset a b d sz X HX) as HX'. pose proof (converted_dataset a b d n Z HZ) as HZ'.
  unfold words1d. rewrite (sax1d_fit_value _ _ _ _ _ _ _ _ _ HX) by lia. rewrite (sax1d_fit_value _ _ _ _ _ _ _ _ _ HX') by lia. cbn [bind].
  rewrite (sax1d_value _ _ _ _ _ _ _ _ _ n _ HZ) by auto. rewrite (sax1d_value _ _ _ _ _ _ _ _ _ n _ HZ') by auto.
  eexists. eexists. split; [reflexivity|]. split; [reflexivity|]. intros j i k Hj Hi Hk.
  match goal with |- context [nth j (map ?F Z) []] => rewrite (nth_indep (map F Z) [] (F [])) by (rewrite map_length; auto); rewrite (map_nth F) end.
  match goal with |- context [nth j (map ?F (converted a b Z)) []] =>
    rewrite (nth_indep (map F (converted a b Z)) [] (F [])) by (unfold converted; rewrite !map_length; auto); rewrite (map_nth F) end.
  rewrite !map_seq_nth by auto. rewrite !app_nth2 by (rewrite map_length, seq_length; lia). rewrite !map_length, !seq_length.
  replace (d + k - d)%nat with k by lia. rewrite !map_seq_nth by auto.
  assert (E : nth j (converted a b Z) [] = map (convert a b) (nth j Z [])).
  { unfold converted. change (@nil (list R)) with (map (convert a b) []) at 1. apply map_nth. }
  destruct HZ as [_ HZ2]. destruct (HZ2 (nth j Z []) (nth_In _ _ Hj)) as [HR HL].
  rewrite E. rewrite (scaled_converted a b d sz X _ n) by auto. reflexivity.
Qed.
Print Assumptions C202_slopes_partial.
(** the symbols of the averages do: a shift of all series by 11 changes the words of the
    training series, whatever the quantile function with median 0 *)
Definition ex_zero : list (list R) := [[-1]; [1]].
Lemma ex_zero_real : real_dataset 1 2 [ex_zero].
Proof. split; [discriminate|]. intros s [<-|[]]. split; [|reflexivity]. split; [lia|split; [discriminate|]]. intros r [<-|[<-|[]]]; reflexivity. Qed.
Lemma ex_zero_scaled s0 s1 : scaled true [ex_zero] [[s0]; [s1]] = [[s0]; [s1]].
Proof.
  assert (A : avg_of (values [ex_zero] 0) = 0) by (unfold avg_of, values; simpl; lra).
  assert (D : dev [ex_zero] 0 = 1).
  { unfold dev. assert (E : std_of (values [ex_zero] 0) = 1).
    { unfold std_of. rewrite A. unfold avg_of, values. simpl. replace (_ / _) with 1 by lra. apply sqrt_1. }
    rewrite E. destruct (Req_EM_T 1 0); lra. }
  unfold scaled, standardised. cbn [map length seq nth]. rewrite A, D.
  assert (E : forall x, (x - 0) / 1 = x) by (intros; field). rewrite !E. reflexivity.
Qed.
Theorem C202_refuted ppf : quantile ppf -> ppf (1 / 2) = 0 ->
  exists m al be X a b T T', real_dataset 1 2 X /\ 0 < a /\
    words1d ppf m al be None X X = Ok T /\
    words1d ppf m al be None (converted (fun _ => a) (fun _ => b) X) (converted (fun _ => a) (fun _ => b) X) = Ok T' /\ T <> T'.
Proof.
  intros Hp H0. exists 2%nat, 2%nat, 2%nat, [ex_zero], 1, 11.
  assert (EC : converted (fun _ => 1) (fun _ => 11) [ex_zero] = [ex_pos]).
  { unfold converted, convert, ex_zero, ex_pos. simpl. repeat f_equal; lra. }
  rewrite EC.
  destruct (C39_sax1d_symbols ppf 2 2 2 None true 1 2 [ex_zero] 2 [ex_zero]) as (T & sl & E & _ & H); auto using ex_zero_real.
  destruct (C39_sax1d_symbols ppf 2 2 2 None true 1 2 [ex_pos] 2 [ex_pos]) as (T' & sl' & E' & _ & H'); auto using ex_pos_real.
  exists T, T'. split; [apply ex_zero_real|]. split; [lra|]. split; [exact E|]. split; [exact E'|]. intros ET. subst T'.
  destruct (H 0%nat 1%nat 0%nat) as (_ & H1 & _); [simpl; lia|lia|lia|].
  destruct (H' 0%nat 1%nat 0%nat) as (_ & H2 & _); [simpl; lia|lia|lia|]. cbv zeta in H1, H2. rewrite H1 in H2. cbn [nth] in H2.
  assert (B : breakpoints ppf 2 1 = [0]) by (unfold breakpoints; simpl; replace (1 / (1 + 1)) with (1 / 2) by lra; rewrite H0; f_equal; ring).
  pose proof (ex_pos_scaled 10 12) as E1. fold ex_pos in E1. pose proof (ex_zero_scaled (-1) 1) as E2. fold ex_zero in E2.
  rewrite E1, ex_pos_scaled, !E2 in H2. rewrite B in H2. unfold at_or_below, block_mean, entry in H2. simpl in H2.
  rewrite (proj2 (Rleb_false 0 ((12 - 11 - 11 + 0) / 1))) in H2 by lra. rewrite (proj2 (Rleb_true 0 ((1 + 0) / 1))) in H2 by lra. simpl in H2. lia.
Qed.
Print Assumptions C202_refuted.

(** ** The hypotheses are met *)
Example C201_nontrivial : per_feature ex_unit ex_origin /\ numeric ex_scale /\ remeasured ex_unit ex_origin 2 2 2 ex_scale ex_fahrenheit.
Proof. destruct C200_nontrivial as (A & B & C & _). auto. Qed.
Example C202_nontrivial : real_dataset 1 2 [ex_pos] /\
  forall k, (k < 1)%nat -> exists u w, In u (values [ex_pos] k) /\ In w (values [ex_pos] k) /\ u <> w.
Proof. split; [apply ex_pos_real|]. intros [|k] Hk; [|lia]. exists 10, 12. simpl. split; auto. split; auto. lra. Qed.

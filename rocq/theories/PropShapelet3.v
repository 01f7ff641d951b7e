(** C71, C56, C107-C109: shapelet sizes, repeated fits, labels, initial shapelets and predictions of LearningShapelets. *)
From Coq Require Import Bool List Arith ZArith Reals Lia Lra Sorted.
From Verif Require Import Num NumLaws Py Series Dataset RList SoftModel GakModel PaaModel PreModel KernelModel RealSeries DtwProofs DtwThms CdistThms ValidThms PropCdist PropSoftCdist PropKernel2 PropScale ShapeletModel PropShapelet PropShapelet2.
Import ListNotations.
Local Open Scope R_scope.

(** ** C71 *)
Lemma digits_spec fuel m : (1 <= m)%Z -> (m < 10 ^ Z.of_nat fuel)%Z -> (0 <= digits fuel m)%Z /\ (10 ^ digits fuel m <= m < 10 ^ (digits fuel m + 1))%Z.
Proof.
  revert m. induction fuel as [|f IH]; intros m H1 H2; [cbn in H2; lia|]. cbn [digits]. destruct (Z.ltb_spec m 10).
  - split; [lia|]. change (10 ^ (0 + 1))%Z with 10%Z. change (10 ^ 0)%Z with 1%Z. lia.
  - assert (H3 : (1 <= m / 10)%Z) by (apply Z.div_le_lower_bound; lia). assert (H4 : (m / 10 < 10 ^ Z.of_nat f)%Z).
    { apply Z.div_lt_upper_bound; [lia|]. rewrite Nat2Z.inj_succ, Z.pow_succ_r in H2 by lia. lia. }
    destruct (IH _ H3 H4) as (A & B & C). split; [lia|]. rewrite (Z.add_comm 1). rewrite !Z.pow_add_r in * by lia. change (10 ^ 1)%Z with 10%Z in *. pose proof (Z.div_mod m 10 ltac:(lia)). pose proof (Z.mod_pos_bound m 10 ltac:(lia)). split; nia.
Qed.
Lemma int_log10_spec m v : int_log10 m = Ok v <-> (1 <= m)%Z /\ (0 <= v)%Z /\ (10 ^ v <= m < 10 ^ (v + 1))%Z.
Proof.
  unfold int_log10. destruct (Z.ltb_spec m 0); [split; [discriminate|lia]|]. destruct (Z.eqb_spec m 0); [split; [discriminate|lia]|].
  assert (D : (m < 10 ^ Z.of_nat (Z.to_nat (Z.log2 m) + 1))%Z).
  { rewrite Nat2Z.inj_add, Z2Nat.id by apply Z.log2_nonneg. pose proof (Z.log2_spec m ltac:(lia)) as (_ & Q). eapply Z.lt_le_trans; [apply Q|]. change (Z.of_nat 1) with 1%Z. rewrite <- Z.add_1_r. apply Z.pow_le_mono_l. pose proof (Z.log2_nonneg m). lia. }
  pose proof (digits_spec _ m ltac:(lia) D) as (A & B). set (w := digits _ m) in *. split.
  - intros E. injection E as <-. split; [lia|auto].
  - intros (_ & V & V'). f_equal. destruct (Z.lt_trichotomy w v) as [Q|[Q|Q]]; auto; exfalso.
    + assert (10 ^ (w + 1) <= 10 ^ v)%Z by (apply Z.pow_le_mono_r; lia). lia.
    + assert (10 ^ (v + 1) <= 10 ^ w)%Z by (apply Z.pow_le_mono_r; lia). lia.
Qed.
(** the smallest size: [int(l * ts_sz)], at least 1 *)
Definition base_size (x : R) : Z := Z.max (if Rltb x 0 then - Int_part (- x) else Int_part x)%Z 1.
Lemma mapM_total {A B} (f : A -> res B) l : (forall x, In x l -> exists y, f x = Ok y) -> exists out, mapM f l = Ok out.
Proof.
  induction l as [|x l IH]; intros H; [cbn; eauto|]. destruct (H x (or_introl eq_refl)) as (y & E). destruct IH as (o & Eo); [intros; apply H; right; auto|]. cbn [mapM]. rewrite E. cbn [bind]. rewrite Eo. cbn. eauto.
Qed.
(** C71: the dictionary, when there is one, maps the multiples of the smallest size, all of them within the series, to counts that are the number
    of decimal digits minus one (at least 1) of the number of windows times the number of classes minus one. *)
Theorem C71_sizes n_ts ts_sz n_classes x r dict : (1 <= n_ts)%Z -> (2 <= n_classes)%Z -> grabocka n_ts ts_sz n_classes (XR x) r = Ok dict ->
  map fst dict = map (fun i => base_size x * (Z.of_nat i + 1))%Z (seq 0 (Z.to_nat (Z.min r ts_sz))) /\ NoDup (map fst dict) /\
  forall s c, In (s, c) dict -> (1 <= s <= ts_sz)%Z /\ (1 <= c)%Z /\
    let windows := (n_ts * (ts_sz - s + 1) * (n_classes - 1))%Z in (windows < 10 ^ (c + 1))%Z /\ (10 ^ c <= windows \/ c = 1)%Z.
Proof.
  intros Hn Hc E. unfold grabocka in E. cbn [py_int bind] in E. fold (base_size x) in E. set (b := base_size x) in *. assert (Hb : (1 <= b)%Z) by (unfold b, base_size; lia). clearbody b.
  apply mapM_spec in E. assert (K : map fst dict = map (fun i => b * (Z.of_nat i + 1))%Z (seq 0 (Z.to_nat (Z.min r ts_sz)))).
  { clear Hn Hc. revert E. generalize (seq 0 (Z.to_nat (Z.min r ts_sz))). intros l E. induction E as [|i p l out Hi E IH]; auto. cbn [map]. f_equal; auto. destruct (int_log10 _); [|discriminate]. injection Hi as <-. auto. }
  split; auto. split.
  - rewrite K. apply FinFun.Injective_map_NoDup; [|apply seq_NoDup]. intros i j Q. nia.
  - intros s c Hs. clear K. revert E. generalize (seq 0 (Z.to_nat (Z.min r ts_sz))). intros l E. induction E as [|i p l out Hi E IH]; [destruct Hs|]. destruct Hs as [->|Hs]; auto. clear IH E.
    destruct (int_log10 _) as [v|] eqn:Ev; [|discriminate]. cbn [bind] in Hi. injection Hi as <- <-. apply int_log10_spec in Ev. destruct Ev as (V1 & V2 & V3 & V4). set (s := (b * (Z.of_nat i + 1))%Z) in *.
    split; [split; [nia|]|]. { destruct (Z_le_gt_dec s ts_sz); auto. exfalso. assert (ts_sz - s + 1 <= 0)%Z by lia. assert (n_ts * (ts_sz - s + 1) <= 0)%Z by nia. nia. }
    split; [lia|]. cbv zeta. destruct (Z_le_gt_dec v 1) as [Q|Q].
    + rewrite Z.max_l by lia. split; [|auto]. eapply Z.lt_le_trans; [apply V4|]. apply Z.pow_le_mono_r; lia.
    + rewrite Z.max_r by lia. auto.
Qed.
Print Assumptions C71_sizes.
(** it returns exactly when the largest size fits in the series *)
Theorem C71_returns n_ts ts_sz n_classes x r : (1 <= n_ts)%Z -> (2 <= n_classes)%Z -> (1 <= r)%Z -> (1 <= ts_sz)%Z ->
  (exists dict, grabocka n_ts ts_sz n_classes (XR x) r = Ok dict) <-> (base_size x * Z.min r ts_sz <= ts_sz)%Z.
Proof.
  intros Hn Hc Hr Ht. split.
  - intros (dict & E). destruct (C71_sizes _ _ _ _ _ _ Hn Hc E) as (K & _ & S). assert (I : In (base_size x * Z.min r ts_sz)%Z (map fst dict)).
    { rewrite K. apply in_map_iff. exists (Z.to_nat (Z.min r ts_sz) - 1)%nat. split; [f_equal; lia|apply in_seq; lia]. }
    apply in_map_iff in I. destruct I as ((s & c) & <- & I). cbn [fst]. apply S in I. lia.
  - intros H. unfold grabocka. cbn [py_int bind]. fold (base_size x). set (b := base_size x) in *. assert (Hb : (1 <= b)%Z) by (unfold b, base_size; lia). clearbody b. apply mapM_total. intros i Hi. apply in_seq in Hi. assert ((b * (Z.of_nat i + 1) <= ts_sz)%Z) by nia.
    set (m := (n_ts * _ * _)%Z). assert (Hm : (1 <= m)%Z). { unfold m. set (q := (ts_sz - b * (Z.of_nat i + 1) + 1)%Z). assert (1 <= q)%Z by (unfold q; lia). assert (1 <= n_ts * q)%Z by nia. nia. }
    unfold int_log10. destruct (Z.ltb_spec m 0); [lia|]. destruct (Z.eqb_spec m 0); [lia|]. cbn. eauto.
Qed.
Print Assumptions C71_returns.
(** so it always returns when the largest length asked for, [l * r], is at most the whole series, as with the default 0.15 * 3 *)
Theorem C71_default n_ts ts_sz n_classes l r : (1 <= n_ts)%Z -> (2 <= n_classes)%Z -> (1 <= r)%Z -> (1 <= ts_sz)%Z -> 0 <= l -> l * IZR r <= 1 ->
  exists dict, grabocka n_ts ts_sz n_classes (XR (l * IZR ts_sz)) r = Ok dict.
Proof.
  intros Hn Hc Hr Ht Hl Hlr. apply C71_returns; auto. unfold base_size. assert (T : 1 <= IZR ts_sz) by (apply IZR_le; lia).
  destruct (Rltb (l * IZR ts_sz) 0) eqn:E; [apply Rltb_true in E; nra|]. clear E. pose proof (base_Int_part (l * IZR ts_sz)) as (B1 & B2). set (k := Int_part _) in *. destruct (Z_le_gt_dec k 1); [rewrite Z.max_r by lia; lia|]. rewrite Z.max_l by lia.
  apply Z.le_trans with (k * r)%Z; [nia|]. apply le_IZR. rewrite mult_IZR. assert (0 <= IZR r) by (apply IZR_le; lia). nra.
Qed.
Print Assumptions C71_default.
(** and it raises instead of returning sizes that fit for other parameters, for example three sizes of half the series each *)
Theorem C71_refuted n_ts ts_sz n_classes : (1 <= n_ts)%Z -> (2 <= n_classes)%Z -> (4 <= ts_sz)%Z -> ~ exists dict, grabocka n_ts ts_sz n_classes (XR (/ 2 * IZR ts_sz)) 3 = Ok dict.
Proof.
  intros Hn Hc Ht. rewrite C71_returns by lia. unfold base_size. assert (4 <= IZR ts_sz) by (apply IZR_le; lia). destruct (Rltb _ 0) eqn:E; [apply Rltb_true in E; lra|]. clear E. pose proof (base_Int_part (/ 2 * IZR ts_sz)) as (B1 & B2). set (k := Int_part _) in *.
  assert (K : IZR ts_sz - 2 < IZR (2 * k)) by (rewrite mult_IZR; lra). rewrite <- minus_IZR in K. apply lt_IZR in K. lia.
Qed.
Print Assumptions C71_refuted.
Example C71_instance : (base_size (0.15 * 100) = 15)%Z /\ (exists dict, grabocka 50 100 3 (XR (0.15 * 100)) 3 = Ok dict).
Proof.
  split; [|apply C71_default; try lia; lra]. unfold base_size. destruct (Rltb _ 0) eqn:E; [apply Rltb_true in E; lra|]. pose proof (base_Int_part (0.15 * 100)) as (B1 & B2). set (k := Int_part _) in *. assert (K1 : IZR k < 16) by lra. assert (K2 : 14 < IZR k) by lra. apply lt_IZR in K1. apply lt_IZR in K2. lia.
Qed.

(** ** C110: repeated fits *)
Lemma longest_attained X : X <> [] -> exists ts, In ts X /\ length ts = longest X.
Proof.
  intros N. unfold longest. destruct (fold_max_spec (map (@length (list R)) X) 0) as (H1 & H2 & [H3|H3]).
  - destruct X as [|ts X]; [congruence|]. exists ts. split; [left; auto|]. specialize (H1 (length ts) (or_introl eq_refl)). lia.
  - apply in_map_iff in H3. destruct H3 as (ts & E & Hts). eauto.
Qed.
(** C110, false as stated: without max_size a model fitted before remembers the length of its earlier series. It refuses to be fitted on longer
    ones, which a fresh model accepts; and fitted again on shorter ones it still has the earlier length, so that it later accepts series
    which the fresh model refuses. *)
Theorem C110_refuted h m d X : ls_max_size h = None -> ls_sizes h = None -> X <> [] -> (forall ts, In ts X -> real_series d ts) ->
  (exists Y, fit_input h None (reals X) = Ok (Y, (longest X, d))) /\
  ((m < longest X)%nat -> fit_input h (Some (m, d)) (reals X) = Err ValueError) /\
  ((longest X <= m)%nat -> exists Y, fit_input h (Some (m, d)) (reals X) = Ok (Y, (m, d))).
Proof.
  intros HM HS N H. set (X' := map (normalised h d) X). assert (N' : X' <> []) by (intros Q; apply map_eq_nil in Q; auto).
  assert (H' : forall n, (longest X <= n)%nat -> forall ts, In ts X' -> real_series d ts /\ (length ts <= n)%nat).
  { intros n Hn ts Hts. apply in_map_iff in Hts. destruct Hts as (x & <- & Hx). rewrite normalised_length. split; [apply normalised_real; auto|]. pose proof (longest_ge X x Hx). lia. }
  unfold fit_input. rewrite !(prepare_reals h _ d X N H). fold X'. unfold allowed_size. rewrite HM. cbn [bind]. split; [|split].
  - rewrite Nat.max_id. rewrite (check_ok h None d (longest X) X'); auto; [|unfold allowed_size; rewrite HM; auto|rewrite HS; discriminate]. cbn [bind]. destruct (head_shape d (longest X) X' N' (H' _ (le_n _))) as (-> & ->). eauto.
  - intros L. rewrite Nat.max_l by lia. unfold check_lengths. rewrite HS. unfold allowed_size. rewrite HM. destruct (head_shape d (longest X) X' N' (H' _ (le_n _))) as (-> & _). destruct (Nat.ltb_spec m (longest X)); [auto|lia].
  - intros L. rewrite Nat.max_r by lia. rewrite (check_ok h (Some (m, d)) d m X'); auto; [|unfold allowed_size; rewrite HM; auto|rewrite HS; discriminate]. cbn [bind]. destruct (head_shape d m X' N' (H' _ L)) as (-> & ->). eauto.
Qed.
Print Assumptions C110_refuted.
(** with max_size, an earlier fit changes nothing, whatever the series are *)
Theorem C110_max_size_partial h m dims ds : ls_max_size h = Some m -> fit_input h dims ds = fit_input h None ds.
Proof.
  intros E. unfold fit_input. assert (P : prepare h dims ds = prepare h None ds) by (unfold prepare, allowed_size; rewrite E; auto). rewrite P. destruct (prepare h None ds) as [X|]; auto. cbn [bind]. unfold check_lengths, allowed_size. rewrite E. auto.
Qed.
Print Assumptions C110_max_size_partial.

(** ** C107: labels *)
Lemma insert_in x l z : In z (insert_label x l) <-> z = x \/ In z l.
Proof.
  induction l as [|y l IH]; cbn; [intuition|]. destruct (Z.ltb_spec x y); [cbn; intuition|]. destruct (Z.eqb_spec x y); [subst; cbn; intuition|]. cbn. rewrite IH. intuition.
Qed.
Lemma insert_sorted x l : StronglySorted Z.lt l -> StronglySorted Z.lt (insert_label x l).
Proof.
  induction 1 as [|y l H IH F]; cbn; [repeat constructor|]. destruct (Z.ltb_spec x y).
  - constructor; [constructor; auto|]. constructor; auto. eapply Forall_impl; [|apply F]. cbn. intros; lia.
  - destruct (Z.eqb_spec x y); [constructor; auto|]. constructor; auto. apply Forall_forall. intros z Hz. apply insert_in in Hz. destruct Hz as [->|Hz]; [lia|]. rewrite Forall_forall in F. auto.
Qed.
Lemma unique_in y z : In z (unique_labels y) <-> In z y.
Proof. induction y as [|x y IH]; cbn; [tauto|]. rewrite insert_in, IH. intuition. Qed.
Lemma unique_sorted y : StronglySorted Z.lt (unique_labels y).
Proof. induction y as [|x y IH]; cbn; [constructor|]. apply insert_sorted. auto. Qed.
Lemma index_spec x l : In x l -> (index_of x l < length l)%nat /\ nth (index_of x l) l 0%Z = x.
Proof. induction l as [|y l IH]; [intros []|]. cbn [index_of]. destruct (Z.eqb_spec x y); [cbn; intuition lia|]. intros [E|H]; [congruence|]. destruct (IH H). cbn. split; [lia|auto]. Qed.
(** the first greatest value *)
Definition first_greatest (l : list R) (i : nat) : Prop := (i < length l)%nat /\ forall j, (j < length l)%nat -> nth j l 0 <= nth i l 0 /\ ((j < i)%nat -> nth j l 0 < nth i l 0).
Lemma nth_opp l i : nth i (map Ropp l) 0 = - nth i l 0.
Proof. replace 0 with (Ropp 0) at 1 by lra. apply map_nth. Qed.
Lemma rargmax_first l : l <> [] -> first_greatest l (rargmax l).
Proof.
  intros H. unfold rargmax. destruct (first_place_rargmin (map Ropp l)) as (A & B); [intros E; apply map_eq_nil in E; auto|]. rewrite map_length in *. split; auto. intros j Hj. destruct (B j Hj) as (C & D). rewrite !nth_opp in *. split; [lra|]. intros Q. specialize (D Q). lra.
Qed.
Lemma first_greatest_unique l i j : first_greatest l i -> first_greatest l j -> i = j.
Proof.
  intros (A & B) (C & D). destruct (lt_eq_lt_dec i j) as [[H|H]|H]; auto; exfalso.
  - destruct (B j C) as (P & _). destruct (D i A) as (_ & Q). specialize (Q H). lra.
  - destruct (D i A) as (P & _). destruct (B j C) as (_ & Q). specialize (Q H). lra.
Qed.
Lemma onehot_argmax n k : (k < n)%nat -> rargmax (map (fun j => if (j =? k)%nat then 1 else 0) (seq 0 n)) = k.
Proof.
  intros H. apply (first_greatest_unique (map (fun j => if (j =? k)%nat then 1 else 0) (seq 0 n))).
  - apply rargmax_first. destruct n; [lia|discriminate].
  - split; [rewrite map_length, seq_length; auto|]. rewrite map_length, seq_length. intros j Hj. rewrite !nth_map_seq by auto. rewrite Nat.eqb_refl. destruct (Nat.eqb_spec j k); [subst|]; split; intros; try lra; lia.
Qed.
(** C107: the classes are the labels given, in increasing order; what the network is trained to output decodes to the labels given; the
    network has one output for two classes and one per class otherwise *)
Theorem C107_roundtrip y classes enc : encode_labels y = Ok (classes, enc) ->
  StronglySorted Z.lt classes /\ (forall c, In c classes <-> In c y) /\ length enc = length y /\
  (forall row, In row enc -> length row = if (length classes =? 2)%nat then 1%nat else length classes) /\ decode_labels classes enc = y.
Proof.
  unfold encode_labels. set (cl := unique_labels y). destruct (Nat.eqb_spec (length cl) 1) as [|N1]; [discriminate|]. intros E.
  set (hot := fun lab => map (fun j => if (j =? index_of lab cl)%nat then 1 else 0) (seq 0 (length cl))) in *.
  assert (Q : classes = cl /\ enc = if (length cl =? 2)%nat then map (skipn 1) (map hot y) else map hot y) by (inversion E; auto). destruct Q as (-> & ->). clear E.
  assert (IN : forall lab, In lab y -> (index_of lab cl < length cl)%nat /\ nth (index_of lab cl) cl 0%Z = lab) by (intros lab H; apply index_spec, unique_in; auto).
  assert (D : map (fun row => nth (rargmax row) cl 0%Z) (map hot y) = y).
  { rewrite map_map. rewrite <- (map_id y) at 2. apply map_ext_in. intros lab H. destruct (IN lab H) as (I1 & I2). unfold hot. rewrite onehot_argmax by auto. auto. }
  split; [apply unique_sorted|]. split; [intros; apply unique_in|]. destruct (Nat.eqb_spec (length cl) 2) as [E2|N2].
  - split; [rewrite !map_length; auto|]. split.
    + intros row Hr. apply in_map_iff in Hr. destruct Hr as (x & <- & Hx). apply in_map_iff in Hx. destruct Hx as (lab & <- & Hlab). unfold hot. rewrite skipn_length, map_length, seq_length. lia.
    + etransitivity; [|apply D]. unfold decode_labels. f_equal. unfold probabilities. destruct y as [|lab0 y0] eqn:Ey; [cbn in *; auto|]. rewrite <- Ey in *. rewrite map_map.
      replace (length (hd [] (map (fun x => skipn 1 (hot x)) y)) =? 1)%nat with true by (rewrite Ey; cbn [map hd]; unfold hot; rewrite skipn_length, map_length, seq_length, E2; auto).
      rewrite E2. cbn [andb Nat.eqb]. rewrite map_map. apply map_ext_in. intros lab H. destruct (IN lab H) as (I1 & _). unfold hot. rewrite E2 in *. cbn [seq map skipn nth]. destruct (index_of lab cl) as [|[|]]; [| |lia]; cbn; f_equal; try lra; auto; f_equal; lra.
  - split; [rewrite map_length; auto|]. split.
    + intros row Hr. apply in_map_iff in Hr. destruct Hr as (lab & <- & Hlab). unfold hot. rewrite map_length, seq_length. auto.
    + etransitivity; [|apply D]. unfold decode_labels. f_equal. unfold probabilities. destruct (Nat.eqb_spec (length cl) 2); [lia|]. rewrite andb_false_r. auto.
Qed.
Print Assumptions C107_roundtrip.
(** labels are refused exactly when they are all the same *)
Theorem C107_refused y : (encode_labels y = Err ValueError <-> y <> [] /\ exists c, forall x, In x y -> x = c) /\ (encode_labels y <> Err ValueError -> exists r, encode_labels y = Ok r).
Proof.
  unfold encode_labels. pose proof (unique_in y) as I. pose proof (unique_sorted y) as S. set (cl := unique_labels y) in *. clearbody cl. destruct (Nat.eqb_spec (length cl) 1) as [E|N].
  - split; [|congruence]. split; auto. intros _. destruct cl as [|c [|? ?]]; try discriminate. split; [intros ->; apply (I c); left; auto|]. exists c. intros x Hx. apply I in Hx. destruct Hx as [|[]]; auto.
  - split; [|intros _; eauto]. split; [discriminate|]. intros (Hy & c & Hc). exfalso. apply N. destruct cl as [|a [|b l]]; auto.
    + destruct y as [|x y]; [congruence|]. destruct (proj2 (I x) (or_introl eq_refl)).
    + inversion S as [|? ? _ F]; subst. inversion F; subst. assert (a = c) by (apply Hc, I; cbn; auto). assert (b = c) by (apply Hc, I; cbn; auto). lia.
Qed.
Print Assumptions C107_refused.

(** the label predicted for an output of the network: the first class of greatest probability; with two classes, the second one exactly when
    the output is above 1/2 *)
Theorem C107_most_probable classes out i : (length classes <> 2)%nat -> classes <> [] -> (forall row, In row out -> length row = length classes) -> (i < length out)%nat ->
  exists j, first_greatest (nth i out []) j /\ nth_error (decode_labels classes out) i = Some (nth j classes 0%Z).
Proof.
  intros N2 Ne HR Hi. exists (rargmax (nth i out [])). assert (I : In (nth i out []) out) by (apply nth_In; auto). split.
  - apply rargmax_first. specialize (HR _ I). destruct (nth i out []); [destruct classes; [congruence|discriminate]|discriminate].
  - unfold decode_labels, probabilities. destruct (Nat.eqb_spec (length classes) 2); [lia|]. rewrite andb_false_r. rewrite nth_error_map. rewrite (nth_error_nth' out [] Hi). auto.
Qed.
Print Assumptions C107_most_probable.
Theorem C107_binary a b out i p : (forall row, In row out -> length row = 1%nat) -> nth_error out i = Some [p] ->
  nth_error (decode_labels [a; b] out) i = Some (if Rlt_dec (/ 2) p then b else a).
Proof.
  intros HR Hi. unfold decode_labels, probabilities. assert (I : length (hd [] out) = 1%nat) by (destruct out as [|r o]; [destruct i; discriminate|]; apply HR; left; auto). rewrite I. cbn [length Nat.eqb andb]. rewrite !nth_error_map, Hi. cbn [option_map nth].
  assert (F : rargmax [1 - p; p] = if Rlt_dec (/ 2) p then 1%nat else 0%nat).
  { apply (first_greatest_unique [1 - p; p]); [apply rargmax_first; discriminate|]. destruct (Rlt_dec (/ 2) p); (split; [cbn; lia|]); intros [|[|j]] Hj; cbn in *; split; intros; try lra; lia. }
  rewrite F. destruct (Rlt_dec (/ 2) p); auto.
Qed.
Print Assumptions C107_binary.
Example C107_instance : unique_labels [5; -2; 5; 7]%Z = [-2; 5; 7]%Z /\ exists r, encode_labels [5; -2; 5; 7]%Z = Ok r.
Proof. split; [reflexivity|]. eexists. reflexivity. Qed.

(** ** C108: the subseries the initial shapelets are computed from *)
(** they are windows of the series, without any padding *)
Theorem C108_windows L d m X draws : (forall ts, In ts X -> real_series d ts) ->
  (forall i t, In (i, t) draws -> (i < length X)%nat /\ (t + L <= length (nth i X []))%nat) ->
  init_subseries L draws (map (padding d m) X) = Ok (map (fun p => lift (window L (snd p) (nth (fst p) X []))) draws).
Proof.
  intros HX HD. unfold init_subseries. apply mapM_spec. induction draws as [|(i, t) draws IH]; constructor; [|apply IH; intros; apply HD; right; auto]. destruct (HD i t (or_introl eq_refl)) as (H1 & H2). cbn [fst snd].
  assert (Eq : nth i (map (padding d m) X) [] = padding d m (nth i X [])). { rewrite (nth_indep _ [] (padding d m [])) by (rewrite map_length; auto). apply map_nth. }
  rewrite Eq. rewrite (size_padding d) by (apply HX, nth_In; auto). destruct (Nat.ltb_spec (length (nth i X [])) L); [lia|]. f_equal. unfold slice. replace (t + L - t)%nat with L by lia. change (firstn L (skipn t (padding d m (nth i X [])))) with (window L t (padding d m (nth i X []))). apply window_inside. auto.
Qed.
Print Assumptions C108_windows.
(** a series shorter than the shapelet, once drawn, makes the fit fail *)
Theorem C108_too_short L d m X draws i t : (forall ts, In ts X -> real_series d ts) -> (forall j u, In (j, u) draws -> (j < length X)%nat) ->
  In (i, t) draws -> (length (nth i X []) < L)%nat -> init_subseries L draws (map (padding d m) X) = Err ValueError.
Proof.
  intros HX HD I HL. unfold init_subseries. induction draws as [|(j, u) draws IH]; [destruct I|]. cbn [mapM]. cbn [fst snd].
  assert (Hj : (j < length X)%nat) by (apply (HD j u); left; auto). assert (Eq : nth j (map (padding d m) X) [] = padding d m (nth j X [])). { rewrite (nth_indep _ [] (padding d m [])) by (rewrite map_length; auto). apply map_nth. }
  rewrite Eq. rewrite (size_padding d) by (apply HX, nth_In; auto). destruct (Nat.ltb_spec (length (nth j X [])) L); auto. cbn [bind]. destruct I as [E|I]; [injection E as -> ->; lia|]. rewrite IH; auto. intros; eapply HD; right; eauto.
Qed.
Print Assumptions C108_too_short.
Example C108_instance : let X := [[[1]; [2]; [3]]; [[4]; [5]]] in init_subseries 2 [(0%nat, 1%nat); (1%nat, 0%nat)] (map (padding 1 3) X) = Ok [lift [[2]; [3]]; lift [[4]; [5]]] /\ init_subseries 3 [(0%nat, 0%nat); (1%nat, 0%nat)] (map (padding 1 3) X) = Err ValueError.
Proof. split; reflexivity. Qed.

(** ** C109: predictions *)
Lemma dataset_padded d M X : (forall ts, In ts X -> real_series d ts) -> (forall ts, In ts X -> (length ts <= M)%nat) -> to_dataset (N:=Xnum) (map Raw2 (map (padding d M) X)) = Ok (map (padding d (longest X)) X).
Proof.
  intros H HM. assert (ST : forall ts, In ts X -> to_time_series (N:=Xnum) true (Raw2 (padding d M ts)) = lift ts).
  { intros ts Hts. unfold padding. etransitivity; [apply to_time_series_pad|apply (strip_lift d); auto]. intros r Hr. apply repeat_spec in Hr. subst r. apply forallb_forall. intros x Hx. apply repeat_spec in Hx. subst. auto. }
  assert (U : uniform (N:=Xnum) d (map Raw2 (map (padding d M) X))).
  { intros x Hx. rewrite map_map in Hx. apply in_map_iff in Hx. destruct Hx as (ts & <- & Hts). destruct (H ts Hts) as (A1 & A2 & A3). assert (R0 : forall r, In r (padding d M ts) -> length r = d) by (apply padding_rows; auto). split; [|apply Forall_forall; exact R0].
    unfold raw_ncols, ncols. destruct (padding d M ts) as [|r p] eqn:E; [|apply R0; left; auto]. pose proof (padding_length d M ts (HM ts Hts)) as Q. rewrite E in Q. cbn in Q. specialize (HM ts Hts). destruct ts; [congruence|cbn in *; lia]. }
  rewrite (to_dataset_ok Xnum d _ U). apply (f_equal (@Ok (list (series Xnum)))). 
  assert (MS : max_size (N:=Xnum) (map Raw2 (map (padding d M) X)) = longest X).
  { unfold max_size, longest. rewrite !map_map. f_equal. apply map_ext_in. intros ts Hts. cbn [reshape]. apply (size_padding d). auto. }
  rewrite MS. rewrite !map_map. apply map_ext_in. intros ts Hts. rewrite (ST ts Hts), lift_length. auto.
Qed.
Lemma unit_scale_twice c : c <> [] -> forall v, In v c -> unit_scale (map (unit_scale c) c) (unit_scale c v) = unit_scale c v.
Proof.
  intros N v Hv. set (c' := map (unit_scale c) c). assert (B : forall x, In x c -> rmin c <= x <= rmax c) by (intros x Hx; split; [apply rmin_le|apply rmax_ge]; auto).
  pose proof (rmin_in c N) as I1. pose proof (rmax_in c N) as I2. pose proof (B _ I2) as (MM & _). assert (N' : c' <> []) by (intros E; apply map_eq_nil in E; auto).
  assert (V : forall x, unit_scale c x = (x - rmin c) / (if Req_EM_T (rmax c) (rmin c) then 1 else rmax c - rmin c)) by reflexivity.
  assert (Z : rmin c' = 0). { apply Rle_antisym; [apply rmin_le; unfold c'; apply in_map_iff; exists (rmin c); split; auto; rewrite V; destruct (Req_EM_T _ _); [lra|unfold Rdiv; nra]|]. pose proof (rmin_in c' N') as J. unfold c' in J at 2. apply in_map_iff in J. destruct J as (x & Ex & Hx). rewrite <- Ex, V. destruct (B x Hx). destruct (Req_EM_T (rmax c) (rmin c)); [lra|]. apply Rmult_le_pos; [lra|]. left. apply Rinv_0_lt_compat. lra. }
  destruct (Req_EM_T (rmax c) (rmin c)) as [E|E].
  - assert (A : forall x, In x c -> unit_scale c x = 0) by (intros x Hx; rewrite V; destruct (B x Hx); lra). rewrite (A v Hv). unfold unit_scale at 1. rewrite Z. lra.
  - assert (O : rmax c' = 1). { apply Rle_antisym; [|apply rmax_ge; unfold c'; apply in_map_iff; exists (rmax c); split; auto; rewrite V; field; lra]. pose proof (rmax_in c' N') as J. unfold c' in J at 2. apply in_map_iff in J. destruct J as (x & Ex & Hx). rewrite <- Ex, V. destruct (B x Hx). apply Rmult_le_reg_r with (rmax c - rmin c); [lra|]. unfold Rdiv. rewrite Rmult_assoc, Rinv_l by lra. lra. }
    unfold unit_scale at 1. rewrite Z, O. destruct (Req_EM_T 1 0); lra.
Qed.
Lemma scaled_twice d ts : real_series d ts -> scaled d (scaled d ts) = scaled d ts.
Proof.
  intros (Hd & Hne & Hr). unfold scaled at 1 3. unfold scaled at 2. rewrite map_map. apply map_ext_in. intros r Hin. apply map_ext_in. intros k Hk. apply in_seq in Hk. rewrite nth_map_seq by lia.
  assert (F : feature k (scaled d ts) = map (unit_scale (feature k ts)) (feature k ts)).
  { unfold feature at 1, scaled. rewrite map_map. unfold feature at 3. rewrite map_map. apply map_ext. intros r'. rewrite nth_map_seq by lia. auto. }
  rewrite F. apply unit_scale_twice; [intros E; apply map_eq_nil in E; auto|]. apply in_map_iff. eauto.
Qed.
Lemma longest_normalised h d X : longest (map (normalised h d) X) = longest X.
Proof. unfold longest. rewrite map_map. f_equal. apply map_ext. intros. apply normalised_length. Qed.
Lemma prepare_twice h dims d X Y : X <> [] -> (forall ts, In ts X -> real_series d ts) -> prepare h dims (reals X) = Ok Y -> prepare h dims (map Raw2 Y) = Ok Y.
Proof.
  intros N H E. rewrite (prepare_reals h dims d X N H) in E. injection E as <-. set (M := Nat.max _ _). set (X' := map (normalised h d) X). assert (H' : forall ts, In ts X' -> real_series d ts) by (intros ts Hts; apply in_map_iff in Hts; destruct Hts as (x & <- & Hx); apply normalised_real; auto).
  assert (L' : longest X' = longest X) by apply longest_normalised. assert (N' : X' <> []) by (intros Q; apply map_eq_nil in Q; auto).
  transitivity (prepare h dims (reals X')).
  - unfold prepare. rewrite (dataset_reals d) by auto. rewrite dataset_padded; auto. intros ts Hts. pose proof (longest_ge X' ts Hts). unfold M. lia.
  - rewrite (prepare_reals h dims d X' N' H'). rewrite L'. fold M. apply (f_equal (@Ok array3)). f_equal. unfold X'. rewrite map_map. apply map_ext_in. intros ts Hts. unfold normalised. destruct (ls_scale h); auto. apply scaled_twice. auto.
Qed.
(** C109: [predict] fails exactly as [predict_proba] does, and otherwise gives for each series the class of greatest probability, although the
    series are prepared (padded, scaled) twice *)
Theorem C109_predict net h dims d classes X : X <> [] -> (forall ts, In ts X -> real_series d ts) ->
  predict net h dims classes (reals X) = match predict_proba net h dims classes (reals X) with Ok P => Ok (map (fun row => nth (rargmax row) classes 0%Z) P) | Err e => Err e end.
Proof.
  intros N H. unfold predict, predict_proba. destruct (prepare h (Some dims) (reals X)) as [Y|e] eqn:E; auto. cbn [bind]. destruct (check_features (snd dims) Y) as [Y'|e] eqn:F; auto. cbn [bind]. assert (Y' = Y) by (unfold check_features in F; destruct (_ =? _)%nat; congruence). subst Y'. 
  destruct (check_lengths h (Some dims) Y) as [u|e] eqn:G; auto. cbn [bind]. rewrite (prepare_twice h (Some dims) d X Y N H E). cbn [bind]. rewrite F. cbn [bind]. rewrite G. auto.
Qed.
Print Assumptions C109_predict.
(** a series and its scaled version (features within [0, 1]) are not told apart with scale=True, so scaling beforehand changes nothing *)
Theorem C109_scaled net h dims d classes X : ls_scale h = true -> X <> [] -> (forall ts, In ts X -> real_series d ts) ->
  predict_proba net h dims classes (reals (map (scaled d) X)) = predict_proba net h dims classes (reals X).
Proof.
  intros HS N H. unfold predict_proba. assert (E : prepare h (Some dims) (reals (map (scaled d) X)) = prepare h (Some dims) (reals X)); [|rewrite E; auto].
  assert (EN : map (scaled d) X = map (normalised h d) X) by (apply map_ext; intros; unfold normalised; rewrite HS; auto). 
  rewrite (prepare_reals h _ d X N H), (prepare_reals h _ d (map (scaled d) X)); [|intros Q; apply map_eq_nil in Q; auto|intros ts Hts; apply in_map_iff in Hts; destruct Hts as (x & <- & Hx); apply scaled_real; auto].
  rewrite EN, longest_normalised. apply (f_equal (@Ok array3)). f_equal. rewrite map_map. apply map_ext_in. intros ts Hts. unfold normalised. rewrite HS. apply scaled_twice. auto.
Qed.
Print Assumptions C109_scaled.
(** instances of the hypotheses of C109 and C110, with a network that is not constant *)
Example C109_instance : let X := [[[1]; [2]; [3]]; [[4]; [7]]] in let h := {| ls_sizes := None; ls_max_size := None; ls_scale := true; ls_batch := 256 |} in
  X <> [] /\ (forall ts, In ts X -> real_series 1 ts) /\ longest X = 3%nat /\
  exists P, predict_proba (map (fun s => [num_of (nth 0 (nth 1 s []) XNaN)])) h (4%nat, 1%nat) [-1; 1]%Z (reals X) = Ok P /\ map (fun row => nth (rargmax row) [-1; 1]%Z 0%Z) P = [-1; 1]%Z.
Proof.
  cbv zeta. assert (HX : forall ts, In ts [[[1]; [2]; [3]]; [[4]; [7]]] -> real_series 1 ts).
  { intros ts Hts. repeat (destruct Hts as [<-|Hts]; [split; [lia|split; [discriminate|]]; intros r Hr; repeat (destruct Hr as [<-|Hr]; [reflexivity|]); destruct Hr|]). destruct Hts. }
  split; [discriminate|]. split; auto. split; [reflexivity|]. unfold predict_proba. rewrite (prepare_reals _ _ 1) by (auto; discriminate). eexists. split; [reflexivity|].
  unfold probabilities. cbn [length hd map Nat.eqb andb]. unfold normalised. cbn [ls_scale]. unfold scaled, unit_scale, feature, padding, lift. cbn [map seq nth rmin rmax app num_of].
  assert (D : forall p q, p <= / 2 -> / 2 < q -> [nth (rargmax [1 - p; p]) [-1; 1]%Z 0%Z; nth (rargmax [1 - q; q]) [-1; 1]%Z 0%Z] = [-1; 1]%Z).
  { intros p q Hp Hq. assert (F1 : rargmax [1 - p; p] = 0%nat).
    { apply (first_greatest_unique [1 - p; p]); [apply rargmax_first; discriminate|]. split; [cbn; lia|]. intros [|[|j]] Hj; cbn in *; split; intros; try lra; lia. }
    assert (F2 : rargmax [1 - q; q] = 1%nat).
    { apply (first_greatest_unique [1 - q; q]); [apply rargmax_first; discriminate|]. split; [cbn; lia|]. intros [|[|j]] Hj; cbn in *; split; intros; try lra; lia. }
    rewrite F1, F2. auto. }
  apply D; unfold Rmin, Rmax; repeat destruct (Rle_dec _ _); repeat destruct (Req_EM_T _ _); lra.
Qed.
Example C110_instance : fit_input {| ls_sizes := None; ls_max_size := None; ls_scale := false; ls_batch := 256 |} (Some (1%nat, 1%nat)) (reals [[[1]; [2]]]) = Err ValueError /\
  exists Y, fit_input {| ls_sizes := None; ls_max_size := None; ls_scale := false; ls_batch := 256 |} None (reals [[[1]; [2]]]) = Ok (Y, (2%nat, 1%nat)).
Proof.
  assert (HX : forall ts, In ts [[[1]; [2]]] -> real_series 1 ts).
  { intros ts Hts. repeat (destruct Hts as [<-|Hts]; [split; [lia|split; [discriminate|]]; intros r Hr; repeat (destruct Hr as [<-|Hr]; [reflexivity|]); destruct Hr|]). destruct Hts. }
  destruct (C110_refuted {| ls_sizes := None; ls_max_size := None; ls_scale := false; ls_batch := 256 |} 1 1 [[[1]; [2]]] eq_refl eq_refl ltac:(discriminate) HX) as (A & B & _). split; [apply B; cbn; lia|exact A].
Qed.

(** ** C111: which series a fitted model accepts *)
Lemma list_max_bound sizes n : (list_max sizes <= n)%nat <-> forall s, In s sizes -> (s <= n)%nat.
Proof. rewrite list_max_le, Forall_forall. tauto. Qed.
Lemma fold_min_le (l : list nat) a b : (b <= fold_right Nat.min a l)%nat <-> (b <= a)%nat /\ forall x, In x l -> (b <= x)%nat.
Proof. induction l as [|x l IH]; cbn; [intuition|]. rewrite Nat.min_glb_iff, IH. intuition (subst; auto). Qed.
Definition accepted (h : ls_hyper) (m d : nat) (X : list (list (list R))) : Prop :=
  (forall ts r, In ts X -> In r ts -> length r = d) /\ (forall ts, In ts X -> (length ts <= m)%nat) /\
  (forall sizes s ts, ls_sizes h = Some sizes -> In s sizes -> In ts X -> (s <= length ts)%nat).
Lemma check_spec h dims d M X : X <> [] -> (forall ts, In ts X -> real_series d ts /\ (length ts <= M)%nat) ->
  check_lengths h dims (map (padding d M) X) = if (match ls_sizes h with Some sizes => negb (forallb (fun ts => list_max sizes <=? length ts)%nat X) | None => false end || (allowed_size h dims M <? M)%nat)%bool then Err ValueError else Ok tt.
Proof.
  intros N H. unfold check_lengths. destruct (head_shape d M X N H) as (-> & _).
  assert (Q : match ls_sizes h with Some sizes => (fold_right Nat.min (ts_size (hd [] (map (padding d M) X))) (map (ts_size (N:=Xnum)) (map (padding d M) X)) <? list_max sizes)%nat | None => false end = match ls_sizes h with Some sizes => negb (forallb (fun ts => list_max sizes <=? length ts)%nat X) | None => false end).
  { destruct (ls_sizes h) as [sizes|]; auto. rewrite Nat.ltb_antisym. f_equal. apply eq_true_iff_eq. rewrite Nat.leb_le, fold_min_le, forallb_forall. rewrite map_map. split.
    - intros (_ & A) ts Hts. apply Nat.leb_le. rewrite <- (size_padding d M ts) by (apply H; auto). apply A. apply in_map_iff. eauto.
    - intros A. assert (B : forall ts, In ts X -> (list_max sizes <= ts_size (N:=Xnum) (padding d M ts))%nat) by (intros ts Hts; rewrite (size_padding d) by (apply H; auto); apply Nat.leb_le; auto). split; [destruct X as [|ts X]; [congruence|]; apply B; left; auto|]. intros x Hx. apply in_map_iff in Hx. destruct Hx as (ts & <- & Hts). auto. }
  rewrite Q. destruct (ls_sizes h) as [sizes|]; [destruct (forallb _ X)|]; reflexivity.
Qed.
(** C111: transform, locate and predict_proba accept exactly the series with the fitted number of features that are no longer than the fitted
    length and no shorter than the shapelets that were asked for; anything else is a ValueError *)
Lemma accepts_gen {A} (k : array3 -> A) h m d d' X : (ls_max_size h = None \/ ls_max_size h = Some m) -> X <> [] -> (forall ts, In ts X -> real_series d' ts) ->
  let r := (do Y <- prepare h (Some (m, d)) (reals X) ;; do Y <- check_features d Y ;; do _ <- check_lengths h (Some (m, d)) Y ;; Ok (k Y)) in
  (accepted h m d X -> exists out, r = Ok out) /\ (~ accepted h m d X -> r = Err ValueError).
Proof.
  intros HM N H r. assert (AL : forall sz, allowed_size h (Some (m, d)) sz = m) by (intros sz; unfold allowed_size; destruct HM as [-> | ->]; auto).
  unfold r. rewrite (prepare_reals h _ d' X N H), AL. cbn [bind]. set (M := Nat.max _ m). set (X' := map (normalised h d') X).
  assert (N' : X' <> []) by (intros Q; apply map_eq_nil in Q; auto).
  assert (H' : forall ts, In ts X' -> real_series d' ts /\ (length ts <= M)%nat).
  { intros ts Hts. apply in_map_iff in Hts. destruct Hts as (x & <- & Hx). rewrite normalised_length. split; [apply normalised_real; auto|]. pose proof (longest_ge X x Hx). unfold M. lia. }
  unfold check_features. destruct (head_shape d' M X' N' H') as (_ & ->).
  assert (DD : (forall ts r, In ts X -> In r ts -> length r = d) <-> d' = d).
  { split; [|intros ->; intros ts r0 Hts; apply H; auto]. intros Q. destruct X as [|ts X0]; [congruence|]. destruct (H ts (or_introl eq_refl)) as (_ & B & C). destruct ts as [|r0 ts]; [congruence|]. rewrite <- (C r0 (or_introl eq_refl)). apply (Q (r0 :: ts)); left; auto. }
  destruct (Nat.eqb_spec d' d) as [->|ND]; cbn [bind].
  2: { split; [|auto]. intros (A1 & _). exfalso. apply ND, DD. auto. }
  rewrite (check_spec h _ d M X' N' H'), AL.
  assert (S : match ls_sizes h with Some sizes => negb (forallb (fun ts => list_max sizes <=? length ts)%nat X') | None => false end = false <-> (forall sizes s ts, ls_sizes h = Some sizes -> In s sizes -> In ts X -> (s <= length ts)%nat)).
  { destruct (ls_sizes h) as [sizes|]; [|split; [discriminate|auto]]. rewrite negb_false_iff, forallb_forall. split.
    - intros Q sz s ts E Hs Hts. injection E as <-. specialize (Q (normalised h d ts) ltac:(apply in_map; auto)). rewrite normalised_length in Q. apply Nat.leb_le in Q. rewrite list_max_bound in Q. auto.
    - intros Q ts Hts. apply in_map_iff in Hts. destruct Hts as (x & <- & Hx). rewrite normalised_length. apply Nat.leb_le, list_max_bound. intros s Hs. eapply Q; eauto. }
  assert (LM : (m <? M)%nat = false <-> forall ts, In ts X -> (length ts <= m)%nat).
  { rewrite Nat.ltb_ge. unfold M. split; [intros Q ts Hts; pose proof (longest_ge X ts Hts); lia|]. intros Q. pose proof (longest_le X m Q). lia. }
  destruct (match ls_sizes h with Some _ => _ | None => _ end); cbn [orb].
  - split; [|auto]. intros (_ & _ & A3). apply S in A3. discriminate.
  - destruct (m <? M)%nat; [split; [|auto]; intros (_ & A2 & _); apply LM in A2; discriminate|]. split; [cbn; eauto|]. intros Q. exfalso. apply Q. split; [apply DD; auto|]. split; [apply LM; auto|apply S; auto].
Qed.
Theorem C111_accepts h m d d' layers net classes X : (ls_max_size h = None \/ ls_max_size h = Some m) -> X <> [] -> (forall ts, In ts X -> real_series d' ts) ->
  (accepted h m d X -> (exists out, transform h (m, d) layers (reals X) = Ok out) /\ (exists out, locate h (m, d) layers (reals X) = Ok out) /\ (exists out, predict_proba net h (m, d) classes (reals X) = Ok out)) /\
  (~ accepted h m d X -> transform h (m, d) layers (reals X) = Err ValueError /\ locate h (m, d) layers (reals X) = Err ValueError /\ predict_proba net h (m, d) classes (reals X) = Err ValueError).
Proof.
  intros HM N H. unfold transform, locate, apply_network, predict_proba. cbn [snd].
  destruct (accepts_gen (in_batches (ls_batch h) (run_network min_pooling d layers)) h m d d' X HM N H) as (A1 & A2).
  destruct (accepts_gen (in_batches (ls_batch h) (run_network argmin_pooling d layers)) h m d d' X HM N H) as (B1 & B2).
  destruct (accepts_gen (fun Y => probabilities classes (net Y)) h m d d' X HM N H) as (C1 & C2). auto 6.
Qed.
Print Assumptions C111_accepts.
Example C111_instance : let X := [[[1]; [2]; [3]]; [[4]; [7]]] in let h s := {| ls_sizes := Some [s]; ls_max_size := None; ls_scale := true; ls_batch := 256 |} in
  accepted (h 2%nat) 3 1 X /\ ~ accepted (h 3%nat) 3 1 X /\ ~ accepted (h 2%nat) 2 1 X /\ ~ accepted (h 2%nat) 3 2 X.
Proof.
  cbv zeta. split; [|split; [|split]].
  - split; [|split].
    + intros ts r Hts Hr. repeat (destruct Hts as [<-|Hts]; [repeat (destruct Hr as [<-|Hr]; [reflexivity|]); destruct Hr|]). destruct Hts.
    + intros ts Hts. repeat (destruct Hts as [<-|Hts]; [cbn; lia|]). destruct Hts.
    + intros sizes s ts E Hs Hts. injection E as <-. destruct Hs as [<-|[]]. repeat (destruct Hts as [<-|Hts]; [cbn; lia|]). destruct Hts.
  - intros (_ & _ & A). specialize (A [3%nat] 3%nat [[4]; [7]] eq_refl (or_introl eq_refl) ltac:(cbn; auto)). cbn in A. lia.
  - intros (_ & A & _). specialize (A [[1]; [2]; [3]] ltac:(cbn; auto)). cbn in A. lia.
  - intros (A & _). specialize (A [[4]; [7]] [4] ltac:(cbn; auto) ltac:(cbn; auto)). discriminate.
Qed.

(** C144-C147: the feature synchronizer. *)
From Coq Require Import Bool List Arith ZArith Lia Reals Lra.
From Verif Require Import Num NumLaws Py Series Dataset ValidThms CdistThms RList RealSeries PaaModel PaaThms PreModel PropScale PropResample SyncModel.
Import ListNotations.
Local Open Scope R_scope.

(** ** Specification *)
(** A series is given by its features, each a list of its own length; as an array of [m] rows and [d] columns,
    the shorter features are completed by [x]. *)
Definition table {A} (x : A) (d m : nat) (s : list (list A)) : list (list A) :=
  map (fun t => map (fun k => nth t (nth k s []) x) (seq 0 d)) (seq 0 m).
Definition longest_feature {A} (s : list (list A)) : nat := list_max (map (@length A) s).
Definition longest_size {A} (ss : list (list (list A))) : nat := list_max (map longest_feature ss).
(** [d] features, none empty *)
Definition recorded {A} (d : nat) (s : list (list A)) : Prop := length s = d /\ forall c, In c s -> c <> [].
(** [d] features, one of them not empty *)
Definition observed {A} (d : nat) (s : list (list A)) : Prop := length s = d /\ (0 < longest_feature s)%nat.
Definition reals_or_nan (s : list (list R)) : list (list xr) := map (map XR) s.
(** the dataset handed over: every series with at least as many rows as its longest feature *)
Definition handed_over (d : nat) (s : list (list R)) (x : series Xnum) : Prop :=
  exists m, (longest_feature s <= m)%nat /\ x = table XNaN d m (reals_or_nan s).
(** the size of the reference feature *)
Definition ref_size (ref : nat) (s : list (list R)) : nat := length (nth ref s []).
Definition max_ref (ref : nat) (ss : list (list (list R))) : nat := list_max (map (ref_size ref) ss).
(** timestamps: strictly increasing *)
Definition increasing (tau : list Z) : Prop := forall j, (S j < length tau)%nat -> (nth j tau 0 < nth (S j) tau 0)%Z.
(** [y] is the value at time [x] of the piecewise linear curve through the points [(tau, v)], constant outside *)
Definition at_time (tau : list Z) (v : list R) (x : Z) (y : R) : Prop :=
  ((x <= nth 0 tau 0%Z)%Z -> y = nth 0 v 0) /\
  ((nth (length tau - 1) tau 0%Z <= x)%Z -> y = nth (length v - 1) v 0) /\
  forall j, (S j < length tau)%nat -> (nth j tau 0%Z <= x <= nth (S j) tau 0%Z)%Z ->
    y = nth j v 0 + (nth (S j) v 0 - nth j v 0) * (IZR (x - nth j tau 0%Z) / IZR (nth (S j) tau 0%Z - nth j tau 0%Z)).

(** ** tables *)
Lemma table_len {A} (x : A) d m s : length (table x d m s) = m.
Proof. unfold table. rewrite map_length, seq_length. auto. Qed.
Lemma table_row {A} (x : A) d m s r : In r (table x d m s) -> length r = d.
Proof. unfold table. intros H. apply in_map_iff in H. destruct H as (t & <- & _). rewrite map_length, seq_length. auto. Qed.
Lemma longest_map {A B} (f : A -> B) s : longest_feature (map (map f) s) = longest_feature s.
Proof. unfold longest_feature. rewrite map_map. f_equal. apply map_ext. intros c. apply map_length. Qed.
Lemma feature_le {A} (s : list (list A)) k : (length (nth k s []) <= longest_feature s)%nat.
Proof.
  destruct (Nat.lt_ge_cases k (length s)) as [H|H]; [|rewrite nth_overflow by auto; simpl; lia].
  unfold longest_feature. apply list_max_ge, in_map, nth_In; auto.
Qed.
Lemma table_pad {A} (x : A) d m n s : (longest_feature s <= m)%nat -> table x d (m + n) s = table x d m s ++ repeat (repeat x d) n.
Proof.
  intros H. unfold table. rewrite seq_app, map_app. f_equal. cbn [Nat.add].
  assert (G : forall a, (m <= a)%nat -> map (fun t => map (fun k => nth t (nth k s []) x) (seq 0 d)) (seq a n) = repeat (repeat x d) n).
  { induction n as [|n IH]; intros a Ha; simpl; auto. rewrite IH by lia. f_equal.
    rewrite <- (seq_length d 0) at 2. generalize (seq 0 d). intros l. induction l as [|k l IHl]; simpl; auto. rewrite IHl. f_equal.
    apply nth_overflow. pose proof (feature_le s k). lia. }
  apply G. lia.
Qed.
Lemma recorded_pos {A} d (s : list (list A)) : (0 < d)%nat -> recorded d s -> (0 < longest_feature s)%nat.
Proof.
  intros Hd [L H]. pose proof (feature_le s 0) as F. destruct s as [|c s]; [simpl in L; lia|]. simpl in F. specialize (H c (or_introl eq_refl)). destruct c; [congruence|]. simpl in *. lia.
Qed.
Lemma recorded_observed {A} d (s : list (list A)) : (0 < d)%nat -> recorded d s -> observed d s.
Proof. intros Hd H. split; [apply H|apply (recorded_pos d); auto]. Qed.
Lemma nth_reals c t : nth t (map XR c) XNaN = if (t <? length c)%nat then XR (nth t c 0) else XNaN.
Proof.
  destruct (Nat.ltb_spec t (length c)); [apply nth_XR; auto|]. apply nth_overflow. rewrite map_length. auto.
Qed.
Lemma feature_reals s k : nth k (reals_or_nan s) [] = map XR (nth k s []).
Proof. unfold reals_or_nan. change (@nil xr) with (map XR []). apply map_nth. Qed.
Lemma size_table d m s : (0 < d)%nat -> observed d s -> (longest_feature s <= m)%nat ->
  ts_size (N:=Xnum) (table XNaN d m (reals_or_nan s)) = longest_feature s.
Proof.
  intros Hd Hr Hm. set (L := longest_feature s) in *. replace m with (L + (m - L))%nat by lia.
  assert (LE : longest_feature (reals_or_nan s) = L) by (unfold reals_or_nan; rewrite longest_map; auto).
  rewrite table_pad by (rewrite LE; auto). rewrite (ts_size_pad Xnum).
  - assert (P : (0 < L)%nat) by apply Hr. destruct L as [|n] eqn:EL; [lia|].
    unfold ts_size, table. rewrite seq_S, map_app, rev_app_distr. cbn [map rev app skip_nan Nat.add].
    assert (NR : nan_row (N:=Xnum) (map (fun k => nth n (nth k (reals_or_nan s) []) XNaN) (seq 0 d)) = false).
    { apply not_true_is_false. intros K. unfold nan_row in K. rewrite forallb_forall in K.
      assert (HI : In (S n) (map (@length R) s)). { rewrite <- EL. apply list_max_in. destruct s; [|discriminate]. destruct Hr as [Hr _]. simpl in Hr. lia. }
      apply in_map_iff in HI. destruct HI as (c & Lc & Hc). destruct (In_nth _ _ [] Hc) as (k & Hk & Ek).
      specialize (K (nth n (nth k (reals_or_nan s) []) XNaN)). rewrite feature_reals, Ek, nth_reals in K.
      destruct (Nat.ltb_spec n (length c)); [|lia]. destruct Hr as [Hr _].
      assert (false = true); [|discriminate]. apply K. apply in_map_iff. exists k. split; [|apply in_seq; lia].
      rewrite feature_reals, Ek, nth_reals. destruct (Nat.ltb_spec n (length c)); [auto|lia]. }
    change (carrier Xnum) with xr in *. rewrite NR. simpl length. rewrite rev_length, map_length, seq_length. auto.
  - intros r Hr'. apply repeat_spec in Hr'. apply (nan_repeat d). auto.
Qed.
Lemma strip_table d m s : (0 < d)%nat -> observed d s -> (longest_feature s <= m)%nat ->
  to_time_series (N:=Xnum) true (Raw2 (N:=Xnum) (table XNaN d m (reals_or_nan s))) = table XNaN d (longest_feature s) (reals_or_nan s).
Proof.
  intros Hd Hr Hm. unfold to_time_series. cbn [reshape]. etransitivity; [apply (f_equal (fun n => firstn n _)), size_table; auto|].
  replace m with (longest_feature s + (m - longest_feature s))%nat at 1 by lia.
  rewrite table_pad by (unfold reals_or_nan; rewrite longest_map; auto). rewrite firstn_app, table_len, Nat.sub_diag. simpl firstn at 2. rewrite app_nil_r.
  apply firstn_all2. rewrite table_len. auto.
Qed.
Lemma handed_raw d X ss : (0 < d)%nat -> (forall s, In s ss -> observed d s) -> Forall2 (handed_over d) ss X ->
  variable_length X = Ok (map (fun s => table XNaN d (longest_size ss) (reals_or_nan s)) ss).
Proof.
  intros Hd Hr HF. unfold variable_length.
  assert (G : forall M, (longest_size ss <= M)%nat -> uniform (N:=Xnum) d (map Raw2 X) /\ map (fun x => ts_size (N:=Xnum) (reshape x)) (map Raw2 X) = map longest_feature ss /\
    map (fun x => to_time_series true x ++ repeat (repeat (@nnan Xnum) d) (M - length (to_time_series true x))) (map Raw2 X) =
    map (fun s => table XNaN d M (reals_or_nan s)) ss).
  { induction HF as [|s x ss X (m & Hm & ->) HF IH]; intros M HM; [split; [intros ? []|auto]|].
    unfold longest_size in HM. cbn [map] in HM.
    assert (HM1 : (longest_feature s <= M)%nat /\ (longest_size ss <= M)%nat) by (unfold longest_size; simpl in HM; lia). destruct HM1 as [HM1 HM2].
    destruct (IH ltac:(intros; apply Hr; right; auto) M HM2) as (U & S1 & S2). pose proof (Hr s (or_introl eq_refl)) as Rs. split; [|split].
    - intros x [<-|Hx]; [|apply U; auto]. split.
      + cbn [raw_ncols]. unfold ncols. destruct m as [|m]; [destruct Rs as [_ Rs]; lia|]. simpl. rewrite map_length, seq_length. auto.
      + unfold rect. apply Forall_forall. intros r H. simpl in H. eapply table_row; eauto.
    - cbn [map]. f_equal; [|apply S1]. simpl reshape. apply size_table; auto.
    - cbn [map]. f_equal; [|apply S2]. rewrite strip_table by auto. change (@nnan Xnum) with XNaN.
      rewrite table_len. symmetry. refine (eq_trans _ (table_pad XNaN d (longest_feature s) (M - longest_feature s) (reals_or_nan s) _)).
      + f_equal. lia.
      + unfold reals_or_nan. rewrite longest_map. auto. }
  destruct (G (longest_size ss) (le_n _)) as (U & S1 & S2). rewrite (to_dataset_ok Xnum d) by auto. f_equal.
  assert (EM : max_size (map Raw2 X) = longest_size ss).
  { unfold max_size. rewrite S1, fold_max_list_max. unfold longest_size. lia. }
  rewrite EM. apply S2.
Qed.
Lemma table_shape d M ss : shape3 (length ss) M d (map (fun s => table XNaN d M (reals_or_nan s)) ss).
Proof.
  split; [apply map_length|]. intros x Hx. apply in_map_iff in Hx. destruct Hx as (s & <- & _). split; [apply table_len|]. intros r. apply table_row.
Qed.
Lemma column_table d m s k : (k < d)%nat -> (longest_feature s <= m)%nat ->
  column k (table XNaN d m (reals_or_nan s)) = map XR (nth k s []) ++ repeat XNaN (m - length (nth k s [])).
Proof.
  intros Hk Hm. pose proof (feature_le s k) as F. set (c := nth k s []) in *. unfold column, table. rewrite map_map.
  apply (nth_ext _ _ XNaN XNaN); [rewrite map_length, seq_length, app_length, map_length, repeat_length; lia|].
  intros t Ht. rewrite map_length, seq_length in Ht. rewrite map_seq_nth by auto. rewrite map_seq_nth by auto. rewrite feature_reals. fold c.
  destruct (Nat.lt_ge_cases t (length c)) as [L|L].
  - rewrite app_nth1 by (rewrite map_length; auto). auto.
  - rewrite app_nth2 by (rewrite map_length; auto). rewrite nth_overflow by (rewrite map_length; auto). symmetry. apply nth_repeat.
Qed.
Lemma col_size_real c n : c <> [] -> col_size (map XR c ++ repeat XNaN n) = length c.
Proof.
  intros Hc. unfold col_size.
  assert (E : map (fun x => [x]) (map XR c ++ repeat XNaN n) = pad_to 1 (length c + n) (map (fun x => [x]) c)).
  { unfold pad_to, lift. rewrite map_length, map_app, !map_map. f_equal. replace (length c + n - length c)%nat with n by lia.
    assert (Q : map (fun x : xr => [x]) (repeat XNaN n) = repeat [XNaN] n) by (clear; induction n as [|n IH]; simpl; [auto|]; rewrite IH; auto).
    exact (f_equal (app (map (fun x : R => [XR x]) c)) Q). }
  rewrite E. etransitivity; [apply ts_size_pad_to|apply map_length].
  split; [lia|]. split; [destruct c; [congruence|discriminate]|]. intros r Hr. apply in_map_iff in Hr. destruct Hr as (x & <- & _). auto.
Qed.

(** ** without timestamps *)
Lemma interp1_start f : f <> [] -> interp1 (linspace01 (length f)) (map XR f) (INR 0 / INR 0) = XR (nth 0 f 0).
Proof.
  intros Hf. assert (Hn : (0 < length f)%nat) by (destruct f; [congruence|simpl; lia]). replace (INR 0 / INR 0) with 0 by (simpl; unfold Rdiv; ring).
  unfold interp1. replace (count_le 0 (linspace01 (length f))) with 1%nat.
  - change (1 =? 0)%nat with false. cbv beta iota zeta. assert (Ll : length (linspace01 (length f)) = length f) by (unfold linspace01; rewrite map_length, seq_length; auto). rewrite Ll.
    destruct (Nat.eqb_spec 1 (length f)) as [E|E].
    + rewrite <- E. simpl Nat.sub. apply nth_XR. auto.
    + simpl Nat.sub. rewrite nth_lin by auto. destruct (Reqb_spec (INR 0 / INR (length f - 1)) 0) as [_|K]; [apply nth_XR; auto|].
      exfalso. apply K. simpl INR. unfold Rdiv. ring.
  - symmetry. unfold linspace01. apply count_le_seq; auto. intros i Hi. split; intros H; [|replace i with 0%nat by lia; simpl INR; unfold Rdiv; rewrite Rmult_0_l; lra].
    destruct (Nat.eq_dec i 0); [lia|exfalso]. assert (0 < INR i / INR (length f - 1)); [|lra]. apply Rdiv_lt_0_compat; apply lt_0_INR; lia.
Qed.
Lemma interp_resampled T f : (0 < T)%nat -> f <> [] -> interp (linspace01 T) (linspace01 (length f)) (map XR f) = Ok (map XR (resampled T f)).
Proof.
  intros HT Hf. unfold interp. destruct (linspace01 (length f)) as [|a l] eqn:El; [destruct f; [congruence|discriminate]|]. rewrite <- El. f_equal.
  unfold resampled. change (linspace01 T) with (map (fun i => INR i / INR (T - 1)) (seq 0 T)). rewrite !map_map. apply map_ext_in. intros t Ht. apply in_seq in Ht.
  destruct (Nat.eq_dec T 1) as [->|N1]; [|apply interp1_linear; auto; lia].
  replace t with 0%nat by lia. simpl Nat.sub. rewrite interp1_start by auto. f_equal. simpl. unfold Rdiv. ring.
Qed.
Lemma sync_col_nth rs mr vals c t : (rs <= mr)%nat -> length vals = rs -> (t < mr)%nat -> (mr <= length c)%nat ->
  nth t (sync_col rs mr vals c) XNaN = if (t <? rs)%nat then nth t vals XNaN else XNaN.
Proof.
  intros H1 H2 H3 H4. unfold sync_col, mapi. set (l := vals ++ skipn rs c). assert (Ll : length l = length c) by (unfold l; rewrite app_length, skipn_length; lia).
  rewrite Ll.
  set (g := fun p : nat * xr => if (rs <=? fst p)%nat && (fst p <? mr)%nat then XNaN else snd p).
  rewrite (nth_indep (map g (combine (seq 0 (length c)) l)) XNaN (g (0%nat, XNaN))) by (rewrite map_length, combine_length, seq_length; lia).
  rewrite (map_nth g), combine_nth by (rewrite seq_length; auto). rewrite seq_nth by lia. unfold g. cbn [fst snd Nat.add].
  destruct (Nat.ltb_spec t rs).
  - destruct (Nat.leb_spec rs t); [lia|]. cbn [andb]. unfold l. apply app_nth1. lia.
  - destruct (Nat.leb_spec rs t); [|lia]. destruct (Nat.ltb_spec t mr); [auto|lia].
Qed.
(** the result of one series, given the values of its features *)
Lemma sync_table ni ref mr d M s stamps (os : list (list R)) : (ref < d)%nat -> recorded d s -> (longest_feature s <= M)%nat ->
  (ref_size ref s <= mr <= M)%nat -> length os = d ->
  (forall k, (k < d)%nat -> length (nth k os []) = ref_size ref s /\
     match stamps with
     | None => interp (linspace01 (ref_size ref s)) (linspace01 (length (nth k s []))) (map XR (nth k s []))
     | Some a => interp_stamps ni (map (fun r => nth ref r None) (firstn (ref_size ref s) a)) (map (fun r => nth k r None) (firstn (length (nth k s [])) a)) (map XR (nth k s []))
     end = Ok (map XR (nth k os []))) ->
  sync_series ni ref mr d stamps (table XNaN d M (reals_or_nan s)) = Ok (table XNaN d mr (reals_or_nan os)).
Proof.
  intros Hd Hr HM Hmr Lo Ho. unfold sync_series.
  assert (NE : forall k, (k < d)%nat -> nth k s [] <> []) by (intros k Hk; destruct Hr as [Lr Nr]; apply Nr, nth_In; lia).
  assert (CS : forall k, (k < d)%nat -> col_size (column k (table XNaN d M (reals_or_nan s))) = length (nth k s [])) by (intros k Hk; rewrite column_table by auto; apply col_size_real; auto).
  rewrite (CS ref Hd). fold (ref_size ref s).
  rewrite (mapM_map _ (fun k => sync_col (ref_size ref s) mr (map XR (nth k os [])) (column k (table XNaN d M (reals_or_nan s))))).
  2:{ intros k Hk. apply in_seq in Hk. cbn beta zeta. rewrite CS by lia. destruct (Ho k ltac:(lia)) as [_ E].
      replace (firstn (length (nth k s [])) (column k (table XNaN d M (reals_or_nan s)))) with (map XR (nth k s [])).
      2:{ rewrite column_table by (auto; lia). rewrite firstn_app, map_length, Nat.sub_diag. simpl firstn at 2. rewrite app_nil_r. symmetry. apply firstn_all2. rewrite map_length. auto. }
      match goal with |- bind ?a _ = _ => assert (EE : a = Ok (map XR (nth k os []))) end.
      { destruct stamps; exact E. }
      rewrite EE. reflexivity. }
  cbn [bind]. f_equal. rewrite table_len. unfold of_columns. rewrite firstn_map.
  replace (firstn mr (seq 0 M)) with (seq 0 mr).
  2:{ replace M with (mr + (M - mr))%nat by lia. rewrite seq_app, firstn_app, seq_length, Nat.sub_diag. simpl firstn at 2. rewrite app_nil_r. symmetry. apply firstn_all2. rewrite seq_length. auto. }
  unfold table at 2. apply map_ext_in. intros t Ht. apply in_seq in Ht. rewrite map_map. apply map_ext_in. intros k Hk. apply in_seq in Hk.
  destruct (Ho k ltac:(lia)) as [Lk _]. rewrite sync_col_nth; [|lia|rewrite map_length; auto|lia|unfold column; rewrite map_length, table_len; lia].
  rewrite feature_reals. destruct (Nat.ltb_spec t (ref_size ref s)); auto. symmetry. apply nth_overflow. rewrite map_length. lia.
Qed.
Lemma mapM_comp {A B C} (f : B -> res C) (g : A -> B) (h : A -> C) l : (forall a, In a l -> f (g a) = Ok (h a)) -> mapM f (map g l) = Ok (map h l).
Proof. induction l as [|a l IH]; intros H; [auto|]. cbn [map mapM]. rewrite H by (left; auto). cbn [bind]. rewrite IH by (intros; apply H; right; auto). reflexivity. Qed.
Lemma max_ref_ge ref ss s : In s ss -> (ref_size ref s <= max_ref ref ss)%nat.
Proof. intros H. unfold max_ref. apply list_max_ge, in_map. auto. Qed.
Lemma max_ref_le ref ss : (max_ref ref ss <= longest_size ss)%nat.
Proof.
  unfold max_ref, longest_size. induction ss as [|s ss IH]; simpl; auto. pose proof (feature_le s ref). unfold ref_size at 1. lia.
Qed.
Lemma longest_size_ge {A} (ss : list (list (list A))) s : In s ss -> (longest_feature s <= longest_size ss)%nat.
Proof. intros H. unfold longest_size. apply list_max_ge, in_map. auto. Qed.
Lemma max_ref_code ref d ss : (ref < d)%nat -> (forall s, In s ss -> recorded d s) ->
  fold_left Nat.max (map (fun s => col_size (column ref s)) (map (fun s => table XNaN d (longest_size ss) (reals_or_nan s)) ss)) 0%nat = max_ref ref ss.
Proof.
  intros Hd Hr. rewrite fold_max_list_max, Nat.max_0_l. unfold max_ref. f_equal. rewrite map_map. apply map_ext_in. intros s Hs. rewrite column_table by (auto; apply longest_size_ge; auto).
  apply col_size_real. destruct (Hr s Hs) as [L N]. apply N, nth_In. lia.
Qed.
Lemma dims d ss : (0 < d)%nat -> ss <> [] -> (forall s, In s ss -> observed d s) ->
  arr_d (map (fun s => table XNaN d (longest_size ss) (reals_or_nan s)) ss) = d /\ arr_sz (map (fun s => table XNaN d (longest_size ss) (reals_or_nan s)) ss) = longest_size ss /\ (0 < longest_size ss)%nat.
Proof.
  intros Hd Hne Hr. destruct ss as [|s ss]; [congruence|]. assert (P : (0 < longest_size (s :: ss))%nat).
  { destruct (Hr s (or_introl eq_refl)) as [_ P]. pose proof (longest_size_ge (s :: ss) s (or_introl eq_refl)). lia. }
  split; [|split; auto].
  - eapply arr_d_shape; [apply table_shape|simpl; lia|auto].
  - eapply arr_sz_shape; [apply table_shape|simpl; lia].
Qed.
(** Without timestamps, each feature becomes its piecewise linear interpolation at as many equidistant points as the
    reference feature of the series has values; missing values follow, up to the longest reference feature. *)
Theorem C144_interpolated ni ref d X ss : (ref < d)%nat -> ss <> [] -> (forall s, In s ss -> recorded d s) -> Forall2 (handed_over d) ss X ->
  exists out, synchronize ni ref d None X = Ok (map (fun o => table XNaN d (max_ref ref ss) (reals_or_nan o)) out) /\
    Forall2 (fun s o => length o = d /\ forall k, (k < d)%nat ->
      length (nth k o []) = ref_size ref s /\ interpolates (ref_size ref s) (nth k s []) (nth k o [])) ss out.
Proof.
  intros Hd Hne Hr HF. exists (map (fun s => map (resampled (ref_size ref s)) s) ss). split.
  - assert (Ho : forall s, In s ss -> observed d s) by (intros s Hs; apply recorded_observed; auto; lia).
    unfold synchronize. rewrite (handed_raw d X ss) by (auto; lia). cbn [bind]. destruct (dims d ss ltac:(lia) Hne Ho) as (D1 & D2 & D3).
    unfold check_features. rewrite D1, Nat.eqb_refl. cbn [bind]. rewrite D1. destruct (Nat.leb_spec d ref); [lia|].
    rewrite (max_ref_code ref d ss Hd Hr).
    match goal with |- match ?l with [] => _ | _ => _ end = _ => destruct l as [|x0 X0] eqn:El; [destruct ss; [congruence|discriminate]|rewrite <- El; clear El] end.
    rewrite (map_map (fun s => map _ s)).
    apply mapM_comp. intros s Hs. apply sync_table; auto.
    + apply longest_size_ge; auto.
    + split; [apply max_ref_ge; auto|apply max_ref_le].
    + rewrite map_length. apply Hr. auto.
    + intros k Hk. destruct (Hr s Hs) as [L N].
      rewrite (nth_indep _ [] (resampled (ref_size ref s) [])) by (rewrite map_length; lia). rewrite map_nth. split; [unfold resampled; rewrite map_length, seq_length; auto|].
      apply interp_resampled; [|apply N, nth_In; lia]. unfold ref_size. assert (NR : nth ref s [] <> []) by (apply N, nth_In; lia). destruct (nth ref s []); [congruence|simpl; lia].
  - clear Hne HF. induction ss as [|s ss IH]; constructor; [|apply IH; intros; apply Hr; right; auto]. destruct (Hr s (or_introl eq_refl)) as [L N].
    split; [rewrite map_length; auto|]. intros k Hk. rewrite (nth_indep _ [] (resampled (ref_size ref s) [])) by (rewrite map_length; lia). rewrite map_nth.
    split; [unfold resampled; rewrite map_length, seq_length; auto|apply interpolates_resampled].
Qed.
Print Assumptions C144_interpolated.
(** The reference feature, and every feature as long as it, is unchanged; the others keep their first and last values
    and stay between two of them. *)
Theorem C144_kept ni ref d X ss : (ref < d)%nat -> ss <> [] -> (forall s, In s ss -> recorded d s) -> Forall2 (handed_over d) ss X ->
  exists out, synchronize ni ref d None X = Ok (map (fun o => table XNaN d (max_ref ref ss) (reals_or_nan o)) out) /\
    Forall2 (fun s o => length o = d /\ nth ref o [] = nth ref s [] /\ forall k, (k < d)%nat ->
      length (nth k o []) = ref_size ref s /\
      (length (nth k s []) = ref_size ref s -> nth k o [] = nth k s []) /\
      nth 0 (nth k o []) 0 = nth 0 (nth k s []) 0 /\
      ((2 <= ref_size ref s)%nat -> last (nth k o []) 0 = last (nth k s []) 0) /\
      forall y lo hi, In y (nth k o []) -> (forall x, In x (nth k s []) -> lo <= x <= hi) -> lo <= y <= hi) ss out.
Proof.
  intros Hd Hne Hr HF. destruct (C144_interpolated ni ref d X ss Hd Hne Hr HF) as (out & E & F). exists out. split; [exact E|]. clear E HF Hne.
  induction F as [|s o ss out [Lo H] F IH]; constructor; [|apply IH; intros; apply Hr; right; auto]. destruct (Hr s (or_introl eq_refl)) as [Ls N].
  assert (NE : forall k, (k < d)%nat -> nth k s [] <> []) by (intros k Hk; apply N, nth_In; lia).
  assert (P : (1 <= ref_size ref s)%nat). { unfold ref_size. specialize (NE ref Hd). destruct (nth ref s []); [congruence|simpl; lia]. }
  assert (SAME : forall k, (k < d)%nat -> length (nth k s []) = ref_size ref s -> nth k o [] = nth k s []).
  { intros k Hk Hl. destruct (H k Hk) as [L I]. destruct (Nat.eq_dec (ref_size ref s) 1) as [E1|E1]; [|apply (interp_same (ref_size ref s)); auto; lia].
    rewrite E1 in *. specialize (I 0%nat ltac:(lia)). destruct (nth k o []) as [|y [|]]; try discriminate. destruct (nth k s []) as [|z [|]]; try discriminate.
    simpl in I. f_equal. rewrite I. unfold Rdiv. ring. }
  assert (EQ : forall c : list R, c <> [] -> last c 0 = nth (length c - 1) c 0).
  { intros c Hc. destruct (exists_last Hc) as (c' & z & ->). rewrite last_last, app_length, app_nth2 by (simpl; lia). simpl. replace (length c' + 1 - 1 - length c')%nat with 0%nat by lia. auto. }
  split; [auto|split; [apply SAME; auto|]]. intros k Hk. destruct (H k Hk) as [L I]. assert (NO : nth k o [] <> []) by (intros K; rewrite K in L; simpl in L; lia).
  split; [auto|]. split; [auto|]. destruct (Nat.eq_dec (ref_size ref s) 1) as [E1|E1].
  - rewrite E1 in *. specialize (I 0%nat ltac:(lia)). destruct (nth k o []) as [|y [|]]; try discriminate. specialize (NE k Hk). destruct (nth k s []) as [|z c]; [congruence|].
    simpl in I. assert (Ey : y = z). { rewrite I. unfold Rdiv. ring. } clear I. subst y. split; [auto|split; [lia|]]. intros y lo hi [<-|[]] B. apply B. left. auto.
  - destruct (interp_endpoints (ref_size ref s) (nth k s []) (nth k o [])) as [A B]; auto; [lia|]. split; [auto|split].
    + intros _. rewrite !EQ by auto. rewrite L. exact B.
    + intros y lo hi Hy Hx. destruct (In_nth _ _ 0 Hy) as (t & Ht & <-). rewrite L in Ht.
      pose proof (interp_range (ref_size ref s) (nth k s []) (nth k o []) t ltac:(lia) (NE k Hk) I Ht) as Q.
      pose proof (Hx _ (rmin_in _ (NE k Hk))). pose proof (Hx _ (rmax_in _ (NE k Hk))). lra.
Qed.
Print Assumptions C144_kept.

Definition C144_data : list (list (list R)) := [[[1; 2; 4]; [0; 3]]; [[5]; [6; 7; 8]]].
Example C144_instance : (0 < 2)%nat /\ C144_data <> [] /\ (forall s, In s C144_data -> recorded 2 s) /\
  Forall2 (handed_over 2) C144_data [[[XR 1; XR 0]; [XR 2; XR 3]; [XR 4; XNaN]]; [[XR 5; XR 6]; [XNaN; XR 7]; [XNaN; XR 8]; [XNaN; XNaN]]] /\ max_ref 0 C144_data = 3%nat.
Proof.
  split; [lia|]. split; [discriminate|]. split.
  - intros s [<-|[<-|[]]]; (split; [reflexivity|]); intros c [<-|[<-|[]]]; discriminate.
  - split; [|reflexivity]. constructor; [|constructor; [|constructor]]; [exists 3%nat|exists 4%nat]; (split; [cbv; lia|reflexivity]).
Qed.
(** a reference feature that does not exist *)
Theorem C147_reference ni ref d X ss : (0 < d)%nat -> ss <> [] -> (forall s, In s ss -> observed d s) -> Forall2 (handed_over d) ss X -> (d <= ref)%nat ->
  synchronize ni ref d None X = Err IndexError.
Proof.
  intros Hd Hne Ho HF Href. unfold synchronize. rewrite (handed_raw d X ss) by auto. cbn [bind]. destruct (dims d ss Hd Hne Ho) as (D1 & D2 & D3).
  unfold check_features. rewrite D1, Nat.eqb_refl. cbn [bind]. rewrite D1. destruct (Nat.leb_spec d ref); [auto|lia].
Qed.
Print Assumptions C147_reference.
(** another number of features than in [fit] *)
Theorem C147_features ni ref d d' stamps X ss : (0 < d)%nat -> ss <> [] -> (forall s, In s ss -> observed d s) -> Forall2 (handed_over d) ss X -> d' <> d ->
  synchronize ni ref d' stamps X = Err ValueError.
Proof.
  intros Hd Hne Ho HF Hd'. unfold synchronize. rewrite (handed_raw d X ss) by auto. cbn [bind]. destruct (dims d ss Hd Hne Ho) as (D1 & D2 & D3).
  unfold check_features. rewrite D1. destruct (Nat.eqb_spec d d'); [congruence|]. reflexivity.
Qed.
Print Assumptions C147_features.
(** a feature without any value *)
Lemma mapM_err {A B} (f : A -> res B) e l : (forall a, In a l -> (exists b, f a = Ok b) \/ f a = Err e) -> (exists a, In a l /\ f a = Err e) -> mapM f l = Err e.
Proof.
  induction l as [|a l IH]; intros H (x & Hx & E); [contradiction|]. cbn [mapM]. destruct (H a (or_introl eq_refl)) as [[b Eb]|Ea]; [|rewrite Ea; reflexivity].
  rewrite Eb. cbn [bind]. rewrite IH; [reflexivity|intros; apply H; right; auto|]. destruct Hx as [->|Hx]; [congruence|]. eauto.
Qed.
Lemma mapM_ok {A B} (f : A -> res B) l : (forall a, In a l -> exists b, f a = Ok b) -> exists r, mapM f l = Ok r.
Proof.
  induction l as [|a l IH]; intros H; [eexists; reflexivity|]. destruct (H a (or_introl eq_refl)) as [b E]. destruct IH as [r Er]; [intros; apply H; right; auto|].
  cbn [mapM]. rewrite E. cbn [bind]. rewrite Er. eexists. reflexivity.
Qed.
Lemma col_size_nan n : col_size (repeat XNaN n) = 0%nat.
Proof.
  unfold col_size. assert (E : map (fun x : xr => [x]) (repeat XNaN n) = [] ++ repeat [XNaN] n) by (induction n as [|n IH]; simpl; [auto|]; rewrite IH; auto).
  rewrite E. etransitivity; [apply (ts_size_pad Xnum); intros r Hr; apply repeat_spec in Hr; subst r; reflexivity|reflexivity].
Qed.
Theorem C147_no_value ni ref d X ss : (ref < d)%nat -> ss <> [] -> (forall s, In s ss -> observed d s) -> Forall2 (handed_over d) ss X ->
  (exists s k, In s ss /\ (k < d)%nat /\ nth k s [] = []) -> synchronize ni ref d None X = Err ValueError.
Proof.
  intros Hd Hne Ho HF (s0 & k0 & Hs0 & Hk0 & E0). unfold synchronize. rewrite (handed_raw d X ss) by (auto; lia). cbn [bind]. destruct (dims d ss ltac:(lia) Hne Ho) as (D1 & D2 & D3).
  unfold check_features. rewrite D1, Nat.eqb_refl. cbn [bind]. rewrite D1. destruct (Nat.leb_spec d ref); [lia|].
  match goal with |- match ?l with [] => _ | _ => _ end = _ => destruct l as [|x0 X0] eqn:El; [destruct ss; [congruence|discriminate]|rewrite <- El; clear El] end.
  set (mr := fold_left _ _ _). clearbody mr.
  assert (IN : forall x xp fp, (exists v, interp x xp fp = Ok v) \/ interp x xp fp = Err ValueError) by (intros x [|a xp] fp; [right; reflexivity|left; eexists; reflexivity]).
  assert (ONE : forall ts, (exists b, sync_series ni ref mr d None ts = Ok b) \/ sync_series ni ref mr d None ts = Err ValueError).
  { intros ts. unfold sync_series.
    match goal with |- context [mapM ?f (seq 0 d)] => set (F := f) end.
    assert (FO : forall k, (exists b, F k = Ok b) \/ F k = Err ValueError).
    { intros k. unfold F. match goal with |- context [interp ?a ?b ?c] => destruct (IN a b c) as [[v ->]| ->] end; [left; eexists; reflexivity|right; reflexivity]. }
    clearbody F. assert (M : (exists r, mapM F (seq 0 d) = Ok r) \/ mapM F (seq 0 d) = Err ValueError).
    { generalize (seq 0 d). induction l as [|k l IH]; [left; eexists; reflexivity|]. cbn [mapM]. destruct (FO k) as [[b ->]| ->]; [|right; reflexivity]. cbn [bind]. destruct IH as [[r ->]| ->]; [left; eexists; reflexivity|right; reflexivity]. }
    destruct M as [[r ->]| ->]; [left; eexists; reflexivity|right; reflexivity]. }
  apply mapM_err; [intros; apply ONE|].
  exists (table XNaN d (longest_size ss) (reals_or_nan s0)). split; [apply in_map_iff; eauto|]. unfold sync_series.
  match goal with |- context [mapM ?f (seq 0 d)] => set (F := f) end.
  assert (EM : mapM F (seq 0 d) = Err ValueError); [|rewrite EM; reflexivity]. apply mapM_err.
  - intros k _. unfold F. match goal with |- context [interp ?a ?b ?c] => destruct (IN a b c) as [[v ->]| ->] end; [left; eexists; reflexivity|right; reflexivity].
  - exists k0. split; [apply in_seq; lia|]. unfold F. rewrite (column_table d _ s0 k0) by (auto; apply longest_size_ge; auto). rewrite E0. cbn [map app length].
    rewrite Nat.sub_0_r, col_size_nan. reflexivity.
Qed.
Print Assumptions C147_no_value.
Example C147_instance : (0 < 2)%nat /\ (forall s, In s [[[1]; []]] -> @observed R 2 s) /\ Forall2 (handed_over 2) [[[1]; []]] [[[XR 1; XNaN]]] /\
  (exists s k, In s [[[1]; @nil R]] /\ (k < 2)%nat /\ nth k s [] = []).
Proof.
  split; [lia|]. split; [intros s [<-|[]]; split; [reflexivity|cbv; lia]|]. split; [constructor; [|constructor]; exists 1%nat; split; [cbv; lia|reflexivity]|].
  exists [[1]; []], 1%nat. split; [left; auto|split; [lia|reflexivity]].
Qed.

(** ** with timestamps *)
Lemma increasing_lt tau : increasing tau -> forall i j, (i < j < length tau)%nat -> (nth i tau 0 < nth j tau 0)%Z.
Proof.
  intros H i j Hij. replace j with (S (i + (j - i - 1)))%nat in * by lia. set (n := (j - i - 1)%nat) in *. clearbody n. clear j. destruct Hij as [_ Hn].
  induction n as [|n IH].
  - rewrite Nat.add_0_r in *. apply H. auto.
  - eapply Z.lt_trans; [apply IH; lia|]. replace (i + S n)%nat with (S (i + n)) by lia. apply H. lia.
Qed.
Lemma increasing_le tau i j : increasing tau -> (i <= j < length tau)%nat -> (nth i tau 0 <= nth j tau 0)%Z.
Proof. intros H Hij. destruct (Nat.eq_dec i j) as [->|]; [lia|]. apply Z.lt_le_incl, increasing_lt; auto; lia. Qed.
Lemma increasing_tl a tau : increasing (a :: tau) -> increasing tau.
Proof. intros H j Hj. apply (H (S j)). simpl. lia. Qed.
Lemma count_stamps tau x : increasing tau -> exists c, count_le (IZR x) (map IZR tau) = c /\ (c <= length tau)%nat /\
  (forall i, (i < c)%nat -> (nth i tau 0 <= x)%Z) /\ (forall i, (c <= i < length tau)%nat -> (x < nth i tau 0)%Z).
Proof.
  induction tau as [|a tau IH]; intros H.
  - exists 0%nat. split; [reflexivity|]. simpl. repeat split; intros; lia.
  - destruct (IH (increasing_tl _ _ H)) as (c & Ec & Lc & C1 & C2). unfold count_le in *. cbn [map filter]. destruct (Rleb (IZR a) (IZR x)) eqn:E.
    + apply Rleb_true in E. apply le_IZR in E. exists (S c). cbn [length]. rewrite Ec. split; [auto|]. split; [lia|]. split.
      * intros [|i] Hi; simpl; [auto|apply C1; lia].
      * intros [|i] Hi; simpl; [lia|apply C2; lia].
    + apply Rleb_false in E. apply lt_IZR in E. exists 0%nat. assert (A : forall i, (i < length (a :: tau))%nat -> (x < nth i (a :: tau) 0)%Z).
      { intros i Hi. pose proof (increasing_le (a :: tau) 0 i H ltac:(lia)). simpl (nth 0 _ _) in H0. lia. }
      split; [|split; [lia|split; [intros; lia|intros; apply A; lia]]].
      destruct c as [|c]; [exact Ec|]. exfalso. specialize (C1 0%nat ltac:(lia)). specialize (A 1%nat). simpl in A. specialize (A ltac:(simpl in Lc; lia)). lia.
Qed.
Lemma nth_IZR tau i : nth i (map IZR tau) 0 = IZR (nth i tau 0%Z).
Proof. change 0 with (IZR 0). apply map_nth. Qed.
Lemma interp1_stamps tau v x : tau <> [] -> increasing tau -> length v = length tau ->
  exists y, interp1 (map IZR tau) (map XR v) (IZR x) = XR y /\ at_time tau v x y.
Proof.
  intros Hne Hi Hl. destruct (count_stamps tau x Hi) as (c & Ec & Lc & C1 & C2). unfold interp1. rewrite map_length, Ec.
  assert (Ln : (0 < length tau)%nat) by (destruct tau; [congruence|simpl; lia]).
  destruct (Nat.eqb_spec c 0) as [E0|E0].
  { exists (nth 0 v 0). split; [apply nth_XR; lia|]. assert (X0 : (x < nth 0 tau 0)%Z) by (apply C2; lia). split; [auto|split].
    - intros K. pose proof (increasing_le tau 0 (length tau - 1) Hi ltac:(lia)). lia.
    - intros j Hj [K _]. pose proof (increasing_le tau 0 j Hi ltac:(lia)). lia. }
  destruct (Nat.eqb_spec c (length tau)) as [En|En].
  { exists (nth (length tau - 1) v 0). split; [apply nth_XR; lia|]. assert (Xn : (nth (length tau - 1) tau 0 <= x)%Z) by (apply C1; lia). unfold at_time. rewrite Hl. split; [|split; [auto|]].
    - intros K. destruct (Nat.eq_dec (length tau) 1) as [E1|E1]; [rewrite E1; auto|]. pose proof (increasing_lt tau Hi 0 (length tau - 1) ltac:(lia)). lia.
    - intros j Hj [K1 K2]. destruct (Nat.eq_dec (S j) (length tau - 1)) as [E1|E1]; [|pose proof (increasing_lt tau Hi (S j) (length tau - 1) ltac:(lia)); lia].
      pose proof (Hi j Hj) as D. rewrite <- E1 in *. replace x with (nth (S j) tau 0%Z) by lia.
      assert (IZR (nth (S j) tau 0%Z - nth j tau 0%Z) <> 0) by (apply not_0_IZR; lia). field. auto. }
  set (j0 := (c - 1)%nat). assert (A1 : (nth j0 tau 0 <= x)%Z) by (apply C1; unfold j0; lia). assert (A2 : (x < nth (j0 + 1) tau 0)%Z) by (apply C2; unfold j0; lia).
  assert (J0 : (j0 + 1 < length tau)%nat) by (unfold j0; lia). clearbody j0. rewrite !nth_IZR, !nth_XR by lia.
  set (y := nth j0 v 0 + (nth (S j0) v 0 - nth j0 v 0) * (IZR (x - nth j0 tau 0%Z) / IZR (nth (S j0) tau 0%Z - nth j0 tau 0%Z))).
  replace (j0 + 1)%nat with (S j0) in * by lia.
  exists y. split.
  - destruct (Reqb_spec (IZR (nth j0 tau 0%Z)) (IZR x)) as [E|E].
    + f_equal. unfold y. apply eq_IZR in E. rewrite E, Z.sub_diag. unfold Rdiv. ring.
    + assert (N : IZR (nth (S j0) tau 0%Z) - IZR (nth j0 tau 0%Z) <> 0) by (rewrite <- minus_IZR; apply not_0_IZR; lia).
      unfold xsub. cbn [xadd xopp]. rewrite xdiv_real by auto. cbn [xmul xadd xisnan]. f_equal. unfold y. rewrite !minus_IZR. field. auto.
  - split; [|split].
    + intros K. destruct (Nat.eq_dec j0 0) as [->|Nj]; [|pose proof (increasing_lt tau Hi 0 j0 ltac:(lia)); lia]. unfold y. replace x with (nth 0 tau 0%Z) by lia. rewrite Z.sub_diag. unfold Rdiv. ring.
    + intros K. pose proof (increasing_le tau (S j0) (length tau - 1) Hi ltac:(lia)). lia.
    + intros j Hj [K1 K2]. destruct (Nat.eq_dec j j0) as [->|Nj]; [reflexivity|].
      destruct (Nat.lt_ge_cases j j0) as [L|L]; [|pose proof (increasing_le tau (S j0) j Hi ltac:(lia)); lia].
      destruct (Nat.eq_dec (S j) j0) as [Ej|Ej]; [|pose proof (increasing_lt tau Hi (S j) j0 ltac:(lia)); lia]. subst j0. unfold y.
      assert (Ex : x = nth (S j) tau 0%Z) by lia. rewrite Ex at 1. rewrite Z.sub_diag. pose proof (Hi j Hj).
      assert (IZR (nth (S j) tau 0%Z - nth j tau 0%Z) <> 0) by (apply not_0_IZR; lia). rewrite Ex. unfold Rdiv. rewrite Rmult_0_l. field. auto.
Qed.
Lemma known_some tau : known (map Some tau) = Some (map IZR tau).
Proof. induction tau as [|a tau IH]; [auto|]. unfold known in *. cbn [map fold_right]. rewrite IH. reflexivity. Qed.
Lemma stamp_column d m (tau : list (list Z)) k n : (k < d)%nat -> n = length (nth k tau []) -> (n <= m)%nat ->
  map (fun r => nth k r None) (firstn n (table None d m (map (map Some) tau))) = map Some (nth k tau []).
Proof.
  intros Hk -> Hm. unfold table. rewrite firstn_map. replace (firstn _ (seq 0 m)) with (seq 0 (length (nth k tau []))).
  2:{ replace m with (length (nth k tau []) + (m - length (nth k tau [])))%nat by lia. rewrite seq_app, firstn_app, seq_length, Nat.sub_diag. simpl firstn at 2. rewrite app_nil_r. symmetry. apply firstn_all2. rewrite seq_length. auto. }
  rewrite map_map. apply (nth_ext _ _ None None); [rewrite !map_length, seq_length; auto|]. intros t Ht. rewrite map_length, seq_length in Ht.
  rewrite map_seq_nth by auto. rewrite map_seq_nth by auto. f_equal. change (@nil (option Z)) with (map (@Some Z) []). apply map_nth.
Qed.
Lemma interp_stamps_real ni (x tau : list Z) v : tau <> [] -> increasing tau -> length v = length tau ->
  exists os, length os = length x /\ interp_stamps ni (map Some x) (map Some tau) (map XR v) = Ok (map XR os) /\
    forall t, (t < length x)%nat -> at_time tau v (nth t x 0%Z) (nth t os 0).
Proof.
  intros Hne Hi Hl. unfold interp_stamps. destruct (map Some tau) as [|a l] eqn:E; [destruct tau; [congruence|discriminate]|]. rewrite <- E. clear E a l. rewrite known_some.
  induction x as [|a x IH]; [exists []; split; [auto|split; [reflexivity|simpl; intros; lia]]|]. destruct IH as (os & L & Eo & At). destruct (interp1_stamps tau v a Hne Hi Hl) as (y & Ey & Ay).
  exists (y :: os). split; [simpl; auto|split].
  - cbn [map]. rewrite Ey. injection Eo as Eo. do 2 f_equal. exact Eo.
  - intros [|t] Ht; simpl; [auto|apply At; simpl in Ht; lia].
Qed.
(** the check of the order *)
Lemma in_steps {A} (s : list A) x p : In p (combine s (tl s)) <-> exists t, (S t < length s)%nat /\ p = (nth t s x, nth (S t) s x).
Proof.
  induction s as [|a s IH]; [split; [contradiction|intros (t & Ht & _); simpl in Ht; lia]|]. cbn [tl]. destruct s as [|b s].
  - split; [contradiction|intros (t & Ht & _); simpl in Ht; lia].
  - cbn [combine]. split.
    + intros [<-|H]; [exists 0%nat; split; [simpl; lia|reflexivity]|]. apply IH in H. destruct H as (t & Ht & ->). exists (S t). split; [simpl in *; lia|reflexivity].
    + intros ([|t] & Ht & ->); [left; reflexivity|right]. apply IH. exists t. split; [simpl in *; lia|reflexivity].
Qed.
Lemma in_diffs a d o : (forall s r, In s a -> In r s -> length r = d) -> In o (diffs a) <->
  exists s t k, In s a /\ (S t < length s)%nat /\ (k < d)%nat /\
    o = match nth k (nth t s []) None, nth k (nth (S t) s []) None with Some x, Some y => Some (y - x)%Z | _, _ => None end.
Proof.
  intros Hd. unfold diffs. rewrite in_flat_map. split.
  - intros (s & Hs & H). apply in_flat_map in H. destruct H as (p & Hp & H). apply (in_steps s []) in Hp. destruct Hp as (t & Ht & ->). cbn [fst snd] in H.
    apply in_map_iff in H. destruct H as ([x y] & <- & Hq). destruct (In_nth _ _ (None, None) Hq) as (k & Hk & Ek). rewrite combine_length in Hk.
    pose proof (Hd s _ Hs (nth_In s [] (n:=t) ltac:(lia))) as D1. pose proof (Hd s _ Hs (nth_In s [] (n:=S t) ltac:(lia))) as D2.
    rewrite combine_nth in Ek by exact (eq_trans D1 (eq_sym D2)). injection Ek as <- <-. exists s, t, k. split; [auto|split; [auto|split; [|reflexivity]]].
    apply Nat.min_glb_lt_iff in Hk. exact (eq_ind _ (fun n => (k < n)%nat) (proj1 Hk) _ D1).
  - intros (s & t & k & Hs & Ht & Hk & ->). exists s. split; auto. apply in_flat_map. exists (nth t s [], nth (S t) s []). split; [apply (proj2 (in_steps s [] _)); exists t; split; [exact Ht|reflexivity]|]. cbn [fst snd].
    apply in_map_iff. pose proof (Hd s _ Hs (nth_In s [] (n:=t) ltac:(lia))) as D1. pose proof (Hd s _ Hs (nth_In s [] (n:=S t) ltac:(lia))) as D2.
    exists (nth k (nth t s []) None, nth k (nth (S t) s []) None). split; [reflexivity|]. rewrite <- combine_nth by exact (eq_trans D1 (eq_sym D2)). apply nth_In. rewrite combine_length.
    apply Nat.min_glb_lt; [exact (eq_ind_r (fun n => (k < n)%nat) Hk D1)|exact (eq_ind_r (fun n => (k < n)%nat) Hk D2)].
Qed.
Lemma in_valid ds z : In z (flat_map (fun o => match o with Some z => [z] | None => [] end) ds) <-> In (@Some Z z) ds.
Proof.
  rewrite in_flat_map. split; [|intros H; exists (Some z); split; [auto|left; auto]]. intros ([w|] & H & K); [destruct K as [->|[]]; auto|contradiction].
Qed.
Lemma all_positive_spec ds : masked_all_positive ds = true <-> ds = [] \/ ((exists z, In (Some z) ds) /\ forall z, In (Some z) ds -> (0 < z)%Z).
Proof.
  unfold masked_all_positive. destruct ds as [|o ds]; [split; auto|]. set (l := o :: ds). pose proof (in_valid l) as IV. destruct (flat_map _ l) as [|w v] eqn:E.
  - split; [discriminate|]. intros [K|[(z & Hz) _]]; [discriminate|]. apply IV in Hz. contradiction.
  - rewrite forallb_forall. split.
    + intros H. right. split; [exists w; apply IV; left; auto|]. intros z Hz. apply Z.ltb_lt, H, IV. auto.
    + intros [K|[_ H]] z Hz; [discriminate|]. apply Z.ltb_lt, H, IV. auto.
Qed.
Lemma table_stamp d m (tau : list (list Z)) t k : (t < m)%nat -> (k < d)%nat ->
  nth k (nth t (table None d m (map (map Some) tau)) []) None = if (t <? length (nth k tau []))%nat then Some (nth t (nth k tau []) 0%Z) else None.
Proof.
  intros Ht Hk. unfold table. rewrite map_seq_nth by auto. rewrite map_seq_nth by auto.
  assert (E : nth k (map (map Some) tau) [] = map (@Some Z) (nth k tau [])) by (change (@nil (option Z)) with (map (@Some Z) []); apply map_nth).
  transitivity (nth t (map (@Some Z) (nth k tau [])) None); [exact (f_equal (fun l => nth t l None) E)|].
  destruct (Nat.ltb_spec t (length (nth k tau []))); [|apply nth_overflow; rewrite map_length; auto].
  rewrite (nth_indep _ None (Some 0%Z)) by (rewrite map_length; auto). apply map_nth.
Qed.
Lemma floats_table d m (tau : list (list Z)) : map (map stamp_float) (table None d m (map (map Some) tau)) = table XNaN d m (reals_or_nan (map (map IZR) tau)).
Proof.
  unfold table. rewrite map_map. apply map_ext. intros t. rewrite map_map. apply map_ext. intros k. rewrite feature_reals.
  replace (nth k (map (map Some) tau) []) with (map (@Some Z) (nth k tau [])) by (symmetry; change (@nil (option Z)) with (map (@Some Z) []); apply map_nth).
  replace (nth k (map (map IZR) tau) []) with (map IZR (nth k tau [])) by (symmetry; change (@nil R) with (map IZR []); apply map_nth).
  rewrite map_map. generalize (nth k tau []). intros c. revert t. induction c as [|z c IH]; intros [|t]; simpl; auto.
Qed.
(** The timestamps of a dataset, feature by feature: as many as values, increasing.  In the array, which has [m] rows for
    every series, NaT follows the timestamps of a feature. *)
Definition stamps_of (d : nat) (s : list (list R)) (tau : list (list Z)) : Prop :=
  length tau = d /\ forall k, (k < d)%nat -> length (nth k tau []) = length (nth k s []) /\ increasing (nth k tau []).
Definition stamp_array (d m : nat) (TT : list (list (list Z))) : list (list (list stamp)) := map (fun tau => table None d m (map (map Some) tau)) TT.
Lemma stamps_longest d s tau : length s = d -> stamps_of d s tau -> longest_feature tau = longest_feature s.
Proof.
  intros Ls [Lt H]. unfold longest_feature. f_equal. apply (nth_ext _ _ 0%nat 0%nat); [rewrite !map_length; lia|]. intros k Hk. rewrite map_length in Hk.
  change 0%nat with (length (@nil Z)) at 1. change 0%nat with (length (@nil R)). rewrite !map_nth. apply H. lia.
Qed.
Lemma stamp_shapes d m ss TT : (0 < d)%nat -> ss <> [] -> (forall s, In s ss -> observed d s) -> Forall2 (stamps_of d) ss TT -> (longest_size ss <= m)%nat ->
  exists T, variable_length (map (map (map stamp_float)) (stamp_array d m TT)) = Ok T /\
    same_shape T (map (fun s => table XNaN d (longest_size ss) (reals_or_nan s)) ss) = true.
Proof.
  intros Hd Hne Ho HF Hm.
  assert (LL : map longest_feature TT = map longest_feature ss /\ forall tau, In tau TT -> observed d tau).
  { clear Hne Hm. induction HF as [|s tau ss TT H HF IH]; [split; [auto|intros ? []]|]. destruct (IH ltac:(intros; apply Ho; right; auto)) as [A B].
    assert (Os := Ho s (or_introl eq_refl)). assert (E : longest_feature tau = longest_feature s) by (apply (stamps_longest d); auto; apply Os). split.
    - cbn [map]. rewrite E, A. auto.
    - intros t [<-|Ht]; [|auto]. split; [apply H|]. rewrite E. apply Os. }
  destruct LL as [L1 L2]. set (TR := map (map (map IZR)) TT).
  assert (O' : forall s, In s TR -> observed d s).
  { intros s Hs. apply in_map_iff in Hs. destruct Hs as (tau & <- & Ht). destruct (L2 tau Ht) as [A B]. split; [rewrite map_length; auto|]. rewrite longest_map. auto. }
  assert (LE : longest_size TR = longest_size ss).
  { unfold longest_size. rewrite <- L1. unfold TR. rewrite map_map. f_equal. apply map_ext. intros tau. apply longest_map. }
  assert (NE : TR <> []) by (intros K; destruct HF; [congruence|discriminate]).
  assert (LN : length TR = length ss) by (unfold TR; rewrite map_length; clear -HF; induction HF; simpl; auto).
  eexists. split.
  - rewrite (handed_raw d _ TR Hd O'); [reflexivity|].
    assert (HM : forall tau, In tau TT -> (longest_feature tau <= m)%nat).
    { intros tau Ht. pose proof (longest_size_ge TT tau Ht). unfold longest_size in *. rewrite L1 in H. lia. }
    unfold TR, stamp_array. clear -HM. induction TT as [|tau TT IH]; cbn [map]; constructor.
    + exists m. split; [rewrite longest_map; apply HM; left; auto|apply floats_table].
    + apply IH. intros; apply HM; right; auto.
  - destruct (dims d ss Hd Hne Ho) as (A1 & A2 & _). destruct (dims d TR Hd NE O') as (B1 & B2 & _). unfold same_shape. rewrite !map_length, LN, A1, A2, B1, B2, LE, !Nat.eqb_refl. reflexivity.
Qed.
Lemma combine_map2 {A B C D} (f : A -> C) (g : B -> D) l l' : combine (map f l) (map g l') = map (fun p => (f (fst p), g (snd p))) (combine l l').
Proof. revert l'. induction l as [|a l IH]; intros [|b l']; simpl; auto. rewrite IH. auto. Qed.
Lemma choose_list {A} (P : nat -> A -> Prop) n x : (forall k, (k < n)%nat -> exists a, P k a) -> exists l, length l = n /\ forall k, (k < n)%nat -> P k (nth k l x).
Proof.
  induction n as [|n IH]; intros H; [exists []; split; [auto|intros; lia]|]. destruct IH as (l & L & Hl); [intros; apply H; lia|]. destruct (H n ltac:(lia)) as [a Ha].
  exists (l ++ [a]). split; [rewrite app_length; simpl; lia|]. intros k Hk. destruct (Nat.eq_dec k n) as [->|Nk]; [rewrite app_nth2, L, Nat.sub_diag by lia; auto|rewrite app_nth1 by lia; apply Hl; lia].
Qed.
(** two time steps of one feature are there to be compared *)
Definition comparable (ss : list (list (list R))) (m : nat) : Prop := (m <= 1)%nat \/ exists s c, In s ss /\ In c s /\ (2 <= length c)%nat.
Lemma order_ok d m ss TT : (0 < d)%nat -> ss <> [] -> (forall s, In s ss -> recorded d s) -> Forall2 (stamps_of d) ss TT -> (longest_size ss <= m)%nat -> comparable ss m ->
  masked_all_positive (diffs (stamp_array d m TT)) = true.
Proof.
  intros Hd Hne Hr HF Hm HC. apply all_positive_spec.
  assert (RL : forall s r, In s (stamp_array d m TT) -> In r s -> length r = d) by (intros s r Hs Hr'; apply in_map_iff in Hs; destruct Hs as (tau & <- & _); eapply table_row; eauto).
  assert (SZ : forall s, In s (stamp_array d m TT) -> length s = m) by (intros s Hs; apply in_map_iff in Hs; destruct Hs as (tau & <- & _); apply table_len).
  destruct HC as [Hm1|(s & c & Hs & Hc & Lc)].
  - left. destruct (diffs (stamp_array d m TT)) as [|o l] eqn:E; [auto|exfalso]. pose proof (proj1 (in_diffs (stamp_array d m TT) d o RL)) as H. rewrite E in H.
    destruct (H (or_introl eq_refl)) as (s & t & k & Hs & Ht & _). rewrite SZ in Ht by auto. lia.
  - right. split.
    + assert (G : exists tau, In tau TT /\ stamps_of d s tau).
      { clear -HF Hs. induction HF as [|s' tau ss TT H HF IH]; [contradiction|]. destruct Hs as [->|Hs]; [exists tau; split; [left; auto|auto]|]. destruct (IH Hs) as (u & A & B). exists u. split; [right; auto|auto]. }
      destruct G as (tau & Ht & [Lt H]). destruct (In_nth _ _ [] Hc) as (k & Hk & Ek). destruct (Hr s Hs) as [Ls _].
      pose proof (feature_le s k) as Fk. pose proof (longest_size_ge ss s Hs) as Gs. rewrite Ek in Fk. destruct (H k ltac:(lia)) as [Lk _]. rewrite Ek in Lk.
      eexists. apply (in_diffs _ d); auto. exists (table None d m (map (map Some) tau)), 0%nat, k.
      split; [apply in_map_iff; eauto|]. split; [rewrite table_len; lia|]. split; [lia|]. rewrite !table_stamp by lia. rewrite Lk.
      destruct (Nat.ltb_spec 0 (length c)); [|lia]. destruct (Nat.ltb_spec 1 (length c)); [|lia]. reflexivity.
    + intros z Hz. apply (in_diffs _ d) in Hz; auto. destruct Hz as (s' & t & k & Hs' & Ht & Hk & Ez). rewrite SZ in Ht by auto. apply in_map_iff in Hs'. destruct Hs' as (tau & <- & Htau).
      rewrite !table_stamp in Ez by lia. destruct (Nat.ltb_spec t (length (nth k tau []))); [|discriminate]. destruct (Nat.ltb_spec (S t) (length (nth k tau []))); [|discriminate].
      injection Ez as ->.
      assert (G : increasing (nth k tau [])). { clear -HF Htau Hk. induction HF as [|s' u ss TT [_ H] HF IH]; [contradiction|]. destruct Htau as [->|Htau]; [apply H; auto|auto]. }
      specialize (G t ltac:(auto)). lia.
Qed.
Lemma stamp_front {A} d m ss TT (k : array3 -> res A) ts X : (0 < d)%nat -> ss <> [] -> (forall s, In s ss -> recorded d s) -> Forall2 (handed_over d) ss X -> Forall2 (stamps_of d) ss TT ->
  (longest_size ss <= m)%nat -> comparable ss m -> content ts = stamp_array d m TT ->
  (do X <- variable_length X ;; do X <- check_features d X ;;
   do _ <- (do T <- variable_length (map (map (map stamp_float)) (content ts)) ;;
            if negb (same_shape T X) then Err ValueError else if negb (masked_all_positive (diffs (content ts))) then Err ValueError else Ok tt) ;; k X) =
  k (map (fun s => table XNaN d (longest_size ss) (reals_or_nan s)) ss).
Proof.
  intros Hd Hne Hr HX HF Hm HC ->. assert (Ho : forall s, In s ss -> observed d s) by (intros s Hs; apply recorded_observed; auto).
  rewrite (handed_raw d X ss) by auto. cbn [bind]. destruct (dims d ss Hd Hne Ho) as (D1 & _). unfold check_features. rewrite D1, Nat.eqb_refl. cbn [bind].
  destruct (stamp_shapes d m ss TT Hd Hne Ho HF Hm) as (T & -> & SS). cbn [bind]. rewrite SS. cbn [negb]. rewrite (order_ok d m ss TT) by auto. reflexivity.
Qed.
(** With timestamps, each feature takes, at the timestamps of the reference feature of its series, the values of the
    piecewise linear curve through its own points. *)
Theorem C145_interpolated ni ref d m X ss TT : (ref < d)%nat -> ss <> [] -> (forall s, In s ss -> recorded d s) -> Forall2 (handed_over d) ss X ->
  Forall2 (stamps_of d) ss TT -> (longest_size ss <= m)%nat -> comparable ss m ->
  exists out, synchronize ni ref d (Some (StampArray (stamp_array d m TT))) X = Ok (map (fun o => table XNaN d (max_ref ref ss) (reals_or_nan o)) out) /\
    Forall2 (fun p o => length o = d /\ forall k, (k < d)%nat -> length (nth k o []) = ref_size ref (fst p) /\
      forall t, (t < ref_size ref (fst p))%nat -> at_time (nth k (snd p) []) (nth k (fst p) []) (nth t (nth ref (snd p) []) 0%Z) (nth t (nth k o []) 0)) (combine ss TT) out.
Proof.
  intros Hd Hne Hr HX HF Hm HC.
  assert (G : forall p, In p (combine ss TT) -> exists o, sync_series ni ref (max_ref ref ss) d (Some (table None d m (map (map Some) (snd p)))) (table XNaN d (longest_size ss) (reals_or_nan (fst p))) =
      Ok (table XNaN d (max_ref ref ss) (reals_or_nan o)) /\ length o = d /\ forall k, (k < d)%nat -> length (nth k o []) = ref_size ref (fst p) /\
      forall t, (t < ref_size ref (fst p))%nat -> at_time (nth k (snd p) []) (nth k (fst p) []) (nth t (nth ref (snd p) []) 0%Z) (nth t (nth k o []) 0)).
  { intros [s tau] Hp. cbn [fst snd]. assert (Hs : In s ss) by (eapply in_combine_l; eauto).
    assert (ST : stamps_of d s tau). { clear -HF Hp. induction HF as [|s' u ss TT H HF IH]; [contradiction|]. destruct Hp as [E|Hp]; [injection E as <- <-; auto|auto]. }
    destruct ST as [Lt ST]. destruct (Hr s Hs) as [Ls N]. pose proof (longest_size_ge ss s Hs) as LG.
    assert (NE : forall k, (k < d)%nat -> nth k tau [] <> []).
    { intros k Hk K. destruct (ST k Hk) as [E _]. rewrite K in E. apply (N (nth k s [])); [apply nth_In; lia|]. destruct (nth k s []); [auto|discriminate]. }
    destruct (choose_list (fun k os => length os = ref_size ref s /\ interp_stamps ni (map Some (nth ref tau [])) (map Some (nth k tau [])) (map XR (nth k s [])) = Ok (map XR os) /\
      forall t, (t < ref_size ref s)%nat -> at_time (nth k tau []) (nth k s []) (nth t (nth ref tau []) 0%Z) (nth t os 0)) d []) as (o & Lo & Hoo).
    { intros k Hk. destruct (ST k Hk) as [E1 E2]. destruct (ST ref Hd) as [E3 _]. destruct (interp_stamps_real ni (nth ref tau []) (nth k tau []) (nth k s [])) as (os & L & E & At); auto.
      exists os. unfold ref_size. rewrite E3 in *. auto. }
    exists o. split; [|split; [auto|]].
    - apply sync_table; auto; [split; [apply max_ref_ge; auto|apply max_ref_le]|]. intros k Hk. destruct (Hoo k Hk) as (L & E & _). split; [auto|].
      destruct (ST k Hk) as [E1 _]. destruct (ST ref Hd) as [E3 _]. pose proof (feature_le s k). pose proof (feature_le s ref).
      rewrite (stamp_column d m tau ref (ref_size ref s)) by (auto; unfold ref_size; lia). rewrite (stamp_column d m tau k) by (auto; lia). exact E.
    - intros k Hk. destruct (Hoo k Hk) as (L & _ & At). auto. }
  set (res1 := fun p => sync_series ni ref (max_ref ref ss) d (Some (table None d m (map (map Some) (snd p)))) (table XNaN d (longest_size ss) (reals_or_nan (fst p)))) in *.
  assert (M : exists out, mapM res1 (combine ss TT) = Ok (map (fun o => table XNaN d (max_ref ref ss) (reals_or_nan o)) out) /\
    Forall2 (fun p o => length o = d /\ forall k, (k < d)%nat -> length (nth k o []) = ref_size ref (fst p) /\
      forall t, (t < ref_size ref (fst p))%nat -> at_time (nth k (snd p) []) (nth k (fst p) []) (nth t (nth ref (snd p) []) 0%Z) (nth t (nth k o []) 0)) (combine ss TT) out).
  { clear HX HF Hm HC Hne. induction (combine ss TT) as [|p l IH]; [exists []; split; [reflexivity|constructor]|]. destruct IH as (out & E & F); [intros; apply G; right; auto|].
    destruct (G p (or_introl eq_refl)) as (o & Eo & Ho). exists (o :: out). split; [|constructor; auto]. cbn [mapM map]. change (res1 p = Ok (table XNaN d (max_ref ref ss) (reals_or_nan o))) in Eo. rewrite Eo. cbn [bind]. rewrite E. reflexivity. }
  destruct M as (out & E & F). exists out. split; [|exact F]. unfold synchronize.
  rewrite (stamp_front d m ss TT) by (auto; lia). cbn beta. assert (Ho : forall s, In s ss -> observed d s) by (intros s Hs; apply recorded_observed; auto; lia).
  destruct (dims d ss ltac:(lia) Hne Ho) as (D1 & _). rewrite D1. destruct (Nat.leb_spec d ref); [lia|]. rewrite (max_ref_code ref d ss Hd Hr).
  match goal with |- match ?l with [] => _ | _ => _ end = _ => destruct l as [|x0 X0] eqn:El; [destruct ss; [congruence|discriminate]|rewrite <- El; clear El] end.
  unfold stamp_array. rewrite combine_map2. rewrite <- E. clear. unfold res1. induction (combine ss TT) as [|p l IH]; [reflexivity|].
  cbn [map mapM]. cbn [fst snd]. rewrite IH. reflexivity.
Qed.
Print Assumptions C145_interpolated.
Lemma at_time_own tau v t y : increasing tau -> length v = length tau -> (t < length tau)%nat -> at_time tau v (nth t tau 0%Z) y -> y = nth t v 0.
Proof.
  intros Hi Hl Ht (A & B & C). destruct t as [|t]; [apply A; lia|]. specialize (C t Ht). pose proof (Hi t Ht). rewrite C by lia.
  assert (IZR (nth (S t) tau 0%Z - nth t tau 0%Z) <> 0) by (apply not_0_IZR; lia). field. auto.
Qed.
(** In particular the reference feature, and every feature recorded at the same times, is unchanged. *)
Theorem C145_kept ni ref d m X ss TT : (ref < d)%nat -> ss <> [] -> (forall s, In s ss -> recorded d s) -> Forall2 (handed_over d) ss X ->
  Forall2 (stamps_of d) ss TT -> (longest_size ss <= m)%nat -> comparable ss m ->
  exists out, synchronize ni ref d (Some (StampArray (stamp_array d m TT))) X = Ok (map (fun o => table XNaN d (max_ref ref ss) (reals_or_nan o)) out) /\
    Forall2 (fun p o => length o = d /\ nth ref o [] = nth ref (fst p) [] /\
      forall k, (k < d)%nat -> nth k (snd p) [] = nth ref (snd p) [] -> nth k o [] = nth k (fst p) []) (combine ss TT) out.
Proof.
  intros Hd Hne Hr HX HF Hm HC. destruct (C145_interpolated ni ref d m X ss TT Hd Hne Hr HX HF Hm HC) as (out & E & F). exists out. split; [exact E|]. clear E Hne Hr HX Hm HC.
  revert out F. induction HF as [|s tau ss TT [Lt ST] HF IH]; intros out F; cbn [combine] in *; inversion F as [|p o l out' [Lo H] F']; subst; constructor; [|auto]. cbn [fst snd] in *.
  assert (K : forall k, (k < length tau)%nat -> nth k tau [] = nth ref tau [] -> nth k o [] = nth k s []).
  { intros k Hk Ek. destruct (H k Hk) as [L At]. destruct (ST k Hk) as [E1 E2]. destruct (ST ref Hd) as [E3 _]. rewrite <- Ek in *. assert (RS : ref_size ref s = length (nth k s [])) by (unfold ref_size; lia).
    apply (nth_ext _ _ 0 0); [lia|]. intros t Ht. rewrite L in Ht. apply (at_time_own (nth k tau [])); [exact E2|lia|lia|]. apply At. auto. }
  split; [auto|split; [apply K; auto|auto]].
Qed.
Print Assumptions C145_kept.
(** nested lists of timestamps *)
Theorem C145_lists ni ref d m X ss TT : (ref < d)%nat -> ss <> [] -> (forall s, In s ss -> recorded d s) -> Forall2 (handed_over d) ss X ->
  Forall2 (stamps_of d) ss TT -> (longest_size ss <= m)%nat -> comparable ss m ->
  synchronize ni ref d (Some (StampList (stamp_array d m TT))) X = Err TypeError.
Proof.
  intros Hd Hne Hr HX HF Hm HC. unfold synchronize.
  rewrite (stamp_front d m ss TT) by (auto; lia). cbn beta. assert (Ho : forall s, In s ss -> observed d s) by (intros s Hs; apply recorded_observed; auto; lia).
  destruct (dims d ss ltac:(lia) Hne Ho) as (D1 & _). rewrite D1. destruct (Nat.leb_spec d ref); [lia|]. destruct ss; [congruence|reflexivity].
Qed.
Print Assumptions C145_lists.
(** the second example of the documentation: 2.4 at January 3 *)
Definition C145_data : list (list (list R)) := [[[1; 2; 9]; [2; 4]]].
Definition C145_times : list (list (list Z)) := [[[1; 3; 10]; [2; 7]]]%Z.
Example C145_instance : (0 < 2)%nat /\ C145_data <> [] /\ (forall s, In s C145_data -> recorded 2 s) /\
  Forall2 (handed_over 2) C145_data [[[XR 1; XR 2]; [XR 2; XR 4]; [XR 9; XNaN]]] /\ Forall2 (stamps_of 2) C145_data C145_times /\ (longest_size C145_data <= 3)%nat /\ comparable C145_data 3 /\
  at_time [2; 7]%Z [2; 4] 3 (24 / 10) /\ at_time [2; 7]%Z [2; 4] 10 4.
Proof.
  split; [lia|]. split; [discriminate|]. split; [intros s [<-|[]]; split; [reflexivity|]; intros c [<-|[<-|[]]]; discriminate|].
  split; [constructor; [|constructor]; exists 3%nat; split; [cbv; lia|reflexivity]|]. split.
  { constructor; [|constructor]. split; [reflexivity|]. intros [|[|k]] Hk; [| |lia]; (split; [reflexivity|]).
    - intros [|[|j]] Hj; simpl in *; lia.
    - intros [|j] Hj; simpl in *; lia. }
  split; [cbv; lia|]. split; [right; exists [[1; 2; 9]; [2; 4]], [1; 2; 9]; split; [left; auto|split; [left; auto|simpl; lia]]|]. split.
  - split; [simpl; lia|split; [simpl; lia|]]. intros [|j] Hj Hx; [|simpl in Hj; lia]. simpl. lra.
  - split; [simpl; lia|split; [intros _; reflexivity|]]. intros [|j] Hj Hx; [simpl in Hx; lia|simpl in Hj; lia].
Qed.

(** ** the order of the timestamps *)
(** two consecutive timestamps of a feature, both there, that do not increase: ValueError *)
Theorem C146_adjacent ni ref d a X : (0 < d)%nat -> (forall s r, In s a -> In r s -> length r = d) ->
  (exists s t k x y, In s a /\ (S t < length s)%nat /\ (k < d)%nat /\ nth k (nth t s []) None = Some x /\ nth k (nth (S t) s []) None = Some y /\ (y <= x)%Z) ->
  (forall Y, variable_length X = Ok Y -> arr_d Y = d) -> (exists Y, variable_length X = Ok Y) -> (exists T, variable_length (map (map (map stamp_float)) a) = Ok T) ->
  synchronize ni ref d (Some (StampArray a)) X = Err ValueError /\ synchronize ni ref d (Some (StampList a)) X = Err ValueError.
Proof.
  intros Hd Ha (s & t & k & x & y & Hs & Ht & Hk & Ex & Ey & Hxy) HY [Y EY] [T ET]. unfold synchronize. rewrite EY. cbn [bind]. unfold check_features. rewrite (HY Y EY), Nat.eqb_refl. cbn [bind content].
  rewrite ET. cbn [bind]. assert (M : masked_all_positive (diffs a) = false).
  { apply not_true_is_false. intros M. apply all_positive_spec in M. assert (I : In (Some (y - x)%Z) (diffs a)).
    { apply (in_diffs a d); auto. exists s, t, k. rewrite Ex, Ey. auto. }
    destruct M as [M|[_ M]]; [rewrite M in I; contradiction|]. specialize (M _ I). lia. }
  rewrite M. destruct (same_shape T Y); split; reflexivity.
Qed.
Print Assumptions C146_adjacent.
(** timestamps of another shape than the data: ValueError *)
Theorem C146_shape ni ref d ts X Y T : variable_length X = Ok Y -> arr_d Y = d -> variable_length (map (map (map stamp_float)) (content ts)) = Ok T ->
  (length T <> length Y \/ arr_sz T <> arr_sz Y \/ arr_d T <> arr_d Y) -> synchronize ni ref d (Some ts) X = Err ValueError.
Proof.
  intros EY Hd ET H. unfold synchronize. rewrite EY. cbn [bind]. unfold check_features. rewrite Hd, Nat.eqb_refl. cbn [bind]. rewrite ET. cbn [bind].
  assert (S : same_shape T Y = false); [|rewrite S; reflexivity]. unfold same_shape.
  destruct (Nat.eqb_spec (length T) (length Y)); [|reflexivity]. destruct (Nat.eqb_spec (arr_sz T) (arr_sz Y)); [|reflexivity]. destruct (Nat.eqb_spec (arr_d T) (arr_d Y)); [|reflexivity]. exfalso. intuition.
Qed.
Print Assumptions C146_shape.
(** "The timestamps that are there increase in every feature." *)
Definition all_increasing (d : nat) (a : list (list (list stamp))) : Prop :=
  forall s k i j x y, In s a -> (k < d)%nat -> (i < j < length s)%nat -> nth k (nth i s []) None = Some x -> nth k (nth j s []) None = Some y -> (x < y)%Z.
(** A missing timestamp hides a decrease: 1, 10, NaT, 5 is accepted.  Conversely one observation followed by NaT is rejected. *)
Theorem C146_refuted ni :
  (exists a X Y, ~ all_increasing 1 a /\ synchronize ni 0 1 (Some (StampArray a)) X = Ok Y) /\
  (exists a X Y, all_increasing 1 a /\ synchronize ni 0 1 None X = Ok Y /\ length a = length X /\ synchronize ni 0 1 (Some (StampArray a)) X = Err ValueError).
Proof.
  split.
  - exists [[[Some 1%Z]; [Some 10%Z]; [None]; [Some 5%Z]]], [[[XR 1]; [XR 2]; [XR 3]; [XR 4]]]. eexists. split; [|cbn; reflexivity].
    intros H. specialize (H _ 0%nat 1%nat 3%nat 10%Z 5%Z (or_introl eq_refl)). simpl in H. specialize (H ltac:(lia) ltac:(lia) eq_refl eq_refl). lia.
  - exists [[[Some 10%Z]; [None]]], [[[XR 1]; [XNaN]]]. eexists. split; [|split; [cbn; reflexivity|split; reflexivity]].
    intros s k i j x y [<-|[]] Hk Hij Ex Ey. simpl in Hij. destruct i as [|i]; [|lia]. destruct j as [|[|j]]; [lia| |lia]. destruct k; [|lia]. discriminate.
Qed.
Print Assumptions C146_refuted.
Example C146_instance : exists s t k x y, In s [[[Some 3; Some 1]; [Some 4; Some 1]]]%Z /\ (S t < length s)%nat /\ (k < 2)%nat /\ nth k (nth t s []) None = Some x /\ nth k (nth (S t) s []) None = Some y /\ (y <= x)%Z.
Proof. exists [[Some 3; Some 1]; [Some 4; Some 1]]%Z, 0%nat, 1%nat, 1%Z, 1%Z. simpl. repeat split; auto; lia. Qed.

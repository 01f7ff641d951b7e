(** C46: the resampler. *)
From Coq Require Import Bool List Arith ZArith Lia Reals Lra.
From Verif Require Import Num NumLaws Py Series Dataset ValidThms CdistThms RList RealSeries SoftModel GakModel PaaModel PaaThms PropCtw PreModel PropScale.
Import ListNotations.
Local Open Scope R_scope.

(** ** Specification *)
(** feature [k] of a series *)
Definition feature (k : nat) (s : list (list R)) : list R := map (fun r => nth k r 0) s.
(** the requested size; by default the longest one in the dataset *)
Definition wanted_size (sz : Z) (ss : list (list (list R))) : nat :=
  if (0 <? sz)%Z then Z.to_nat sz else list_max (map (@length _) ss).
(** [out] is the piecewise linear curve through [f] evaluated at [T] equidistant
    points: time step [t] falls between steps [j] and [j + 1] of [f] *)
Definition interpolates (T : nat) (f out : list R) : Prop :=
  forall t, (t < T)%nat ->
    let pos := (t * (length f - 1))%nat in
    let j := (pos / (T - 1))%nat in
    let w := INR (pos mod (T - 1)) / INR (T - 1) in
    nth t out 0 = (1 - w) * nth j f 0 + w * nth (j + 1) f 0.

(** ** interpolation *)
Lemma count_le_seq (f : nat -> R) x n j : (j < n)%nat ->
  (forall i, (i < n)%nat -> (f i <= x <-> (i <= j)%nat)) -> count_le x (map f (seq 0 n)) = S j.
Proof.
  intros Hj H. unfold count_le.
  assert (G : forall m a, (forall i, (a <= i < a + m)%nat -> (f i <= x <-> (i <= j)%nat)) ->
     length (filter (fun b => Rleb b x) (map f (seq a m))) = (Nat.min (a + m) (S j) - Nat.min a (S j))%nat).
  { induction m as [|m IH]; intros a Ha; simpl; [lia|]. destruct (Rleb (f a) x) eqn:E.
    - apply Rleb_true in E. apply Ha in E; [|lia]. simpl. rewrite IH by (intros; apply Ha; lia). lia.
    - apply Rleb_false in E. rewrite IH by (intros; apply Ha; lia).
      assert (~ (a <= j)%nat) by (intros K; apply Ha in K; [lra|lia]). lia. }
  rewrite G by (intros; apply H; lia). lia.
Qed.
Lemma frac_le i t n T : (0 < n)%nat -> (0 < T)%nat -> INR i / INR n <= INR t / INR T <-> (i * T <= t * n)%nat.
Proof.
  intros Hn HT. assert (A : 0 < INR n) by (apply lt_0_INR; lia). assert (B : 0 < INR T) by (apply lt_0_INR; lia).
  assert (C : INR i / INR n <= INR t / INR T <-> INR i * INR T <= INR t * INR n).
  { split; intros H.
    - apply (Rmult_le_compat_r (INR n * INR T)) in H; [|nra]. field_simplify in H; lra.
    - apply Rmult_le_reg_r with (INR n * INR T); [nra|]. field_simplify; lra. }
  rewrite C. rewrite <- !mult_INR. split; [apply INR_le|apply le_INR].
Qed.
Lemma nth_lin n i : (i < n)%nat -> nth i (linspace01 n) 0 = INR i / INR (n - 1).
Proof. intros H. unfold linspace01. rewrite map_seq_nth by auto. reflexivity. Qed.
Lemma nth_XR l i x : (i < length l)%nat -> nth i (map XR l) x = XR (nth i l 0).
Proof. intros H. rewrite nth_indep with (d' := XR 0) by (rewrite map_length; auto). apply map_nth. Qed.
Lemma Reqb_spec a b : reflect (a = b) (Reqb a b).
Proof. unfold Reqb. destruct (Req_EM_T a b); constructor; auto. Qed.

Lemma interp1_linear T t f : (2 <= T)%nat -> (t < T)%nat -> f <> [] ->
  let pos := (t * (length f - 1))%nat in
  let j := (pos / (T - 1))%nat in
  let w := INR (pos mod (T - 1)) / INR (T - 1) in
  interp1 (linspace01 (length f)) (map XR f) (INR t / INR (T - 1)) = XR ((1 - w) * nth j f 0 + w * nth (j + 1) f 0).
Proof.
  intros HT Ht Hf pos j w. set (n := length f) in *.
  assert (Hn : (0 < n)%nat) by (unfold n; destruct f; [congruence|simpl; lia]).
  assert (HT0 : 0 < INR (T - 1)) by (apply lt_0_INR; lia).
  pose proof (Nat.div_mod pos (T - 1) ltac:(lia)) as DM. pose proof (Nat.mod_upper_bound pos (T - 1) ltac:(lia)) as MB.
  fold j in DM. set (r := (pos mod (T - 1))%nat) in *.
  assert (Hj : (j <= n - 1)%nat).
  { apply Nat.div_le_upper_bound; [lia|]. unfold pos. rewrite Nat.mul_comm. apply Nat.mul_le_mono_r || idtac. nia. }
  assert (HC : count_le (INR t / INR (T - 1)) (linspace01 n) = S j).
  { unfold linspace01. destruct (Nat.eq_dec n 1) as [E1|E1].
    - rewrite E1 in *. replace j with 0%nat by lia. apply count_le_seq; [lia|]. intros i Hi. replace i with 0%nat by lia.
      simpl INR at 1. split; [lia|]. intros _. unfold Rdiv at 1. rewrite Rmult_0_l.
      apply Rmult_le_pos; [apply pos_INR|]. left. apply Rinv_0_lt_compat. auto.
    - apply count_le_seq; [lia|]. intros i Hi. rewrite frac_le by lia. fold pos. unfold j. split; intros H.
      + apply Nat.div_le_lower_bound; [lia|]. unfold pos. lia.
      + unfold pos in *. fold j in H. nia. }
  unfold interp1. rewrite HC. change (S j =? 0)%nat with false. cbv beta iota zeta.
  assert (Ll : length (linspace01 n) = n) by (unfold linspace01; rewrite map_length, seq_length; auto). rewrite Ll.
  destruct (Nat.eqb_spec (S j) n) as [E|E].
  - rewrite nth_XR by (fold n; lia). f_equal. replace (n - 1)%nat with j by lia.
    assert (Er : r = 0%nat) by (unfold pos in *; nia). unfold w. rewrite Er. simpl INR at 1 3. unfold Rdiv. ring.
  - replace (S j - 1)%nat with j by lia. rewrite !nth_lin by lia. rewrite !nth_XR by (fold n; lia).
    assert (Hn0 : 0 < INR (n - 1)) by (apply lt_0_INR; lia).
    assert (Ex : INR t / INR (T - 1) - INR j / INR (n - 1) = INR r / (INR (T - 1) * INR (n - 1))).
    { apply (f_equal INR) in DM. unfold pos in DM. rewrite plus_INR, !mult_INR in DM. 
      assert (Et : INR t = (INR (T - 1) * INR j + INR r) / INR (n - 1)) by (rewrite <- DM; field; lra).
      rewrite Et. field. lra. }
    destruct (Reqb_spec (INR j / INR (n - 1)) (INR t / INR (T - 1))) as [E2|E2].
    + assert (Er : INR r = 0). { assert (K : INR r / (INR (T - 1) * INR (n - 1)) = 0) by lra. unfold Rdiv in K.
        apply Rmult_integral in K. destruct K as [K|K]; auto. exfalso. revert K. apply Rinv_neq_0_compat. nra. }
      unfold w. rewrite Er. f_equal. unfold Rdiv. ring.
    + unfold xsub. cbn [xadd xopp]. rewrite xdiv_real by (rewrite <- Rdiv_minus_distr || idtac; intros K;
        rewrite plus_INR in K; simpl INR in K; assert (1 / INR (n - 1) = 0) by (unfold Rdiv in *; lra);
        assert (0 < 1 / INR (n - 1)) by (apply Rdiv_lt_0_compat; lra); lra).
      cbn [xmul xadd xisnan]. f_equal. rewrite Ex. unfold w. rewrite plus_INR. simpl (INR 1). field. split; [lra|]. split; [lra|].
      intros K. ring_simplify in K. lra.
Qed.

(** ** datasets *)
Definition pad_to (d m : nat) (s : list (list R)) : series Xnum := lift s ++ repeat (repeat XNaN d) (m - length s).
Lemma uniform_lift d ss : (forall s, In s ss -> real_series d s) -> uniform (N:=Xnum) d (map Raw2 (map lift ss)).
Proof.
  intros H x Hx. rewrite map_map in Hx. apply in_map_iff in Hx. destruct Hx as (s & <- & Hs). split.
  - apply ncols_lift. auto.
  - destruct (H s Hs) as (_ & _ & R). apply Forall_forall. intros r Hr. simpl in Hr. apply in_map_iff in Hr.
    destruct Hr as (r0 & <- & Hr). etransitivity; [apply map_length|]. auto.
Qed.
Lemma fold_max_list_max l : forall a, fold_left Nat.max l a = Nat.max a (list_max l).
Proof. induction l as [|x l IH]; intros a; simpl; [lia|]. rewrite IH. lia. Qed.
Lemma max_size_lift d ss : (forall s, In s ss -> real_series d s) ->
  max_size (map Raw2 (map lift ss)) = list_max (map (@length _) ss).
Proof.
  intros H. unfold max_size. rewrite fold_max_list_max, Nat.max_0_l. f_equal. rewrite !map_map. apply map_ext_in. intros s Hs.
  refine (eq_trans (ts_size_strip Xnum (Raw2 (lift s))) _). rewrite (strip_lift d s (H s Hs)). apply lift_length.
Qed.
Lemma variable_length_lift d ss : (forall s, In s ss -> real_series d s) ->
  variable_length (map lift ss) = Ok (map (pad_to d (list_max (map (@length _) ss))) ss).
Proof.
  intros H. unfold variable_length. rewrite (to_dataset_ok Xnum d) by (apply uniform_lift; auto).
  f_equal. rewrite (max_size_lift d ss H). rewrite !map_map. apply map_ext_in. intros s Hs.
  rewrite (strip_lift d s (H s Hs)). unfold pad_to. rewrite lift_length. reflexivity.
Qed.
Lemma list_max_ge l x : In x l -> (x <= list_max l)%nat.
Proof. induction l as [|y l IH]; [contradiction|]. intros [->|H]; simpl; [lia|]. specialize (IH H). lia. Qed.
Lemma list_max_in l : l <> [] -> In (list_max l) l.
Proof.
  induction l as [|x l IH]; [congruence|]. intros _. simpl. destruct l as [|y l]; [left; simpl; lia|].
  destruct (Nat.max_spec x (list_max (y :: l))) as [[_ E]|[_ E]]; rewrite E; [right; apply IH; discriminate|left; auto].
Qed.
Lemma pad_to_rect d m s : real_series d s -> (length s <= m)%nat ->
  length (pad_to d m s) = m /\ forall r, In r (pad_to d m s) -> length r = d.
Proof.
  intros (_ & _ & R) H. unfold pad_to. split.
  - rewrite app_length, lift_length, repeat_length. lia.
  - intros r Hr. apply in_app_iff in Hr. destruct Hr as [Hr|Hr].
    + apply in_map_iff in Hr. destruct Hr as (r0 & <- & Hr). etransitivity; [apply map_length|]. auto.
    + apply repeat_spec in Hr. subst r. apply repeat_length.
Qed.
Lemma pad_to_shape d ss m : (forall s, In s ss -> real_series d s) -> (forall s, In s ss -> (length s <= m)%nat) ->
  shape3 (length ss) m d (map (pad_to d m) ss).
Proof.
  intros H Hm. split; [apply map_length|]. intros s Hs. apply in_map_iff in Hs. destruct Hs as (s0 & <- & Hs).
  apply pad_to_rect; auto.
Qed.
Lemma nan_repeat d r : r = repeat XNaN d -> nan_row (N:=Xnum) r = true.
Proof. intros ->. induction d; simpl; auto. Qed.
Lemma ts_size_pad_to d m s : real_series d s -> ts_size (N:=Xnum) (pad_to d m s) = length s.
Proof.
  intros H. unfold pad_to. rewrite (ts_size_pad Xnum).
  - pose proof (strip_lift d s H) as E. apply (f_equal (@length _)) in E. rewrite <- (ts_size_strip Xnum (Raw2 (lift s))) in E. rewrite lift_length in E. exact E.
  - intros r Hr. apply repeat_spec in Hr. apply (nan_repeat d). auto.
Qed.
Lemma firstn_pad_to d m s : firstn (length s) (pad_to d m s) = lift s.
Proof. unfold pad_to. rewrite firstn_app, lift_length, Nat.sub_diag. simpl. rewrite app_nil_r. rewrite <- (lift_length s). apply firstn_all. Qed.
Lemma column_lift d s k : real_series d s -> (k < d)%nat -> column k (lift s) = map XR (feature k s).
Proof.
  intros (_ & _ & R) Hk. unfold column, lift, feature. rewrite !map_map. apply map_ext_in. intros r Hr.
  apply nth_XR. rewrite (R r Hr). auto.
Qed.
Lemma feature_len k s : length (feature k s) = length s. Proof. apply map_length. Qed.

(** one column of the output *)
Definition resampled (T : nat) (f : list R) : list R :=
  map (fun t => let pos := (t * (length f - 1))%nat in
       let w := INR (pos mod (T - 1)) / INR (T - 1) in
       (1 - w) * nth (pos / (T - 1)) f 0 + w * nth (pos / (T - 1) + 1) f 0) (seq 0 T).
Definition resampled_series (T d : nat) (s : list (list R)) : list (list R) :=
  map (fun t => map (fun k => nth t (resampled T (feature k s)) 0) (seq 0 d)) (seq 0 T).
Lemma mapM_map {A B} (f : A -> res B) (g : A -> B) l : (forall a, In a l -> f a = Ok (g a)) -> mapM f l = Ok (map g l).
Proof. induction l as [|a l IH]; intros H; simpl; auto. rewrite H by (left; auto). simpl. rewrite IH by (intros; apply H; right; auto). reflexivity. Qed.
Lemma resample_series_ok T d m s : (2 <= T)%nat -> real_series d s ->
  resample_series T (length s) d (pad_to d m s) = Ok (lift (resampled_series T d s)).
Proof.
  intros HT HS. unfold resample_series. rewrite firstn_pad_to.
  rewrite (mapM_map _ (fun k => map XR (resampled T (feature k s)))).
  - cbn [bind]. f_equal. unfold of_columns, resampled_series, lift. rewrite map_map. apply map_ext_in. intros t Ht. apply in_seq in Ht.
    rewrite !map_map. apply map_ext_in. intros k _. apply nth_XR. unfold resampled. rewrite map_length, seq_length. lia.
  - intros k Hk. apply in_seq in Hk. rewrite (column_lift d) by (auto; lia). unfold interp.
    assert (Hne : feature k s <> []) by (destruct HS as (_ & Hs & _); intros E; apply map_eq_nil in E; auto).
    assert (Hl : linspace01 (length s) <> []).
    { unfold linspace01. rewrite <- (feature_len k). destruct (feature k s); [congruence|]. discriminate. }
    destruct (linspace01 (length s)) as [|a l] eqn:El; [congruence|]. rewrite <- El. f_equal.
    unfold resampled. change (linspace01 T) with (map (fun i => INR i / INR (T - 1)) (seq 0 T)). rewrite !map_map. apply map_ext_in. intros t Ht. apply in_seq in Ht.
    rewrite <- (feature_len k s). apply interp1_linear; auto; lia.
Qed.
Lemma interpolates_resampled T f : interpolates T f (resampled T f).
Proof. intros t Ht pos j w. unfold resampled. rewrite map_seq_nth by auto. reflexivity. Qed.
Lemma resample_dataset sz d ss : ss <> [] -> (forall s, In s ss -> real_series d s) -> (2 <= wanted_size sz ss)%nat ->
  resample sz d (map lift ss) = Ok (map lift (map (resampled_series (wanted_size sz ss) d) ss)).
Proof.
  intros Hne H HT. unfold resample. rewrite (variable_length_lift d ss H). cbn [bind].
  set (m := list_max (map (@length _) ss)).
  assert (Hm : forall s, In s ss -> (length s <= m)%nat) by (intros s Hs; apply list_max_ge; apply in_map; auto).
  assert (HS : shape3 (length ss) m d (map (pad_to d m) ss)) by (apply pad_to_shape; auto).
  assert (Hn : (0 < length ss)%nat) by (destruct ss; [congruence|simpl; lia]).
  assert (Hm0 : (0 < m)%nat).
  { destruct ss as [|s0 ss0]; [congruence|]. pose proof (Hm s0 (or_introl eq_refl)). destruct (H s0 (or_introl eq_refl)) as (_ & E & _).
    destruct s0; [congruence|]. simpl in *. lia. }
  unfold check_features. rewrite (arr_d_shape _ _ _ _ HS Hn Hm0), Nat.eqb_refl. cbn [bind].
  rewrite (arr_d_shape _ _ _ _ HS Hn Hm0), (arr_sz_shape _ _ _ _ HS Hn).
  change (if (0 <? sz)%Z then Z.to_nat sz else m) with (wanted_size sz ss).
  destruct (Nat.eqb_spec (wanted_size sz ss) 1); [lia|].
  assert (ES : forall s, In s ss -> (if all_equal_size (map (pad_to d m) ss) then m else ts_size (N:=Xnum) (pad_to d m s)) = length s).
  { intros s Hs. destruct (all_equal_size (map (pad_to d m) ss)) eqn:E; [|apply ts_size_pad_to; auto].
    destruct ss as [|s0 ss0]; [congruence|]. simpl in E. rewrite forallb_forall in E.
    assert (EE : forall s', In s' (s0 :: ss0) -> length s' = length s0).
    { intros s' [->|Hs']; auto. specialize (E (pad_to d m s') ltac:(apply in_map; auto)). apply Nat.eqb_eq in E.
      rewrite (ts_size_pad_to d m s'), (ts_size_pad_to d m s0) in E by (apply H; simpl; auto). exact E. }
    rewrite (EE s Hs). assert (Hin : In m (map (@length _) (s0 :: ss0))) by (apply list_max_in; discriminate).
    apply in_map_iff in Hin. destruct Hin as (s' & <- & Hs'). auto. }
  set (aeq := all_equal_size (map (pad_to d m) ss)) in *. clearbody aeq.
  rewrite map_map.
  assert (G : forall l, (forall s, In s l -> In s ss) ->
    mapM (fun s => resample_series (wanted_size sz ss) (if aeq then m else ts_size (N:=Xnum) s) d s) (map (pad_to d m) l) =
    Ok (map (fun s => lift (resampled_series (wanted_size sz ss) d s)) l)).
  { induction l as [|s l IH]; intros Hl; simpl; auto. rewrite ES by (apply Hl; left; auto).
    rewrite resample_series_ok by (auto; apply H; apply Hl; left; auto). cbn [bind].
    rewrite IH by (intros; apply Hl; right; auto). reflexivity. }
  apply G. auto.
Qed.

(** Resampling returns, for every series of the dataset and every feature, the
    piecewise linear interpolation at the requested number of points. *)
Theorem C46_piecewise_linear : forall sz d ss, ss <> [] -> (forall s, In s ss -> real_series d s) ->
  (2 <= wanted_size sz ss)%nat ->
  exists out, resample sz d (map lift ss) = Ok (map lift out) /\
  Forall2 (fun s o => length o = wanted_size sz ss /\ (forall r, In r o -> length r = d) /\
                      forall k, (k < d)%nat -> interpolates (wanted_size sz ss) (feature k s) (feature k o)) ss out.
Proof.
  intros sz d ss Hne H HT. eexists. split; [apply resample_dataset; auto|]. 
  set (T := wanted_size sz ss) in *. clearbody T. clear Hne H. induction ss as [|s ss IH]; constructor; auto.
  split; [|split].
  - unfold resampled_series. rewrite map_length, seq_length. auto.
  - intros r Hr. apply in_map_iff in Hr. destruct Hr as (t & <- & _). rewrite map_length, seq_length. auto.
  - intros k Hk. replace (feature k (resampled_series T d s)) with (resampled T (feature k s)); [apply interpolates_resampled|].
    unfold feature at 2. unfold resampled_series. rewrite map_map.
    transitivity (map (fun t => nth t (resampled T (feature k s)) 0) (seq 0 (length (resampled T (feature k s))))); [apply list_nth_seq|].
    unfold resampled at 2. rewrite map_length, seq_length. apply map_ext. intros t. rewrite map_seq_nth by auto. reflexivity.
Qed.
Print Assumptions C46_piecewise_linear.

(** Such an interpolation keeps the first and the last value, stays between the
    smallest and the largest one, and is the identity when the size does not change. *)
Lemma interp_endpoints T f out : (2 <= T)%nat -> f <> [] -> length out = T -> interpolates T f out ->
  nth 0 out 0 = nth 0 f 0 /\ nth (T - 1) out 0 = nth (length f - 1) f 0.
Proof.
  intros HT Hf L H. split.
  - rewrite (H 0%nat) by lia. cbn [Nat.mul]. rewrite Nat.div_0_l, Nat.mod_0_l by lia. simpl INR at 1 3. unfold Rdiv. ring.
  - rewrite (H (T - 1)%nat) by lia. rewrite Nat.mul_comm, Nat.div_mul, Nat.mod_mul by lia. simpl INR at 1 3. unfold Rdiv. ring.
Qed.
Lemma interp_range T f out t : (2 <= T)%nat -> f <> [] -> interpolates T f out -> (t < T)%nat ->
  rmin f <= nth t out 0 <= rmax f.
Proof.
  intros HT Hf H Ht. rewrite (H t Ht). set (pos := (t * (length f - 1))%nat).
  assert (Ln : (0 < length f)%nat) by (destruct f; [congruence|simpl; lia]).
  assert (HT0 : 0 < INR (T - 1)) by (apply lt_0_INR; lia).
  pose proof (Nat.div_mod pos (T - 1) ltac:(lia)) as DM. pose proof (Nat.mod_upper_bound pos (T - 1) ltac:(lia)) as MB.
  assert (W : 0 <= INR (pos mod (T - 1)) / INR (T - 1) <= 1).
  { split; [apply Rmult_le_pos; [apply pos_INR|left; apply Rinv_0_lt_compat; auto]|].
    apply Rmult_le_reg_r with (INR (T - 1)); auto. unfold Rdiv. rewrite Rmult_assoc, Rinv_l by lra. rewrite Rmult_1_r, Rmult_1_l. apply le_INR. lia. }
  set (w := INR (pos mod (T - 1)) / INR (T - 1)) in *. set (j := (pos / (T - 1))%nat) in *.
  assert (Hj : (j <= length f - 1)%nat) by (unfold pos in *; nia).
  assert (B : forall i, (i < length f)%nat -> rmin f <= nth i f 0 <= rmax f).
  { intros i Hi. split; [apply rmin_le|apply rmax_ge]; apply nth_In; auto. }
  pose proof (B j ltac:(lia)) as B1.
  destruct (Nat.eq_dec j (length f - 1)) as [E|E].
  - assert (Er : (pos mod (T - 1))%nat = 0%nat) by (unfold pos in *; nia).
    replace w with 0 by (unfold w; rewrite Er; simpl INR; unfold Rdiv; ring). lra.
  - pose proof (B (j + 1)%nat ltac:(lia)) as B2. nra.
Qed.
Lemma interp_same T f out : (2 <= T)%nat -> length f = T -> length out = T -> interpolates T f out -> out = f.
Proof.
  intros HT Lf Lo H. apply nth_ext with (d := 0) (d' := 0); [lia|]. intros t Ht. rewrite (H t) by lia. rewrite Lf.
  rewrite Nat.div_mul, Nat.mod_mul by lia. simpl INR at 1 3. unfold Rdiv. ring.
Qed.
Theorem C46_endpoints_range_identity : forall sz d ss, ss <> [] -> (forall s, In s ss -> real_series d s) ->
  (2 <= wanted_size sz ss)%nat ->
  exists out, resample sz d (map lift ss) = Ok (map lift out) /\
  Forall2 (fun s o => length o = wanted_size sz ss /\ hd [] o = hd [] s /\ last o [] = last s [] /\
     (forall t k, (t < length o)%nat -> (k < d)%nat -> rmin (feature k s) <= nth k (nth t o []) 0 <= rmax (feature k s)) /\
     (length s = wanted_size sz ss -> o = s)) ss out.
Proof.
  intros sz d ss Hne H HT. destruct (C46_piecewise_linear sz d ss Hne H HT) as (out & E & F). exists out. split; auto. clear E.
  set (T := wanted_size sz ss) in *. clearbody T. clear Hne. induction F as [|s o ss out (L & Ro & I) F IH]; constructor; [|apply IH; intros; apply H; right; auto].
  destruct (H s (or_introl eq_refl)) as (Hd & Hs & Rs). clear IH F H.
  assert (Ls : (0 < length s)%nat) by (destruct s; [congruence|simpl; lia]).
  assert (Fe : forall k t q, (t < length q)%nat -> nth k (nth t q []) 0 = nth t (feature k q) 0).
  { intros k t q Hq. unfold feature. symmetry. etransitivity; [apply nth_indep with (d' := (fun r => nth k r 0) []); rewrite map_length; auto|]. apply (map_nth (fun r => nth k r 0)). }
  assert (Ne : forall k, feature k s <> []) by (intros k E; apply map_eq_nil in E; auto).
  split; auto. split; [|split; [|split]].
  - assert (A : forall q : list (list R), hd [] q = nth 0 q []) by (intros q; destruct q; auto). rewrite !A.
    apply nth_ext with (d := 0) (d' := 0).
    + rewrite (Ro (nth 0 o [])), (Rs (nth 0 s [])) by (apply nth_In; lia). auto.
    + intros k Hk. rewrite (Ro (nth 0 o [])) in Hk by (apply nth_In; lia). rewrite !Fe by lia.
      apply (interp_endpoints T); auto. rewrite feature_len; auto.
  - assert (A : forall q : list (list R), last q [] = nth (length q - 1) q []).
    { clear. induction q as [|x q IH]; auto. destruct q as [|y q]; auto. simpl length in *. 
      change (last (x :: y :: q) []) with (last (y :: q) []). rewrite IH. replace (S (S (length q)) - 1)%nat with (S (S (length q) - 1)) by lia. reflexivity. }
    rewrite !A. apply nth_ext with (d := 0) (d' := 0).
    + rewrite (Ro (nth (length o - 1) o [])), (Rs (nth (length s - 1) s [])) by (apply nth_In; lia). auto.
    + intros k Hk. rewrite (Ro (nth (length o - 1) o [])) in Hk by (apply nth_In; lia). rewrite !Fe by lia. rewrite L.
      rewrite <- (feature_len k s). apply (interp_endpoints T); auto. rewrite feature_len; auto.
  - intros t k Ht Hk. rewrite Fe by auto. apply (interp_range T); auto. lia.
  - intros E. apply nth_ext with (d := []) (d' := []); [lia|]. intros t Ht. apply nth_ext with (d := 0) (d' := 0).
    + rewrite (Ro (nth t o [])), (Rs (nth t s [])) by (apply nth_In; lia). auto.
    + intros k Hk. rewrite (Ro (nth t o [])) in Hk by (apply nth_In; lia). rewrite !Fe by lia.
      rewrite (interp_same T (feature k s) (feature k o)); auto; rewrite feature_len; auto.
Qed.
Print Assumptions C46_endpoints_range_identity.

Lemma numbers_XR l : numbers (map XR l) = l.
Proof. unfold numbers. induction l; simpl; auto. f_equal. auto. Qed.
Lemma numbers_nan c : numbers (repeat XNaN c) = [].
Proof. unfold numbers. induction c; simpl; auto. Qed.
(** Size 1 gives the mean of every feature. *)
Theorem C46_single_point : forall sz d ss, ss <> [] -> (forall s, In s ss -> real_series d s) -> wanted_size sz ss = 1%nat ->
  resample sz d (map lift ss) = Ok (map (fun s => lift [map (fun k => mean (feature k s)) (seq 0 d)]) ss).
Proof.
  intros sz d ss Hne H HT. unfold resample. rewrite (variable_length_lift d ss H). cbn [bind].
  set (m := list_max (map (@length _) ss)).
  assert (Hm : forall s, In s ss -> (length s <= m)%nat) by (intros s Hs; apply list_max_ge; apply in_map; auto).
  assert (HS : shape3 (length ss) m d (map (pad_to d m) ss)) by (apply pad_to_shape; auto).
  assert (Hn : (0 < length ss)%nat) by (destruct ss; [congruence|simpl; lia]).
  assert (Hm0 : (0 < m)%nat).
  { destruct ss as [|s0 ss0]; [congruence|]. pose proof (Hm s0 (or_introl eq_refl)). destruct (H s0 (or_introl eq_refl)) as (_ & E & _).
    destruct s0; [congruence|]. simpl in *. lia. }
  unfold check_features. rewrite (arr_d_shape _ _ _ _ HS Hn Hm0), Nat.eqb_refl. cbn [bind].
  rewrite (arr_sz_shape _ _ _ _ HS Hn).
  change (if (0 <? sz)%Z then Z.to_nat sz else m) with (wanted_size sz ss). rewrite HT. cbn [Nat.eqb].
  f_equal. unfold unit_sz. rewrite (arr_d_shape _ _ _ _ HS Hn Hm0). rewrite map_map. apply map_ext_in. intros s Hs.
  unfold lift. simpl. f_equal. rewrite map_map. apply map_ext_in. intros k Hk. apply in_seq in Hk.
  destruct (H s Hs) as (Hd & Hne0 & _).
  assert (E : column k (pad_to d m s) = map XR (feature k s) ++ repeat XNaN (m - length s)).
  { unfold pad_to. rewrite column_app, (column_lift d) by (auto; lia). f_equal. unfold column.
    assert (Q : forall c, map (fun r => nth k r XNaN) (repeat (repeat XNaN d) c) = repeat XNaN c).
    { induction c as [|c IH]; simpl; auto. f_equal; auto. clear. revert k. induction d; intros [|k]; simpl; auto. }
    apply Q. }
  rewrite E. rewrite nanmean_numbers.
  - assert (Q : numbers (map XR (feature k s) ++ repeat XNaN (m - length s)) = feature k s).
    { unfold numbers. rewrite flat_map_app. fold (numbers (map XR (feature k s))). fold (numbers (repeat XNaN (m - length s))).
      rewrite numbers_XR, numbers_nan. apply app_nil_r. }
    rewrite Q. destruct (feature k s) eqn:Ef; auto. apply map_eq_nil in Ef. congruence.
  - intros x Hx. apply in_app_iff in Hx. destruct Hx as [Hx|Hx].
    + apply in_map_iff in Hx. destruct Hx as (v & <- & _). eauto.
    + left. apply repeat_spec in Hx. auto.
Qed.
Print Assumptions C46_single_point.
(** two series of different lengths, a size between them *)
Example C46_nontrivial : forall s, In s [[[1]; [5]; [2]; [4]]; [[3]; [7]]] -> real_series 1 s.
Proof. intros s [<-|[<-|[]]]; (split; [lia|split; [discriminate|]]); intros r Hr; repeat (destruct Hr as [<-|Hr]; [auto|]); contradiction. Qed.
Example C46_sizes : wanted_size 3 [[[1]; [5]; [2]; [4]]; [[3]; [7]]] = 3%nat /\ wanted_size (-1) [[[1]; [5]; [2]; [4]]; [[3]; [7]]] = 4%nat.
Proof. split; reflexivity. Qed.

(** C47: the imputer. *)
From Coq Require Import Bool List Arith ZArith Lia Reals Lra Permutation Sorted.
From Verif Require Import Num NumLaws Py Series Dataset ValidThms CdistThms RList RealSeries SoftModel GakModel PaaModel PaaThms PreModel PropScale PropResample.
Import ListNotations.
Local Open Scope R_scope.

(** ** Specification *)
(** An array as [to_time_series_dataset] returns it: no time step is missing in all
    series at the end. *)
Definition tight (n sz d : nat) (X : array3) : Prop :=
  shape3 n sz d X /\ exists i k, (i < n)%nat /\ (k < d)%nat /\ entry3 X i (sz - 1) k <> XNaN.
(** Time step [t] is part of series [i]: with [keep_trailing_nans], there is an
    observation at or after it. *)
Definition inside (keep : bool) (sz d : nat) (X : array3) (i t : nat) : Prop :=
  keep = true -> exists t' k, (t <= t' < sz)%nat /\ (k < d)%nat /\ entry3 X i t' k <> XNaN.
(** feature [k] of series [i] *)
Definition values (sz : nat) (X : array3) (i k : nat) : list R := numbers (map (fun t => entry3 X i t k) (seq 0 sz)).
(** the median of a list *)
Definition is_median (l : list R) (m : R) : Prop :=
  exists s, Permutation l s /\ Sorted Rle s /\
  m = if Nat.even (length s) then (nth (length s / 2 - 1) s 0 + nth (length s / 2) s 0) / 2 else nth (length s / 2) s 0.

(** ** sizes *)
Lemma xisnan_iff x : xisnan x = true <-> x = XNaN.
Proof. destruct x; simpl; split; congruence. Qed.
Lemma xisnan_false x : xisnan x = false <-> x <> XNaN.
Proof. destruct x; simpl; split; congruence. Qed.
Lemma nan_row_iff (r : list xr) : nan_row (N:=Xnum) r = true <-> forall k, (k < length r)%nat -> nth k r XNaN = XNaN.
Proof.
  unfold nan_row. rewrite forallb_forall. split.
  - intros H k Hk. apply xisnan_iff. apply H. apply nth_In. auto.
  - intros H x Hx. destruct (In_nth _ _ XNaN Hx) as (k & Hk & <-). apply xisnan_iff. apply H. auto.
Qed.
Lemma ts_size_snoc {N : num} (s : series N) r : ts_size (s ++ [r]) = if nan_row r then ts_size s else S (length s).
Proof. unfold ts_size. rewrite rev_app_distr. simpl. destruct (nan_row r); auto. simpl. rewrite rev_length. auto. Qed.
Lemma ts_size_iff {N : num} (s : series N) t :
  (t < ts_size s)%nat <-> exists t', (t <= t' < length s)%nat /\ nan_row (nth t' s []) = false.
Proof.
  unfold series in s. induction s as [|r s IH] using rev_ind.
  - simpl. split; [unfold ts_size; simpl; lia|]. intros (t' & H & _). simpl in H. lia.
  - rewrite ts_size_snoc, app_length. simpl length. destruct (nan_row r) eqn:E.
    + rewrite IH. split; intros (t' & H & H').
      * exists t'. split; [lia|]. rewrite app_nth1 by lia. auto.
      * destruct (Nat.eq_dec t' (length s)) as [->|Hn].
        { rewrite app_nth2, Nat.sub_diag in H' by lia. simpl in H'. congruence. }
        exists t'. split; [lia|]. rewrite app_nth1 in H' by lia. auto.
    + split; [|intros (t' & H & _); lia]. intros H. exists (length s). split; [lia|]. rewrite app_nth2, Nat.sub_diag by lia. exact E.
Qed.
Lemma not_nan_row_entry n sz d X i t : shape3 n sz d X -> (i < n)%nat -> (t < sz)%nat ->
  nan_row (N:=Xnum) (nth t (nth i X []) []) = false <-> exists k, (k < d)%nat /\ entry3 X i t k <> XNaN.
Proof.
  intros HS Hi Ht. pose proof (shape_row n sz d X i t HS Hi Ht) as L. norm. split.
  - intros H. destruct (forallb_forall xisnan (nth t (nth i X []) [])) as [_ F].
    assert (G : exists x, In x (nth t (nth i X []) []) /\ xisnan x = false).
    { clear F L. unfold nan_row in H. norm. induction (nth t (nth i X []) []) as [|x r IH]; [discriminate|]. simpl in H.
      apply andb_false_iff in H. destruct H as [H|H]; [exists x; simpl; auto|]. destruct (IH H) as (y & Hy & Ey). exists y. simpl; auto. }
    destruct G as (x & Hx & Ex). destruct (In_nth _ _ XNaN Hx) as (k & Hk & E). exists k. split; [lia|].
    unfold entry3. norm. rewrite E. apply xisnan_false. auto.
  - intros (k & Hk & E). destruct (nan_row (N:=Xnum) (nth t (nth i X []) [])) eqn:En; auto. exfalso. apply E.
    apply (proj1 (nan_row_iff _) En). norm. lia.
Qed.
Lemma inside_iff n sz d X i t : shape3 n sz d X -> (i < n)%nat ->
  (t < ts_size (N:=Xnum) (nth i X []))%nat <-> exists t' k, (t <= t' < sz)%nat /\ (k < d)%nat /\ entry3 X i t' k <> XNaN.
Proof.
  intros HS Hi. destruct (shape_series n sz d X i HS Hi) as [L _]. rewrite ts_size_iff. split.
  - intros (t' & H & H'). norm. rewrite L in H. apply (not_nan_row_entry n sz d) in H'; auto; [|lia]. destruct H' as (k & Hk & E). exists t', k. auto.
  - intros (t' & k & H & Hk & E). exists t'. norm. rewrite L. split; auto. apply (not_nan_row_entry n sz d); eauto. lia.
Qed.
(** conversion changes nothing *)
Lemma max_size_tight n sz d X : tight n sz d X -> max_size (map Raw2 X) = sz.
Proof.
  intros [HS (i & k & Hi & Hk & E)]. unfold max_size. rewrite fold_max_list_max, Nat.max_0_l, map_map. simpl.
  assert (A : forall s, In s X -> (ts_size (N:=Xnum) s <= sz)%nat).
  { intros s Hs. etransitivity; [apply ts_size_le|]. destruct HS as [_ R]. destruct (R s Hs) as [-> _]. lia. }
  assert (B : (sz <= ts_size (N:=Xnum) (nth i X []))%nat).
  { destruct sz as [|sz']; [lia|]. apply (inside_iff n (S sz') d X i sz' HS Hi). exists sz', k. replace (S sz' - 1)%nat with sz' in E by lia. auto. }
  apply Nat.le_antisymm.
  - clear B. assert (G : forall l, (forall s, In s l -> In s X) -> (list_max (map (fun s => ts_size (N:=Xnum) s) l) <= sz)%nat).
    { induction l as [|s l IH]; intros Hl; simpl; [lia|]. apply Nat.max_lub; [apply A; apply Hl; left; auto|apply IH; intros; apply Hl; right; auto]. }
    apply G. auto.
  - etransitivity; [exact B|]. apply list_max_ge. apply in_map_iff. exists (nth i X []). split; auto. apply nth_In. destruct HS as [-> _]. auto.
Qed.
Lemma nth_skipn' {A} k (s : list A) j x : nth j (skipn k s) x = nth (k + j) s x.
Proof. revert s. induction k; intros s; simpl; auto. destruct s; simpl; auto. destruct j; auto. Qed.
Lemma nth_repeat' {A} (x : A) d q : nth q (repeat x d) x = x.
Proof. revert q. induction d; intros [|q]; simpl; auto. Qed.
Lemma repad (s : series Xnum) d m : length s = m -> (forall r, In r s -> length r = d) ->
  to_time_series (N:=Xnum) true (Raw2 s) ++ repeat (repeat XNaN d) (m - length (to_time_series (N:=Xnum) true (Raw2 s))) = s.
Proof.
  intros L R. unfold to_time_series, reshape. set (k := ts_size s). assert (Hk : (k <= length s)%nat) by apply ts_size_le.
  rewrite firstn_length_le by auto. transitivity (firstn k s ++ skipn k s); [|apply firstn_skipn]. f_equal.
  assert (Lk : length (skipn k s) = (m - k)%nat) by (rewrite skipn_length; lia). rewrite <- Lk.
  assert (G : forall r, In r (skipn k s) -> r = repeat XNaN d).
  { intros r Hr. destruct (In_nth _ _ [] Hr) as (j & Hj & E). 
    assert (En : nth (k + j) s [] = r).
    { rewrite <- E. symmetry. apply nth_skipn'. }
    assert (Hin : In r s) by (rewrite <- (firstn_skipn k s); apply in_or_app; auto).
    destruct (nan_row (N:=Xnum) r) eqn:Er.
    - pose proof (R r Hin) as Lr. apply nth_ext with (d := XNaN) (d' := XNaN); [rewrite repeat_length; auto|].
      intros q Hq. refine (eq_trans (proj1 (nan_row_iff r) Er q Hq) _). symmetry. apply nth_repeat'.
    - exfalso. assert (k + j < k)%nat; [|lia]. apply ts_size_iff. exists (k + j)%nat. rewrite skipn_length in Hj. split; [lia|]. rewrite En. auto. }
  clear - G. induction (skipn k s) as [|r l IH]; simpl; auto. f_equal; [symmetry; apply G; left; auto|]. apply IH. intros; apply G; right; auto.
Qed.
Lemma variable_length_tight n sz d X : (0 < sz)%nat -> tight n sz d X -> variable_length X = Ok X.
Proof.
  intros Hsz HT. pose proof (max_size_tight n sz d X HT) as M. destruct HT as [[L R] _]. unfold variable_length. rewrite (to_dataset_ok Xnum d).
  - f_equal. rewrite M. rewrite map_map. rewrite <- (map_id X) at 2. apply map_ext_in. intros s Hs. apply repad; apply R; auto.
  - intros x Hx. apply in_map_iff in Hx. destruct Hx as (s & <- & Hs). destruct (R s Hs) as [Ls Rs]. split.
    + unfold raw_ncols, ncols. destruct s as [|r s]; [simpl in Ls; lia|]. apply Rs. left; auto.
    + apply Forall_forall. exact Rs.
Qed.

(** ** from columns to the array *)
Lemma impute_col_len m c c' : impute_col m c = Ok c' -> length c' = length c.
Proof.
  destruct m; simpl; intros E; try discriminate; try (injection E as <-; unfold fill_with, ffill_col, bfill_col; rewrite ?map_length, ?mapi_len; auto; fail).
  unfold linear_col in E. destruct (observed_at c); [discriminate|]. injection E as <-. apply mapi_len.
Qed.
Lemma mapM_nth {A B} (f : A -> res B) l vs i a b : mapM f l = Ok vs -> (i < length l)%nat -> f (nth i l a) = Ok (nth i vs b).
Proof.
  intros E. apply mapM_spec in E. revert i. induction E as [|x y l vs H E IH]; intros i Hi; simpl in Hi; [lia|].
  destruct i as [|i]; simpl; auto. apply IH. lia.
Qed.
Lemma mapM_len {A B} (f : A -> res B) l vs : mapM f l = Ok vs -> length vs = length l.
Proof. intros E. apply mapM_spec, Forall2_len in E. auto. Qed.
Lemma of_columns_nth n0 cols t k : (t < n0)%nat -> (k < length cols)%nat ->
  nth k (nth t (of_columns n0 cols) []) XNaN = nth t (nth k cols []) XNaN.
Proof.
  intros Ht Hk. unfold of_columns. rewrite map_seq_nth by auto. simpl.
  rewrite nth_indep with (d' := (fun c => nth t c XNaN) []) by (rewrite map_length; auto).
  apply (map_nth (fun c => nth t c XNaN)).
Qed.
Definition stop (keep : bool) (s : series Xnum) : nat := if keep then ts_size (N:=Xnum) s else length s.
Lemma impute_series_spec m keep d s y : (forall r, In r s -> length r = d) -> impute_series m keep d s = Ok y ->
  length y = length s /\ (forall r, In r y -> length r = d) /\
  forall k, (k < d)%nat -> exists c, impute_col m (column k (firstn (stop keep s) s)) = Ok c /\ length c = stop keep s /\
    forall t, (t < length s)%nat -> nth k (nth t y []) XNaN = if (t <? stop keep s)%nat then nth t c XNaN else nth k (nth t s []) XNaN.
Proof.
  intros R E.
  assert (Hst : (stop keep s <= length s)%nat) by (destruct keep; simpl; [apply ts_size_le|lia]).
  assert (E' : exists a, impute_ts m d (firstn (stop keep s) s) = Ok a /\ y = a ++ skipn (stop keep s) s).
  { unfold impute_series in E. destruct keep; simpl in *.
    - destruct (impute_ts m d (firstn (ts_size (N:=Xnum) s) s)) as [a|] eqn:Ea; [|discriminate]. simpl in E. injection E as <-. eauto.
    - rewrite firstn_all, skipn_all. exists y. rewrite app_nil_r. auto. }
  destruct E' as (a & Ea & ->). clear E. set (q := stop keep s) in *. unfold impute_ts in Ea.
  destruct (mapM (fun k => impute_col m (column k (firstn q s))) (seq 0 d)) as [cols|] eqn:Ec; [|discriminate]. cbn [bind] in Ea.
  rewrite firstn_length_le in Ea by auto. injection Ea as <-.
  pose proof (mapM_len _ _ _ Ec) as Lc. rewrite seq_length in Lc.
  assert (La : length (of_columns q cols) = q) by (unfold of_columns; rewrite map_length, seq_length; auto).
  split; [|split].
  - rewrite app_length, La, skipn_length. lia.
  - intros r Hr. apply in_app_iff in Hr. destruct Hr as [Hr|Hr].
    + unfold of_columns in Hr. apply in_map_iff in Hr. destruct Hr as (t & <- & _). etransitivity; [apply map_length|]. exact Lc.
    + apply R. rewrite <- (firstn_skipn q s). apply in_or_app. auto.
  - intros k Hk. exists (nth k cols []). pose proof (mapM_nth _ _ _ k 0%nat [] Ec) as K. rewrite seq_length, seq_nth in K by auto.
    specialize (K Hk). simpl in K. split; auto. split.
    + rewrite (impute_col_len _ _ _ K). unfold column. rewrite map_length. apply firstn_length_le. auto.
    + intros t Ht. destruct (Nat.ltb_spec t q) as [Hq|Hq].
      * rewrite app_nth1 by (norm; lia). apply of_columns_nth; auto. rewrite Lc. auto.
      * rewrite app_nth2 by (norm; lia). norm. rewrite La.
        rewrite <- (firstn_skipn q s) at 2. rewrite app_nth2 by (rewrite firstn_length_le; auto). rewrite firstn_length_le by auto. reflexivity.
Qed.
(** feature [k] of the part of series [i] that is processed *)
Definition part (keep : bool) (X : array3) (i k : nat) : list xr :=
  column k (firstn (stop keep (nth i X [])) (nth i X [])).
Lemma part_len n sz d keep X i k : shape3 n sz d X -> (i < n)%nat ->
  length (part keep X i k) = stop keep (nth i X []) /\ (stop keep (nth i X []) <= sz)%nat.
Proof.
  intros HS Hi. destruct (shape_series n sz d X i HS Hi) as [L _]. norm.
  assert (Hst : (stop keep (nth i X []) <= sz)%nat) by (rewrite <- L; destruct keep; simpl; [apply ts_size_le|lia]).
  split; auto. unfold part, column. rewrite map_length. apply firstn_length_le. norm. lia.
Qed.
Lemma part_nth n sz d keep X i k t : shape3 n sz d X -> (i < n)%nat -> (t < stop keep (nth i X []))%nat ->
  nth t (part keep X i k) XNaN = entry3 X i t k.
Proof.
  intros HS Hi Ht. destruct (part_len n sz d keep X i k HS Hi) as [L1 L2]. unfold part, column, entry3 in *.
  set (s := nth i X []) in *. set (q := stop keep s) in *.
  rewrite nth_indep with (d' := (fun r => nth k r XNaN) []) by (norm; lia). rewrite (map_nth (fun r => nth k r XNaN)).
  f_equal. rewrite <- (firstn_skipn q s) at 2. rewrite app_nth1; auto. rewrite map_length in L1. norm. lia.
Qed.
Lemma inside_stop n sz d keep X i t : shape3 n sz d X -> (i < n)%nat -> (t < sz)%nat ->
  (t < stop keep (nth i X []))%nat <-> inside keep sz d X i t.
Proof.
  intros HS Hi Ht. unfold inside. destruct (shape_series n sz d X i HS Hi) as [L _]. destruct keep; simpl.
  - rewrite (inside_iff n sz d) by auto. tauto.
  - norm. rewrite L. split; [congruence|auto].
Qed.
Lemma impute_core m keep n sz d X Z : (0 < n)%nat -> (0 < sz)%nat -> tight n sz d X -> mapM (impute_series m keep d) X = Ok Z ->
  (forall c c' t, impute_col m c = Ok c' -> (t < length c)%nat -> nth t c XNaN <> XNaN -> nth t c' XNaN = nth t c XNaN) ->
  tight n sz d Z /\
  forall i k, (i < n)%nat -> (k < d)%nat -> exists c, impute_col m (part keep X i k) = Ok c /\
    length c = stop keep (nth i X []) /\
    forall t, (t < sz)%nat -> entry3 Z i t k = if (t <? stop keep (nth i X []))%nat then nth t c XNaN else entry3 X i t k.
Proof.
  intros Hn Hsz HT EZ Hkeep. pose proof HT as [HS (i0 & k0 & Hi0 & Hk0 & E0)].
  pose proof (mapM_len _ _ _ EZ) as LZ. destruct HS as [LX RX]. pose proof (conj LX RX : shape3 n sz d X) as HS.
  assert (SP : forall i, (i < n)%nat -> length (nth i Z []) = sz /\ (forall r, In r (nth i Z []) -> length r = d) /\
    forall k, (k < d)%nat -> exists c, impute_col m (part keep X i k) = Ok c /\ length c = stop keep (nth i X []) /\
    forall t, (t < sz)%nat -> entry3 Z i t k = if (t <? stop keep (nth i X []))%nat then nth t c XNaN else entry3 X i t k).
  { intros i Hi. pose proof (mapM_nth _ _ _ i [] [] EZ ltac:(norm; lia)) as K. destruct (shape_series n sz d X i HS Hi) as [L R].
    destruct (impute_series_spec _ _ _ _ _ R K) as (A & B & C). norm. rewrite L in A, C. split; auto. }
  assert (HZ : shape3 n sz d Z).
  { split; [norm; lia|]. intros s Hs. destruct (In_nth _ _ [] Hs) as (i & Hi & <-). destruct (SP i ltac:(norm; lia)) as (A & B & _). auto. }
  split; [|intros i k Hi Hk; destruct (SP i Hi) as (_ & _ & C); apply C; auto].
  split; auto. exists i0, k0. do 2 (split; auto). destruct (SP i0 Hi0) as (_ & _ & C). destruct (C k0 Hk0) as (c & Ec & Lc & Hc).
  rewrite (Hc (sz - 1)%nat) by lia. destruct (Nat.ltb_spec (sz - 1) (stop keep (nth i0 X []))) as [Hl|Hl]; auto.
  destruct (part_len n sz d keep X i0 k0 HS Hi0) as [L1 _].
  rewrite (Hkeep _ _ (sz - 1)%nat Ec); rewrite ?(part_nth n sz d) by auto; auto. norm. lia.
Qed.
Lemma impute_unfold m keep n sz d X : (0 < n)%nat -> (0 < sz)%nat -> tight n sz d X ->
  impute m keep d X = match m with Unknown => Err ValueError
                      | _ => do Y <- mapM (impute_series m keep d) X ;; variable_length Y end.
Proof.
  intros Hn Hsz HT. unfold impute. rewrite (variable_length_tight n sz d X Hsz HT). cbn [bind]. destruct HT as [HS _].
  unfold check_features. rewrite (arr_d_shape n sz d X HS Hn Hsz), Nat.eqb_refl. cbn [bind].
  rewrite (arr_d_shape n sz d X HS Hn Hsz). reflexivity.
Qed.
Lemma impute_spec m keep n sz d X Y : (0 < n)%nat -> (0 < sz)%nat -> tight n sz d X -> impute m keep d X = Ok Y ->
  (forall c c' t, impute_col m c = Ok c' -> (t < length c)%nat -> nth t c XNaN <> XNaN -> nth t c' XNaN = nth t c XNaN) ->
  shape3 n sz d Y /\
  forall i k, (i < n)%nat -> (k < d)%nat -> exists c, impute_col m (part keep X i k) = Ok c /\
    length c = stop keep (nth i X []) /\
    forall t, (t < sz)%nat -> entry3 Y i t k = if (t <? stop keep (nth i X []))%nat then nth t c XNaN else entry3 X i t k.
Proof.
  intros Hn Hsz HT E Hkeep. rewrite (impute_unfold m keep n sz d X Hn Hsz HT) in E.
  assert (E1 : exists Z, mapM (impute_series m keep d) X = Ok Z /\ variable_length Z = Ok Y).
  { destruct m; try discriminate; (destruct (mapM _ X) as [Z|] eqn:EZ; [|discriminate]; exists Z; split; [reflexivity|exact E]). }
  destruct E1 as (Z & EZ & EY). destruct (impute_core m keep n sz d X Z Hn Hsz HT EZ Hkeep) as [TZ C].
  rewrite (variable_length_tight n sz d Z Hsz TZ) in EY.
  apply (f_equal (fun r => match r with Ok y => y | _ => [] end)) in EY. cbv beta iota in EY. subst Y. split; auto. apply TZ.
Qed.
Lemma fill_with_nth v c t : (t < length c)%nat -> nth t (fill_with v c) XNaN = if xisnan (nth t c XNaN) then v else nth t c XNaN.
Proof.
  intros H. unfold fill_with. rewrite nth_indep with (d' := (fun x => if xisnan x then v else x) XNaN) by (rewrite map_length; auto).
  apply (map_nth (fun x => if xisnan x then v else x)).
Qed.
Lemma impute_col_keeps m c c' t : impute_col m c = Ok c' -> (t < length c)%nat -> nth t c XNaN <> XNaN -> nth t c' XNaN = nth t c XNaN.
Proof.
  intros E Ht Hx. apply xisnan_false in Hx.
  destruct m; simpl in E; try discriminate; try (injection E as <-; rewrite fill_with_nth by auto; rewrite Hx; auto; fail).
  - unfold linear_col in E. destruct (observed_at c); [discriminate|]. injection E as <-. rewrite (mapi_nth _ c t XNaN) by auto. rewrite Hx. auto.
  - injection E as <-. unfold ffill_col. rewrite (mapi_nth _ c t XNaN) by auto. rewrite Hx. auto.
  - injection E as <-. unfold bfill_col. rewrite (mapi_nth _ c t XNaN) by auto. rewrite Hx. auto.
Qed.

(** ** C47 *)
(** Whatever the method, observed values are left alone, the shape is kept, and with
    [keep_trailing_nans] the padding stays. *)
Theorem C47_observed_unchanged : forall m keep n sz d X Y, (0 < n)%nat -> (0 < sz)%nat -> tight n sz d X ->
  impute m keep d X = Ok Y ->
  shape3 n sz d Y /\
  forall i t k, (i < n)%nat -> (t < sz)%nat -> (k < d)%nat ->
    entry3 X i t k <> XNaN \/ ~ inside keep sz d X i t -> entry3 Y i t k = entry3 X i t k.
Proof.
  intros m keep n sz d X Y Hn Hsz HT E. destruct (impute_spec m keep n sz d X Y Hn Hsz HT E (impute_col_keeps m)) as [HY H].
  split; auto. intros i t k Hi Ht Hk Hx. destruct HT as [HS _]. destruct (H i k Hi Hk) as (c & Ec & Lc & Hc). rewrite Hc by auto.
  destruct (Nat.ltb_spec t (stop keep (nth i X []))) as [Hl|Hl]; auto.
  rewrite <- (inside_stop n sz d) in Hx by auto. destruct Hx as [Hx|Hx]; [|lia].
  rewrite (impute_col_keeps _ _ _ t Ec); rewrite ?(part_nth n sz d) by auto; auto.
  destruct (part_len n sz d keep X i k HS Hi) as [L1 _]. norm. lia.
Qed.
Print Assumptions C47_observed_unchanged.

Lemma list_max_eq l m : In m l -> (forall x, In x l -> (x <= m)%nat) -> list_max l = m.
Proof.
  intros H1 H2. apply Nat.le_antisymm; [|apply list_max_ge; auto].
  clear H1. induction l as [|x l IH]; simpl; [lia|]. apply Nat.max_lub; [apply H2; left; auto|apply IH; intros; apply H2; right; auto].
Qed.
Lemma ffill_idx_spec c t s : (s <= t)%nat -> nth s c XNaN <> XNaN -> (forall u, (s < u <= t)%nat -> nth u c XNaN = XNaN) -> ffill_idx c t = s.
Proof.
  intros Hs Ho Hb. unfold ffill_idx. rewrite fold_max_list_max, Nat.max_0_l. apply list_max_eq.
  - apply in_map_iff. exists s. apply xisnan_false in Ho. rewrite Ho. split; auto. apply in_seq. lia.
  - intros x Hx. apply in_map_iff in Hx. destruct Hx as (u & <- & Hu). apply in_seq in Hu.
    destruct (xisnan (nth u c XNaN)) eqn:Eu; [lia|]. destruct (Nat.le_gt_cases u s); auto. exfalso.
    apply xisnan_false in Eu. apply Eu. apply Hb. lia.
Qed.
Lemma ffill_idx_none c t : (forall u, (u <= t)%nat -> nth u c XNaN = XNaN) -> ffill_idx c t = 0%nat.
Proof.
  intros H. unfold ffill_idx. rewrite fold_max_list_max, Nat.max_0_l. apply list_max_eq.
  - apply in_map_iff. exists 0%nat. rewrite H by lia. split; auto. apply in_seq. lia.
  - intros x Hx. apply in_map_iff in Hx. destruct Hx as (u & <- & Hu). apply in_seq in Hu. rewrite H by lia. auto.
Qed.
Lemma fold_min_eq l a m : (m <= a)%nat -> (forall x, In x l -> (m <= x)%nat) -> m = a \/ In m l -> fold_left Nat.min l a = m.
Proof.
  revert a. induction l as [|x l IH]; intros a Ha H1 H2; simpl.
  - destruct H2 as [H2|[]]. auto.
  - assert (Hx : (m <= x)%nat) by (apply H1; left; auto). apply IH; [lia|intros; apply H1; right; auto|].
    destruct H2 as [H2|[H2|H2]]; [left; lia|left; lia|auto].
Qed.
Lemma bfill_idx_spec c t s : (t <= s < length c)%nat -> nth s c XNaN <> XNaN -> (forall u, (t <= u < s)%nat -> nth u c XNaN = XNaN) -> bfill_idx c t = s.
Proof.
  intros Hs Ho Hb. unfold bfill_idx. apply fold_min_eq; [lia| |].
  - intros x Hx. apply in_map_iff in Hx. destruct Hx as (u & <- & Hu). apply in_rev in Hu. apply in_seq in Hu.
    destruct (xisnan (nth u c XNaN)) eqn:Eu; [lia|]. destruct (Nat.le_gt_cases s u); auto. exfalso.
    apply xisnan_false in Eu. apply Eu. apply Hb. lia.
  - right. apply in_map_iff. exists s. apply xisnan_false in Ho. rewrite Ho. split; auto. apply -> in_rev. apply in_seq. lia.
Qed.
Lemma bfill_idx_none c t : (t < length c)%nat -> (forall u, (t <= u < length c)%nat -> nth u c XNaN = XNaN) -> bfill_idx c t = (length c - 1)%nat.
Proof.
  intros Ht H. unfold bfill_idx. apply fold_min_eq; auto. intros x Hx. apply in_map_iff in Hx. destruct Hx as (u & <- & Hu). 
  apply in_rev, in_seq in Hu. rewrite H by lia. auto.
Qed.
(** Forward fill: a gap gets the last preceding observation, if there is one. *)
Theorem C47_ffill : forall keep n sz d X Y i t k, (0 < n)%nat -> (0 < sz)%nat -> tight n sz d X ->
  impute Ffill keep d X = Ok Y -> (i < n)%nat -> (t < sz)%nat -> (k < d)%nat ->
  inside keep sz d X i t -> entry3 X i t k = XNaN ->
  (forall s, (s < t)%nat -> entry3 X i s k <> XNaN -> (forall u, (s < u < t)%nat -> entry3 X i u k = XNaN) ->
     entry3 Y i t k = entry3 X i s k) /\
  ((forall s, (s < t)%nat -> entry3 X i s k = XNaN) -> entry3 Y i t k = XNaN).
Proof.
  intros keep n sz d X Y i t k Hn Hsz HT E Hi Ht Hk Hin Hx.
  destruct (impute_spec _ keep n sz d X Y Hn Hsz HT E (impute_col_keeps _)) as [_ H]. destruct HT as [HS _].
  apply (inside_stop n sz d) in Hin; auto. destruct (H i k Hi Hk) as (c & Ec & _ & Hc). rewrite Hc by auto.
  destruct (Nat.ltb_spec t (stop keep (nth i X []))); [|lia]. simpl in Ec. injection Ec as <-.
  destruct (part_len n sz d keep X i k HS Hi) as [L1 _]. unfold ffill_col.
  assert (PN : forall s, (s <= t)%nat -> nth s (part keep X i k) XNaN = entry3 X i s k) by (intros; apply (part_nth n sz d); auto; lia).
  rewrite (mapi_nth _ _ t XNaN) by (norm; lia). rewrite (PN t) by lia. rewrite Hx. simpl xisnan. cbv iota. split.
  - intros s Hs Ho Hb. rewrite (ffill_idx_spec _ t s); [apply PN; lia|lia|rewrite PN by lia; auto|].
    intros u Hu. rewrite PN by lia. destruct (Nat.eq_dec u t) as [->|]; auto. apply Hb. lia.
  - intros Hall. rewrite ffill_idx_none.
    + rewrite PN by lia. destruct t; auto. apply Hall. lia.
    + intros u Hu. rewrite PN by lia. destruct (Nat.eq_dec u t) as [->|]; auto. apply Hall. lia.
Qed.
Print Assumptions C47_ffill.
(** Backward fill: the next following observation. *)
Theorem C47_bfill : forall keep n sz d X Y i t k, (0 < n)%nat -> (0 < sz)%nat -> tight n sz d X ->
  impute Bfill keep d X = Ok Y -> (i < n)%nat -> (t < sz)%nat -> (k < d)%nat ->
  inside keep sz d X i t -> entry3 X i t k = XNaN ->
  (forall s, (t < s < sz)%nat -> entry3 X i s k <> XNaN -> (forall u, (t < u < s)%nat -> entry3 X i u k = XNaN) ->
     entry3 Y i t k = entry3 X i s k) /\
  ((forall s, (t < s < sz)%nat -> entry3 X i s k = XNaN) -> entry3 Y i t k = XNaN).
Proof.
  intros keep n sz d X Y i t k Hn Hsz HT E Hi Ht Hk Hin Hx.
  destruct (impute_spec _ keep n sz d X Y Hn Hsz HT E (impute_col_keeps _)) as [_ H]. destruct HT as [HS _].
  apply (inside_stop n sz d) in Hin; auto. destruct (H i k Hi Hk) as (c & Ec & _ & Hc). rewrite Hc by auto.
  destruct (Nat.ltb_spec t (stop keep (nth i X []))); [|lia]. simpl in Ec. injection Ec as <-.
  destruct (part_len n sz d keep X i k HS Hi) as [L1 L2]. unfold bfill_col.
  assert (PN : forall s, (s < stop keep (nth i X []))%nat -> nth s (part keep X i k) XNaN = entry3 X i s k) by (intros; apply (part_nth n sz d); auto; lia).
  rewrite (mapi_nth _ _ t XNaN) by (norm; lia). rewrite (PN t) by lia. rewrite Hx. simpl xisnan. cbv iota. split.
  - intros s Hs Ho Hb.
    assert (Hss : (s < stop keep (nth i X []))%nat).
    { apply (inside_stop n sz d); auto; [lia|]. intros _. exists s, k. repeat split; auto; lia. }
    rewrite (bfill_idx_spec _ t s); [apply PN; lia|norm; lia|rewrite PN by lia; auto|].
    intros u Hu. rewrite PN by lia. destruct (Nat.eq_dec u t) as [->|]; auto. apply Hb. lia.
  - intros Hall.
    assert (Z : forall u, (t <= u < length (part keep X i k))%nat -> nth u (part keep X i k) XNaN = XNaN).
    { intros u Hu. norm. rewrite PN by lia. destruct (Nat.eq_dec u t) as [->|]; auto. apply Hall. lia. }
    rewrite bfill_idx_none; auto; [|norm; lia]. apply Z. norm. lia.
Qed.
Print Assumptions C47_bfill.

(** *** constant, mean, median *)
Lemma part_values keep n sz d X i k : shape3 n sz d X -> (i < n)%nat -> (k < d)%nat ->
  numbers (part keep X i k) = values sz X i k.
Proof.
  intros HS Hi Hk. destruct (part_len n sz d keep X i k HS Hi) as [L1 L2]. set (q := stop keep (nth i X [])) in *.
  unfold values. replace sz with (q + (sz - q))%nat by lia. rewrite seq_app, map_app. unfold numbers. rewrite flat_map_app.
  transitivity (numbers (map (fun t => entry3 X i t k) (seq 0 q)) ++ []).
  - rewrite app_nil_r. unfold numbers. f_equal. rewrite (list_nth_seq (part keep X i k) XNaN). norm. rewrite L1.
    apply map_ext_in. intros t Ht. apply in_seq in Ht. apply (part_nth n sz d); auto. change (t < q)%nat. lia.
  - unfold numbers. f_equal. simpl. symmetry.
    assert (G : forall t, In t (seq q (sz - q)) -> entry3 X i t k = XNaN).
    { intros t Ht. apply in_seq in Ht. destruct (xisnan (entry3 X i t k)) eqn:E; [apply xisnan_iff; auto|]. apply xisnan_false in E.
      exfalso. assert (t < q)%nat; [|lia]. apply (inside_stop n sz d); auto; [lia|]. intros _. exists t, k. repeat split; auto; lia. }
    induction (seq q (sz - q)) as [|t l IH]; simpl; auto. rewrite (G t) by (left; auto). apply IH. intros; apply G; right; auto.
Qed.
Lemma part_plain keep n sz d X i k : shape3 n sz d X -> numeric X -> (i < n)%nat -> (k < d)%nat -> plain (part keep X i k).
Proof.
  intros HS HN Hi Hk x Hx. destruct (part_len n sz d keep X i k HS Hi) as [L1 L2]. destruct (In_nth _ _ XNaN Hx) as (t & Ht & <-).
  norm. rewrite L1 in Ht. rewrite (part_nth n sz d) by auto. apply (entry_numeric n sz d); auto. lia.
Qed.
Fixpoint rinsert (x : R) (l : list R) : list R :=
  match l with [] => [x] | y :: l' => if Rleb x y then x :: l else y :: rinsert x l' end.
Definition rsort (l : list R) : list R := fold_right rinsert [] l.
Lemma xsort_reals l : xsort (map XR l) = map XR (rsort l).
Proof.
  induction l as [|x l IH]; simpl; auto. unfold xsort in *. rewrite IH. clear IH. induction (rsort l) as [|y s IH]; simpl; auto.
  destruct (Rleb x y); simpl; auto. f_equal. auto.
Qed.
Lemma rinsert_perm x l : Permutation (x :: l) (rinsert x l).
Proof. induction l as [|y l IH]; simpl; auto. destruct (Rleb x y); auto. rewrite perm_swap. constructor. auto. Qed.
Lemma rsort_perm l : Permutation l (rsort l).
Proof. induction l as [|x l IH]; simpl; auto. rewrite <- rinsert_perm. constructor. auto. Qed.
Lemma rinsert_sorted x l : Sorted Rle l -> Sorted Rle (rinsert x l).
Proof.
  induction l as [|y l IH]; intros H; simpl; [repeat constructor|]. destruct (Rleb x y) eqn:E.
  - apply Rleb_true in E. constructor; auto.
  - apply Rleb_false in E. inversion H as [|? ? H1 H2]; subst. constructor; auto. destruct l as [|z l]; simpl.
    + constructor. lra.
    + inversion H2; subst. destruct (Rleb x z); constructor; lra.
Qed.
Lemma rsort_sorted l : Sorted Rle (rsort l).
Proof. induction l; simpl; [constructor|]. apply rinsert_sorted. auto. Qed.
Lemma nanmedian_numbers l : plain l -> numbers l <> [] -> exists m, nanmedian l = XR m /\ is_median (numbers l) m.
Proof.
  intros P Hne. unfold nanmedian. rewrite (not_nan_numbers l P), xsort_reals, map_length. set (s := rsort (numbers l)).
  assert (Hs : (0 < length s)%nat).
  { unfold s. rewrite <- (Permutation_length (rsort_perm (numbers l))). destruct (numbers l); [congruence|simpl; lia]. }
  destruct (Nat.eqb_spec (length s) 0); [lia|].
  assert (Hh : (length s / 2 < length s)%nat) by (apply Nat.div_lt; lia).
  rewrite !nth_XR by lia. eexists. split.
  - instantiate (1 := if Nat.even (length s) then (nth (length s / 2 - 1) s 0 + nth (length s / 2) s 0) / 2 else nth (length s / 2) s 0).
    destruct (Nat.even (length s)).
    + change [XR (nth (length s / 2 - 1) s 0); XR (nth (length s / 2) s 0)] with (map XR [nth (length s / 2 - 1) s 0; nth (length s / 2) s 0]).
      rewrite xmean_reals by discriminate. f_equal. simpl. lra.
    + change [XR (nth (length s / 2) s 0)] with (map XR [nth (length s / 2) s 0]). rewrite xmean_reals by discriminate. f_equal. simpl. lra.
  - exists s. split; [apply rsort_perm|]. split; [apply rsort_sorted|]. auto.
Qed.
Lemma nanmedian_none l : plain l -> numbers l = [] -> nanmedian l = XNaN.
Proof. intros P E. unfold nanmedian. rewrite (not_nan_numbers l P), E. reflexivity. Qed.
(** A gap is filled with the constant, or with the mean or the median of the
    observations of that feature; with no observation it stays a gap. *)
Theorem C47_fill : forall m keep n sz d X Y i t k, (0 < n)%nat -> (0 < sz)%nat -> tight n sz d X -> numeric X ->
  impute m keep d X = Ok Y -> (i < n)%nat -> (t < sz)%nat -> (k < d)%nat ->
  inside keep sz d X i t -> entry3 X i t k = XNaN ->
  match m with
  | Constant v => entry3 Y i t k = v
  | Mean => (values sz X i k <> [] -> entry3 Y i t k = XR (mean (values sz X i k))) /\
            (values sz X i k = [] -> entry3 Y i t k = XNaN)
  | Median => (values sz X i k <> [] -> exists v, entry3 Y i t k = XR v /\ is_median (values sz X i k) v) /\
              (values sz X i k = [] -> entry3 Y i t k = XNaN)
  | _ => True
  end.
Proof.
  intros m keep n sz d X Y i t k Hn Hsz HT HN E Hi Ht Hk Hin Hx.
  destruct (impute_spec _ keep n sz d X Y Hn Hsz HT E (impute_col_keeps _)) as [_ H]. destruct HT as [HS _].
  apply (inside_stop n sz d) in Hin; auto. destruct (H i k Hi Hk) as (c & Ec & _ & Hc). rewrite Hc by auto.
  destruct (Nat.ltb_spec t (stop keep (nth i X []))); [|lia].
  destruct (part_len n sz d keep X i k HS Hi) as [L1 L2].
  assert (PT : nth t (part keep X i k) XNaN = XNaN) by (rewrite (part_nth n sz d) by auto; auto).
  assert (FW : forall v, nth t (fill_with v (part keep X i k)) XNaN = v).
  { intros v. rewrite fill_with_nth by (norm; lia). rewrite PT. reflexivity. }
  pose proof (part_plain keep n sz d X i k HS HN Hi Hk) as PP. pose proof (part_values keep n sz d X i k HS Hi Hk) as PV.
  destruct m; auto; simpl in Ec; injection Ec as <-; rewrite FW; auto.
  - rewrite (nanmean_numbers _ PP), PV. split; intros Hv.
    + destruct (values sz X i k); [congruence|reflexivity].
    + rewrite Hv. reflexivity.
  - split; intros Hv.
    + rewrite <- PV in *. apply nanmedian_numbers; auto.
    + apply nanmedian_none; auto. rewrite PV. auto.
Qed.
Print Assumptions C47_fill.

(** *** linear *)
Lemma observed_in c s : In s (observed_at c) <-> (s < length c)%nat /\ nth s c XNaN <> XNaN.
Proof. unfold observed_at. rewrite filter_In, in_seq, negb_true_iff, xisnan_false. split; intros []; split; auto; lia. Qed.
(** number of observations before position [p] *)
Definition before (c : list xr) (p : nat) : nat := length (filter (fun t => negb (xisnan (nth t c XNaN))) (seq 0 p)).
Lemma before_S c p : before c (S p) = (before c p + (if xisnan (nth p c XNaN) then 0 else 1))%nat.
Proof. unfold before. rewrite seq_S, filter_app, app_length. simpl. destruct (xisnan (nth p c XNaN)); simpl; lia. Qed.
Lemma before_mono c p q : (p <= q)%nat -> (before c p <= before c q)%nat.
Proof. induction 1; auto. rewrite before_S. lia. Qed.
Lemma before_gap c p q : (p <= q)%nat -> (forall u, (p <= u < q)%nat -> nth u c XNaN = XNaN) -> before c q = before c p.
Proof.
  induction 1 as [|q Hq IH]; auto. intros H. rewrite before_S, IH by (intros; apply H; lia). rewrite (H q) by lia. simpl. lia.
Qed.
Lemma observed_nth c s : (s < length c)%nat -> nth s c XNaN <> XNaN ->
  nth (before c s) (observed_at c) 0%nat = s /\ nth (before c s) (not_nan c) XNaN = nth s c XNaN.
Proof.
  intros Hs Ho. apply xisnan_false in Ho. unfold observed_at, before. 
  assert (G1 : filter (fun t => negb (xisnan (nth t c XNaN))) (seq 0 (length c)) =
    filter (fun t => negb (xisnan (nth t c XNaN))) (seq 0 s) ++ s :: filter (fun t => negb (xisnan (nth t c XNaN))) (seq (S s) (length c - S s))).
  { replace (length c) with (s + S (length c - S s))%nat at 1 by lia. rewrite seq_app, filter_app. f_equal. simpl. rewrite Ho. reflexivity. }
  split.
  - rewrite G1. rewrite app_nth2, Nat.sub_diag by lia. reflexivity.
  - assert (G2 : not_nan c = map (fun t => nth t c XNaN) (filter (fun t => negb (xisnan (nth t c XNaN))) (seq 0 (length c)))).
    { unfold not_nan. rewrite (list_nth_seq c XNaN) at 1. generalize (seq 0 (length c)). induction l as [|t l IH]; simpl; auto.
      destruct (negb (xisnan (nth t c XNaN))); simpl; rewrite IH; auto. }
    rewrite G2, G1, map_app. rewrite app_nth2; rewrite map_length; [|lia]. rewrite Nat.sub_diag. reflexivity.
Qed.
Lemma count_le_obs c t : count_le (INR t) (map INR (observed_at c)) = before c (Nat.min (S t) (length c)).
Proof.
  unfold count_le, before, observed_at.
  assert (G : forall f n0, length (filter (fun a => Rleb a (INR t)) (map INR (filter f (seq 0 n0)))) = length (filter f (seq 0 (Nat.min (S t) n0)))).
  { intros f. induction n0 as [|n0 IH]; auto. rewrite seq_S, filter_app, map_app, filter_app, app_length, IH. change (0 + n0)%nat with n0. cbn [filter].
    destruct (Nat.le_gt_cases (S t) n0) as [Hc|Hc].
    - replace (Nat.min (S t) n0) with (S t) by lia. replace (Nat.min (S t) (S n0)) with (S t) by lia. destruct (f n0); cbn [map filter length]; [|lia].
      replace (Rleb (INR n0) (INR t)) with false; [simpl; lia|]. symmetry. apply Rleb_false. apply lt_INR. lia.
    - replace (Nat.min (S t) n0) with n0 by lia. replace (Nat.min (S t) (S n0)) with (S n0) by lia. rewrite seq_S, filter_app, app_length. change (0 + n0)%nat with n0. cbn [filter].
      destruct (f n0); cbn [map filter length]; [|lia]. replace (Rleb (INR n0) (INR t)) with true; [simpl; lia|]. symmetry. apply Rleb_true. apply le_INR. lia. }
  apply G.
Qed.
Lemma observed_len c : length (observed_at c) = before c (length c). Proof. reflexivity. Qed.
Lemma linear_gap c t p q a b : (p < t < q)%nat -> (q < length c)%nat -> nth p c XNaN = XR a -> nth q c XNaN = XR b ->
  (forall u, (p < u < q)%nat -> nth u c XNaN = XNaN) ->
  interp1 (map INR (observed_at c)) (not_nan c) (INR t) = XR (a + (b - a) * (INR t - INR p) / (INR q - INR p)).
Proof.
  intros Ht Hq Ep Eq Hb. unfold interp1. rewrite count_le_obs, map_length, observed_len. replace (Nat.min (S t) (length c)) with (S t) by lia.
  assert (E1 : before c (S t) = S (before c p)).
  { rewrite (before_gap c (S p) (S t)) by (try lia; intros; apply Hb; lia). rewrite before_S, Ep. simpl. lia. }
  assert (E2 : before c q = S (before c p)).
  { rewrite (before_gap c (S p) q) by (try lia; intros; apply Hb; lia). rewrite before_S, Ep. simpl. lia. }
  assert (E3 : (S (before c p) < before c (length c))%nat).
  { pose proof (before_mono c (S q) (length c) ltac:(lia)). rewrite before_S, Eq in H. simpl in H. lia. }
  rewrite E1. change (S (before c p) =? 0)%nat with false. cbv iota. destruct (Nat.eqb_spec (S (before c p)) (before c (length c))); [lia|].
  replace (S (before c p) - 1)%nat with (before c p) by lia. replace (before c p + 1)%nat with (before c q) by lia.
  destruct (observed_nth c p ltac:(lia)) as [O1 O2]; [congruence|]. destruct (observed_nth c q ltac:(lia)) as [O3 O4]; [congruence|].
  rewrite O2, O4, Ep, Eq.
  replace (nth (before c p) (map INR (observed_at c)) 0) with (INR p) by (rewrite <- O1 at 1; symmetry; apply (map_nth INR _ 0%nat)).
  replace (nth (before c q) (map INR (observed_at c)) 0) with (INR q) by (rewrite <- O3 at 1; symmetry; apply (map_nth INR _ 0%nat)).
  assert (INR p < INR t) by (apply lt_INR; lia). assert (INR t < INR q) by (apply lt_INR; lia).
  destruct (Reqb_spec (INR p) (INR t)); [lra|]. unfold xsub. cbn [xadd xopp]. rewrite xdiv_real by lra. cbn [xmul xadd xisnan].
  f_equal. field. lra.
Qed.
Lemma linear_before c t q : (t < q < length c)%nat -> nth q c XNaN <> XNaN ->
  (forall u, (u < q)%nat -> nth u c XNaN = XNaN) ->
  interp1 (map INR (observed_at c)) (not_nan c) (INR t) = nth q c XNaN.
Proof.
  intros Ht Eq Hb. unfold interp1. rewrite count_le_obs. replace (Nat.min (S t) (length c)) with (S t) by lia.
  assert (E0 : forall u, (u <= q)%nat -> before c u = 0%nat).
  { intros u Hu. rewrite (before_gap c 0 u); auto; [lia|]. intros; apply Hb; lia. }
  rewrite E0 by lia. cbn [Nat.eqb]. destruct (observed_nth c q ltac:(lia) Eq) as [_ O]. rewrite E0 in O by lia. exact O.
Qed.
Lemma linear_after c t p : (p < t < length c)%nat -> nth p c XNaN <> XNaN ->
  (forall u, (p < u < length c)%nat -> nth u c XNaN = XNaN) ->
  interp1 (map INR (observed_at c)) (not_nan c) (INR t) = nth p c XNaN.
Proof.
  intros Ht Ep Hb. unfold interp1. rewrite count_le_obs, map_length, observed_len. replace (Nat.min (S t) (length c)) with (S t) by lia.
  pose proof (observed_nth c p ltac:(lia) Ep) as [_ O]. apply xisnan_false in Ep.
  assert (E1 : forall u, (p < u <= length c)%nat -> before c u = S (before c p)).
  { intros u Hu. rewrite (before_gap c (S p) u) by (try lia; intros; apply Hb; lia). rewrite before_S, Ep. lia. }
  rewrite (E1 (S t)), (E1 (length c)) by lia. change (S (before c p) =? 0)%nat with false. cbv iota. rewrite Nat.eqb_refl.
  replace (S (before c p) - 1)%nat with (before c p) by lia. exact O.
Qed.
(** Linear: straight line between the surrounding observations; before the first and
    after the last one, that observation is repeated. *)
Theorem C47_linear : forall keep n sz d X Y i t k, (0 < n)%nat -> (0 < sz)%nat -> tight n sz d X ->
  impute Linear keep d X = Ok Y -> (i < n)%nat -> (t < sz)%nat -> (k < d)%nat ->
  inside keep sz d X i t -> entry3 X i t k = XNaN ->
  (forall p q a b, (p < t < q)%nat -> (q < sz)%nat -> entry3 X i p k = XR a -> entry3 X i q k = XR b ->
     (forall u, (p < u < q)%nat -> entry3 X i u k = XNaN) ->
     entry3 Y i t k = XR (a + (b - a) * (INR t - INR p) / (INR q - INR p))) /\
  (forall q, (t < q < sz)%nat -> entry3 X i q k <> XNaN -> (forall u, (u < q)%nat -> entry3 X i u k = XNaN) ->
     entry3 Y i t k = entry3 X i q k) /\
  (forall p, (p < t)%nat -> entry3 X i p k <> XNaN -> (forall u, (p < u < sz)%nat -> entry3 X i u k = XNaN) ->
     entry3 Y i t k = entry3 X i p k).
Proof.
  intros keep n sz d X Y i t k Hn Hsz HT E Hi Ht Hk Hin Hx.
  destruct (impute_spec _ keep n sz d X Y Hn Hsz HT E (impute_col_keeps _)) as [_ H]. destruct HT as [HS _].
  apply (inside_stop n sz d) in Hin; auto. destruct (H i k Hi Hk) as (c & Ec & _ & Hc). rewrite Hc by auto.
  destruct (Nat.ltb_spec t (stop keep (nth i X []))); [|lia].
  destruct (part_len n sz d keep X i k HS Hi) as [L1 L2].
  assert (PN : forall s, (s < stop keep (nth i X []))%nat -> nth s (part keep X i k) XNaN = entry3 X i s k) by (intros; apply (part_nth n sz d); auto; lia).
  assert (Hss : forall s, (s < sz)%nat -> entry3 X i s k <> XNaN -> (s < stop keep (nth i X []))%nat).
  { intros s Hs Ho. apply (inside_stop n sz d); auto. intros _. exists s, k. repeat split; auto; lia. }
  simpl in Ec. unfold linear_col in Ec. destruct (observed_at (part keep X i k)) as [|o obs] eqn:Eo; [discriminate|]. rewrite <- Eo in Ec. injection Ec as <-.
  rewrite (mapi_nth _ _ t XNaN) by (norm; lia). rewrite PN by auto. rewrite Hx. simpl xisnan. cbv iota.
  split; [|split].
  - intros p q a b Hpq Hq Ep Eq Hb. pose proof (Hss q Hq ltac:(congruence)) as Hqs. apply linear_gap; rewrite ?PN; auto; try lia; norm; try lia.
    intros u Hu. rewrite PN by lia. auto.
  - intros q Hq Eq Hb. pose proof (Hss q ltac:(lia) Eq) as Hqs. rewrite <- PN by auto.
    apply linear_before; rewrite ?PN; auto; try lia; norm; try lia. intros u Hu. rewrite PN by lia. auto.
  - intros p Hp Ep Hb. rewrite <- PN by lia. apply linear_after; rewrite ?PN; auto; try lia; norm; try lia. intros u Hu. rewrite PN by lia. apply Hb. lia.
Qed.
Print Assumptions C47_linear.

(** ** which calls succeed *)
Lemma impute_col_outcome m c : m <> Unknown -> (m = Linear -> exists t, (t < length c)%nat /\ nth t c XNaN <> XNaN) ->
  exists c', impute_col m c = Ok c'.
Proof.
  intros H1 H2. destruct m; simpl; eauto; [|congruence]. destruct (H2 eq_refl) as (t & Ht & E). unfold linear_col.
  destruct (observed_at c) eqn:Eo; eauto. assert (K : In t (observed_at c)) by (apply observed_in; auto). rewrite Eo in K. contradiction.
Qed.
Theorem C47_returns : forall m keep n sz d X, (0 < n)%nat -> (0 < sz)%nat -> tight n sz d X -> m <> Unknown ->
  (m = Linear -> forall i k, (i < n)%nat -> (k < d)%nat -> exists t, (t < sz)%nat /\ entry3 X i t k <> XNaN) ->
  exists Y, impute m keep d X = Ok Y.
Proof.
  intros m keep n sz d X Hn Hsz HT Hm HL. rewrite (impute_unfold m keep n sz d X Hn Hsz HT).
  assert (HS : shape3 n sz d X) by apply HT.
  assert (EM : exists Z, mapM (impute_series m keep d) X = Ok Z).
  { apply mapM_total. intros s Hs. destruct (In_nth _ _ [] Hs) as (i & Hi & Es). destruct HS as [LX RX]. norm; rewrite LX in Hi.
    assert (G : exists a, impute_ts m d (firstn (stop keep s) s) = Ok a).
    { unfold impute_ts. destruct (mapM_total (fun k => impute_col m (column k (firstn (stop keep s) s))) (seq 0 d)) as [cols Ec].
      - intros k Hk. apply in_seq in Hk. apply impute_col_outcome; auto. intros EL. destruct (HL EL i k Hi ltac:(lia)) as (t & Ht & Et).
        assert (Hst : (t < stop keep (nth i X []))%nat).
        { apply (inside_stop n sz d keep X); auto; [split; auto|]. intros _. exists t, k. repeat split; auto; lia. }
        assert (Ep : column k (firstn (stop keep s) s) = part keep X i k) by (unfold part; rewrite <- Es; reflexivity).
        exists t. rewrite Ep, (part_nth n sz d) by (auto; split; auto). split; auto.
        destruct (part_len n sz d keep X i k (conj LX RX) Hi) as [L1 _]. norm. lia.
      - rewrite Ec. cbn [bind]. eauto. }
    destruct G as [a Ea]. unfold impute_series. destruct keep; simpl in *.
    - rewrite Ea. cbn [bind]. eauto.
    - rewrite firstn_all in Ea. eauto. }
  destruct EM as [Z EZ]. exists Z. destruct (impute_core m keep n sz d X Z Hn Hsz HT EZ (impute_col_keeps m)) as [TZ _].
  destruct m; try congruence; rewrite EZ; apply (variable_length_tight n sz d); auto.
Qed.
Print Assumptions C47_returns.
Theorem C47_errors : forall m keep n sz d X, (0 < n)%nat -> (0 < sz)%nat -> tight n sz d X ->
  m = Unknown \/ (m = Linear /\ exists i k, (i < n)%nat /\ (k < d)%nat /\ forall t, (t < sz)%nat -> entry3 X i t k = XNaN) ->
  impute m keep d X = Err ValueError.
Proof.
  intros m keep n sz d X Hn Hsz HT Hm. rewrite (impute_unfold m keep n sz d X Hn Hsz HT).
  assert (HS : shape3 n sz d X) by apply HT. destruct Hm as [->|[-> (i & k & Hi & Hk & H)]]; auto.
  destruct (mapM (impute_series Linear keep d) X) as [Z|e] eqn:EZ.
  - exfalso. destruct (impute_core _ keep n sz d X Z Hn Hsz HT EZ (impute_col_keeps _)) as [_ C].
    destruct (C i k Hi Hk) as (c & Ec & _ & _). simpl in Ec. unfold linear_col in Ec.
    destruct (observed_at (part keep X i k)) as [|o obs] eqn:Eo; [discriminate|].
    assert (K : In o (observed_at (part keep X i k))) by (rewrite Eo; left; auto). apply observed_in in K. destruct K as [K1 K2].
    destruct (part_len n sz d keep X i k HS Hi) as [L1 L2]. norm. rewrite L1 in K1. rewrite (part_nth n sz d) in K2 by auto. apply K2. apply H. lia.
  - cbn [bind]. f_equal. apply mapM_err in EZ. destruct EZ as (s & _ & E).
    assert (G : forall q, impute_ts Linear d q = Err e -> e = ValueError).
    { intros q Eq. unfold impute_ts in Eq. destruct (mapM _ (seq 0 d)) as [|e'] eqn:Em; [discriminate|]. cbn [bind] in Eq.
      apply mapM_err in Em. destruct Em as (k0 & _ & E1). simpl in E1. unfold linear_col in E1. destruct (observed_at _); [|discriminate]. congruence. }
    unfold impute_series in E. destruct keep; [|apply (G _ E)].
    destruct (impute_ts _ _ _) as [|e'] eqn:Ei; [discriminate|]. cbn [bind] in E. apply G with (q := firstn (ts_size s) s). congruence.
Qed.
Print Assumptions C47_errors.

(** ** What the property claims and the code does not do *)
Definition ex_gap : array3 := [[[XR 1; XNaN]; [XNaN; XNaN]; [XR 2; XNaN]]].
Lemma ex_gap_tight : tight 1 3 2 ex_gap.
Proof.
  split.
  - split; auto. intros s [<-|[]]; (split; auto; intros r [<-|[<-|[<-|[]]]]; auto).
  - exists 0%nat, 0%nat. split; [lia|]. split; [lia|]. discriminate.
Qed.
Lemma ex_gap_numeric : numeric ex_gap.
Proof. intros s r x [<-|[]] [<-|[<-|[<-|[]]]] [<-|[<-|[]]]; eauto. Qed.
(** a feature without observation stays missing under every method that does not
    raise, and the default constant is itself missing *)
Theorem C47_every_gap_filled_refuted : forall m, In m [Mean; Median; Ffill; Bfill; Constant XNaN] ->
  exists X Y, tight 1 3 2 X /\ numeric X /\ impute m true 2 X = Ok Y /\
  exists t k, (t < 3)%nat /\ (k < 2)%nat /\ inside true 3 2 X 0 t /\ entry3 X 0 t k = XNaN /\ entry3 Y 0 t k = XNaN.
Proof.
  intros m Hm. destruct (C47_returns m true 1 3 2 ex_gap) as [Y EY]; try lia; [apply ex_gap_tight| | |].
  { intros ->. simpl in Hm. repeat (destruct Hm as [Hm|Hm]; [discriminate|]). contradiction. }
  { intros ->. simpl in Hm. repeat (destruct Hm as [Hm|Hm]; [discriminate|]). contradiction. }
  exists ex_gap, Y. split; [apply ex_gap_tight|]. split; [apply ex_gap_numeric|]. split; auto.
  exists 1%nat, 1%nat. split; [lia|]. split; [lia|].
  assert (HI : inside true 3 2 ex_gap 0 1) by (intros _; exists 2%nat, 0%nat; repeat split; try lia; discriminate).
  split; auto. split; [reflexivity|].
  pose proof (C47_fill m true 1 3 2 ex_gap Y 0 1 1 ltac:(lia) ltac:(lia) ex_gap_tight ex_gap_numeric EY ltac:(lia) ltac:(lia) ltac:(lia) HI eq_refl) as F.
  destruct Hm as [<-|[<-|[<-|[<-|[<-|[]]]]]].
  - apply F. reflexivity.
  - apply F. reflexivity.
  - apply (C47_ffill true 1 3 2 ex_gap Y 0 1 1); auto using ex_gap_tight. intros [|s] Hs; [reflexivity|lia].
  - apply (C47_bfill true 1 3 2 ex_gap Y 0 1 1); auto using ex_gap_tight. intros [|[|[|s]]] Hs; try lia; reflexivity.
  - exact F.
Qed.
Print Assumptions C47_every_gap_filled_refuted.

(** C203: resampling and imputation follow a change of unit and origin. *)
From Coq Require Import Bool List Arith Lia ZArith QArith Reals Lra Sorted Permutation.
From Verif Require Import Num NumLaws Py Series Spec RList SoftModel GakModel RealSeries PropSoft PaaModel PaaThms PropPaa Dataset ValidThms CdistThms
  PreModel PropScale PropScaleMeta PropSaxMeta PropResample PropImpute.
Import ListNotations.
Local Open Scope R_scope.

(** both calls raise the same error, or both return and the results are related *)
Definition alongside {A B} (R : A -> B -> Prop) (r : res A) (r' : res B) : Prop :=
  match r, r' with Ok y, Ok y' => R y y' | Err e, Err e' => e = e' | _, _ => False end.
(** the same method, with the fill value converted too *)
Definition method_converted (a b : nat -> nat -> R) (m m' : impute_method) : Prop :=
  match m with Constant v => forall i k, m' = Constant (aff (a i k) (b i k) v) | _ => m' = m end.

(** ** columns *)
Lemma aff_isnan a b x : xisnan (aff a b x) = xisnan x.
Proof. destruct x; auto. Qed.
Lemma nth_aff a b l t : nth t (map (aff a b) l) XNaN = aff a b (nth t l XNaN).
Proof. change XNaN with (aff a b XNaN) at 1. apply map_nth. Qed.
Lemma plain_nth l t : plain l -> nth t l XNaN = XNaN \/ exists v, nth t l XNaN = XR v.
Proof. intros P. destruct (Nat.lt_ge_cases t (length l)) as [H|H]; [apply P; apply nth_In; auto|left; apply nth_overflow; auto]. Qed.
Lemma not_nan_aff a b l : not_nan (map (aff a b) l) = map (aff a b) (not_nan l).
Proof. unfold not_nan. induction l as [|x l IH]; auto. cbn [map filter]. rewrite aff_isnan, IH. destruct (xisnan x); auto. Qed.
Lemma plain_not_nan l : plain l -> plain (not_nan l).
Proof. intros P x Hx. apply filter_In in Hx. apply P. tauto. Qed.
Lemma interp1_aff a b xp fp x : plain fp -> (forall j, (S j < length xp)%nat -> nth j xp 0 <> nth (S j) xp 0) ->
  interp1 xp (map (aff a b) fp) x = aff a b (interp1 xp fp x).
Proof.
  intros P D. unfold interp1. rewrite !nth_aff. destruct (Nat.eqb_spec (count_le x xp) 0) as [C0|C0]; auto.
  destruct (Nat.eqb_spec (count_le x xp) (length xp)) as [C1|C1]; auto.
  assert (B : (count_le x xp <= length xp)%nat) by (unfold count_le; clear; induction xp as [|y l IH]; simpl; [lia|]; destruct (Rleb y x); simpl; lia).
  set (j := (count_le x xp - 1)%nat) in *. specialize (D j ltac:(lia)). rewrite Nat.add_1_r.
  destruct (Reqb (nth j xp 0) x); auto.
  destruct (plain_nth fp j P) as [->|[u ->]]; destruct (plain_nth fp (S j) P) as [->|[v ->]]; cbn [aff];
    try (cbv [xsub xadd xopp xdiv xmul xisnan xeqb xleb andb aff]; try reflexivity;
         destruct (Req_EM_T _ 0); try reflexivity; fail).
  assert (Dx : nth (S j) xp 0 - nth j xp 0 <> 0) by (intros E; apply D; lra).
  assert (DV : forall p q, q <> 0 -> xdiv (XR p) (XR q) = XR (p / q)).
  { intros p q Hq. unfold xdiv. destruct (Req_EM_T q 0); [contradiction|reflexivity]. }
  unfold xsub. cbn [xadd xopp]. rewrite !DV by auto. cbn [xmul xadd xisnan aff]. f_equal. field. auto.
Qed.
Lemma fill_with_aff a b v c : fill_with (aff a b v) (map (aff a b) c) = map (aff a b) (fill_with v c).
Proof. unfold fill_with. rewrite !map_map. apply map_ext. intros x. rewrite aff_isnan. destruct (xisnan x); auto. Qed.
Lemma numbers_aff a b c : plain c -> numbers (map (aff a b) c) = map (fun v => a * v + b) (numbers c).
Proof. intros P. apply numbers_map; auto. Qed.
Lemma plain_aff a b c : plain c -> plain (map (aff a b) c).
Proof. intros P x Hx. apply in_map_iff in Hx. destruct Hx as (y & <- & Hy). destruct (P y Hy) as [->|[v ->]]; simpl; eauto. Qed.
Lemma nanmean_aff a b c : plain c -> nanmean (map (aff a b) c) = aff a b (nanmean c).
Proof.
  intros P. rewrite (nanmean_numbers _ P), (nanmean_numbers _ (plain_aff a b c P)), numbers_aff by auto.
  destruct (numbers c) as [|v l] eqn:E; auto. cbn [map aff]. f_equal. exact (mean_aff a b (v :: l) ltac:(discriminate)).
Qed.
(** a list has one median *)
Lemma sorted_unique s : forall s', Sorted Rle s -> Sorted Rle s' -> Permutation s s' -> s = s'.
Proof.
  assert (HD : forall x l y, Sorted Rle (x :: l) -> In y (x :: l) -> x <= y).
  { intros x l y H. apply Sorted_StronglySorted in H; [|intros p q r; apply Rle_trans]. apply StronglySorted_inv in H. destruct H as [_ H].
    rewrite Forall_forall in H. intros [<-|I]; [lra|auto]. }
  induction s as [|x s IH]; intros s' H H' P.
  - apply Permutation_nil in P. auto.
  - destruct s' as [|x' s']; [apply Permutation_sym, Permutation_nil in P; discriminate|].
    assert (x = x').
    { apply Rle_antisym.
      - apply (HD x s); auto. apply Permutation_in with (x' :: s'); [apply Permutation_sym; auto|left; auto].
      - apply (HD x' s'); auto. apply Permutation_in with (x :: s); [auto|left; auto]. }
    subst x'. f_equal. apply IH; [eapply Sorted_inv; eauto|eapply Sorted_inv; eauto|]. eapply Permutation_cons_inv; eauto.
Qed.
Lemma median_unique l m m' : is_median l m -> is_median l m' -> m = m'.
Proof.
  intros (s & P & S & ->) (s' & P' & S' & ->). assert (s = s').
  { apply sorted_unique; auto. apply Permutation_trans with l; auto. apply Permutation_sym; auto. }
  subst. auto.
Qed.
Lemma sorted_map (f : R -> R) s : (forall x y, x <= y -> f x <= f y) -> Sorted Rle s -> Sorted Rle (map f s).
Proof.
  intros H S. induction S as [|x s S IH Hd]; simpl; constructor; auto. destruct Hd as [|y s Hy]; simpl; constructor. auto.
Qed.
Lemma strongly_rev (s : list R) : StronglySorted (fun x y => y <= x) s -> StronglySorted Rle (rev s).
Proof.
  induction 1 as [|x s S IH F]; simpl; [constructor|]. clear S. rewrite Forall_forall in F.
  assert (G : forall l, StronglySorted Rle l -> (forall y, In y l -> y <= x) -> StronglySorted Rle (l ++ [x])).
  { clear. induction 1 as [|y l S IH F]; intros H; simpl; [repeat constructor|]. constructor; [apply IH; intros; apply H; right; auto|].
    apply Forall_app. split; auto. constructor; [apply H; left; auto|constructor]. }
  apply G; auto. intros y Hy. apply F. apply in_rev. auto.
Qed.
Lemma median_aff a b l m : l <> [] -> is_median l m -> is_median (map (fun v => a * v + b) l) (a * m + b).
Proof.
  intros Hl (s & P & So & ->). set (f := fun v => a * v + b).
  assert (Ls : (0 < length s)%nat) by (rewrite <- (Permutation_length P); destruct l; simpl; [congruence|lia]).
  assert (Hh : (length s / 2 < length s)%nat) by (apply Nat.div_lt; lia).
  assert (NM : forall i, (i < length s)%nat -> nth i (map f s) 0 = f (nth i s 0)).
  { intros i Hi. rewrite (nth_indep _ 0 (f 0)) by (rewrite map_length; auto). apply map_nth. }
  destruct (Rle_lt_dec 0 a) as [Ha|Ha].
  - exists (map f s). split; [apply Permutation_map; auto|]. split.
    { apply sorted_map; auto. intros x y H. unfold f. nra. }
    rewrite map_length. rewrite !NM by lia. unfold f. destruct (Nat.even (length s)); field.
  - exists (rev (map f s)). split; [apply Permutation_trans with (map f s); [apply Permutation_map; auto|apply Permutation_rev]|]. split.
    { apply StronglySorted_Sorted. apply strongly_rev. apply Sorted_StronglySorted in So; [|intros p q r; apply Rle_trans].
      clear - So Ha. induction So as [|x s So IH F]; simpl; constructor; auto. rewrite Forall_forall in F. apply Forall_forall. intros y Hy.
      apply in_map_iff in Hy. destruct Hy as (z & <- & Hz). specialize (F z Hz). unfold f. nra. }
    rewrite rev_length, map_length. rewrite !rev_nth by (rewrite map_length; lia). rewrite map_length.
    pose proof (Nat.div_mod (length s) 2 ltac:(lia)) as DM. destruct (Nat.even (length s)) eqn:Ev.
    + apply Nat.even_spec in Ev. destruct Ev as [h Eh]. rewrite Eh in *. assert (E2 : (2 * h / 2)%nat = h) by (rewrite Nat.mul_comm; apply Nat.div_mul; lia). rewrite E2 in *.
      replace (2 * h - S (h - 1))%nat with h by lia. replace (2 * h - S h)%nat with (h - 1)%nat by lia.
      rewrite !NM by lia. unfold f. field.
    + assert (Od : Nat.odd (length s) = true) by (rewrite <- Nat.negb_even, Ev; auto). apply Nat.odd_spec in Od. destruct Od as [h Eh].
      assert (E2 : (length s / 2)%nat = h) by (rewrite Eh; rewrite Nat.mul_comm, Nat.add_comm, Nat.div_add by lia; reflexivity). rewrite E2 in *.
      replace (length s - S h)%nat with h by lia. rewrite !NM by lia. reflexivity.
Qed.
Lemma nanmedian_aff a b c : plain c -> nanmedian (map (aff a b) c) = aff a b (nanmedian c).
Proof.
  intros P. pose proof (plain_aff a b c P) as P'. destruct (numbers c) as [|v l] eqn:E.
  - rewrite (nanmedian_none c P E). apply nanmedian_none; auto. rewrite numbers_aff, E by auto. reflexivity.
  - destruct (nanmedian_numbers c P) as (m & -> & M); [congruence|].
    destruct (nanmedian_numbers _ P') as (m' & -> & M'); [rewrite numbers_aff, E by auto; discriminate|]. simpl. f_equal.
    rewrite numbers_aff in M' by auto. apply (median_unique _ _ _ M'). apply median_aff; auto. congruence.
Qed.
Lemma mapi_map {A B C D} (f : nat -> C -> D) (g : A -> C) (f' : nat -> A -> B) (h : B -> D) l :
  (forall t x, nth_error l t = Some x -> f t (g x) = h (f' t x)) -> mapi f (map g l) = map h (mapi f' l).
Proof.
  unfold mapi. rewrite map_length. intros H.
  assert (G : forall l s, (forall t x, nth_error l t = Some x -> f (s + t)%nat (g x) = h (f' (s + t)%nat x)) ->
    map (fun p => f (fst p) (snd p)) (combine (seq s (length l)) (map g l)) = map h (map (fun p => f' (fst p) (snd p)) (combine (seq s (length l)) l))).
  { clear. induction l as [|x l IH]; intros s H; auto. cbn [length seq map combine fst snd]. f_equal.
    - specialize (H 0%nat x eq_refl). rewrite Nat.add_0_r in H. exact H.
    - apply IH. intros t y Hy. specialize (H (S t) y Hy). rewrite Nat.add_succ_r in H. exact H. }
  apply (G l 0%nat). exact H.
Qed.
Lemma observed_aff a b c : observed_at (map (aff a b) c) = observed_at c.
Proof. unfold observed_at. rewrite map_length. apply filter_ext. intros t. rewrite nth_aff, aff_isnan. auto. Qed.
Lemma seq_sorted_apart l : StronglySorted lt l -> forall j, (S j < length l)%nat -> nth j (map INR l) 0 <> nth (S j) (map INR l) 0.
Proof.
  induction 1 as [|x l So IH F]; intros j Hj; simpl in Hj; [lia|]. destruct j as [|j].
  - destruct l as [|y l]; simpl in *; [lia|]. intros E. apply INR_eq in E. rewrite Forall_forall in F. specialize (F y (or_introl eq_refl)). lia.
  - cbn [map nth]. apply IH. lia.
Qed.
Lemma observed_sorted c : StronglySorted lt (observed_at c).
Proof.
  unfold observed_at. generalize (length c) 0%nat. intros n. induction n as [|n IH]; intros s; simpl; [constructor|].
  destruct (negb (xisnan (nth s c XNaN))); auto. constructor; auto. apply Forall_forall. intros t Ht. apply filter_In in Ht.
  destruct Ht as [Ht _]. apply in_seq in Ht. lia.
Qed.
Lemma impute_col_aff a b m c : plain c -> (match m with Constant _ => False | _ => True end) ->
  impute_col m (map (aff a b) c) = match impute_col m c with Ok c' => Ok (map (aff a b) c') | Err e => Err e end.
Proof.
  intros P Hm. destruct m as [v| | | | | |]; try contradiction; cbn [impute_col]; auto.
  - rewrite nanmean_aff, fill_with_aff by auto. reflexivity.
  - rewrite nanmedian_aff, fill_with_aff by auto. reflexivity.
  - unfold linear_col. rewrite observed_aff. destruct (observed_at c) as [|o l] eqn:E; auto. f_equal. apply mapi_map. intros t x _.
    rewrite aff_isnan. destruct (xisnan x); auto. rewrite not_nan_aff. apply interp1_aff; [apply plain_not_nan; auto|].
    intros j Hj. apply seq_sorted_apart; [rewrite <- E; apply observed_sorted|]. rewrite map_length in Hj. auto.
  - f_equal. apply mapi_map. intros t x _. rewrite aff_isnan. destruct (xisnan x); auto. rewrite nth_aff. f_equal. f_equal.
    unfold ffill_idx. f_equal. apply map_ext. intros s. rewrite nth_aff, aff_isnan. auto.
  - f_equal. apply mapi_map. intros t x _. rewrite aff_isnan. destruct (xisnan x); auto. rewrite nth_aff. f_equal. f_equal.
    unfold bfill_idx. rewrite map_length. f_equal. apply map_ext. intros s. rewrite nth_aff, aff_isnan. auto.
Qed.
Lemma impute_col_converted a b m m' i k c : method_converted a b m m' -> plain c ->
  impute_col m' (map (aff (a i k) (b i k)) c) = match impute_col m c with Ok c' => Ok (map (aff (a i k) (b i k)) c') | Err e => Err e end.
Proof.
  intros Hm P. destruct m as [v| | | | | |] eqn:E; simpl in Hm; try (subst m'; rewrite <- E; apply impute_col_aff; auto; rewrite E; exact I).
  rewrite (Hm i k). cbn [impute_col]. rewrite fill_with_aff. reflexivity.
Qed.

(** ** datasets *)
Lemma mapM_alongside {A B A' B'} (Q : B -> B' -> Prop) (f : A -> res B) (f' : A' -> res B') l l' :
  Forall2 (fun x x' => alongside Q (f x) (f' x')) l l' -> alongside (Forall2 Q) (mapM f l) (mapM f' l').
Proof.
  induction 1 as [|x x' l l' H F IH]; simpl; [constructor|].
  destruct (f x), (f' x'); simpl in *; try contradiction; auto.
  destruct (mapM f l), (mapM f' l'); simpl in *; try contradiction; auto.
Qed.
Lemma forall2_nth {A B} (Q : A -> B -> Prop) l l' x y n : length l = n -> length l' = n ->
  (forall i, (i < n)%nat -> Q (nth i l x) (nth i l' y)) -> Forall2 Q l l'.
Proof.
  revert l l'. induction n as [|n IH]; intros [|p l] [|q l'] L L' H; try discriminate; constructor.
  - apply (H 0%nat). lia.
  - apply IH; auto. intros i Hi. apply (H (S i)). lia.
Qed.
Lemma remeasured_size a b n sz d X X' i : remeasured a b n sz d X X' -> (i < n)%nat ->
  ts_size (N:=Xnum) (nth i X []) = ts_size (N:=Xnum) (nth i X' []).
Proof.
  intros R Hi. pose proof R as (HX & HX' & H). destruct (shape_series n sz d X i HX Hi) as [L1 _]. destruct (shape_series n sz d X' i HX' Hi) as [L2 _].
  apply ts_size_same; [norm; lia|]. intros t Ht. norm. rewrite L1 in Ht. apply (remeasured_row a b n sz d); auto.
Qed.
Lemma remeasured_tight a b n sz d X X' : remeasured a b n sz d X X' -> (0 < sz)%nat -> tight n sz d X -> tight n sz d X'.
Proof.
  intros (HX & HX' & H) Hsz [_ (i & k & Hi & Hk & E)]. split; auto. exists i, k. do 2 (split; auto). rewrite H by (auto; lia).
  destruct (entry3 X i (sz - 1) k); congruence.
Qed.
Lemma remeasured_column a b n sz d X X' i k q : remeasured a b n sz d X X' -> (i < n)%nat -> (k < d)%nat ->
  column k (firstn q (nth i X' [])) = map (aff (a i k) (b i k)) (column k (firstn q (nth i X []))).
Proof.
  intros (HX & HX' & H) Hi Hk. destruct (shape_series n sz d X i HX Hi) as [L1 _]. destruct (shape_series n sz d X' i HX' Hi) as [L2 _]. norm.
  assert (C : column k (nth i X' []) = map (aff (a i k) (b i k)) (column k (nth i X []))).
  { assert (LC : forall s : series Xnum, length (column k s) = length s) by (intros; apply map_length).
    apply (nth_ext_at _ _ XNaN); [rewrite map_length, !LC; norm; lia|]. intros t Ht. rewrite LC in Ht. norm. rewrite L2 in Ht.
    rewrite nth_column by (norm; lia). rewrite nth_aff. rewrite nth_column by (norm; lia).
    etransitivity; [exact (H i t k Hi Ht Hk)|]. unfold aff, entry3. norm. destruct (nth k (nth t (nth i X []) []) XNaN); reflexivity. }
  assert (FC : forall s : series Xnum, column k (firstn q s) = firstn q (column k s)) by (intros; unfold column; symmetry; apply firstn_map).
  rewrite !FC, C. apply firstn_map.
Qed.
Lemma column_plain n sz d X i k q : shape3 n sz d X -> numeric X -> (i < n)%nat -> (k < d)%nat -> plain (column k (firstn q (nth i X []))).
Proof.
  intros HX HN Hi Hk x Hx. destruct (shape_series n sz d X i HX Hi) as [L1 _]. norm.
  assert (Hx' : In x (column k (nth i X []))).
  { unfold column in *. apply in_map_iff in Hx. destruct Hx as (r & <- & Hr). apply in_map_iff. exists r. split; auto.
    rewrite <- (firstn_skipn q (nth i X [])). apply in_or_app. auto. }
  destruct (In_nth _ _ XNaN Hx') as (t & Ht & <-). unfold column in Ht. rewrite map_length in Ht. norm. rewrite L1 in Ht.
  rewrite nth_column by (norm; lia). exact (entry_numeric n sz d X i t k HX HN Hi Ht Hk).
Qed.

Theorem C203_imputer a b m m' keep n sz d X X' : (0 < n)%nat -> (0 < sz)%nat -> tight n sz d X -> numeric X ->
  remeasured a b n sz d X X' -> method_converted a b m m' ->
  alongside (remeasured a b n sz d) (impute m keep d X) (impute m' keep d X').
Proof.
  intros Hn Hsz HT HN R Hm. pose proof (remeasured_tight a b n sz d X X' R Hsz HT) as HT'. pose proof R as (HX & HX' & H).
  assert (ST : forall i, (i < n)%nat -> stop keep (nth i X' []) = stop keep (nth i X [])).
  { intros i Hi. destruct (shape_series n sz d X i HX Hi) as [L1 _]. destruct (shape_series n sz d X' i HX' Hi) as [L2 _].
    destruct keep; simpl; [symmetry; apply (remeasured_size a b n sz d); auto|norm; lia]. }
  assert (PT : forall i k, (i < n)%nat -> (k < d)%nat -> part keep X' i k = map (aff (a i k) (b i k)) (part keep X i k)).
  { intros i k Hi Hk. unfold part. rewrite ST by auto. apply (remeasured_column a b n sz d); auto. }
  assert (IC : forall i k, (i < n)%nat -> (k < d)%nat -> impute_col m' (part keep X' i k) =
    match impute_col m (part keep X i k) with Ok c' => Ok (map (aff (a i k) (b i k)) c') | Err e => Err e end).
  { intros i k Hi Hk. rewrite PT by auto. apply impute_col_converted; auto. apply (column_plain n sz d); auto. }
  assert (OC : alongside (fun _ _ => True) (mapM (impute_series m keep d) X) (mapM (impute_series m' keep d) X')).
  { assert (W : alongside (Forall2 (fun _ _ => True)) (mapM (impute_series m keep d) X) (mapM (impute_series m' keep d) X')).
    { apply mapM_alongside. pose proof HX as [LX _]. pose proof HX' as [LX' _]. apply (forall2_nth _ X X' [] [] n); auto. intros i Hi.
      assert (U : forall mm (s : series Xnum), impute_series mm keep d s =
        do z <- mapM (fun k => impute_col mm (column k (firstn (stop keep s) s))) (seq 0 d) ;;
        Ok (of_columns (length (firstn (stop keep s) s)) z ++ skipn (stop keep s) s)).
      { intros mm s. unfold impute_series, impute_ts, stop. destruct keep.
        - destruct (mapM _ (seq 0 d)); reflexivity.
        - rewrite firstn_all, skipn_all. destruct (mapM _ (seq 0 d)); cbn [bind]; [rewrite app_nil_r|]; reflexivity. }
      rewrite !U.
      assert (W : alongside (Forall2 (fun _ _ => True)) (mapM (fun k => impute_col m (part keep X i k)) (seq 0 d)) (mapM (fun k => impute_col m' (part keep X' i k)) (seq 0 d))).
      { apply mapM_alongside. apply (forall2_nth _ _ _ 0%nat 0%nat d); try apply seq_length. intros k Hk. rewrite seq_nth by auto. cbn [plus].
        rewrite IC by auto. destruct (impute_col m (part keep X i k)); simpl; auto. }
      unfold part in W. destruct (mapM _ (seq 0 d)), (mapM _ (seq 0 d)); simpl in *; auto. }
    destruct (mapM _ X), (mapM _ X'); simpl in *; auto. }
  rewrite (impute_unfold m keep n sz d X Hn Hsz HT), (impute_unfold m' keep n sz d X' Hn Hsz HT').
  assert (KE : m <> Unknown /\ m' <> Unknown \/ m = Unknown /\ m' = Unknown).
  { destruct m as [v| | | | | |]; simpl in Hm; [left; rewrite (Hm 0%nat 0%nat); split; discriminate|subst m'; left; split; discriminate..|subst m'; auto]. }
  destruct KE as [[K1 K2]|[-> ->]]; [|reflexivity].
  assert (D1 : forall (mm : impute_method) (r : res array3), mm <> Unknown -> match mm with Unknown => Err ValueError | _ => r end = r)
    by (intros mm r; destruct mm; congruence).
  rewrite !D1 by auto. destruct (mapM _ X) as [Z|e] eqn:EZ, (mapM _ X') as [Z'|e'] eqn:EZ'; simpl in OC; try contradiction; cbn [bind]; auto.
  destruct (impute_core m keep n sz d X Z Hn Hsz HT EZ (impute_col_keeps m)) as [TZ C].
  destruct (impute_core m' keep n sz d X' Z' Hn Hsz HT' EZ' (impute_col_keeps m')) as [TZ' C'].
  rewrite (variable_length_tight n sz d Z Hsz TZ), (variable_length_tight n sz d Z' Hsz TZ'). simpl.
  split; [apply TZ|]. split; [apply TZ'|]. intros i t k Hi Ht Hk.
  destruct (C i k Hi Hk) as (c & Ec & Lc & V). destruct (C' i k Hi Hk) as (c' & Ec' & Lc' & V').
  rewrite V, V' by auto. rewrite ST by auto. rewrite IC, Ec in Ec' by auto. injection Ec' as <-.
  destruct (t <? stop keep (nth i X []))%nat; [|apply H; auto]. rewrite nth_aff. destruct (nth t c XNaN); reflexivity.
Qed.
Print Assumptions C203_imputer.

Lemma linspace_apart q j : (S j < length (linspace01 q))%nat -> nth j (linspace01 q) 0 <> nth (S j) (linspace01 q) 0.
Proof.
  unfold linspace01 at 1. rewrite map_length, seq_length. intros Hj. rewrite !nth_lin by lia. intros E.
  assert (B : 0 < INR (q - 1)) by (apply lt_0_INR; lia). rewrite S_INR in E. apply (Rmult_eq_compat_r (INR (q - 1))) in E.
  unfold Rdiv in E. rewrite !Rmult_assoc, Rinv_l in E by lra. lra.
Qed.
(** [TimeSeriesResampler(sz).fit(X).transform(X)] *)
Theorem C203_resampler a b T n sz d X X' : (0 < n)%nat -> (0 < sz)%nat -> tight n sz d X -> numeric X -> remeasured a b n sz d X X' ->
  alongside (remeasured a b n (if (0 <? T)%Z then Z.to_nat T else sz) d) (resample T d X) (resample T d X').
Proof.
  intros Hn Hsz HT HN R. pose proof (remeasured_tight a b n sz d X X' R Hsz HT) as HT'. pose proof R as (HX & HX' & H). unfold resample.
  rewrite (variable_length_tight n sz d X Hsz HT), (variable_length_tight n sz d X' Hsz HT'). cbn [bind]. unfold check_features.
  rewrite (arr_d_shape n sz d X), (arr_d_shape n sz d X') by auto. rewrite Nat.eqb_refl. cbn [bind].
  rewrite (arr_sz_shape n sz d X), (arr_sz_shape n sz d X') by auto.
  rewrite (arr_d_shape n sz d X), (arr_d_shape n sz d X') by auto.
  set (q := if (0 <? T)%Z then Z.to_nat T else sz). pose proof HX as [LX _]. pose proof HX' as [LX' _].
  destruct (Nat.eqb_spec q 1) as [->|Hq].
  - simpl. unfold unit_sz. rewrite (arr_d_shape n sz d X), (arr_d_shape n sz d X') by auto.
    assert (S1 : forall Z : array3, length Z = n -> shape3 n 1 d (map (fun s => [map (fun k => nanmean (column k s)) (seq 0 d)]) Z)).
    { intros Z LZ. split; [rewrite map_length; auto|]. intros s Hs. apply in_map_iff in Hs. destruct Hs as (s0 & <- & _). split; auto.
      intros r [<-|[]]. rewrite map_length, seq_length. auto. }
    split; [auto|]. split; [auto|]. intros i t k Hi Ht Hk. assert (t = 0)%nat by lia. subst t.
    assert (V : forall Z : array3, length Z = n -> entry3 (map (fun s => [map (fun k => nanmean (column k s)) (seq 0 d)]) Z) i 0 k = nanmean (column k (nth i Z []))).
    { intros Z LZ. unfold entry3. set (g := fun s : series Xnum => [map (fun k => nanmean (column k s)) (seq 0 d)]).
      rewrite (nth_indep _ [] (g [])) by (rewrite map_length; norm; lia). rewrite (map_nth g). unfold g. cbn [nth]. rewrite map_seq_nth by auto. reflexivity. }
    rewrite !V by auto. pose proof (remeasured_column a b n sz d X X' i k sz R Hi Hk) as C.
    pose proof (column_plain n sz d X i k sz HX HN Hi Hk) as P.
    destruct (shape_series n sz d X i HX Hi) as [L1 _]. destruct (shape_series n sz d X' i HX' Hi) as [L2 _]. norm.
    rewrite <- L2 in C at 1. rewrite <- L1 in C, P. norm. rewrite firstn_all in C. rewrite firstn_all in P. norm. rewrite firstn_all in C.
    rewrite C, nanmean_aff by auto. destruct (nanmean _); reflexivity.
  - assert (AE : all_equal_size X' = all_equal_size X).
    { assert (M : map (ts_size (N:=Xnum)) X' = map (ts_size (N:=Xnum)) X).
      { apply (nth_ext_at _ _ (ts_size (N:=Xnum) [])); [rewrite !map_length; norm; lia|]. intros i Hi. rewrite map_length in Hi. norm.
        rewrite (map_nth (ts_size (N:=Xnum))), (map_nth (ts_size (N:=Xnum))). symmetry. apply (remeasured_size a b n sz d); auto. lia. }
      clear - M. destruct X as [|s X], X' as [|s' X']; try discriminate; auto. cbn [map] in M. injection M as E M. cbn [all_equal_size].
      rewrite E. clear E. revert X' M. induction X as [|y X IH]; intros [|y' X'] M; try discriminate; auto. cbn [map] in M. injection M as E M.
      cbn [forallb]. rewrite E. f_equal. auto. }
    rewrite AE. set (eq := all_equal_size X). set (len := fun s => if eq then sz else ts_size (N:=Xnum) s).
    assert (LN : forall i, (i < n)%nat -> len (nth i X' []) = len (nth i X [])).
    { intros i Hi. unfold len. destruct eq; auto. symmetry. apply (remeasured_size a b n sz d); auto. }
    set (W := fun (i : nat) (y y' : series Xnum) => length y = q /\ length y' = q /\ (forall r, In r y -> length r = d) /\ (forall r, In r y' -> length r = d) /\
       forall t k, (t < q)%nat -> (k < d)%nat -> nth k (nth t y' []) XNaN = aff (a i k) (b i k) (nth k (nth t y []) XNaN)).
    assert (ONE : forall i, (i < n)%nat -> alongside (W i) (resample_series q (len (nth i X [])) d (nth i X [])) (resample_series q (len (nth i X' [])) d (nth i X' []))).
    { intros i Hi. rewrite LN by auto. set (p := len (nth i X [])). unfold resample_series, interp.
      destruct (linspace01 p) as [|x0 xs] eqn:EL.
      - destruct d as [|d']; simpl; auto. split; [unfold of_columns; rewrite map_length, seq_length; auto|].
        split; [unfold of_columns; rewrite map_length, seq_length; auto|]. split; [|split].
        + intros r Hr. unfold of_columns in Hr. apply in_map_iff in Hr. destruct Hr as (t & <- & _). auto.
        + intros r Hr. unfold of_columns in Hr. apply in_map_iff in Hr. destruct Hr as (t & <- & _). auto.
        + intros; lia.
      - rewrite <- EL. clear x0 xs EL.
        rewrite (mapM_map _ (fun k => map (interp1 (linspace01 p) (column k (firstn p (nth i X [])))) (linspace01 q)) (seq 0 d)) by auto.
        rewrite (mapM_map _ (fun k => map (interp1 (linspace01 p) (column k (firstn p (nth i X' [])))) (linspace01 q)) (seq 0 d)) by auto.
        cbn [bind alongside]. unfold W.
        assert (LL : forall g : nat -> list xr, length (of_columns q (map g (seq 0 d))) = q) by (intros; unfold of_columns; rewrite map_length, seq_length; auto).
        assert (RR : forall (g : nat -> list xr) r, In r (of_columns q (map g (seq 0 d))) -> length r = d).
        { intros g r Hr. unfold of_columns in Hr. apply in_map_iff in Hr. destruct Hr as (t & <- & _). etransitivity; [apply map_length|]. rewrite map_length, seq_length. auto. }
        split; [apply LL|]. split; [apply LL|]. split; [apply RR|]. split; [apply RR|]. intros t k Ht Hk.
        rewrite !of_columns_nth by (rewrite ?map_length, ?seq_length; auto). rewrite !map_seq_nth by auto. cbn [plus].
        rewrite (remeasured_column a b n sz d X X' i k p R Hi Hk).
        assert (LQ : (t < length (linspace01 q))%nat) by (unfold linspace01; rewrite map_length, seq_length; auto).
        set (g := interp1 (linspace01 p) (column k (firstn p (nth i X [])))).
        rewrite (map_ext _ (fun x => aff (a i k) (b i k) (g x))).
        + rewrite <- (map_map g (aff (a i k) (b i k))). apply nth_aff.
        + intros x. apply interp1_aff; [apply (column_plain n sz d); auto|]. apply linspace_apart. }
    set (f := fun s : series Xnum => resample_series q (len s) d s).
    assert (GO : forall m0 (l l' : array3), length l = m0 -> length l' = m0 -> forall i0, (forall i, (i < m0)%nat -> nth i l [] = nth (i0 + i) X [] /\ nth i l' [] = nth (i0 + i) X' []) -> (i0 + m0 <= n)%nat ->
      alongside (fun Y Y' => length Y = m0 /\ length Y' = m0 /\ forall i, (i < m0)%nat -> W (i0 + i)%nat (nth i Y []) (nth i Y' []))
        (mapM f l) (mapM f l')).
    { induction m0 as [|m0 IH]; intros [|s l] [|s' l'] L L' i0 E B; try discriminate.
      - simpl. repeat split; auto. all: intros; lia.
      - injection L as L. injection L' as L'. destruct (E 0%nat ltac:(lia)) as [E1 E2]. cbn [nth] in E1, E2. rewrite Nat.add_0_r in E1, E2.
        cbn [mapM]. pose proof (ONE i0 ltac:(lia)) as O. rewrite <- E1, <- E2 in O. fold (f s) in O. fold (f s') in O.
        specialize (IH l l' L L' (S i0)).
        destruct (f s) as [y|e], (f s') as [y'|e']; simpl in O; try contradiction; cbn [bind]; auto.
        assert (IH' := IH ltac:(intros i Hi; destruct (E (S i) ltac:(lia)) as [A1 A2]; cbn [nth] in A1, A2; rewrite Nat.add_succ_r in A1, A2; auto) ltac:(lia)).
        destruct (mapM f l) as [Y|e], (mapM f l') as [Y'|e']; simpl in IH'; try contradiction; cbn [bind]; auto. simpl.
        destruct IH' as (A1 & A2 & A3). split; [lia|]. split; [lia|]. intros i Hi. destruct i as [|i]; [rewrite Nat.add_0_r; exact O|].
        rewrite Nat.add_succ_r. apply A3. lia. }
    specialize (GO n X X' LX LX' 0%nat ltac:(intros; auto) (le_n _)).
    change (fun s => resample_series q (if eq then sz else ts_size (N:=Xnum) s) d s) with f.
    destruct (mapM f X) as [Y|e], (mapM f X') as [Y'|e']; simpl in GO |- *; auto. destruct GO as (A1 & A2 & A3).
    split; [split; auto; intros s Hs; destruct (In_nth _ _ [] Hs) as (i & Hi & <-); destruct (A3 i ltac:(norm; lia)) as (B1 & B2 & B3 & B4 & B5); auto|].
    split; [split; auto; intros s Hs; destruct (In_nth _ _ [] Hs) as (i & Hi & <-); destruct (A3 i ltac:(norm; lia)) as (B1 & B2 & B3 & B4 & B5); auto|].
    intros i t k Hi Ht Hk. destruct (A3 i Hi) as (_ & _ & _ & _ & B5). etransitivity; [exact (B5 t k Ht Hk)|]. unfold entry3. norm.
    destruct (nth k (nth t (nth i Y []) []) XNaN); reflexivity.
Qed.
Print Assumptions C203_resampler.

(** two series with gaps, the second one shorter; the first feature from Celsius to Fahrenheit *)
Definition ex_gaps : array3 := [[[XR 1; XR 2]; [XNaN; XR 4]; [XR 3; XNaN]]; [[XR 5; XNaN]; [XNaN; XR 1]; [XNaN; XNaN]]].
Definition ex_gaps' : array3 := [[[XR (9/5 * 1 + 32); XR (1 * 2 + 0)]; [XNaN; XR (1 * 4 + 0)]; [XR (9/5 * 3 + 32); XNaN]];
                                 [[XR (9/5 * 5 + 32); XNaN]; [XNaN; XR (1 * 1 + 0)]; [XNaN; XNaN]]].
Example C203_nontrivial : tight 2 3 2 ex_gaps /\ numeric ex_gaps /\ remeasured ex_unit ex_origin 2 3 2 ex_gaps ex_gaps' /\
  method_converted ex_unit ex_origin Median Median /\
  method_converted (fun _ _ => 9/5) (fun _ _ => 32) (Constant (XR 10)) (Constant (XR (9/5 * 10 + 32))) /\
  (exists Y, impute Bfill true 2 ex_gaps = Ok Y) /\ (exists Y, impute Linear true 2 ex_gaps = Ok Y) /\
  (exists Y, resample 5 2 ex_gaps = Ok Y).
Proof.
  assert (S : shape3 2 3 2 ex_gaps) by (split; auto; intros s [<-|[<-|[]]]; (split; auto; intros r [<-|[<-|[<-|[]]]]; auto)).
  assert (T : tight 2 3 2 ex_gaps) by (split; auto; exists 0%nat, 0%nat; do 2 (split; [lia|]); discriminate).
  split; [auto|]. split.
  { intros s r x [<-|[<-|[]]] [<-|[<-|[<-|[]]]] [<-|[<-|[]]]; eauto. }
  split; [split; [auto|]; split|].
  - split; auto. intros s [<-|[<-|[]]]; (split; auto; intros r [<-|[<-|[<-|[]]]]; auto).
  - intros i t k Hi Ht Hk. destruct i as [|[|]], t as [|[|[|]]], k as [|[|]]; try lia; reflexivity.
  - split; [reflexivity|]. split; [intros i k; reflexivity|].
    assert (L : forall m, m <> Unknown -> (exists Z, mapM (impute_series m true 2) ex_gaps = Ok Z) -> exists Y, impute m true 2 ex_gaps = Ok Y).
    { intros m Hm [Z EZ]. destruct (impute_core m true 2 3 2 ex_gaps Z ltac:(lia) ltac:(lia) T EZ (impute_col_keeps m)) as [TZ _].
      exists Z. rewrite (impute_unfold m true 2 3 2 ex_gaps ltac:(lia) ltac:(lia) T). rewrite EZ. cbn [bind].
      rewrite (variable_length_tight 2 3 2 Z ltac:(lia) TZ). destruct m; auto. }
    split; [apply L; [discriminate|]; eexists; vm_compute; reflexivity|].
    split; [apply L; [discriminate|]; eexists; vm_compute; reflexivity|].
    pose proof (variable_length_tight 2 3 2 ex_gaps ltac:(lia) T) as V. unfold resample. rewrite V. cbn [bind].
    eexists. vm_compute. reflexivity.
Qed.

(** Datasets and cross-distance matrices. *)
From Coq Require Import Bool List Arith ZArith QArith Lia Permutation.
From Verif Require Import Num Py Series Masks DtwModel Dataset Spec SpecDtw DpProofs DtwProofs DtwThms ValidThms.
Import ListNotations.
Local Open Scope nat_scope.

Lemma mapM_spec {A B} (f : A -> res B) l vs : mapM f l = Ok vs <-> Forall2 (fun a b => f a = Ok b) l vs.
Proof.
  revert vs. induction l as [|a l IH]; simpl; intros vs.
  - split; [intros [= <-]; constructor|]. intros H. inversion H. reflexivity.
  - split.
    + destruct (f a) as [b|e] eqn:E; simpl; [|discriminate].
      destruct (mapM f l) as [r|e] eqn:Er; simpl; [|discriminate]. intros [= <-].
      constructor; auto. apply IH. reflexivity.
    + intros H. inversion H; subst. rewrite H2. simpl. apply IH in H4. rewrite H4. reflexivity.
Qed.
Lemma mapM_total {A B} (f : A -> res B) l : (forall a, In a l -> exists b, f a = Ok b) -> exists vs, mapM f l = Ok vs.
Proof.
  induction l as [|a l IH]; simpl; intros H; eauto.
  destruct (H a (or_introl eq_refl)) as (b & ->). destruct IH as (r & ->); auto. simpl. eauto.
Qed.
Lemma mapM_err {A B} (f : A -> res B) l e : mapM f l = Err e -> exists a, In a l /\ f a = Err e.
Proof.
  induction l as [|a l IH]; simpl; [discriminate|]. destruct (f a) as [b|e'] eqn:E; simpl.
  - destruct (mapM f l) eqn:Er; simpl; [discriminate|]. intros [= <-]. destruct IH as (x & Hx & Hf); eauto.
  - intros [= <-]. eauto.
Qed.

Lemma run_tasks_ok {A} (task : nat -> res A) sched : forall st st', run_tasks task sched st = Ok st' ->
  (forall k, In k sched -> exists v, task k = Ok v /\ st' k = Some v) /\
  (forall k, ~ In k sched -> st' k = st k).
Proof.
  induction sched as [|k sched IH]; simpl; intros st st'.
  - intros [= <-]. split; [intros k []|reflexivity].
  - destruct (task k) as [v|e] eqn:E; simpl; [|discriminate]. intros H. apply IH in H. destruct H as [H1 H2].
    split.
    + intros k' [<-|Hk]; auto. destruct (in_dec Nat.eq_dec k sched) as [Hin|Hn]; auto.
      exists v. split; auto. rewrite H2 by auto. rewrite Nat.eqb_refl. reflexivity.
    + intros k' Hk. rewrite H2 by tauto. destruct (Nat.eqb_spec k' k) as [->|Hne]; auto. exfalso. apply Hk. auto.
Qed.
Lemma run_tasks_total {A} (task : nat -> res A) sched : forall st,
  (forall k, In k sched -> exists v, task k = Ok v) -> exists st', run_tasks task sched st = Ok st'.
Proof.
  induction sched as [|k sched IH]; simpl; intros st H; eauto.
  destruct (H k (or_introl eq_refl)) as (v & ->). simpl. apply IH. auto.
Qed.
Lemma run_tasks_err {A} (task : nat -> res A) sched e : forall st,
  run_tasks task sched st = Err e -> exists k, In k sched /\ task k = Err e.
Proof.
  induction sched as [|k sched IH]; simpl; intros st; [discriminate|].
  destruct (task k) as [v|e'] eqn:E; simpl.
  - intros H. apply IH in H. destruct H as (k' & H & H'). eauto.
  - intros [= <-]. eauto.
Qed.
Lemma collect_spec {A} (st : slots A) n l : collect st n = Some l <->
  length l = n /\ forall k, k < n -> st k = nth_error l k.
Proof.
  revert l. induction n as [|n IH]; simpl; intros l.
  - split; [intros [= <-]; split; auto; lia|]. intros [H _]. destruct l; [reflexivity|discriminate].
  - split.
    + destruct (collect st n) as [l'|] eqn:E; [|discriminate]. destruct (st n) as [v|] eqn:Ev; [|discriminate].
      intros [= <-]. assert (H : length l' = n /\ forall k, k < n -> st k = nth_error l' k) by (apply IH; reflexivity).
      destruct H as [H1 H2]. rewrite app_length. simpl. split; [lia|]. intros k Hk.
      destruct (Nat.eq_dec k n) as [->|Hne].
      * rewrite nth_error_app2 by lia. rewrite H1, Nat.sub_diag. exact Ev.
      * rewrite nth_error_app1 by lia. apply H2. lia.
    + intros [H1 H2]. destruct (exists_last (l := l)) as (l' & v & ->); [intros ->; discriminate|].
      rewrite app_length in H1. simpl in H1. assert (E : collect st n = Some l').
      { apply IH. split; [lia|]. intros k Hk. rewrite H2 by lia. rewrite nth_error_app1 by lia. reflexivity. }
      rewrite E, H2 by lia. rewrite nth_error_app2 by lia. replace (n - length l') with 0 by lia. reflexivity.
Qed.
Lemma Forall2_nth {A B} (R : A -> B -> Prop) l l' : length l = length l' ->
  (forall k a b, nth_error l k = Some a -> nth_error l' k = Some b -> R a b) -> Forall2 R l l'.
Proof.
  revert l'. induction l as [|a l IH]; intros [|b l']; simpl; intros Hl H; try discriminate; constructor.
  - apply (H 0); reflexivity.
  - apply IH; [lia|]. intros k x y Hx Hy. apply (H (S k)); auto.
Qed.
Lemma Forall2_nth_inv {A B} (R : A -> B -> Prop) l l' k a b : Forall2 R l l' ->
  nth_error l k = Some a -> nth_error l' k = Some b -> R a b.
Proof.
  intros H. revert k. induction H as [|x y l l' Hr H IH]; intros [|k]; simpl; try discriminate.
  - intros [= <-] [= <-]. auto.
  - apply IH.
Qed.
Lemma Forall2_len {A B} (R : A -> B -> Prop) l l' : Forall2 R l l' -> length l = length l'.
Proof. induction 1; simpl; congruence. Qed.

(** the result list does not depend on the schedule *)
Lemma parallel_sequential {A B} (f : A -> res B) args sched l : Permutation sched (seq 0 (length args)) ->
  (parallel f args sched = Ok l <-> mapM f args = Ok l).
Proof.
  intros HP. rewrite mapM_spec. unfold parallel.
  set (task := fun k => match nth_error args k with Some a => f a | None => Err IndexError end).
  assert (Hin : forall k, In k sched <-> k < length args).
  { intros k. split; intros H.
    - apply (Permutation_in _ HP) in H. apply in_seq in H. lia.
    - apply (Permutation_in _ (Permutation_sym HP)). apply in_seq. lia. }
  split.
  - destruct (run_tasks task sched (fun _ => None)) as [st|e] eqn:E; simpl; [|discriminate].
    destruct (collect st (length args)) as [l'|] eqn:Ec; [|discriminate]. intros [= ->].
    apply run_tasks_ok in E. destruct E as [E1 _]. apply collect_spec in Ec. destruct Ec as [El Ec].
    apply Forall2_nth; [lia|]. intros k a b Ha Hb.
    assert (Hk : k < length args) by (apply nth_error_Some; congruence).
    destruct (E1 k) as (v & Ev & Es); [apply Hin; auto|]. unfold task in Ev. rewrite Ha in Ev.
    rewrite Ec in Es by auto. congruence.
  - intros H. destruct (run_tasks_total task sched (fun _ => None)) as (st & E).
    { intros k Hk. apply Hin in Hk. unfold task. destruct (nth_error args k) as [a|] eqn:Ea.
      - destruct (nth_error l k) as [b|] eqn:Eb.
        + exists b. exact (Forall2_nth_inv _ _ _ _ _ _ H Ea Eb).
        + apply nth_error_None in Eb. apply Forall2_len in H. lia.
      - apply nth_error_None in Ea. lia. }
    rewrite E. simpl. apply run_tasks_ok in E. destruct E as [E1 _].
    assert (Ec : collect st (length args) = Some l).
    { apply collect_spec. split; [symmetry; apply (Forall2_len _ _ _ H)|]. intros k Hk.
      destruct (E1 k) as (v & Ev & ->); [apply Hin; auto|]. unfold task in Ev.
      destruct (nth_error args k) as [a|] eqn:Ea; [|discriminate].
      destruct (nth_error l k) as [b|] eqn:Eb.
      - pose proof (Forall2_nth_inv _ _ _ _ _ _ H Ea Eb) as X. simpl in X. congruence.
      - apply nth_error_None in Eb. apply Forall2_len in H. lia. }
    rewrite Ec. reflexivity.
Qed.

(** a schedule for [k] tasks *)
Definition valid_jobs (j : jobs) (k : nat) : Prop :=
  match j with Sequential => True | Threads sched => Permutation sched (seq 0 k) end.
Lemma run_jobs_mapM {A B} j (f : A -> res B) args l : valid_jobs j (length args) ->
  (run_jobs j f args = Ok l <-> mapM f args = Ok l).
Proof. destruct j as [|sched]; simpl; [tauto|]. apply parallel_sequential. Qed.

Lemma in_triu n diag i j : In (i, j) (triu n diag) <-> (if diag then i <= j else i < j) /\ j < n.
Proof.
  unfold triu. rewrite in_flat_map. split.
  - intros (x & Hx & H). apply in_map_iff in H. destruct H as (y & [= -> ->] & Hy). apply in_seq in Hx, Hy.
    destruct diag; lia.
  - intros [H1 H2]. exists i. split; [apply in_seq; destruct diag; lia|].
    apply in_map_iff. exists j. split; auto. apply in_seq. destruct diag; lia.
Qed.
Lemma in_tril1 n i j : In (i, j) (tril1 n) <-> j < i < n.
Proof.
  unfold tril1. rewrite in_flat_map. split.
  - intros (x & Hx & H). apply in_map_iff in H. destruct H as (y & [= -> ->] & Hy). apply in_seq in Hx, Hy. lia.
  - intros H. exists i. split; [apply in_seq; lia|]. apply in_map_iff. exists j. split; auto. apply in_seq. lia.
Qed.
Lemma in_row_major' n m i j : In (i, j) (row_major n m) <-> i < n /\ j < m.
Proof.
  unfold row_major. rewrite in_flat_map. split.
  - intros (x & Hx & H). apply in_map_iff in H. destruct H as (y & [= -> ->] & Hy). apply in_seq in Hx, Hy. lia.
  - intros H. exists i. split; [apply in_seq; lia|]. apply in_map_iff. exists j. split; auto. apply in_seq. lia.
Qed.

Lemma pair_eq_dec : forall a b : nat * nat, {a = b} + {a <> b}.
Proof. decide equality; apply Nat.eq_dec. Qed.
Lemma assign_spec {A} (P : nat -> nat -> A -> Prop) idx vals : Forall2 (fun ij v => P (fst ij) (snd ij) v) idx vals ->
  forall m i j, (In (i, j) idx -> P i j (assign m idx vals i j)) /\ (~ In (i, j) idx -> assign m idx vals i j = m i j).
Proof.
  unfold assign. induction 1 as [|[a b] v idx vals Hp H IH]; intros m i j; simpl.
  - split; [intros []|reflexivity].
  - simpl in Hp. destruct (IH (upd m a b v) i j) as [I1 I2].
    destruct (in_dec pair_eq_dec (i, j) idx) as [Hin|Hn].
    + split; auto. intros Hc. exfalso. tauto.
    + rewrite I2 by auto. unfold upd. split.
      * intros [[= <- <-]|Hc]; [|tauto]. rewrite !Nat.eqb_refl. exact Hp.
      * intros Hc. destruct (i =? a) eqn:Ea, (j =? b) eqn:Eb; simpl; auto.
        apply Nat.eqb_eq in Ea, Eb. subst. tauto.
Qed.

Section G.
Variable N : num.
Variable A : Type.
Variable dist : A -> A -> res N.
Variable def : A.

Lemma cdist_self_spec ds diag j M : valid_jobs j (length (triu (length ds) diag)) ->
  cdist_self dist ds def diag j = Ok M ->
  (forall i k, i < k -> k < length ds -> dist (nth i ds def) (nth k ds def) = Ok (M i k) /\ M k i = M i k) /\
  (forall i, i < length ds -> if diag then dist (nth i ds def) (nth i ds def) = Ok (M i i) else M i i = nzero).
Proof.
  intros Hj. unfold cdist_self. destruct (run_jobs _ _ _) as [vals|e] eqn:E; simpl; [|discriminate].
  apply run_jobs_mapM in E; auto. apply mapM_spec in E. intros [= <-].
  set (n := length ds) in *. set (idx := triu n diag) in *.
  set (m0 := assign (fun _ _ => nzero) idx vals).
  assert (H0 := assign_spec (fun i k v => dist (nth i ds def) (nth k ds def) = Ok v) idx vals E (fun _ _ => nzero)).
  fold m0 in H0.
  assert (H1 := assign_spec (fun i k v => v = m0 k i) (tril1 n) (map (fun ij => m0 (snd ij) (fst ij)) (tril1 n))).
  assert (F : Forall2 (fun ij v => v = m0 (snd ij) (fst ij)) (tril1 n) (map (fun ij => m0 (snd ij) (fst ij)) (tril1 n))).
  { clear. induction (tril1 n) as [|a l IH]; simpl; constructor; auto. }
  specialize (H1 F m0).
  set (m1 := assign m0 (tril1 n) (map (fun ij => m0 (snd ij) (fst ij)) (tril1 n))) in *.
  assert (U : forall i k, i <= k -> m1 i k = m0 i k).
  { intros i k Hik. apply H1. rewrite in_tril1. lia. }
  split.
  - intros i k Hik Hk. rewrite (U i k) by lia. split.
    + apply H0. apply in_triu. destruct diag; lia.
    + apply H1. apply in_tril1. lia.
  - intros i Hi. rewrite (U i i) by lia. destruct diag.
    + apply H0. apply in_triu. lia.
    + apply H0. unfold idx. rewrite in_triu. lia.
Qed.
Lemma cdist_self_returns ds diag j : valid_jobs j (length (triu (length ds) diag)) ->
  (forall i k, i < length ds -> k < length ds -> exists v, dist (nth i ds def) (nth k ds def) = Ok v) ->
  exists M, cdist_self dist ds def diag j = Ok M.
Proof.
  intros Hj H. unfold cdist_self.
  destruct (mapM_total (fun ij => dist (nth (fst ij) ds def) (nth (snd ij) ds def)) (triu (length ds) diag)) as (vals & E).
  { intros [i k] Hin. apply in_triu in Hin. apply H; simpl; destruct diag; lia. }
  apply (run_jobs_mapM j) in E; auto. rewrite E. simpl. eauto.
Qed.

Lemma row_major_nth n m : forall i k, i < n -> k < m -> nth_error (row_major n m) (i * m + k) = Some (i, k).
Proof.
  unfold row_major. assert (G : forall l i k, i < length l -> k < m ->
    nth_error (flat_map (fun i : nat => map (fun j => (i, j)) (seq 0 m)) l) (i * m + k) = Some (nth i l 0, k)).
  { induction l as [|a l IH]; simpl; intros i k Hi Hk; [lia|].
    destruct i as [|i].
    - rewrite nth_error_app1 by (rewrite map_length, seq_length; lia). simpl.
      rewrite nth_error_map. rewrite (nth_error_nth' _ 0) by (rewrite seq_length; lia).
      rewrite seq_nth by lia. reflexivity.
    - rewrite nth_error_app2 by (rewrite map_length, seq_length; simpl; nia).
      rewrite map_length, seq_length. replace (S i * m + k - m) with (i * m + k) by (simpl; nia). apply IH; lia. }
  intros i k Hi Hk. rewrite G by (rewrite ?seq_length; lia). rewrite seq_nth by lia. reflexivity.
Qed.

Lemma cdist_cross_spec ds1 ds2 j M : valid_jobs j (length (row_major (length ds1) (length ds2))) ->
  cdist_cross dist ds1 ds2 def j = Ok M ->
  forall i k, i < length ds1 -> k < length ds2 -> dist (nth i ds1 def) (nth k ds2 def) = Ok (M i k).
Proof.
  intros Hj. unfold cdist_cross. destruct (run_jobs _ _ _) as [vals|e] eqn:E; simpl; [|discriminate].
  apply run_jobs_mapM in E; auto. apply mapM_spec in E. intros [= <-] i k Hi Hk.
  pose proof (row_major_nth _ _ i k Hi Hk) as R.
  assert (Hl := Forall2_len _ _ _ E).
  assert (Hlt : i * length ds2 + k < length vals) by (rewrite <- Hl; apply nth_error_Some; congruence).
  pose proof (Forall2_nth_inv _ _ _ _ _ _ E R (nth_error_nth' _ nzero Hlt)) as X. exact X.
Qed.
Lemma cdist_cross_returns ds1 ds2 j : valid_jobs j (length (row_major (length ds1) (length ds2))) ->
  (forall i k, i < length ds1 -> k < length ds2 -> exists v, dist (nth i ds1 def) (nth k ds2 def) = Ok v) ->
  exists M, cdist_cross dist ds1 ds2 def j = Ok M.
Proof.
  intros Hj H. unfold cdist_cross.
  destruct (mapM_total (fun ij => dist (nth (fst ij) ds1 def) (nth (snd ij) ds2 def)) (row_major (length ds1) (length ds2))) as (vals & E).
  { intros [i k] Hin. apply in_row_major' in Hin. apply H; simpl; lia. }
  apply (run_jobs_mapM j) in E; auto. rewrite E. simpl. eauto.
Qed.
End G.

(** ** datasets *)
Section D.
Variable N : num.

Lemma mapM_broadcast d (ts : series N) : rect d ts -> mapM (broadcast_row d) ts = Ok ts.
Proof.
  induction 1 as [|r l Hr H IH]; simpl; auto. unfold broadcast_row at 1. rewrite Hr, Nat.eqb_refl. simpl.
  rewrite IH. reflexivity.
Qed.
Lemma rect_firstn d (ts : series N) k : rect d ts -> rect d (firstn k ts).
Proof.
  unfold rect. rewrite !Forall_forall. intros H x Hx. apply H.
  rewrite <- (firstn_skipn k ts). apply in_or_app. auto.
Qed.
Lemma padded_ok d msz (x : raw N) : rect d (reshape x) ->
  padded d msz x = Ok (to_time_series true x ++ repeat (repeat nnan d) (msz - length (to_time_series true x))).
Proof.
  intros H. unfold padded. cbv zeta. rewrite mapM_broadcast; [reflexivity|]. unfold to_time_series. apply rect_firstn. auto.
Qed.

Lemma ts_size_strip (x : raw N) : ts_size (reshape x) = length (to_time_series true x).
Proof. unfold to_time_series. rewrite firstn_length. pose proof (ts_size_le N (reshape x)). lia. Qed.
Lemma strip_idem (x : raw N) : to_time_series true (Raw2 (to_time_series true x)) = to_time_series true x.
Proof.
  destruct (to_time_series_decomp N (reshape x)) as (pad & E & Hp & _).
  change (to_time_series true (Raw2 (reshape x))) with (to_time_series true x) in E.
  assert (H : ts_size (reshape x) = ts_size (to_time_series true x)).
  { rewrite E at 1. apply ts_size_pad. auto. }
  unfold to_time_series at 1. cbn [reshape]. rewrite <- H, ts_size_strip. apply firstn_all.
Qed.
Lemma strip_rect d (x : raw N) : rect d (reshape x) -> rect d (to_time_series true x).
Proof. intros H. unfold to_time_series. apply rect_firstn. auto. Qed.
Lemma strip_padded d k (x : raw N) : nisnan (n:=N) nnan = true ->
  to_time_series true (Raw2 (to_time_series true x ++ repeat (repeat nnan d) k)) = to_time_series true x.
Proof.
  intros Hn. rewrite to_time_series_pad.
  - apply strip_idem.
  - intros r Hr. apply repeat_spec in Hr. subst. unfold nan_row. apply forallb_forall. intros y Hy.
    apply repeat_spec in Hy. subst. auto.
Qed.

Lemma fold_max_spec l : forall a, (forall x, In x l -> x <= fold_left Nat.max l a) /\ a <= fold_left Nat.max l a /\
  (fold_left Nat.max l a = a \/ In (fold_left Nat.max l a) l).
Proof.
  induction l as [|b l IH]; simpl; intros a; [split; [tauto|split; auto]|].
  destruct (IH (Nat.max a b)) as (H1 & H2 & H3). split; [|split].
  - intros x [<-|Hx]; [lia|auto].
  - lia.
  - destruct H3 as [->|H3]; auto. destruct (Nat.max_dec a b) as [E|E]; rewrite E; auto.
Qed.
Lemma max_size_spec (ds : list (raw N)) : ds <> [] ->
  (forall x, In x ds -> length (to_time_series true x) <= max_size ds) /\
  (exists x, In x ds /\ length (to_time_series true x) = max_size ds).
Proof.
  intros Hne. unfold max_size. destruct (fold_max_spec (map (fun x : raw N => ts_size (reshape x)) ds) 0) as (H1 & H2 & H3).
  split.
  - intros x Hx. rewrite <- ts_size_strip. apply H1. apply in_map_iff. eauto.
  - destruct H3 as [H3|H3].
    + destruct ds as [|x ds]; [congruence|]. exists x. split; [left; auto|]. rewrite <- ts_size_strip.
      assert (ts_size (reshape x) <= 0); [|lia]. rewrite <- H3. apply H1. left. reflexivity.
    + apply in_map_iff in H3. destruct H3 as (x & E & Hx). exists x. split; auto. rewrite <- ts_size_strip. auto.
Qed.

Definition uniform (d : nat) (ds : list (raw N)) : Prop :=
  forall x, In x ds -> raw_ncols x = d /\ rect d (reshape x).

Lemma to_dataset_ok d ds : uniform d ds ->
  to_dataset ds = Ok (map (fun x => to_time_series true x ++
    repeat (repeat nnan d) (max_size ds - length (to_time_series true x))) ds).
Proof.
  intros H. destruct ds as [|x0 ds]; auto. unfold to_dataset.
  destruct (H x0) as [-> _]; [left; auto|].
  apply mapM_spec. set (k := max_size (x0 :: ds)). clearbody k.
  assert (G : forall l : list (raw N), (forall x, In x l -> rect d (reshape x)) -> Forall2 (fun a b => padded d k a = Ok b) l
    (map (fun x => to_time_series true x ++ repeat (repeat nnan d) (k - length (to_time_series true x))) l)).
  { induction l as [|a l IH]; intros Hl; constructor.
    - apply padded_ok. apply Hl. left; auto.
    - apply IH. intros; apply Hl; right; auto. }
  apply G. intros x Hx. apply H. auto.
Qed.

Lemma to_dataset_idem d ds out : nisnan (n:=N) nnan = true -> uniform d ds -> to_dataset ds = Ok out ->
  to_dataset (map Raw2 out) = Ok out.
Proof.
  intros Hn H E. rewrite (to_dataset_ok d ds H) in E. 
  destruct ds as [|x0 ds]; [inversion E; reflexivity|]. set (D := x0 :: ds) in *.
  set (f := fun x : raw N => to_time_series true x ++ repeat (repeat nnan d) (max_size D - length (to_time_series true x))).
  assert (Eo : out = map f D) by (unfold f; congruence). clear E. subst out.
  assert (Hne : D <> []) by discriminate.
  destruct (max_size_spec D Hne) as [M1 M2].
  assert (Hs : forall x, to_time_series true (Raw2 (f x)) = to_time_series true x) by (intros; apply strip_padded; auto).
  assert (Hm : max_size (map Raw2 (map f D)) = max_size D).
  { unfold max_size at 1. rewrite !map_map. unfold max_size at 1. f_equal. apply map_ext. intros x. rewrite !ts_size_strip, Hs. reflexivity. }
  assert (Hf : forall x, In x D -> length (f x) = max_size D).
  { intros x Hx. unfold f. rewrite app_length, repeat_length. specialize (M1 x Hx). lia. }
  destruct (Nat.eq_dec (max_size D) 0) as [Z|Z].
  - assert (Hz : forall x, In x D -> f x = []).
    { intros x Hx. apply length_zero_iff_nil. rewrite Hf; auto. }
    change (to_dataset (map Raw2 (map f D))) with (mapM (padded (raw_ncols (Raw2 (f x0))) (max_size (map Raw2 (map f D)))) (map Raw2 (map f D))).
    rewrite Hm, Z. rewrite (Hz x0) by (left; auto).
    assert (G : forall l, (forall x, In x l -> f x = []) -> mapM (padded 0 0) (map Raw2 (map f l)) = Ok (map f l)).
    { induction l as [|a l IH]; cbn [map]; intros Hl; auto. simpl. rewrite (Hl a) by (left; auto). simpl.
      rewrite IH by (intros; apply Hl; right; auto). reflexivity. }
    exact (G D Hz).
  - rewrite (to_dataset_ok d).
    + rewrite Hm. rewrite map_map. f_equal. rewrite map_map. apply map_ext. intros x. rewrite Hs. reflexivity.
    + intros y Hy. apply in_map_iff in Hy. destruct Hy as (r & <- & Hr). apply in_map_iff in Hr.
      destruct Hr as (x & <- & Hx). assert (R : rect d (f x)).
      { unfold f, rect. apply Forall_app. split; [apply strip_rect, H; auto|]. apply Forall_forall.
        intros r Hr. apply repeat_spec in Hr. subst. apply repeat_length. }
      split; [|exact R]. simpl. unfold ncols. specialize (Hf x Hx). destruct (f x) as [|r l]; [simpl in Hf; lia|].
      inversion R; subst. reflexivity.
Qed.
End D.
Arguments uniform {N}.

(** ** elastic distances *)
Section E.
Variable N : num.
Lemma code3 comb (s1 s2 : series N) r s : elastic_generic comb s1 s2 3 r s = elastic_generic comb s1 s2 0 None None.
Proof. unfold elastic_generic, compute_mask. destruct r, s; reflexivity. Qed.

(** the distance used on stripped series is the public one *)
Lemma elastic_public comb d (x1 x2 : raw N) g r s : rect d (reshape x1) -> rect d (reshape x2) ->
  ~ all_nan x1 -> ~ all_nan x2 ->
  elastic comb x1 x2 g r s =
  (do code <- gc_code g ;; elastic_generic comb (to_time_series true x1) (to_time_series true x2) code r s).
Proof.
  intros R1 R2 H1 H2. unfold elastic.
  destruct (validated_cases N x1 x2 (fun s1 s2 => do code <- gc_code g ;; elastic_generic comb s1 s2 code r s))
    as [[[H|[H|H]] _]|(_ & _ & _ & ->)]; try contradiction; auto.
  exfalso. apply H. unfold features.
  assert (G : forall x : raw N, rect d (reshape x) -> ~ all_nan x -> length (hd [] (reshape x)) = d).
  { intros x R Hx. destruct (reshape x) as [|a l] eqn:E.
    - exfalso. apply Hx. intros q. rewrite E. intros [].
    - inversion R; auto. }
  rewrite !G by auto. reflexivity.
Qed.
End E.

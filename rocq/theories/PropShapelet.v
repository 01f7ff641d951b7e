(** C70: the layers of LearningShapelets. *)
From Coq Require Import Bool List Arith ZArith Reals Lia Lra.
From Verif Require Import Num Py Series Dataset RList SoftModel GakModel PaaModel PreModel KernelModel RealSeries PaaThms ShapeletModel.
Import ListNotations.
Local Open Scope R_scope.

(** ** Specification *)
(** the part of the series that begins at time [t] and has [L] steps *)
Definition window {A} (L t : nat) (ts : list A) : list A := firstn L (skipn t ts).
(** sum over the [L] time steps and [d] features of the squared differences, divided by the number of time steps *)
Definition mean_sq_dist (L d : nat) (w s : list (list R)) : R :=
  rsum (map (fun l => rsum (map (fun f => (nth f (nth l w []) 0 - nth f (nth l s []) 0) ^ 2) (seq 0 d))) (seq 0 L)) / INR L.
(** a 2-d array of [L] rows of [d] values *)
Definition shape2 {A} (L d : nat) (s : list (list A)) : Prop := length s = L /\ forall r, In r s -> length r = d.

(** ** reshaping *)
Lemma concat_length_const {A} d (l : list (list A)) : (forall r, In r l -> length r = d) -> length (concat l) = (length l * d)%nat.
Proof. induction l as [|x l IH]; cbn; auto. intros H. rewrite app_length, IH, (H x); auto. Qed.
Lemma firstn_concat {A} d (l : list (list A)) n : (forall r, In r l -> length r = d) -> firstn (n * d) (concat l) = concat (firstn n l).
Proof.
  revert n. induction l as [|x l IH]; intros n H; [cbn [concat]; rewrite !firstn_nil; cbn; reflexivity|]. destruct n; auto. cbn [concat firstn]. rewrite <- IH by auto with datatypes. pose proof (H x (or_introl eq_refl)) as E.
  replace (S n * d)%nat with (length x + n * d)%nat by (rewrite E; lia). apply firstn_app_2.
Qed.
Lemma skipn_concat {A} d (l : list (list A)) n : (forall r, In r l -> length r = d) -> skipn (n * d) (concat l) = concat (skipn n l).
Proof.
  revert n. induction l as [|x l IH]; intros n H; [cbn [concat]; rewrite !skipn_nil; reflexivity|]. destruct n; auto. cbn [concat skipn]. rewrite <- IH by auto with datatypes. pose proof (H x (or_introl eq_refl)) as E.
  replace (S n * d)%nat with (length x + n * d)%nat by (rewrite E; lia). rewrite skipn_app, skipn_all2 by lia. cbn. f_equal. lia.
Qed.
Lemma in_firstn {A} n (l : list A) x : In x (firstn n l) -> In x l.
Proof. intros H. rewrite <- (firstn_skipn n l). apply in_or_app. auto. Qed.
Lemma in_skipn {A} n (l : list A) x : In x (skipn n l) -> In x l.
Proof. intros H. rewrite <- (firstn_skipn n l). apply in_or_app. auto. Qed.
Lemma rows_of_concat {A} d (l : list (list A)) : (forall r, In r l -> length r = d) -> rows_of d (length l) (concat l) = l.
Proof.
  intros H. unfold rows_of. apply nth_ext with (d := []) (d' := []); [rewrite map_length, seq_length; auto|].
  intros i Hi. rewrite map_length, seq_length in Hi.   rewrite (nth_indep _ [] ((fun i => firstn d (skipn (i * d) (concat l))) 0%nat)) by (rewrite map_length, seq_length; auto).
  rewrite (map_nth (fun i => firstn d (skipn (i * d) (concat l)))), seq_nth by auto. cbn [Nat.add]. rewrite skipn_concat by auto.
  replace d with (1 * d)%nat at 1 by lia. rewrite firstn_concat by (intros r Hr; apply H; eapply in_skipn; eauto).
  rewrite <- (firstn_skipn i l) at 2. rewrite app_nth2 by (rewrite firstn_length; lia). rewrite firstn_length, Nat.min_l by lia. rewrite Nat.sub_diag.
  destruct (skipn i l) as [|x r] eqn:E; [apply (f_equal (@length _)) in E; rewrite skipn_length in E; cbn in E; lia|]. cbn. rewrite app_nil_r. auto.
Qed.
Lemma shape2_window {A} L d t (ts : list (list A)) : (forall r, In r ts -> length r = d) -> (t + L <= length ts)%nat -> shape2 L d (window L t ts).
Proof. intros H HL. split; [unfold window; rewrite firstn_length, skipn_length; lia|]. intros r Hr. apply H. eapply in_skipn, in_firstn, Hr. Qed.
(** The patches are the windows of the series. *)
Lemma patches_spec L d (ts : series Xnum) : (0 < d)%nat -> (forall r, In r ts -> length r = d) -> (1 <= L <= length ts)%nat ->
  patches L d ts = map (fun t => window L t ts) (seq 0 (length ts - L + 1)).
Proof.
  intros Hd H HL. unfold patches. replace (1 + (length ts * d - L * d) / d)%nat with (length ts - L + 1)%nat by (rewrite <- Nat.mul_sub_distr_r, Nat.div_mul by lia; lia).
  set (n := (length ts - L + 1)%nat). assert (E : map (fun i => firstn (L * d) (skipn (i * d) (concat ts))) (seq 0 n) = map (fun t => concat (window L t ts)) (seq 0 n)).
  { apply map_ext_in. intros i _. unfold window. rewrite skipn_concat, firstn_concat; auto. intros r Hr. apply H. eapply in_skipn; eauto. }
  rewrite E. replace n with (length (map (fun t => concat (window L t ts)) (seq 0 n))) at 1 by (rewrite map_length, seq_length; auto).
  rewrite rows_of_concat.
  - rewrite map_map. apply map_ext_in. intros t Ht. apply in_seq in Ht. destruct (shape2_window L d t ts H) as (Q1 & Q2); [unfold n in *; lia|]. rewrite <- Q1 at 1. apply rows_of_concat. auto.
  - intros r Hr. apply in_map_iff in Hr. destruct Hr as (t & <- & Ht). apply in_seq in Ht. destruct (shape2_window L d t ts H) as (Q1 & Q2); [unfold n in *; lia|]. rewrite (concat_length_const d), Q1; auto.
Qed.

(** ** sums *)
Lemma rsum_grid (g : nat -> R) L d : rsum (map g (seq 0 (L * d))) = rsum (map (fun l => rsum (map (fun f => g (l * d + f)%nat) (seq 0 d))) (seq 0 L)).
Proof.
  rewrite <- seq_blocks, concat_map, rsum_concat, !map_map. f_equal. apply map_ext. intros l. f_equal. replace (seq (l * d) d) with (map (fun f => l * d + f)%nat (seq 0 d)); [apply map_map|].
  clear. induction d as [|d IH] in l |- *; auto. generalize (l * S d)%nat. intros a. clear IH. revert a. generalize (S d). intros n. induction n as [|n IH] in |- *; intros a; auto. rewrite !seq_S, map_app, IH. cbn. auto.
Qed.
Lemma rsum_nth (f : R -> R) (l : list R) : rsum (map f l) = rsum (map (fun i => f (nth i l 0)) (seq 0 (length l))).
Proof. f_equal. induction l as [|x l IH]; auto. cbn [length seq map]. f_equal. rewrite <- seq_shift, map_map. auto. Qed.
Lemma nth_concat2 {A} d (l : list (list A)) q r df : (forall x, In x l -> length x = d) -> (r < d)%nat -> nth (q * d + r) (concat l) df = nth r (nth q l []) df.
Proof.
  intros H Hr. revert q. induction l as [|x l IH]; intros q; [cbn; destruct (q * d + r)%nat, q, r; auto|]. pose proof (H x (or_introl eq_refl)). cbn [concat]. destruct q.
  - cbn [Nat.mul Nat.add nth]. apply app_nth1. lia.
  - rewrite app_nth2 by lia. cbn [nth]. rewrite <- IH by (intros; apply H; right; auto). f_equal. lia.
Qed.
Lemma rsum_combine {A B} (h : A -> B -> R) (l : list A) (l' : list B) a b : length l = length l' ->
  rsum (map (fun p => h (fst p) (snd p)) (combine l l')) = rsum (map (fun i => h (nth i l a) (nth i l' b)) (seq 0 (length l))).
Proof.
  revert l'. induction l as [|x l IH]; intros [|y l'] E; try discriminate; auto. cbn [combine map rsum fold_right length seq nth fst snd]. f_equal. rewrite <- seq_shift, map_map. injection E as E. apply (IH l' E).
Qed.
Lemma nth_map_seq {A} (f : nat -> A) n j df : (j < n)%nat -> nth j (map f (seq 0 n)) df = f j.
Proof. intros H. rewrite (nth_indep _ df (f 0%nat)) by (rewrite map_length, seq_length; auto). rewrite map_nth, seq_nth by auto. reflexivity. Qed.

Section LAYER.
Variables (L d : nat) (kernel : list (list (list R))) (w : list (list R)).
Let K := length kernel.
Hypotheses (HL : (1 <= L)%nat) (Hd : (0 < d)%nat) (HK : forall s, In s kernel -> shape2 L d s) (Hw : shape2 L d w).

Lemma kernel_shape k : (k < K)%nat -> shape2 L d (nth k kernel []).
Proof. intros H. apply HK, nth_In. auto. Qed.
(** the entry of the reshaped kernel in row [i] and column [k]; its place in the transposed kernel is [(l, k', f)] *)
Lemma entry_y i k l k' f : (k < K)%nat -> (i < L * d)%nat -> (l < L)%nat -> (k' < K)%nat -> (f < d)%nat -> (i * K + k = (l * K + k') * d + f)%nat ->
  nth k (nth i (rows_of K (L * d) (concat (concat (transpose102 K L kernel)))) []) 0 = nth f (nth l (nth k' kernel []) []) 0.
Proof.
  intros Hk Hi Hl Hk' Hf E.
  assert (T1 : forall r, In r (transpose102 K L kernel) -> length r = K) by (intros r Hr; unfold transpose102 in Hr; apply in_map_iff in Hr; destruct Hr as (a & <- & _); rewrite map_length, seq_length; auto).
  assert (T2 : forall r, In r (concat (transpose102 K L kernel)) -> length r = d).
  { intros r Hr. apply in_concat in Hr. destruct Hr as (x & Hx & Hr). unfold transpose102 in Hx. apply in_map_iff in Hx. destruct Hx as (a & <- & Ha). apply in_map_iff in Hr. destruct Hr as (b & <- & Hb). apply in_seq in Ha, Hb.
    destruct (kernel_shape b) as (Q1 & Q2); [lia|]. apply Q2, nth_In. lia. }
  unfold rows_of. rewrite nth_map_seq by auto.
  assert (N : nth k (firstn K (skipn (i * K) (concat (concat (transpose102 K L kernel))))) 0 = nth (i * K + k) (concat (concat (transpose102 K L kernel))) 0).
  { set (z := concat _). clearbody z. rewrite <- (firstn_skipn (i * K) z) at 2. destruct (le_lt_dec (length z) (i * K)) as [Q|Q].
    - rewrite skipn_all2 by auto. rewrite app_nil_r, firstn_nil. rewrite (nth_overflow (firstn _ z)) by (rewrite firstn_length; lia). destruct k; auto.
    - rewrite app_nth2 by (rewrite firstn_length; lia). rewrite firstn_length, Nat.min_l by lia. replace (i * K + k - i * K)%nat with k by lia. set (y := skipn _ z). clearbody y. clear - Hk. rewrite <- (firstn_skipn K y) at 2.
      destruct (le_lt_dec (length y) k); [rewrite !nth_overflow; auto; rewrite ?app_length, ?firstn_length, ?skipn_length; lia|]. symmetry. apply app_nth1. rewrite firstn_length. lia. }
  rewrite N, E, (nth_concat2 d) by auto. f_equal. rewrite (nth_concat2 K) by auto. unfold transpose102. rewrite !nth_map_seq by auto. auto.
Qed.
Lemma distances_len x : length (local_distances kernel L d x) = K.
Proof. unfold local_distances. rewrite map_length, seq_length. auto. Qed.
Lemma concat_lift_num : concat (map (map num_of) (lift w)) = concat w.
Proof. f_equal. unfold lift. rewrite map_map. rewrite <- (map_id w) at 2. apply map_ext. intros r. rewrite map_map. cbn. apply map_id. Qed.
(** what the layer computes, for any number of features and shapelets; [y] is the reshaped kernel *)
Lemma distance_general k (y : nat -> nat -> R) : (k < K)%nat ->
  (forall l f, (l < L)%nat -> (f < d)%nat -> nth k (nth (l * d + f) (rows_of K (L * d) (concat (concat (transpose102 K L kernel)))) []) 0 = y l f) ->
  nth k (local_distances kernel L d (lift w)) 0 =
  (rsum (map (fun l => rsum (map (fun f => nth f (nth l w []) 0 ^ 2 + nth f (nth l (nth k kernel []) []) 0 ^ 2 - 2 * (nth f (nth l w []) 0 * y l f)) (seq 0 d))) (seq 0 L))) / INR L.
Proof.
  intros Hk Hy. unfold local_distances. fold K. rewrite nth_map_seq by auto. rewrite concat_lift_num. f_equal. destruct Hw as (W1 & W2). destruct (kernel_shape k Hk) as (S1 & S2).
  assert (LW : length (concat w) = (L * d)%nat) by (rewrite (concat_length_const d), W1; auto).
  assert (SQ : forall s, shape2 L d s -> rsum (map sq (concat s)) = rsum (map (fun l => rsum (map (fun f => nth f (nth l s []) 0 ^ 2) (seq 0 d))) (seq 0 L))).
  { intros s (A & B). rewrite rsum_nth, (concat_length_const d), A by auto. rewrite rsum_grid. apply rsum_map_ext. intros l Hl. apply rsum_map_ext. intros f Hf. apply in_seq in Hl, Hf. rewrite (nth_concat2 d) by (auto; lia). unfold sq. ring. }
  rewrite SQ by (split; auto). rewrite (nth_indep _ 0 ((fun s => rsum (map sq (concat s))) [])) by (rewrite map_length; auto). rewrite (map_nth (fun s => rsum (map sq (concat s)))), SQ by (split; auto).
  rewrite nth_map_seq by auto.
  rewrite (rsum_combine (fun a b => a * nth k b 0) (concat w) _ 0 []) by (unfold rows_of; rewrite map_length, seq_length; auto). rewrite LW, rsum_grid.
  rewrite <- rsum_map_plus. unfold Rminus. rewrite (Ropp_mult_distr_l 2), <- rsum_map_scal, <- rsum_map_plus. apply rsum_map_ext. intros l Hl. apply in_seq in Hl. rewrite <- rsum_map_plus, <- rsum_map_scal, <- rsum_map_plus.
  apply rsum_map_ext. intros f Hf. apply in_seq in Hf. rewrite (nth_concat2 d) by (auto; lia). rewrite Hy by lia. ring.
Qed.
(** With one feature, or with one shapelet of the size, the layer computes the mean squared distance. *)
Theorem C70_distance_partial k : d = 1%nat \/ K = 1%nat -> (k < K)%nat -> nth k (local_distances kernel L d (lift w)) 0 = mean_sq_dist L d w (nth k kernel []).
Proof.
  intros H1 Hk. rewrite (distance_general k (fun l f => nth f (nth l (nth k kernel []) []) 0)); auto.
  - unfold mean_sq_dist. f_equal. apply rsum_map_ext. intros l _. apply rsum_map_ext. intros f _. ring.
  - intros l f Hl Hf. apply entry_y; auto; [nia|]. destruct H1 as [->|E]; [|rewrite E in *]; nia.
Qed.
End LAYER.
Print Assumptions C70_distance_partial.
(** With two features and two shapelets or more the kernel is reshaped in the wrong order: for all sizes there are shapelets and a
    window equal to one of them for which the distance is negative. *)
Theorem C70_refuted L d K : (1 <= L)%nat -> (2 <= d)%nat -> (2 <= K)%nat -> exists kernel w, length kernel = K /\ (forall s, In s kernel -> shape2 L d s) /\ shape2 L d w /\
  nth 1 kernel [] = w /\ mean_sq_dist L d w (nth 1 kernel []) = 0 /\ nth 1 (local_distances kernel L d (lift w)) 0 < 0.
Proof.
  intros HL Hd HK.
  set (point := fun f0 c => map (fun l => map (fun f => if (l =? 0)%nat && (f =? f0)%nat then c else 0) (seq 0 d)) (seq 0 L)).
  assert (PS : forall f0 c, shape2 L d (point f0 c)).
  { intros f0 c. split; [unfold point; rewrite map_length, seq_length; auto|]. intros r Hr. apply in_map_iff in Hr. destruct Hr as (l & <- & _). rewrite map_length, seq_length. auto. }
  assert (PE : forall f0 c l f, (l < L)%nat -> (f < d)%nat -> nth f (nth l (point f0 c) []) 0 = if (l =? 0)%nat && (f =? f0)%nat then c else 0).
  { intros f0 c l f Hl Hf. unfold point. rewrite nth_map_seq by auto. rewrite nth_map_seq by auto. auto. }
  set (w := point 0%nat 1). set (kernel := point 1%nat 2 :: w :: repeat (point 0%nat 0) (K - 2)).
  assert (EK : length kernel = K) by (cbn; rewrite repeat_length; lia).
  assert (SK : forall s, In s kernel -> shape2 L d s). { intros s [<-|[<-|H]]; try apply PS. apply repeat_spec in H. rewrite H. apply PS. }
  exists kernel, w. split; auto. split; auto. split; [apply PS|]. split; auto. split.
  - unfold mean_sq_dist. change (nth 1 kernel []) with w. rewrite (rsum_map_ext _ (fun _ => 0)); [rewrite rsum_const; field; apply not_0_INR; lia|]. intros l _. rewrite (rsum_map_ext _ (fun _ => 0)); [rewrite rsum_const; ring|]. intros f _. ring.
  - rewrite (distance_general L d kernel w HL ltac:(lia) SK (PS _ _) 1 (fun l f => nth 1 (nth (l * d + f) (rows_of K (L * d) (concat (concat (transpose102 K L kernel)))) []) 0)); [|lia|intros; rewrite EK; auto].
    apply Rmult_lt_reg_r with (INR L); [apply lt_0_INR; lia|]. unfold Rdiv. rewrite Rmult_assoc, Rinv_l, Rmult_1_r, Rmult_0_l by (apply not_0_INR; lia).
    rewrite (rsum_map_ext _ (fun l => if (l =? 0)%nat then -2 else 0)).
    + replace L with (S (L - 1)) by lia. cbn [seq map rsum fold_right Nat.eqb]. rewrite <- seq_shift, map_map. rewrite (rsum_map_ext _ (fun _ => 0)); [|auto]. fold (rsum (map (fun _ : nat => 0) (seq 0 (L - 1)))). rewrite rsum_const. lra.
    + intros l Hl. apply in_seq in Hl. rewrite (rsum_map_ext _ (fun f => if (f =? 0)%nat then (if (l =? 0)%nat then -2 else 0) else 0)).
      * replace d with (S (d - 1)) by lia. cbn [seq map rsum fold_right Nat.eqb]. rewrite <- seq_shift, map_map. rewrite (rsum_map_ext _ (fun _ => 0)); [|auto]. fold (rsum (map (fun _ : nat => 0) (seq 0 (d - 1)))). rewrite rsum_const. lra.
      * intros f Hf. apply in_seq in Hf. change (nth 1 kernel []) with w. unfold w at 1 2 3. rewrite !PE by lia. destruct (Nat.eqb_spec l 0) as [->|]; destruct (Nat.eqb_spec f 0) as [->|]; cbn [andb]; try ring.
        rewrite <- EK. rewrite (entry_y L d kernel HL ltac:(lia) SK (0 * d + 0) 1 0 0 1); rewrite ?EK; try lia. change (nth 0 kernel []) with (point 1%nat 2). rewrite PE by lia. cbn. ring.
Qed.
Print Assumptions C70_refuted.
(** The windows compared with the shapelets are all the windows of the series, in order: as many as there are places, the first at time 0 and
    the last at the end of the series. *)
Theorem C70_windows_partial L d (ts : series Xnum) : (0 < d)%nat -> (forall r, In r ts -> length r = d) -> (1 <= L <= length ts)%nat ->
  length (patches L d ts) = (length ts - L + 1)%nat /\
  forall t, (t + L <= length ts)%nat -> nth t (patches L d ts) [] = firstn L (skipn t ts) /\ shape2 L d (nth t (patches L d ts) []).
Proof.
  intros Hd H HL. rewrite patches_spec by auto. split; [rewrite map_length, seq_length; auto|]. intros t Ht.
  assert (E : nth t (map (fun t => window L t ts) (seq 0 (length ts - L + 1))) [] = window L t ts) by (rewrite nth_map_seq by lia; auto).
  split; [exact E|]. pose proof (shape2_window L d t ts H Ht) as S. rewrite <- E in S. exact S.
Qed.
Print Assumptions C70_windows_partial.
Example C70_windows_instance : patches 2 2 (lift [[1; 2]; [3; 4]; [5; 6]]) = [lift [[1; 2]; [3; 4]]; lift [[3; 4]; [5; 6]]].
Proof. reflexivity. Qed.
(** a window of the concrete sort *)
Example C70_instance : mean_sq_dist 2 1 [[1]; [3]] [[0]; [5]] = 5 / 2 /\ nth 1 (local_distances [[[0]; [0]]; [[0]; [5]]] 2 1 (lift [[1]; [3]])) 0 = 5 / 2.
Proof.
  assert (E : mean_sq_dist 2 1 [[1]; [3]] [[0]; [5]] = 5 / 2) by (unfold mean_sq_dist; cbn; field). split; auto. rewrite <- E. apply (C70_distance_partial 2 1 [[[0]; [0]]; [[0]; [5]]] [[1]; [3]]); auto; try lia; cbn; try lia.
  - intros s [<-|[<-|[]]]; split; auto; cbn; intros r H; repeat destruct H as [<-|H]; auto; destruct H.
  - split; auto. cbn. intros r H; repeat destruct H as [<-|H]; auto; destruct H.
Qed.

(** Properties C34, C80, C81, C82: normalised cross-correlation. *)
From Coq Require Import Bool List Arith ZArith Reals Lia Lra.
From Verif Require Import Num NumLaws Py RList PaaThms RealSeries CyccModel CyccThms.
Import ListNotations.
Local Open Scope R_scope.

(** ** specification *)
Definition dot (x y : list R) : R := rsum (map (fun p => fst p * snd p) (combine x y)).
(** Euclidean norm of a series *)
Definition l2norm (s : list (list R)) : R := sqrt (rsum (map (fun x => x * x) (concat s))).
(** inner product of [s1] with [s2] delayed by [z] time steps *)
Definition sliding (s1 s2 : list (list R)) (z : Z) : R :=
  rsum (map (fun u => let t := (Z.of_nat u + z)%Z in
    if ((0 <=? t) && (t <? Z.of_nat (length s1)))%Z then dot (nth (Z.to_nat t) s1 []) (nth u s2 []) else 0)
    (seq 0 (length s2))).
(** two series of the same shape *)
Definition same_size (d : nat) (s1 s2 : list (list R)) : Prop :=
  real_series d s1 /\ real_series d s2 /\ length s2 = length s1.
(** the norm used: the argument if it is not negative, else the series' own norm *)
Definition norm_used (norm : R) (s : list (list R)) : R := if Rlt_dec norm 0 then l2norm s else norm.
(** [s] delayed by [k] time steps, zeros moving in *)
Definition delayed (d : nat) (k : Z) (s : list (list R)) : list (list R) :=
  map (fun t => if ((0 <=? Z.of_nat t - k) && (Z.of_nat t - k <? Z.of_nat (length s)))%Z
                then nth (Z.to_nat (Z.of_nat t - k)) s [] else repeat 0 d) (seq 0 (length s)).

(** ** lemmas *)
Lemma dot_sum d x y : length x = d -> length y = d -> dot x y = rsum (map (fun c => nth c x 0 * nth c y 0) (seq 0 d)).
Proof.
  revert x y. induction d as [|d IH]; intros [|a x] [|b y]; try discriminate; [reflexivity|].
  intros Hx Hy. simpl in *. rewrite <- seq_shift, map_map. unfold dot in *. simpl. rewrite (IH x y); auto.
Qed.
Lemma sliding_cc d s1 s2 z : same_size d s1 s2 -> sliding s1 s2 z = cc_entry d s1 s2 z.
Proof.
  intros (H1 & H2 & El). unfold sliding, cc_entry. rewrite El.
  rewrite (rsum_map_ext (fun c => slide _ _ _ _) _ _ (fun c _ => slide_sum (length s1) z (fun t => at2 s1 t c) (fun u => at2 s2 u c))).
  rewrite rsum_swap. apply rsum_map_ext. intros u Hu. apply in_seq in Hu. cbv zeta.
  destruct ((0 <=? Z.of_nat u + z) && (Z.of_nat u + z <? Z.of_nat (length s1)))%Z eqn:B.
  - apply andb_true_iff in B. destruct B as [B1 B2]. apply Z.leb_le in B1. apply Z.ltb_lt in B2.
    unfold at2. apply dot_sum; [apply H1|apply H2]; apply nth_In; lia.
  - rewrite rsum_const. lra.
Qed.
Lemma l2norm_frob s : l2norm s = frob s.
Proof. unfold l2norm, frob. f_equal. rewrite concat_map, rsum_concat, map_map. reflexivity. Qed.
Lemma norm_used_own n s : own_norm n s = norm_used n s.
Proof. unfold own_norm, norm_used, Rltb. destruct Rlt_dec; auto. rewrite l2norm_frob. auto. Qed.
Lemma l2norm_nonneg s : 0 <= l2norm s. Proof. apply sqrt_pos. Qed.
Lemma norm_used_own_norm s : norm_used (-1) s = l2norm s.
Proof. unfold norm_used. destruct Rlt_dec; [auto|lra]. Qed.
Lemma norm_used_l2 s : norm_used (l2norm s) s = l2norm s.
Proof. unfold norm_used. destruct Rlt_dec; auto. Qed.
Lemma sliding_bound d s1 s2 z : same_size d s1 s2 -> - (l2norm s1 * l2norm s2) <= sliding s1 s2 z <= l2norm s1 * l2norm s2.
Proof.
  intros H. rewrite (sliding_cc d) by auto. destruct H as (H1 & H2 & El).
  rewrite !l2norm_frob, (frob_energy d s1), (frob_energy d s2) by (apply H1 || apply H2). rewrite El.
  pose proof (cc_entry_bound d s1 s2 z El) as B.
  rewrite <- sqrt_mult by apply energy_nonneg.
  set (E := energy d (length s1) s1 * energy d (length s1) s2) in *.
  assert (HE : 0 <= E) by (apply Rmult_le_pos; apply energy_nonneg).
  assert (A : Rabs (cc_entry d s1 s2 z) <= sqrt E).
  { rewrite <- (sqrt_Rsqr_abs (cc_entry d s1 s2 z)). apply sqrt_le_1; auto. apply Rle_0_sqr. }
  revert A. unfold Rabs. destruct Rcase_abs; lra.
Qed.
Lemma sliding_swap d s1 s2 z : same_size d s1 s2 -> sliding s1 s2 z = sliding s2 s1 (- z).
Proof.
  intros H. rewrite (sliding_cc d s1 s2), (sliding_cc d s2 s1); auto.
  - apply cc_entry_swap. apply H.
  - destruct H as (H1 & H2 & El). split; [auto|split; auto].
Qed.
Lemma sliding_self d s : real_series d s -> sliding s s 0 = l2norm s * l2norm s.
Proof.
  intros H. rewrite (sliding_cc d) by (split; auto). rewrite cc_entry_zero_self, l2norm_frob, (frob_energy d) by apply H.
  rewrite sqrt_sqrt; auto. apply energy_nonneg.
Qed.
(** the case of a single time step *)
Lemma cc_one d s1 s2 n1 n2 : length s1 = 1%nat -> length s2 = 1%nat ->
  normalized_cc d s1 s2 n1 n2 =
  map (normalize (own_norm n1 s1 * own_norm n2 s2)) [cc_entry d s1 s2 0; 0; cc_entry d s1 s2 0].
Proof.
  intros E1 E2. unfold normalized_cc. cbv zeta. rewrite E1. change (fft_size 1) with 2%nat.
  unfold py_from, py_upto. rewrite map_length, seq_length. change (Z.to_nat (slice_bound 2 (- (Z.of_nat 1 - 1)))) with 0%nat.
  change (Z.to_nat (slice_bound 2 (Z.of_nat 1))) with 1%nat. simpl app. simpl map.
  assert (A0 : rsum (map (circ_cc s1 s2 2 0) (seq 0 d)) = cc_entry d s1 s2 0).
  { unfold cc_entry. apply rsum_map_ext. intros c _. unfold circ_cc. rewrite E1.
    apply circular_slide; try lia; intros t Ht; apply at2_beyond; lia. }
  assert (A1 : rsum (map (circ_cc s1 s2 2 1) (seq 0 d)) = 0).
  { rewrite (rsum_map_ext _ (fun _ => 0)); [rewrite rsum_const; lra|]. intros c _. unfold circ_cc. rewrite circular by lia.
    simpl. rewrite (at2_beyond s1 1), (at2_beyond s2 1) by lia.
    change ((1 - 0 + 0) mod 2 =? 0)%Z with false. change ((1 - 0 + 1) mod 2 =? 0)%Z with true.
    change ((1 - 1 + 0) mod 2 =? 0)%Z with true. change ((1 - 1 + 1) mod 2 =? 0)%Z with false. cbv iota. lra. }
  rewrite A0, A1. reflexivity.
Qed.
Lemma real_len1 d s : real_series d s -> (1 <= length s)%nat.
Proof. intros H. pose proof (real_len d s H). lia. Qed.

(** ** C34 *)
Theorem C34_sliding_product : forall d s1 s2 norm1 norm2,
  same_size d s1 s2 -> (2 <= length s1)%nat ->
  let sz := length s1 in
  let denom := norm_used norm1 s1 * norm_used norm2 s2 in
  let cc := normalized_cc d s1 s2 norm1 norm2 in
  length cc = (2 * sz - 1)%nat /\
  forall k, (k < 2 * sz - 1)%nat -> 
    (1 / 10 ^ 9 <= denom -> nth k cc 0 = sliding s1 s2 (Z.of_nat k - Z.of_nat (sz - 1)) / denom) /\
    (denom < 1 / 10 ^ 9 -> nth k cc 0 = 0).
Proof.
  intros d s1 s2 n1 n2 H H2 sz denom cc.
  assert (E : cc = map (fun i => normalize denom (sliding s1 s2 (Z.of_nat i - Z.of_nat (sz - 1)))) (seq 0 (2 * sz - 1))).
  { unfold cc. rewrite normalized_cc_eq by (auto; apply H). unfold denom. rewrite !norm_used_own. apply map_ext.
    intros i. rewrite (sliding_cc d) by auto. fold sz. do 2 f_equal. lia. }
  split; [rewrite E, map_length, seq_length; auto|].
  intros k Hk. rewrite E. rewrite map_seq_nth by auto. simpl plus. unfold normalize. split; intros B.
  - rewrite (proj2 (Rltb_false _ _)); auto.
  - rewrite (proj2 (Rltb_true _ _)); auto.
Qed.
Print Assumptions C34_sliding_product.
(** With a single time step the result has three entries instead of one, the middle
    one being a correlation with nothing. *)
Theorem C34_single_time_step_refuted : forall d s1 s2 norm1 norm2,
  same_size d s1 s2 -> length s1 = 1%nat ->
  length (normalized_cc d s1 s2 norm1 norm2) = 3%nat /\ nth 1 (normalized_cc d s1 s2 norm1 norm2) 1 = 0.
Proof.
  intros d s1 s2 n1 n2 (H1 & H2 & El) E1. rewrite cc_one by lia. split; [reflexivity|].
  simpl. unfold normalize. destruct Rltb; [auto|]. unfold Rdiv. lra.
Qed.
Print Assumptions C34_single_time_step_refuted.
Definition ncc_ex1 : list (list R) := [[1; 0]; [2; 1]; [0; 3]].
Definition ncc_ex2 : list (list R) := [[0; 1]; [1; 1]; [2; 0]].
Lemma ncc_ex : same_size 2 ncc_ex1 ncc_ex2 /\ (2 <= length ncc_ex1)%nat.
Proof.
  split; [|simpl; lia]. split; [|split; [|reflexivity]]; (split; [lia|split; [discriminate|]]);
    intros r [E|[E|[E|[]]]]; subst; reflexivity.
Qed.
(** delays -2 and 1 of the example: products 2 and 4 *)
Example C34_nontrivial : sliding ncc_ex1 ncc_ex2 (-2) = 2 /\ sliding ncc_ex1 ncc_ex2 1 = 4.
Proof. unfold sliding, dot. simpl. split; lra. Qed.

(** ** C80: entries lie in [-1,1] and a series correlates perfectly with itself *)
Lemma normalize_bound b x : 0 <= b -> - b <= x <= b -> -1 <= normalize b x <= 1.
Proof.
  intros Hb Hx. unfold normalize. destruct (Rltb b (1 / 10 ^ 9)) eqn:E; [lra|].
  apply Rltb_false in E. assert (0 < b) by (assert (0 < 1 / 10 ^ 9) by (apply Rdiv_lt_0_compat; [lra|apply pow_lt; lra]); lra).
  split.
  - apply (Rmult_le_reg_r b); auto. unfold Rdiv. rewrite Rmult_assoc, Rinv_l by lra. lra.
  - apply (Rmult_le_reg_r b); auto. unfold Rdiv. rewrite Rmult_assoc, Rinv_l by lra. lra.
Qed.
Theorem C80_entries_bounded : forall d s1 s2 v, same_size d s1 s2 ->
  In v (normalized_cc d s1 s2 (-1) (-1)) -> -1 <= v <= 1.
Proof.
  intros d s1 s2 v H Hv. pose proof (real_len1 d s1 (proj1 H)) as L.
  assert (B : forall z, -1 <= normalize (own_norm (-1) s1 * own_norm (-1) s2) (cc_entry d s1 s2 z) <= 1).
  { intros z. rewrite !norm_used_own, !norm_used_own_norm. apply normalize_bound.
    - apply Rmult_le_pos; apply l2norm_nonneg.
    - rewrite <- (sliding_cc d) by auto. apply (sliding_bound d); auto. }
  destruct (Nat.eq_dec (length s1) 1) as [E1|E1].
  - rewrite cc_one in Hv by (auto; rewrite (proj2 (proj2 H)); auto). simpl in Hv.
    destruct Hv as [<-|[<-|[<-|[]]]]; auto.
    unfold normalize. destruct Rltb; unfold Rdiv; lra.
  - rewrite normalized_cc_eq in Hv by (lia || apply H). apply in_map_iff in Hv. destruct Hv as (i & <- & _). apply B.
Qed.
Print Assumptions C80_entries_bounded.
Lemma rmax_eq l v : In v l -> (forall x, In x l -> x <= v) -> rmax l = v.
Proof.
  intros Hv H. apply Rle_antisym.
  - apply H. apply rmax_in. intros ->. contradiction.
  - apply rmax_ge. auto.
Qed.
Theorem C80_self_correlation : forall d s, real_series d s -> 1 / 10 ^ 9 <= l2norm s * l2norm s ->
  rmax (normalized_cc d s s (-1) (-1)) = 1.
Proof.
  intros d s H Hn. pose proof (real_len1 d s H) as L.
  assert (SS : same_size d s s) by (split; auto).
  apply rmax_eq.
  2: { intros x Hx. apply (C80_entries_bounded d s s x) in Hx; auto. lra. }
  assert (V : normalize (own_norm (-1) s * own_norm (-1) s) (cc_entry d s s 0) = 1).
  { rewrite !norm_used_own, !norm_used_own_norm. rewrite <- (sliding_cc d), (sliding_self d) by auto.
    unfold normalize. rewrite (proj2 (Rltb_false _ _)) by auto. apply Rinv_r.
    assert (0 < 1 / 10 ^ 9) by (apply Rdiv_lt_0_compat; [lra|apply pow_lt; lra]). lra. }
  destruct (Nat.eq_dec (length s) 1) as [E1|E1].
  - rewrite cc_one by auto. left. exact V.
  - rewrite normalized_cc_eq by lia. apply in_map_iff. exists (length s - 1)%nat. split; [|apply in_seq; lia].
    replace (Z.of_nat (length s - 1) - (Z.of_nat (length s) - 1))%Z with 0%Z by lia. exact V.
Qed.
Print Assumptions C80_self_correlation.
Example C80_nontrivial : 1 / 10 ^ 9 <= l2norm ncc_ex1 * l2norm ncc_ex1.
Proof. unfold l2norm. simpl. rewrite sqrt_sqrt by lra. lra. Qed.

(** ** C81: symmetry of the similarity and of the self-similarity matrix *)
Lemma rmax_incl l l' : l <> [] -> (forall x, In x l -> In x l') -> (forall x, In x l' -> In x l) -> rmax l = rmax l'.
Proof.
  intros H A B. assert (l' <> []). { destruct l as [|x l]; [congruence|]. intros ->. apply (A x). left. auto. }
  apply Rle_antisym; apply rmax_ge; [apply A|apply B]; apply rmax_in; auto.
Qed.
Theorem C81_similarity_symmetric : forall d s1 s2 norm1 norm2, same_size d s1 s2 ->
  rmax (normalized_cc d s1 s2 norm1 norm2) = rmax (normalized_cc d s2 s1 norm2 norm1).
Proof.
  intros d s1 s2 n1 n2 H. pose proof (real_len1 d s1 (proj1 H)) as L. pose proof H as (H1 & H2 & El).
  destruct (Nat.eq_dec (length s1) 1) as [E1|E1].
  - rewrite !cc_one by lia. rewrite (cc_entry_swap d s1 s2 0 El), (Rmult_comm (own_norm n1 s1)). reflexivity.
  - rewrite !normalized_cc_eq by lia. rewrite El, (Rmult_comm (own_norm n1 s1)).
    assert (Sym : forall i, (i < 2 * length s1 - 1)%nat ->
      cc_entry d s1 s2 (Z.of_nat i - (Z.of_nat (length s1) - 1)) =
      cc_entry d s2 s1 (Z.of_nat (2 * length s1 - 2 - i) - (Z.of_nat (length s1) - 1))).
    { intros i Hi. rewrite cc_entry_swap by auto. f_equal. lia. }
    apply rmax_incl.
    + destruct (2 * length s1 - 1)%nat eqn:E; [lia|discriminate].
    + intros x Hx. apply in_map_iff in Hx. destruct Hx as (i & <- & Hi). apply in_seq in Hi.
      apply in_map_iff. exists (2 * length s1 - 2 - i)%nat. split; [|apply in_seq; lia]. rewrite Sym by lia. reflexivity.
    + intros x Hx. apply in_map_iff in Hx. destruct Hx as (i & <- & Hi). apply in_seq in Hi.
      apply in_map_iff. exists (2 * length s1 - 2 - i)%nat. split; [|apply in_seq; lia]. rewrite Sym by lia. do 3 f_equal. lia.
Qed.
Print Assumptions C81_similarity_symmetric.
(** the self-similarity shortcut agrees with the full computation off the diagonal *)
Theorem C81_self_similarity_partial : forall d ds norms i j,
  (forall s s', In s ds -> In s' ds -> same_size d s s') -> (i < length ds)%nat -> (j < length ds)%nat -> i <> j ->
  cdist_ncc d ds ds norms norms true i j = cdist_ncc d ds ds norms norms false i j.
Proof.
  intros d ds norms i j H Hi Hj Hij. unfold cdist_ncc. cbv zeta.
  destruct (Nat.ltb_spec j i), (Nat.ltb_spec i j); try lia; [lra|].
  rewrite Rplus_0_l. apply C81_similarity_symmetric. apply H; apply nth_In; auto.
Qed.
Print Assumptions C81_self_similarity_partial.
(** but leaves 0 on the diagonal, where the similarity is 1 *)
Theorem C81_diagonal_refuted : forall d s, real_series d s -> 1 / 10 ^ 9 <= l2norm s * l2norm s ->
  cdist_ncc d [s] [s] [-1] [-1] true 0%nat 0%nat = 0 /\ cdist_ncc d [s] [s] [-1] [-1] false 0%nat 0%nat = 1.
Proof.
  intros d s H Hn. unfold cdist_ncc. cbv zeta. split; [rewrite Nat.ltb_irrefl; lra|].
  unfold fill_norms. simpl existsb. rewrite (proj2 (Rltb_true (-1) 0)) by lra. simpl orb. cbv iota. simpl nth.
  rewrite <- (C80_self_correlation d s H Hn). f_equal. unfold normalized_cc. cbv zeta.
  rewrite <- !l2norm_frob, !norm_used_own, norm_used_l2, norm_used_own_norm. reflexivity.
Qed.
Print Assumptions C81_diagonal_refuted.

(** ** C82: the aligned series has the largest inner product with the reference *)
Lemma argmax_from_spec l : forall i best v, (best < i)%nat ->
  (argmax_from l i best v = best /\ (forall x, In x l -> x <= v)) \/
  (exists j, (j < length l)%nat /\ argmax_from l i best v = (i + j)%nat /\ v <= nth j l 0 /\ forall x, In x l -> x <= nth j l 0).
Proof.
  induction l as [|y l IH]; intros i best v Hb; simpl; [left; tauto|].
  destruct (Rltb v y) eqn:E.
  - apply Rltb_true in E. right. destruct (IH (S i) i y ltac:(lia)) as [[A B]|(j & Hj & A & B & C)].
    + exists 0%nat. split; [lia|split; [rewrite A; lia|split; [simpl; lra|]]]. intros x [<-|Hx]; [simpl; lra|]. simpl. auto.
    + exists (S j). split; [lia|split; [rewrite A; lia|split; [simpl; lra|]]]. intros x [<-|Hx]; simpl; auto.
  - apply Rltb_false in E. destruct (IH (S i) best v ltac:(lia)) as [[A B]|(j & Hj & A & B & C)].
    + left. split; auto. intros x [<-|Hx]; auto.
    + right. exists (S j). split; [lia|split; [rewrite A; lia|split; [simpl; lra|]]]. intros x [<-|Hx]; simpl; [lra|auto].
Qed.
Lemma argmax_spec l : l <> [] -> (argmax l < length l)%nat /\ forall x, In x l -> x <= nth (argmax l) l 0.
Proof.
  destruct l as [|v l]; [congruence|]. intros _. unfold argmax.
  destruct (argmax_from_spec l 1 0 v ltac:(lia)) as [[A B]|(j & Hj & A & B & C)]; rewrite A; simpl.
  - split; [lia|]. intros x [<-|Hx]; [lra|auto].
  - split; [lia|]. intros x [<-|Hx]; auto.
Qed.
Lemma delayed_length d k s : length (delayed d k s) = length s.
Proof. unfold delayed. rewrite map_length, seq_length. auto. Qed.
Lemma nth_repeat_ext {A} (x : A) n i def : (i < n)%nat -> nth i (repeat x n) def = x.
Proof. revert i. induction n as [|n IH]; intros [|i] H; simpl; try lia; auto. apply IH. lia. Qed.
Lemma nth_firstn_lt {A} (l : list A) : forall n i x, (i < n)%nat -> nth i (firstn n l) x = nth i l x.
Proof. induction l as [|a l IH]; intros [|n] [|i] x H; simpl; auto; try lia. apply IH. lia. Qed.
Lemma nth_skipn_add {A} (l : list A) : forall n i x, nth i (skipn n l) x = nth (n + i) l x.
Proof. induction l as [|a l IH]; intros [|n] i x; simpl; auto. destruct i; auto. Qed.
Lemma shift_delayed d k s : (Z.abs k <= Z.of_nat (length s))%Z -> shift_series d k s = delayed d k s.
Proof.
  intros Hk. unfold shift_series, zero_row. cbv zeta.
  destruct (Z.ltb_spec 0 k) as [P|P]; [|destruct (Z.ltb_spec k 0) as [M|M]].
  - unfold py_upto, slice_bound. destruct (Z.ltb_spec (- k) 0); [|lia].
    replace (Z.to_nat (Z.max 0 (- k + Z.of_nat (length s)))) with (length s - Z.to_nat k)%nat by lia.
    apply (nth_ext _ _ [] []).
    + rewrite app_length, repeat_length, firstn_length, delayed_length. lia.
    + intros t Ht. rewrite app_length, repeat_length, firstn_length in Ht. unfold delayed. rewrite map_seq_nth by lia.
      simpl plus. destruct (Z.leb_spec 0 (Z.of_nat t - k)) as [Q|Q].
      * destruct (Z.ltb_spec (Z.of_nat t - k) (Z.of_nat (length s))); [|lia]. simpl andb. cbv iota.
        rewrite app_nth2 by (rewrite repeat_length; lia). rewrite repeat_length.
        rewrite nth_firstn_lt by lia. f_equal. lia.
      * simpl andb. cbv iota. rewrite app_nth1 by (rewrite repeat_length; lia). apply nth_repeat_ext. lia.
  - unfold py_from, slice_bound. destruct (Z.ltb_spec (- k) 0); [lia|].
    replace (Z.to_nat (Z.min (- k) (Z.of_nat (length s)))) with (Z.to_nat (- k)) by lia.
    apply (nth_ext _ _ [] []).
    + rewrite app_length, repeat_length, skipn_length, delayed_length. lia.
    + intros t Ht. rewrite app_length, repeat_length, skipn_length in Ht. unfold delayed. rewrite map_seq_nth by lia.
      simpl plus. destruct (Z.leb_spec 0 (Z.of_nat t - k)) as [Q|Q]; [|lia].
      destruct (Z.ltb_spec (Z.of_nat t - k) (Z.of_nat (length s))); simpl andb; cbv iota.
      * rewrite app_nth1 by (rewrite skipn_length; lia).
        rewrite nth_skipn_add. f_equal. lia.
      * rewrite app_nth2 by (rewrite skipn_length; lia). rewrite skipn_length. apply nth_repeat_ext. lia.
  - assert (k = 0)%Z by lia. subst k. unfold delayed. transitivity (map (fun x => x) s); [symmetry; apply map_id|].
    rewrite (map_nth_seq (fun x => x) s []). apply map_ext_in. intros t Ht. apply in_seq in Ht.
    destruct (Z.leb_spec 0 (Z.of_nat t - 0)); [|lia]. destruct (Z.ltb_spec (Z.of_nat t - 0) (Z.of_nat (length s))); [|lia].
    simpl. rewrite Z.sub_0_r, Nat2Z.id. reflexivity.
Qed.
Lemma delayed_same d k ref s : same_size d ref s -> same_size d ref (delayed d k s).
Proof.
  intros (H1 & H2 & El). split; [auto|split; [|rewrite delayed_length; auto]].
  destruct H2 as (Hd & Hs & Hr). split; [auto|split].
  - intros E. apply (f_equal (@length _)) in E. rewrite delayed_length in E. destruct s; [congruence|discriminate].
  - intros r Hr'. apply in_map_iff in Hr'. destruct Hr' as (t & <- & Ht). apply in_seq in Ht.
    destruct (_ && _) eqn:B; [|apply repeat_length]. apply andb_true_iff in B. destruct B as [B1 B2].
    apply Z.leb_le in B1. apply Z.ltb_lt in B2. apply Hr. apply nth_In. lia.
Qed.
Lemma dot_zero d y : dot (repeat 0 d) y = 0.
Proof.
  unfold dot. revert y. induction d as [|d IH]; intros [|b y]; simpl; auto. rewrite IH. lra.
Qed.
Lemma sliding_delayed d k ref s : same_size d ref s -> sliding ref (delayed d k s) 0 = sliding ref s k.
Proof.
  intros H. pose proof H as (H1 & H2 & El).
  rewrite (sliding_swap d ref (delayed d k s)) by (apply delayed_same; auto). rewrite (sliding_swap d ref s) by auto.
  unfold sliding. rewrite delayed_length. apply rsum_map_ext. intros u Hu. apply in_seq in Hu. cbv zeta.
  destruct (Z.leb_spec 0 (Z.of_nat u + - 0)); [|lia]. destruct (Z.ltb_spec (Z.of_nat u + - 0) (Z.of_nat (length s))); [|lia].
  simpl andb. cbv iota. replace (Z.to_nat (Z.of_nat u + - 0)) with u by lia.
  unfold delayed. rewrite map_seq_nth by lia. simpl plus. replace (Z.of_nat u + - k)%Z with (Z.of_nat u - k)%Z by lia.
  destruct (_ && _); auto. apply dot_zero.
Qed.
Theorem C82_alignment_maximises_inner_product : forall d ref ds i,
  (i < length ds)%nat -> (forall s, In s ds -> same_size d ref s) -> (2 <= length ref)%nat ->
  1 / 10 ^ 9 <= l2norm ref * l2norm (nth i ds []) ->
  let s := nth i ds [] in
  exists k, (Z.abs k < Z.of_nat (length ref))%Z /\
    nth i (y_shifted d ref ds (-1) (map l2norm ds)) [] = delayed d k s /\
    forall z, (Z.abs z < Z.of_nat (length ref))%Z ->
      sliding ref (delayed d z s) 0 <= sliding ref (delayed d k s) 0.
Proof.
  intros d ref ds i Hi H H2 Hn s. assert (Hs : same_size d ref s) by (apply H; apply nth_In; auto).
  pose proof Hs as (R1 & R2 & El).
  assert (F : fill_norms (map l2norm ds) ds = map l2norm ds).
  { unfold fill_norms. destruct existsb eqn:E; auto. apply existsb_exists in E. destruct E as (x & Hx & Lx).
    apply Rltb_true in Lx. apply in_map_iff in Hx. destruct Hx as (y & <- & _). pose proof (l2norm_nonneg y). lra. }
  set (cc := normalized_cc d ref s (l2norm ref) (l2norm s)).
  assert (Y : nth i (y_shifted d ref ds (-1) (map l2norm ds)) [] =
    shift_series d (Z.of_nat (argmax cc) + 1 - Z.of_nat (length s)) s).
  { unfold y_shifted. rewrite F. rewrite map_seq_nth by auto. simpl plus. fold s. unfold cc.
    rewrite (nth_indep _ 0 (l2norm [])) by (rewrite map_length; auto). rewrite (map_nth l2norm), norm_used_own, norm_used_own_norm. reflexivity. }
  rewrite Y.
  destruct (C34_sliding_product d ref s (l2norm ref) (l2norm s) Hs H2) as [Lc Ec]. fold cc in Lc, Ec.
  rewrite !norm_used_l2 in Ec.
  assert (Ne : cc <> []) by (intros E; rewrite E in Lc; simpl in Lc; lia).
  destruct (argmax_spec cc Ne) as [Am Mx]. rewrite Lc in Am.
  exists (Z.of_nat (argmax cc) + 1 - Z.of_nat (length s))%Z. rewrite El.
  split; [lia|split; [apply shift_delayed; lia|]]. intros z Hz.
  rewrite !(sliding_delayed d) by auto.
  set (j := Z.to_nat (z + Z.of_nat (length ref) - 1)).
  assert (Hj : (j < 2 * length ref - 1)%nat) by (unfold j; lia).
  assert (Hj' : nth j cc 0 <= nth (argmax cc) cc 0) by (apply Mx; apply nth_In; lia).
  rewrite (proj1 (Ec j Hj) Hn), (proj1 (Ec _ Am) Hn) in Hj'.
  replace (Z.of_nat j - Z.of_nat (length ref - 1))%Z with z in Hj' by (unfold j; lia).
  replace (Z.of_nat (argmax cc) - Z.of_nat (length ref - 1))%Z with (Z.of_nat (argmax cc) + 1 - Z.of_nat (length ref))%Z in Hj' by lia.
  assert (Pos : 0 < l2norm ref * l2norm s).
  { assert (0 < 1 / 10 ^ 9) by (apply Rdiv_lt_0_compat; [lra|apply pow_lt; lra]). unfold s. lra. }
  apply (Rmult_le_reg_r (/ (l2norm ref * l2norm s))); [apply Rinv_0_lt_compat; auto|]. exact Hj'.
Qed.
Print Assumptions C82_alignment_maximises_inner_product.
(** Below the threshold every series is moved as far as possible to the left, although
    staying in place correlates better. *)
Theorem C82_small_series_refuted : forall eps, 0 < eps < 1 / 10 ^ 6 ->
  let s := [[eps]; [eps]] in
  y_shifted 1 s [s] (-1) [l2norm s] = [delayed 1 (-1) s] /\
  sliding s (delayed 1 (-1) s) 0 < sliding s (delayed 1 0 s) 0.
Proof.
  intros eps He s.
  assert (H : same_size 1 s s).
  { split; [|split; [|reflexivity]]; (split; [lia|split; [discriminate|]]); intros r [<-|[<-|[]]]; reflexivity. }
  assert (Ne : l2norm s * l2norm s = 2 * (eps * eps)).
  { unfold l2norm. rewrite sqrt_sqrt; unfold s; simpl; [lra|]. assert (0 <= eps * eps) by (apply Rle_0_sqr). lra. }
  split.
  - unfold y_shifted, fill_norms. simpl existsb. rewrite (proj2 (Rltb_false (l2norm s) 0)) by apply l2norm_nonneg.
    simpl orb. cbv iota. cbn [map seq length nth]. f_equal. rewrite norm_used_own, norm_used_own_norm.
    rewrite normalized_cc_eq by (simpl; lia). rewrite !norm_used_own, !norm_used_l2, Ne.
    assert (B : Rltb (2 * (eps * eps)) (1 / 10 ^ 9) = true).
    { apply Rltb_true. destruct He as [E1 E2]. assert (eps * eps < 1 / 10 ^ 6 * (1 / 10 ^ 6)) by (apply Rmult_le_0_lt_compat; lra). lra. }
    unfold normalize. rewrite B. simpl length. simpl seq. simpl map.
    assert (A : argmax [0; 0; 0] = 0%nat). { unfold argmax. simpl. rewrite (proj2 (Rltb_false 0 0)) by lra. rewrite ?(proj2 (Rltb_false 0 0)) by lra. reflexivity. }
    rewrite A. apply shift_delayed. simpl. lia.
  - rewrite !(sliding_delayed 1) by auto. unfold sliding, dot, s. simpl. nra.
Qed.
Print Assumptions C82_small_series_refuted.

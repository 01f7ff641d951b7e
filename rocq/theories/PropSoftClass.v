(** C159, C160: the class [SoftDTW]. *)
From Coq Require Import Bool List Arith Lia ZArith QArith Reals Lra Sorting.Sorted.
From Verif Require Import Num NumLaws Py Series Masks DtwModel Dataset Fill Spec SpecDtw DpProofs DtwProofs DtwThms
  LimitedThms RList PathSum RealSeries SoftModel SoftThms PropSoft SoftBaryModel SoftClassModel.
Import ListNotations.
Local Open Scope R_scope.

(** a matrix of numbers as the code sees it *)
Definition matrix (D : nat -> nat -> R) : mat xr := fun i j => XR (D i j).
(** the border of the table: infinite, or a number *)
Definition border_weight (gamma : R) (border : xr) : R := match border with XR b => exp (- (b / gamma)) | _ => 0 end.

Section Class.
Variables (g : R) (m n : nat) (D : nat -> nat -> R).
Hypothesis Hg : 0 < g.
Let w (i j : nat) : R := exp (- (D i j / g)).

Lemma table_borders border R0 : let T := class_table border g m n (matrix D) R0 in
  T 0%nat 0%nat = XR 0 /\ (forall j, (0 < j <= n)%nat -> T 0%nat j = border) /\ (forall i, (0 < i <= m)%nat -> T i 0%nat = border) /\
  forall i j, (i < m)%nat -> (j < n)%nat -> T (S i) (S j) = xadd (XR (D i j)) (softmin3 g (T i (S j)) (T i j) (T (S i) j)).
Proof.
  intros T. unfold T, class_table. split; [|split; [|split]].
  - rewrite fill_other; [reflexivity|]. rewrite in_grid. lia.
  - intros j Hj. rewrite fill_other by (rewrite in_grid; lia). unfold class_init.
    destruct (Nat.eqb_spec j 0); [lia|]. destruct (Nat.ltb_spec j (n + 1)); [|lia]. reflexivity.
  - intros i Hi. rewrite fill_other by (rewrite in_grid; lia). unfold class_init.
    destruct (Nat.eqb_spec i 0); [lia|]. destruct (Nat.ltb_spec i (m + 1)); [|lia]. reflexivity.
  - intros i j Hi Hj. set (T' := fill _ _ _).
    destruct (fill_at _ (class_cell g (matrix D)) (grid 1 m 1 n) (class_init border m n R0) (S i) (S j)) as (m1 & E0 & E1 & E2);
      [apply sorted_grid|apply in_grid; lia|]. fold T' in E1, E2. rewrite E2.
    unfold class_cell, matrix. simpl. rewrite !Nat.sub_0_r. rewrite !E1 by (unfold lex; simpl; lia). reflexivity.
Qed.

Lemma psum_everywhere_pos i j : 0 < psum everywhere w i j.
Proof.
  revert i j. apply (sum_ind (fun i j => 0 < psum everywhere w i j)). intros i j IH.
  rewrite psum_rec. change (everywhere i j) with true. cbv iota.
  assert (W : 0 < w i j) by apply exp_pos.
  assert (NN : forall a b, 0 <= bsum everywhere w a b) by (intros; apply bsum_nonneg; intros; apply exp_pos).
  apply Rmult_lt_0_compat; auto.
  pose proof (NN i (S j)). pose proof (NN (S i) j). pose proof (NN i j).
  assert (0 < bsum everywhere w i (S j) \/ 0 < bsum everywhere w (S i) j \/ 0 < bsum everywhere w i j); [|lra].
  destruct i as [|i]; [destruct j as [|j]|].
  - right. right. simpl. lra.
  - right. left. apply IH. lia.
  - left. apply IH. lia.
Qed.

(** every entry of the table: path sum plus the border's contribution *)
Lemma class_wt a b : exists k, 0 <= k /\ forall border R0, good border -> (a <= m)%nat -> (b <= n)%nat ->
  let T := class_table border g m n (matrix D) R0 in
  good (T a b) /\ wt g (T a b) = bsum everywhere w a b + wt g border * k.
Proof.
  revert a b. apply (sum_ind (fun a b => exists k, 0 <= k /\ forall border R0, good border -> (a <= m)%nat -> (b <= n)%nat ->
    let T := class_table border g m n (matrix D) R0 in
    good (T a b) /\ wt g (T a b) = bsum everywhere w a b + wt g border * k)).
  intros a b IH. destruct a as [|i], b as [|j].
  - exists 0. split; [lra|]. intros border R0 Gb _ _ T. destruct (table_borders border R0) as (T0 & _). fold T in T0. rewrite T0.
    split; simpl; auto. replace (- (0 / g)) with 0 by (field; lra). rewrite exp_0. lra.
  - exists 1. split; [lra|]. intros border R0 Gb _ Hb T. destruct (table_borders border R0) as (_ & T0 & _). fold T in T0.
    rewrite T0 by lia. split; auto. simpl. lra.
  - exists 1. split; [lra|]. intros border R0 Gb Ha _ T. destruct (table_borders border R0) as (_ & _ & T0 & _). fold T in T0.
    rewrite T0 by lia. split; auto. simpl. lra.
  - destruct (IH i (S j) ltac:(lia)) as (k1 & K1 & H1). destruct (IH (S i) j ltac:(lia)) as (k2 & K2 & H2).
    destruct (IH i j ltac:(lia)) as (k3 & K3 & H3).
    assert (W : 0 < w i j) by apply exp_pos.
    exists (w i j * (k1 + k2 + k3)). split; [apply Rmult_le_pos; lra|].
    intros border R0 Gb Ha Hb T. destruct (table_borders border R0) as (_ & _ & _ & TR). fold T in TR.
    destruct (H1 border R0 Gb ltac:(lia) ltac:(lia)) as [G1 W1]. destruct (H2 border R0 Gb ltac:(lia) ltac:(lia)) as [G2 W2].
    destruct (H3 border R0 Gb ltac:(lia) ltac:(lia)) as [G3 W3]. fold T in G1, G2, G3, W1, W2, W3.
    rewrite TR by lia.
    change (bsum everywhere w (S i) (S j)) with (psum everywhere w i j).
    pose proof (psum_everywhere_pos i j) as P. rewrite psum_rec in *. change (everywhere i j) with true in *. cbv iota in *.
    assert (B : 0 < bsum everywhere w i (S j) + bsum everywhere w (S i) j + bsum everywhere w i j).
    { apply Rmult_lt_reg_l with (w i j); lra. }
    pose proof (wt_nonneg g border) as NB.
    assert (Z : 0 < wt g (T i (S j)) + wt g (T i j) + wt g (T (S i) j)).
    { rewrite W1, W2, W3. pose proof (Rmult_le_pos _ _ NB K1). pose proof (Rmult_le_pos _ _ NB K2). pose proof (Rmult_le_pos _ _ NB K3). lra. }
    rewrite (softmin3_spec g Hg) by auto. set (z := wt g (T i (S j)) + wt g (T i j) + wt g (T (S i) j)) in *.
    destruct (wt_add g Hg (D i j) (XR (- g * ln z)) I) as [A G]. split; auto. rewrite A, (wt_ln g Hg) by auto.
    unfold z. rewrite W1, W2, W3. fold (w i j). ring.
Qed.

Lemma class_value border R0 i j : good border -> (i < m)%nat -> (j < n)%nat ->
  exists k, 0 <= k /\ class_table border g m n (matrix D) R0 (S i) (S j) = XR (- g * ln (psum everywhere w i j + wt g border * k)).
Proof.
  intros Gb Hi Hj. destruct (class_wt (S i) (S j)) as (k & K & H). exists k. split; auto.
  destruct (H border R0 Gb ltac:(lia) ltac:(lia)) as [G W]. rewrite (good_wt g Hg _ G), W.
  change (bsum everywhere w (S i) (S j)) with (psum everywhere w i j).
  rewrite (proj2 (Rltb_true _ _)); auto.
  pose proof (psum_everywhere_pos i j). pose proof (Rmult_le_pos _ _ (wt_nonneg g border) K). lra.
Qed.
Lemma class_inf R0 i j : (i < m)%nat -> (j < n)%nat ->
  class_table XInf g m n (matrix D) R0 (S i) (S j) = XR (- g * ln (psum everywhere w i j)).
Proof.
  intros Hi Hj. destruct (class_value XInf R0 i j I Hi Hj) as (k & _ & ->). simpl. do 3 f_equal. lra.
Qed.

(** ** backward pass *)
Lemma class_order_in i j : In (i, j) (class_grad_order m n) <-> (1 <= i <= m)%nat /\ (1 <= j <= n)%nat.
Proof.
  unfold class_grad_order. rewrite in_flat_map. split.
  - intros (y & Hy & H). apply in_map_iff in H. destruct H as (x & [= -> ->] & Hx). apply in_rev in Hx, Hy. apply in_seq in Hx, Hy. lia.
  - intros [Hi Hj]. exists j. split; [apply in_rev; rewrite rev_involutive; apply in_seq; lia|].
    apply in_map_iff. exists i. split; auto. apply in_rev; rewrite rev_involutive; apply in_seq; lia.
Qed.
Lemma sorted_rev_seq1 k : StronglySorted (fun a b => (b < a)%nat) (rev (seq 1 k)).
Proof.
  induction k as [|k IH]; [constructor|]. rewrite seq_S, rev_app_distr. simpl. constructor; auto.
  apply Forall_forall. intros x Hx. apply in_rev in Hx. apply in_seq in Hx. lia.
Qed.
Lemma class_order_sorted : StronglySorted after (class_grad_order m n).
Proof.
  unfold class_grad_order. pose proof (sorted_rev_seq1 n) as Sn. induction (rev (seq 1 n)) as [|y l IH]; simpl; [constructor|].
  apply StronglySorted_inv in Sn. destruct Sn as [Sl F]. apply sorted_app_gen; auto.
  - clear IH. pose proof (sorted_rev_seq1 m) as Sm. induction (rev (seq 1 m)) as [|x k IHk]; simpl; [constructor|].
    apply StronglySorted_inv in Sm. destruct Sm as [Sk Fk]. constructor; auto.
    apply Forall_forall. intros c Hc. apply in_map_iff in Hc. destruct Hc as (z & <- & Hz). rewrite Forall_forall in Fk. apply Fk in Hz.
    unfold after. simpl. lia.
  - intros [x1 y1] [x2 y2] H1 H2. apply in_map_iff in H1. destruct H1 as (z & [= -> ->] & _).
    apply in_flat_map in H2. destruct H2 as (v & Hv & H2). apply in_map_iff in H2. destruct H2 as (u & [= -> ->] & _).
    rewrite Forall_forall in F. apply F in Hv. unfold after. simpl. lia.
Qed.
Lemma sorted_after_nodup (l : list (nat * nat)) : StronglySorted after l -> NoDup l.
Proof.
  induction l as [|c l IH]; intros S1; constructor; apply StronglySorted_inv in S1; destruct S1 as [S1 F]; auto.
  rewrite Forall_forall in F. intros H. apply F in H. unfold after in H. lia.
Qed.
Lemma class_grad_rec D1 R1 : let E := class_grad g m n D1 R1 in
  (forall i j, (1 <= i <= m)%nat -> (1 <= j <= n)%nat -> E i j = class_grad_cell g D1 R1 E i j) /\
  (forall j, (j <= n)%nat -> E (m + 1)%nat j = XR 0) /\ (forall i, (i <= m)%nat -> E i (n + 1)%nat = XR 0) /\
  E (m + 1)%nat (n + 1)%nat = XR 1.
Proof.
  intros E.
  assert (Out : forall i j, ~ ((1 <= i <= m)%nat /\ (1 <= j <= n)%nat) ->
    E i j = if ((i =? m + 1) && (j =? n + 1))%nat then XR 1 else XR 0).
  { intros i j H. unfold E, class_grad. rewrite fill_other by (rewrite class_order_in; auto). unfold upd.
    destruct (i =? m + 1)%nat, (j =? n + 1)%nat; reflexivity. }
  assert (Rec : forall i j, (1 <= i <= m)%nat -> (1 <= j <= n)%nat -> E i j = class_grad_cell g D1 R1 E i j).
  2:{ split; auto. split; [|split].
    - intros j Hj. rewrite Out by lia. destruct (Nat.eqb_spec j (n + 1)); [lia|]. rewrite andb_false_r. reflexivity.
    - intros i Hi. rewrite Out by lia. destruct (Nat.eqb_spec i (m + 1)); [lia|]. reflexivity.
    - rewrite Out by lia. rewrite !Nat.eqb_refl. reflexivity. }
  intros i j Hi Hj.
  assert (Hin : In (i, j) (class_grad_order m n)) by (apply class_order_in; auto).
  apply in_split in Hin. destruct Hin as (l & r & Es).
  pose proof class_order_sorted as So. pose proof (sorted_after_nodup _ So) as ND.
  assert (Hl : forall a b, (1 <= a <= m)%nat -> (1 <= b <= n)%nat -> after (a, b) (i, j) -> In (a, b) l).
  { intros a b Ha Hb Hab. assert (H : In (a, b) (class_grad_order m n)) by (apply class_order_in; auto).
    rewrite Es in H. apply in_app_iff in H. destruct H as [H|[H|H]]; auto.
    - injection H as <- <-. unfold after in Hab; simpl in Hab; lia.
    - exfalso. rewrite Es in So. clear - So H Hab. induction l as [|x l IH]; simpl in So; apply StronglySorted_inv in So; destruct So as [S1 F].
      + rewrite Forall_forall in F. apply F in H. unfold after in *. simpl in *. lia.
      + auto. }
  rewrite Es in ND. set (E0 := upd (fun _ _ : nat => XR 0) (m + 1) (n + 1) (XR 1)) in *.
  assert (HE : E = fill (class_grad_cell g D1 R1) (l ++ (i, j) :: r) E0) by (unfold E, class_grad; rewrite Es; reflexivity).
  set (m1 := fill (class_grad_cell g D1 R1) l E0).
  assert (EE : E = fill (class_grad_cell g D1 R1) r (fill_step (class_grad_cell g D1 R1) m1 (i, j))).
  { rewrite HE. unfold m1, fill. rewrite fold_left_app. reflexivity. }
  assert (N1 : ~ In (i, j) (l ++ r)) by (apply NoDup_remove_2; auto).
  assert (Er : forall a b, In (a, b) r -> ~ after (a, b) (i, j)).
  { intros a b H Hab. rewrite Es in So. clear - So H Hab. induction l as [|x l IH]; simpl in So; apply StronglySorted_inv in So; destruct So as [S1 F].
    - rewrite Forall_forall in F. apply F in H. unfold after in *. simpl in *. lia.
    - exact (IH S1). }
  assert (M1 : forall a b, after (a, b) (i, j) -> m1 a b = E a b).
  { intros a b Hab. rewrite EE. rewrite fill_other by (intros H; apply (Er a b); auto).
    symmetry. apply fill_step_other. intros [= -> ->]. unfold after in Hab. simpl in Hab. lia. }
  transitivity (class_grad_cell g D1 R1 m1 i j).
  - rewrite EE, fill_other by (intros H; apply N1; apply in_app_iff; auto).
    unfold fill_step, upd. simpl. rewrite !Nat.eqb_refl. reflexivity.
  - unfold class_grad_cell. rewrite !M1 by (unfold after; simpl; lia). reflexivity.
Qed.

(** infinite border: the backward pass of the class is that of [soft_dtw_alignment] *)
Lemma class_grad_eq R0 G i j : (i < m)%nat -> (j < n)%nat ->
  let T := class_table XInf g m n (matrix D) R0 in
  class_grad g m n (class_grad_D m n (matrix D)) (class_grad_R XInf m n T) (i + 1)%nat (j + 1)%nat =
  soft_grad g m n (matrix D) (fun i j => T (S i) (S j)) G i j.
Proof.
  intros Hi0 Hj0 T. set (R1 := class_grad_R XInf m n T). set (D1 := class_grad_D m n (matrix D)).
  destruct (class_grad_rec D1 R1) as (Rec & Eb & Er & Ec). set (E := class_grad g m n D1 R1) in *.
  revert i j Hi0 Hj0.
  assert (IND : forall t i j, (m - i + (n - j) < t)%nat -> (i < m)%nat -> (j < n)%nat ->
    E (i + 1)%nat (j + 1)%nat = soft_grad g m n (matrix D) (fun i j => T (S i) (S j)) G i j).
  2:{ intros i j Hi Hj. apply (IND (S (m - i + (n - j)))); auto. }
  assert (TV : forall i j, (i < m)%nat -> (j < n)%nat -> exists v, T (S i) (S j) = XR v) by (intros; eexists; apply class_inf; auto).
  assert (RI : forall i j, (i < m)%nat -> (j < n)%nat -> R1 (i + 1)%nat (j + 1)%nat = T (S i) (S j)).
  { intros i j Hi Hj. unfold R1, class_grad_R. rewrite !Nat.add_1_r.
    destruct (Nat.eqb_spec (S i) (S m)); [lia|]. destruct (Nat.eqb_spec (S j) (S n)); [lia|]. reflexivity. }
  assert (RB : forall j, (j < n)%nat -> R1 (m + 1)%nat (j + 1)%nat = XNInf).
  { intros j Hj. unfold R1, class_grad_R. rewrite Nat.eqb_refl. destruct (Nat.eqb_spec (j + 1) (n + 1)); [lia|]. cbn [andb].
    destruct (Nat.leb_spec 1 (j + 1)); [|lia]. destruct (Nat.leb_spec (j + 1) n); [|lia]. reflexivity. }
  assert (RR : forall i, (i < m)%nat -> R1 (i + 1)%nat (n + 1)%nat = XNInf).
  { intros i Hi. unfold R1, class_grad_R. rewrite Nat.eqb_refl. destruct (Nat.eqb_spec (i + 1) (m + 1)); [lia|]. cbn [andb].
    destruct (Nat.leb_spec 1 (i + 1)); [|lia]. destruct (Nat.leb_spec (i + 1) m); [|lia]. reflexivity. }
  assert (RC : R1 (m + 1)%nat (n + 1)%nat = T m n).
  { unfold R1, class_grad_R. rewrite !Nat.eqb_refl. reflexivity. }
  assert (DI : forall i j, (i < m)%nat -> (j < n)%nat -> D1 i j = XR (D i j)).
  { intros i j Hi Hj. unfold D1, class_grad_D. destruct (Nat.ltb_spec i m); [|lia]. destruct (Nat.ltb_spec j n); [|lia]. reflexivity. }
  assert (DB : forall j, D1 m j = XR 0) by (intros j; unfold D1, class_grad_D; rewrite Nat.ltb_irrefl; reflexivity).
  assert (DR : forall i, D1 i n = XR 0) by (intros i; unfold D1, class_grad_D; rewrite Nat.ltb_irrefl, andb_false_r; reflexivity).
  assert (Ig : 0 < / g) by (apply Rinv_0_lt_compat; auto).
  assert (SI : xscale_inf (/ g) false = XNInf) by (unfold xscale_inf; rewrite (proj2 (Rltb_true _ _)) by lra; reflexivity).
  induction t as [|t IH]; intros i j Ht Hi Hj; [lia|].
  rewrite Rec by lia. rewrite (grad_rec g m n) by auto. unfold class_grad_cell.
  replace (j + 1 - 1)%nat with j by lia. replace (i + 1 - 1)%nat with i by lia.
  destruct (TV i j Hi Hj) as (v & Ev).
  destruct (Nat.eq_dec i (m - 1)) as [Mi|Mi]; destruct (Nat.eq_dec j (n - 1)) as [Nj|Nj].
  - rewrite (proj2 (Nat.eqb_eq _ _) Mi), (proj2 (Nat.eqb_eq _ _) Nj). cbn [andb].
    replace (i + 1 + 1)%nat with (m + 1)%nat by lia. replace (j + 1 + 1)%nat with (n + 1)%nat by lia.
    rewrite Eb, Er, Ec by lia. rewrite RC, RB, RR, RI by auto.
    replace (i + 1)%nat with m by lia. replace (j + 1)%nat with n by lia. rewrite DB, DB, DR.
    replace m with (S i) at 1 by lia. replace n with (S j) at 1 by lia. rewrite Ev. cbn [xsub xadd xopp xdivr xmul xexp].
    rewrite SI. cbn [xexp xmul xadd]. f_equal. replace ((v + - v + - 0) * / g) with 0 by (field; lra). rewrite exp_0. lra.
  - rewrite (proj2 (Nat.eqb_eq _ _) Mi), (proj2 (Nat.eqb_neq _ _) Nj). cbn [andb].
    unfold grad_cell. rewrite (proj2 (Nat.eqb_eq _ _) Mi), (proj2 (Nat.eqb_neq _ _) Nj). cbn [andb orb].
    replace (i + 1 + 1)%nat with (m + 1)%nat by lia. rewrite !Eb by lia. rewrite !RB by lia. rewrite !RI by lia.
    rewrite IH by lia. replace (i + 1)%nat with m by lia. rewrite !DB, DI by lia.
    destruct (TV i (j + 1)%nat ltac:(lia) ltac:(lia)) as (u & Eu). rewrite Nat.add_1_r in *. rewrite Ev, Eu.
    cbn [xsub xadd xopp xdivr xmul xexp matrix]. rewrite SI. cbn [xexp]. unfold nan_to_zero. cbn [xisnan]. reflexivity.
  - rewrite (proj2 (Nat.eqb_eq _ _) Nj), (proj2 (Nat.eqb_neq _ _) Mi). cbn [andb].
    unfold grad_cell. rewrite (proj2 (Nat.eqb_eq _ _) Nj), (proj2 (Nat.eqb_neq _ _) Mi). cbn [andb orb].
    replace (j + 1 + 1)%nat with (n + 1)%nat by lia. rewrite !Er by lia. rewrite !RR by lia. rewrite !RI by lia.
    rewrite IH by lia. replace (j + 1)%nat with n by lia. rewrite !DR, DI by lia.
    destruct (TV (i + 1)%nat j ltac:(lia) ltac:(lia)) as (u & Eu). rewrite Nat.add_1_r in *. rewrite Ev, Eu.
    cbn [xsub xadd xopp xdivr xmul xexp matrix]. rewrite SI. cbn [xexp]. unfold nan_to_zero. cbn [xisnan]. reflexivity.
  - rewrite (proj2 (Nat.eqb_neq _ _) Nj), (proj2 (Nat.eqb_neq _ _) Mi). cbn [andb].
    unfold grad_cell. rewrite (proj2 (Nat.eqb_neq _ _) Nj), (proj2 (Nat.eqb_neq _ _) Mi). cbn [andb orb].
    rewrite !RI by lia. rewrite !IH by lia. rewrite !DI by lia.
    destruct (TV (i + 1)%nat j ltac:(lia) ltac:(lia)) as (u & Eu). destruct (TV i (j + 1)%nat ltac:(lia) ltac:(lia)) as (u1 & Eu1).
    destruct (TV (i + 1)%nat (j + 1)%nat ltac:(lia) ltac:(lia)) as (u2 & Eu2). rewrite !Nat.add_1_r in *. rewrite Ev, Eu, Eu1, Eu2.
    cbn [xsub xadd xopp xdivr xmul xexp matrix]. unfold nan_to_zero. cbn [xisnan]. reflexivity.
Qed.
End Class.

(** ** C159 *)
Lemma total_everywhere g m n D ps : 0 < g -> (0 < m)%nat -> (0 < n)%nat -> enumerates (warping_path m n everywhere) ps ->
  psum everywhere (fun i j => exp (- (D i j / g))) (m - 1) (n - 1) = total g D ps.
Proof.
  intros Hg Hm Hn Hps. rewrite (psum_mask m n everywhere everywhere) by auto.
  apply total_enum with (1 := all_paths_enum m n everywhere Hm Hn) (2 := Hps).
Qed.
(** [compute] returns -gamma log of the sum of exp(-cost/gamma) over all warping
    paths ([ps] lists each once), plus [k] times exp(-b/gamma) for the finite border
    value b; [k] depends on the matrix and gamma but not on the border. *)
Theorem C159_compute : forall m n D gamma ps,
  0 < gamma -> (0 < m)%nat -> (0 < n)%nat -> enumerates (warping_path m n everywhere) ps ->
  let Z := rsum (map (fun p => exp (- (cost D p / gamma))) ps) in
  let value border := fst (sdtw_compute border (sdtw_new m n (matrix D) gamma)) in
  value XInf = XR (- gamma * ln Z) /\
  exists k, 0 <= k /\ forall b, value (XR b) = XR (- gamma * ln (Z + exp (- (b / gamma)) * k)).
Proof.
  intros m n D gamma ps Hg Hm Hn Hps Z value.
  assert (EZ : psum everywhere (fun i j => exp (- (D i j / gamma))) (m - 1) (n - 1) = Z) by (apply total_everywhere; auto).
  assert (V : forall border, value border = class_table border gamma m n (matrix D) (fun _ _ => XR 0) (S (m - 1)) (S (n - 1))).
  { intros border. unfold value, sdtw_compute. simpl fst. simpl sd_m. simpl sd_n. replace (S (m - 1)) with m by lia. replace (S (n - 1)) with n by lia. reflexivity. }
  split.
  - rewrite V, class_inf by (auto; lia). rewrite EZ. reflexivity.
  - destruct (class_wt gamma m n D Hg (S (m - 1)) (S (n - 1))) as (k & K & H). exists k. split; auto.
    intros b. rewrite V. destruct (H (XR b) (fun _ _ => XR 0) I ltac:(lia) ltac:(lia)) as [G W].
    rewrite (good_wt gamma Hg _ G), W.
    match goal with |- context [bsum ?a ?w (S ?i) (S ?j)] => change (bsum a w (S i) (S j)) with (psum a w i j) end.
    rewrite EZ. simpl wt.
    assert (0 < Z) by (rewrite <- EZ; apply psum_everywhere_pos).
    pose proof (exp_pos (- (b / gamma))). pose proof (Rmult_le_pos _ _ (Rlt_le _ _ H1) K).
    rewrite (proj2 (Rltb_true _ _)) by lra. reflexivity.
Qed.
Print Assumptions C159_compute.
(** so the finite border lowers the value by at most gamma k exp(-b/gamma) / Z *)
Lemma ln_1p x : 0 <= x -> 0 <= ln (1 + x) <= x.
Proof.
  intros Hx. destruct (Req_dec x 0) as [->|Nx]; [rewrite Rplus_0_r, ln_1; lra|]. split.
  - rewrite <- ln_1. apply Rlt_le, ln_increasing; lra.
  - rewrite <- (ln_exp x) at 2. apply Rlt_le, ln_increasing; [lra|]. apply exp_ineq1. auto.
Qed.
Theorem C159_bound : forall m n D gamma ps,
  0 < gamma -> (0 < m)%nat -> (0 < n)%nat -> enumerates (warping_path m n everywhere) ps ->
  let Z := rsum (map (fun p => exp (- (cost D p / gamma))) ps) in
  exists k, 0 <= k /\ forall b, exists v, fst (sdtw_compute (XR b) (sdtw_new m n (matrix D) gamma)) = XR v /\
    v <= - gamma * ln Z /\ - gamma * ln Z - v <= gamma * (exp (- (b / gamma)) * k / Z).
Proof.
  intros m n D gamma ps Hg Hm Hn Hps Z. destruct (C159_compute m n D gamma ps Hg Hm Hn Hps) as [_ (k & K & H)].
  exists k. split; auto. intros b. eexists. split; [apply H|]. fold Z.
  assert (HZ : 0 < Z) by (change Z with (total gamma D ps); rewrite <- (total_everywhere gamma m n D ps) by auto; apply psum_everywhere_pos).
  set (x := exp (- (b / gamma)) * k). assert (0 <= x) by (apply Rmult_le_pos; auto; apply Rlt_le, exp_pos).
  assert (Ix : 0 <= x / Z) by (apply Rmult_le_pos; auto; apply Rlt_le, Rinv_0_lt_compat; auto).
  replace (Z + x) with (Z * (1 + x / Z)) by (field; lra). rewrite ln_mult by lra.
  pose proof (ln_1p (x / Z) Ix) as [L1 L2]. assert (gamma * ln (1 + x / Z) <= gamma * (x / Z)) by (apply Rmult_le_compat_l; lra).
  assert (0 <= gamma * ln (1 + x / Z)) by (apply Rmult_le_pos; lra). split; lra.
Qed.
Print Assumptions C159_bound.
(** the border is visible when gamma has its size: one distance 0, gamma = b > 0,
    result -b log(1 + 2/e) instead of 0 *)
Theorem C159_border_visible : forall b, 0 < b ->
  fst (sdtw_compute (XR b) (sdtw_new 1 1 (matrix (fun _ _ => 0)) b)) = XR (- b * ln (1 + 2 * exp (-1))) /\
  fst (sdtw_compute XInf (sdtw_new 1 1 (matrix (fun _ _ => 0)) b)) = XR 0.
Proof.
  intros b Hb. unfold sdtw_compute. simpl fst. simpl sd_m. simpl sd_n.
  assert (E : forall border, good border -> class_table border b 1 1 (matrix (fun _ _ => 0)) (fun _ _ => XR 0) 1%nat 1%nat =
     XR (- b * ln (1 + 2 * border_weight b border))).
  { intros border Gb. destruct (table_borders b 1 1 (fun _ _ => 0) border (fun _ _ => XR 0)) as (T0 & T1 & T2 & T3).
    rewrite T3 by lia. rewrite T0, T1, T2 by lia. rewrite softmin3_spec; auto; try exact I.
    - simpl. replace (- (0 / b)) with 0 by (field; lra). rewrite exp_0, Rplus_0_l. do 3 f_equal.
      assert (wt b border = border_weight b border) by (destruct border; reflexivity). lra.
    - simpl. pose proof (exp_pos (- (0 / b))). pose proof (wt_nonneg b border). lra. }
  split; rewrite E by exact I; simpl; do 3 f_equal.
  - do 3 f_equal. field. lra.
  - rewrite Rmult_0_r, Rplus_0_r, ln_1. lra.
Qed.
Print Assumptions C159_border_visible.
(** the hypotheses have instances: a 2 x 2 matrix *)
Example C159_example : exists ps, enumerates (warping_path 2 2 everywhere) ps /\ length ps = 3%nat.
Proof. exists (all_paths 2 2 everywhere). split; [apply all_paths_enum; lia|reflexivity]. Qed.

(** ** C160 *)
(** what the object remembers *)
Definition remembers (border : xr) (gamma : R) (m n : nat) (D : nat -> nat -> R) (o : sdtw) : Prop :=
  sd_m o = m /\ sd_n o = n /\ sd_D o = matrix D /\ sd_gamma o = gamma /\
  (sd_computed o = true -> forall i j, (1 <= i <= m)%nat -> (1 <= j <= n)%nat ->
     sd_R o i j = class_table border gamma m n (matrix D) (fun _ _ => XR 0) i j).
Lemma table_indep border g m n D R0 R1 : forall i j, (i <= m)%nat -> (j <= n)%nat ->
  class_table border g m n (matrix D) R0 i j = class_table border g m n (matrix D) R1 i j.
Proof.
  destruct (table_borders g m n D border R0) as (A0 & A1 & A2 & A3). destruct (table_borders g m n D border R1) as (B0 & B1 & B2 & B3).
  set (T := class_table border g m n (matrix D) R0) in *. set (U := class_table border g m n (matrix D) R1) in *.
  apply (sum_ind (fun i j => (i <= m)%nat -> (j <= n)%nat -> T i j = U i j)). intros i j IH Hi Hj.
  destruct i as [|i]; [|destruct j as [|j]].
  - destruct j as [|j]; [congruence|]. rewrite A1, B1 by lia. reflexivity.
  - rewrite A2, B2 by lia. reflexivity.
  - rewrite A3, B3 by lia. rewrite !IH by lia. reflexivity.
Qed.
Lemma compute_remembers border g m n D o : (0 < m)%nat -> (0 < n)%nat -> remembers border g m n D o ->
  fst (sdtw_compute border o) = class_table border g m n (matrix D) (fun _ _ => XR 0) m n /\
  remembers border g m n D (snd (sdtw_compute border o)) /\ sd_computed (snd (sdtw_compute border o)) = true.
Proof.
  intros Hm Hn (E1 & E2 & E3 & E4 & _). unfold sdtw_compute, remembers. simpl. rewrite E1, E2, E3, E4.
  split; [apply table_indep; lia|]. split; auto. repeat split; auto. intros _ i j Hi Hj. apply table_indep; lia.
Qed.
Lemma grad_ext g m n D1 R1 R2 : (forall i j, (1 <= i <= m + 1)%nat -> (1 <= j <= n + 1)%nat -> R1 i j = R2 i j) ->
  forall i j, (1 <= i <= m)%nat -> (1 <= j <= n)%nat -> class_grad g m n D1 R1 i j = class_grad g m n D1 R2 i j.
Proof.
  intros HR. destruct (class_grad_rec g m n D1 R1) as (A0 & A1 & A2 & A3). destruct (class_grad_rec g m n D1 R2) as (B0 & B1 & B2 & B3).
  set (E := class_grad g m n D1 R1) in *. set (F := class_grad g m n D1 R2) in *.
  assert (IND : forall t i j, (m + 1 - i + (n + 1 - j) < t)%nat -> (1 <= i <= m + 1)%nat -> (1 <= j <= n + 1)%nat -> E i j = F i j).
  2:{ intros i j Hi Hj. apply (IND (S (m + 1 - i + (n + 1 - j)))); lia. }
  induction t as [|t IH]; intros i j Ht Hi Hj; [lia|].
  destruct (Nat.eq_dec i (m + 1)) as [->|Ni].
  - destruct (Nat.eq_dec j (n + 1)) as [->|Nj]; [congruence|]. rewrite A1, B1 by lia. reflexivity.
  - destruct (Nat.eq_dec j (n + 1)) as [->|Nj]; [rewrite A2, B2 by lia; reflexivity|].
    rewrite A0, B0 by lia. unfold class_grad_cell. rewrite !HR by lia. rewrite !IH by lia. reflexivity.
Qed.
Lemma grad_remembers border g m n D o : (0 < m)%nat -> (0 < n)%nat -> remembers border g m n D o -> sd_computed o = true ->
  exists E, fst (sdtw_grad border o) = Ok E /\
  (forall i j, (i < m)%nat -> (j < n)%nat -> E i j = class_grad g m n (class_grad_D m n (matrix D))
     (class_grad_R border m n (class_table border g m n (matrix D) (fun _ _ => XR 0))) (i + 1)%nat (j + 1)%nat) /\
  remembers border g m n D (snd (sdtw_grad border o)) /\ sd_computed (snd (sdtw_grad border o)) = true.
Proof.
  intros Hm Hn (E1 & E2 & E3 & E4 & E5) Hc. unfold sdtw_grad. rewrite Hc. cbn [negb]. cbv zeta. rewrite E1, E2, E3, E4.
  eexists. split; [reflexivity|]. specialize (E5 Hc). split; [|split; [|reflexivity]].
  - intros i j Hi Hj. apply grad_ext; try lia. intros a b Ha Hb. unfold class_grad_R.
    destruct (Nat.eqb_spec a (m + 1)) as [Na|Na]; destruct (Nat.eqb_spec b (n + 1)) as [Nb|Nb]; cbn [andb].
    + apply E5; lia.
    + destruct (Nat.leb_spec 1 b); [|lia]. destruct (Nat.leb_spec b n); [|lia]. reflexivity.
    + destruct (Nat.leb_spec 1 a); [|lia]. destruct (Nat.leb_spec a m); [|lia]. reflexivity.
    + apply E5; lia.
  - simpl. repeat split; auto. simpl. intros _ i j Hi Hj. unfold class_grad_R.
    destruct (Nat.eqb_spec i (m + 1)); [lia|]. destruct (Nat.eqb_spec j (n + 1)); [lia|]. cbn [andb]. apply E5; auto.
Qed.

(** the gradient, on the object *)
Lemma grad_value g m n D ps i j : 0 < g -> (0 < m)%nat -> (0 < n)%nat -> enumerates (warping_path m n everywhere) ps ->
  (i < m)%nat -> (j < n)%nat ->
  class_grad g m n (class_grad_D m n (matrix D)) (class_grad_R XInf m n (class_table XInf g m n (matrix D) (fun _ _ => XR 0))) (i + 1)%nat (j + 1)%nat =
  XR (total g D (filter (visits i j) ps) / total g D ps).
Proof.
  intros Hg Hm Hn Hps Hi Hj. rewrite (class_grad_eq g m n D Hg _ (fun _ _ => XR 0)) by auto.
  set (w := fun i j => exp (- (D i j / g))).
  assert (Z : psum everywhere w (m - 1) (n - 1) = total g D ps) by (apply total_everywhere; auto).
  rewrite (gibbs_value g Hg m n everywhere (matrix D) _ (fun _ _ => XR 0) D); auto.
  - fold w. rewrite Z. f_equal. f_equal.
    assert (En : enumerates (fun p => warping_path m n everywhere p /\ visits i j p = true) (filter (visits i j) ps)) by (apply enumerates_filter; auto).
    unfold total. rewrite (enumerates_rsum _ _ _ _ En (through_enum everywhere D m n Hm Hn i j Hi Hj)).
    rewrite <- through_sum; auto; [|unfold w; pose proof (exp_pos (- (D i j / g))); lra].
    apply rsum_map_ext. intros p _. apply pweight_cost. lra.
  - intros a b Ha Hb. rewrite class_inf by auto. unfold value. fold w. rewrite (proj2 (Rltb_true _ _)); auto. apply psum_everywhere_pos.
  - fold w. apply psum_everywhere_pos.
Qed.

(** In every program that creates one object and calls its two methods in any order:
    each [compute] returns the value of the first; a [grad] before the first
    [compute] raises ValueError; every later [grad] returns the probabilities that a
    path drawn with weight exp(-cost/gamma) visits each cell. *)
Theorem C160_histories : forall m n D gamma ps calls k,
  0 < gamma -> (0 < m)%nat -> (0 < n)%nat -> enumerates (warping_path m n everywhere) ps ->
  let weight p := exp (- (cost D p / gamma)) in
  let results := sdtw_run XInf (sdtw_new m n (matrix D) gamma) calls in
  (nth_error calls k = Some CCompute -> nth_error results k = Some (RValue (XR (- gamma * ln (rsum (map weight ps)))))) /\
  (nth_error calls k = Some CGrad -> ~ In CCompute (firstn k calls) -> nth_error results k = Some (RGrad (Err ValueError))) /\
  (nth_error calls k = Some CGrad -> In CCompute (firstn k calls) ->
     exists E, nth_error results k = Some (RGrad (Ok E)) /\ forall i j, (i < m)%nat -> (j < n)%nat ->
       E i j = XR (rsum (map weight (filter (visits i j) ps)) / rsum (map weight ps))).
Proof.
  intros m n D gamma ps calls k Hg Hm Hn Hps weight.
  assert (IND : forall calls k o, remembers XInf gamma m n D o ->
    let results := sdtw_run XInf o calls in
    (nth_error calls k = Some CCompute -> nth_error results k = Some (RValue (XR (- gamma * ln (rsum (map weight ps)))))) /\
    (nth_error calls k = Some CGrad -> sd_computed o = false -> ~ In CCompute (firstn k calls) -> nth_error results k = Some (RGrad (Err ValueError))) /\
    (nth_error calls k = Some CGrad -> sd_computed o = true \/ In CCompute (firstn k calls) ->
       exists E, nth_error results k = Some (RGrad (Ok E)) /\ forall i j, (i < m)%nat -> (j < n)%nat ->
         E i j = XR (rsum (map weight (filter (visits i j) ps)) / rsum (map weight ps)))).
  { clear calls k. induction calls as [|c calls IH]; intros k o Ho results.
    - destruct k; repeat split; intros H; discriminate.
    - unfold results. destruct c; cbn [sdtw_run].
      + destruct (compute_remembers XInf gamma m n D o Hm Hn Ho) as (V & Ho' & Hc'). cbv zeta. destruct k as [|k].
        * cbn [nth_error]. split; [|split; intros H; discriminate]. intros _. do 2 f_equal. rewrite V.
          etransitivity; [|etransitivity; [exact (class_inf gamma m n D Hg (fun _ _ => XR 0) (m - 1) (n - 1) ltac:(lia) ltac:(lia))|]].
          { replace (S (m - 1)) with m by lia. replace (S (n - 1)) with n by lia. reflexivity. }
          rewrite (total_everywhere gamma m n D ps) by auto. reflexivity.
        * cbn [nth_error firstn]. destruct (IH k _ Ho') as (H1 & H2 & H3). split; [exact H1|split].
          -- intros _ _ H. exfalso. apply H. left. reflexivity.
          -- intros H _. apply H3; auto.
      + cbv zeta. destruct (sd_computed o) eqn:Hc.
        * destruct (grad_remembers XInf gamma m n D o Hm Hn Ho Hc) as (E & EE & EV & Ho' & Hc'). destruct k as [|k].
          -- cbn [nth_error]. split; [intros H; discriminate|split; [intros _ H; discriminate|]]. intros _ _. exists E. split; [rewrite EE; reflexivity|].
             intros i j Hi Hj. rewrite EV by auto. apply grad_value; auto.
          -- cbn [nth_error firstn]. destruct (IH k _ Ho') as (H1 & H2 & H3). split; [exact H1|split].
             ++ intros _ H. discriminate.
             ++ intros H _. apply H3; auto.
        * assert (G : sdtw_grad XInf o = (Err ValueError, o)) by (unfold sdtw_grad; rewrite Hc; reflexivity). rewrite G. cbn [fst snd].
          destruct k as [|k].
          -- cbn [nth_error]. split; [intros H; discriminate|split; [reflexivity|]]. intros _ [H|H]; [discriminate|destruct H].
          -- cbn [nth_error firstn]. destruct (IH k _ Ho) as (H1 & H2 & H3). split; [exact H1|split].
             ++ intros H _ Hn'. apply H2; auto. intros Hi. apply Hn'. right. auto.
             ++ intros H [H'|[H'|H']]; [discriminate|discriminate|]. apply H3; auto. }
  assert (H0 : remembers XInf gamma m n D (sdtw_new m n (matrix D) gamma)) by (repeat split; simpl; discriminate).
  destruct (IND calls k _ H0) as (H1 & H2 & H3). split; [exact H1|split; auto].
Qed.
Print Assumptions C160_histories.
(** a history that meets all three cases *)
Example C160_example : let calls := [CGrad; CCompute; CGrad; CCompute; CGrad] in
  nth_error calls 0 = Some CGrad /\ ~ In CCompute (firstn 0 calls) /\ nth_error calls 4 = Some CGrad /\ In CCompute (firstn 4 calls).
Proof. simpl. tauto. Qed.

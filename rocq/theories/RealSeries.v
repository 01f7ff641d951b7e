(** Series of real numbers as inputs of the extended-real models. *)
From Coq Require Import Bool List Arith Lia ZArith QArith Reals Lra.
From Verif Require Import Num NumLaws Py Series Masks DtwModel Spec SpecDtw DpProofs DtwProofs DtwThms
  LimitedThms MaskThms RList PathSum.
Import ListNotations.
Local Open Scope R_scope.

(** ** specification vocabulary *)
(** a non-empty series of feature vectors, all with [d >= 1] features *)
Definition real_series (d : nat) (s : list (list R)) : Prop :=
  (0 < d)%nat /\ s <> [] /\ forall r, In r s -> length r = d.
(** the same series as an input of a model on extended reals *)
Definition lift (s : list (list R)) : series Xnum := map (map XR) s.
Definition sqd (x y : list R) : R := rsum (map (fun p => (fst p - snd p) * (fst p - snd p)) (combine x y)).
(** squared Euclidean distance between time step [i] of one and [j] of the other *)
Definition costs (s1 s2 : list (list R)) (i j : nat) : R := sqd (nth i s1 []) (nth j s2 []).
(** total cost of a path *)
Definition cost (D : nat -> nat -> R) (p : list cell) : R := rsum (map (fun c => D (fst c) (snd c)) p).
(** an Itakura slope, if given, is positive *)
Definition positive_slope (s : option Q) : Prop := match s with Some q => (0 < q)%Q | None => True end.

(** ** lemmas *)
Lemma lift_length s : length (lift s) = length s. Proof. apply map_length. Qed.
Lemma lift_finite d s : real_series d s -> finite_series (N:=Xnum) xfin d (lift s).
Proof.
  intros (Hd & Hs & Hr). split; [auto|split].
  - destruct s; [congruence|discriminate].
  - intros r H. apply in_map_iff in H. destruct H as (x & <- & Hx). split.
    + etransitivity; [apply map_length|]. auto.
    + intros v Hv. apply in_map_iff in Hv. destruct Hv as (y & <- & _). exact I.
Qed.
Lemma real_len d s : real_series d s -> (0 < length s)%nat.
Proof. intros (_ & H & _). destruct s; [congruence|simpl; lia]. Qed.
Lemma lift_nth s i : nth i (lift s) [] = map XR (nth i s []).
Proof. unfold lift. change (@nil (carrier Xnum)) with (map XR []). apply map_nth. Qed.
Lemma fold_xadd_sum l a : fold_left xadd (map XR l) (XR a) = XR (a + rsum l).
Proof.
  revert a. induction l as [|x l IH]; intros a; simpl.
  - f_equal. lra.
  - rewrite IH. f_equal. lra.
Qed.
Lemma sq_euclid_lift x y : sq_euclid (N:=Xnum) (map XR x) (map XR y) = XR (sqd x y).
Proof.
  unfold sq_euclid, sqd.
  assert (E : forall x y, map (fun p : carrier Xnum * carrier Xnum => nmul (nsub (fst p) (snd p)) (nsub (fst p) (snd p)))
      (combine (map XR x) (map XR y)) = map XR (map (fun p => (fst p - snd p) * (fst p - snd p)) (combine x y))).
  { induction x0 as [|a l IH]; intros [|b l']; simpl; auto. f_equal. apply IH. }
  rewrite E. etransitivity; [apply fold_xadd_sum|]. f_equal. lra.
Qed.
Lemma local_costs_lift s1 s2 i j : local_costs (N:=Xnum) (lift s1) (lift s2) i j = XR (costs s1 s2 i j).
Proof. unfold local_costs. rewrite !lift_nth. apply sq_euclid_lift. Qed.
Lemma sq_dists_lift s1 s2 i j : sq_dists (N:=Xnum) (lift s1) (lift s2) i j = XR (costs s1 s2 i j).
Proof. rewrite sq_dists_local. apply local_costs_lift. Qed.
Lemma path_cost_lift D p : path_cost (N:=Xnum) xadd (fun i j => XR (D i j)) p = XR (cost D p).
Proof.
  unfold path_cost, cost. simpl.
  assert (G : forall p a, fold_left (fun acc c => xadd (XR (D (fst c) (snd c))) acc) p (XR a) =
     XR (a + rsum (map (fun c => D (fst c) (snd c)) p))).
  { induction p0 as [|c q IH]; intros a; simpl; [f_equal; lra|]. rewrite IH. f_equal. lra. }
  rewrite G. f_equal. lra.
Qed.
Lemma costs_sym s1 s2 i j : costs s1 s2 i j = costs s2 s1 j i.
Proof.
  unfold costs, sqd. generalize (nth i s1 []) (nth j s2 []). induction l as [|a l IH]; intros [|b l']; simpl; auto.
  rewrite IH. ring.
Qed.
Lemma costs_diag s i : costs s s i i = 0.
Proof. unfold costs, sqd. generalize (nth i s []). induction l as [|a l IH]; simpl; auto. rewrite IH. ring. Qed.
Lemma sqd_nonneg x y : 0 <= sqd x y.
Proof. apply rsum_nonneg. intros v Hv. apply in_map_iff in Hv. destruct Hv as (p & <- & _). apply Rle_0_sqr. Qed.
Lemma cost_nonneg D p : (forall i j, 0 <= D i j) -> 0 <= cost D p.
Proof. intros H. apply rsum_nonneg. intros v Hv. apply in_map_iff in Hv. destruct Hv as (c & <- & _). auto. Qed.
Lemma pweight_cost g D p : g <> 0 -> pweight (fun i j => exp (- (D i j / g))) p = exp (- (cost D p / g)).
Proof.
  intros Hg. unfold pweight, cost. induction p as [|c p IH]; simpl.
  - replace (- (0 / g)) with 0 by (field; auto). rewrite exp_0. reflexivity.
  - rewrite IH, <- exp_plus. f_equal. field. auto.
Qed.

(** ** every allowed cell is reachable *)
Lemma rpath_ext ok ok' n m : (forall i j, (i < n)%nat -> (j < m)%nat -> ok i j = ok' i j) ->
  forall i j p, rpath ok i j p -> (i < n)%nat -> (j < m)%nat -> rpath ok' i j p.
Proof.
  intros H. induction 1 as [H0|i j i' j' p Hp IH Hmv Ho]; intros Hi Hj.
  - constructor. rewrite <- H by auto. auto.
  - econstructor; [apply IH; unfold move in Hmv; simpl in Hmv; lia|auto|]. rewrite <- H by auto. auto.
Qed.
Lemma everywhere_reach i j : exists p, rpath everywhere i j p.
Proof. destruct (rpath_exists_len i j (i + j)%nat) as (p & Hp & _); [lia|]. eauto. Qed.
Lemma band_reach n m r : (0 <= r)%Z -> forall i j, band n m r i j = true -> exists p, rpath (band n m r) i j p.
Proof.
  intros Hr. apply (sum_ind (fun i j => band n m r i j = true -> exists p, rpath (band n m r) i j p)).
  intros i j IH H. pose proof H as H'. unfold band in H'. apply andb_true_iff in H'. destruct H' as [H1 H2]. apply Z.leb_le in H1, H2.
  assert (B : forall a b, (Z.min 0 (Z.of_nat m - Z.of_nat n) - r <= Z.of_nat b - Z.of_nat a <= Z.max 0 (Z.of_nat m - Z.of_nat n) + r)%Z -> band n m r a b = true).
  { intros a b Hab. unfold band. apply andb_true_iff. rewrite !Z.leb_le. lia. }
  assert (St : forall a b, (a + b < i + j)%nat -> move (a, b) (i, j) ->
    (Z.min 0 (Z.of_nat m - Z.of_nat n) - r <= Z.of_nat b - Z.of_nat a <= Z.max 0 (Z.of_nat m - Z.of_nat n) + r)%Z ->
    exists p, rpath (band n m r) i j p).
  { intros a b L Hmv Hab. destruct (IH a b L (B a b Hab)) as (p & Hp). exists ((i, j) :: p). econstructor; eauto. }
  destruct (lt_eq_lt_dec i j) as [[L|E]|L].
  - destruct j as [|j]; [lia|]. apply (St i j); [lia|unfold move; simpl; lia|lia].
  - subst j. destruct i as [|i].
    + exists [(0, 0)%nat]. constructor. auto.
    + apply (St i i); [lia|unfold move; simpl; lia|lia].
  - destruct i as [|i]; [lia|]. apply (St i j); [lia|unfold move; simpl; lia|lia].
Qed.
Lemma constraint_reach n m g r s allowed : (0 < n)%nat -> (0 < m)%nat -> positive_slope s -> constraint n m g r s allowed ->
  forall i j, (i < n)%nat -> (j < m)%nat -> allowed i j = true -> exists p, rpath allowed i j p.
Proof.
  intros Hn Hm Hs H i j Hi Hj Ho.
  assert (Hs2 : (0 < or_default s 2)%Q) by (destruct s; simpl in *; auto; reflexivity).
  unfold constraint in H. destruct g; try contradiction.
  - destruct r as [r|], s as [s|]; try contradiction.
    + destruct H as [Hr ->]. apply band_reach; auto.
    + eapply itakura_mask_reach; [exact Hn|exact Hm|exact Hs2|exact H|auto|auto|auto].
    + subst. apply everywhere_reach.
  - destruct r as [r|], s as [s|]; try contradiction.
    + destruct H as [Hr ->]. apply band_reach; auto.
    + eapply itakura_mask_reach; [exact Hn|exact Hm|exact Hs2|exact H|auto|auto|auto].
    + subst. apply everywhere_reach.
  - eapply itakura_mask_reach; [exact Hn|exact Hm|exact Hs2|exact H|auto|auto|auto].
  - destruct H as [Hr ->]. apply band_reach; auto.
Qed.
Lemma constraint_feasible n m g r s allowed : (0 < n)%nat -> (0 < m)%nat -> positive_slope s -> constraint n m g r s allowed ->
  exists p, warping_path n m allowed p.
Proof.
  intros Hn Hm Hs H.
  assert (Hs2 : (0 < or_default s 2)%Q) by (destruct s; simpl in *; auto; reflexivity).
  assert (FB : forall r, (0 <= r)%Z -> exists p, warping_path n m (band n m r) p).
  { intros r' Hr. exists (stair n m). apply stair_path; auto. intros; apply band_stair; auto. }
  assert (FE : exists p, warping_path n m everywhere p).
  { exists (stair n m). apply stair_path; auto. }
  unfold constraint in H. destruct g; try contradiction.
  - destruct r as [r|], s as [s|]; try contradiction.
    + destruct H as [Hr ->]. auto.
    + eapply itakura_mask_feasible; [exact Hn|exact Hm|exact Hs2|exact H].
    + subst. auto.
  - destruct r as [r|], s as [s|]; try contradiction.
    + destruct H as [Hr ->]. auto.
    + eapply itakura_mask_feasible; [exact Hn|exact Hm|exact Hs2|exact H].
    + subst. auto.
  - eapply itakura_mask_feasible; [exact Hn|exact Hm|exact Hs2|exact H].
  - destruct H as [Hr ->]. auto.
Qed.

(** C57: KShape.predict. *)
From Coq Require Import Bool List Arith Lia ZArith Reals Lra.
From Verif Require Import Num NumLaws Py RList PaaThms RealSeries CyccModel CyccThms PropCycc KernelModel PropKernel2 KshapeModel.
Import ListNotations.
Local Open Scope R_scope.

(** ** Specification *)
(** [j] is the first index below [k] at which [f] is least *)
Definition first_least (k : nat) (f : nat -> R) (j : nat) : Prop :=
  (j < k)%nat /\ forall j', (j' < k)%nat -> f j <= f j' /\ ((j' < j)%nat -> f j < f j').
(** shape-based distance: 1 minus the largest normalised cross-correlation (own norms) *)
Definition sbd (d : nat) (x c : rseries) : R := 1 - rmax (normalized_cc d x c (l2norm x) (l2norm c)).
Definition nonconstant (sz : nat) (v : list R) : Prop := exists a b, (a < sz)%nat /\ (b < sz)%nat /\ nth a v 0 <> nth b v 0.

(** ** lemmas: norms only scale the cross-correlation *)
Definition raw_cc (d : nat) (s1 s2 : rseries) : list R :=
  let sz := length s1 in
  let n := fft_size sz in
  let cc := map (fun k => map (circ_cc s1 s2 n k) (seq 0 d)) (seq 0 n) in
  map rsum (py_from (- (Z.of_nat sz - 1)) cc ++ py_upto (Z.of_nat sz) cc).
Lemma normalized_raw d s1 s2 n1 n2 : normalized_cc d s1 s2 n1 n2 = map (normalize (own_norm n1 s1 * own_norm n2 s2)) (raw_cc d s1 s2).
Proof. unfold normalized_cc, raw_cc. cbv zeta. rewrite map_map. reflexivity. Qed.
Lemma rmax_div k l : 0 < k -> rmax (map (fun x => x / k) l) = rmax l / k.
Proof.
  intros Hk. induction l as [|x l IH]; [simpl; lra|]. destruct l as [|y l]; [reflexivity|].
  change (rmax (x :: y :: l)) with (Rmax x (rmax (y :: l))). cbn [map] in *.
  change (rmax (x / k :: y / k :: map (fun x => x / k) l)) with (Rmax (x / k) (rmax (y / k :: map (fun x => x / k) l))). rewrite IH.
  unfold Rdiv. rewrite !(Rmult_comm _ (/ k)). apply RmaxRmult. left. apply Rinv_0_lt_compat. auto.
Qed.
Lemma rmax_normalized d s1 s2 n1 n2 : 1 / 10 ^ 9 <= own_norm n1 s1 * own_norm n2 s2 ->
  rmax (normalized_cc d s1 s2 n1 n2) = rmax (raw_cc d s1 s2) / (own_norm n1 s1 * own_norm n2 s2).
Proof.
  intros H. rewrite normalized_raw. rewrite <- rmax_div by lra. f_equal. apply map_ext. intros x. unfold normalize.
  destruct (Rltb _ _) eqn:E; auto. apply Rltb_true in E. lra.
Qed.
Lemma rargmin_mono (g : R -> R) l : (forall x y, x < y -> g x < g y) -> rargmin (map g l) = rargmin l.
Proof.
  intros Hg. destruct l as [|x0 l0]; auto. set (l := x0 :: l0). assert (NE : l <> []) by discriminate. assert (NE' : map g l <> []) by discriminate.
  destruct (rargmin_spec l NE) as (A & B). destruct (rargmin_spec (map g l) NE') as (A' & B'). rewrite map_length in *.
  assert (N : forall j, (j < length l)%nat -> nth j (map g l) 0 = g (nth j l 0)).
  { intros j Hj. rewrite (nth_indep _ 0 (g 0)) by (rewrite map_length; auto). apply map_nth. }
  set (a := rargmin l) in *. set (b := rargmin (map g l)) in *. destruct (lt_eq_lt_dec a b) as [[H|H]|H]; auto; exfalso.
  - destruct (B' a A) as [_ K]. specialize (K H). rewrite !N in K by auto. destruct (B b A') as [K' _].
    destruct (Rle_lt_or_eq_dec _ _ K') as [Q|Q]; [apply Hg in Q; lra|rewrite Q in K; lra].
  - destruct (B b A') as [_ K]. specialize (K H). destruct (B' a A) as [K' _]. rewrite !N in K' by auto. apply Hg in K. lra.
Qed.
Lemma rargmin_first_least k f : (0 < k)%nat -> first_least k f (rargmin (map f (seq 0 k))).
Proof.
  intros Hk. assert (L : length (map f (seq 0 k)) = k) by (rewrite map_length, seq_length; auto).
  destruct (rargmin_spec (map f (seq 0 k))) as (A & B); [destruct k; [lia|discriminate]|]. rewrite L in *. split; auto. intros j' Hj'.
  destruct (B j' Hj') as [B1 B2]. rewrite !map_seq_nth_gen in B1 by auto. split; auto. intros Hlt. specialize (B2 Hlt). rewrite !map_seq_nth_gen in B2 by auto. auto.
Qed.
Lemma first_least_same k f f' a b : first_least k f a -> first_least k f' b -> (forall i j, (i < k)%nat -> (j < k)%nat -> f i < f j <-> f' i < f' j) -> a = b.
Proof.
  intros (A & A') (B & B') H. destruct (lt_eq_lt_dec a b) as [[Q|Q]|Q]; auto; exfalso.
  - destruct (B' a A) as [_ K]. specialize (K Q). apply H in K; auto. destruct (A' b B). lra.
  - destruct (A' b B) as [_ K]. specialize (K Q). apply H in K; auto. destruct (B' a A). lra.
Qed.
Lemma fill_keep norms ds : (forall x, In x norms -> 0 <= x) -> fill_norms norms ds = norms.
Proof.
  intros H. unfold fill_norms. destruct (existsb (fun x => Rltb x 0) norms) eqn:E; auto. apply existsb_exists in E. destruct E as (x & I & L).
  apply Rltb_true in L. specialize (H x I). lra.
Qed.
Lemma own_norm_keep n s : 0 <= n -> own_norm n s = n.
Proof. intros H. unfold own_norm. destruct (Rltb n 0) eqn:E; auto. apply Rltb_true in E. lra. Qed.
Lemma read_in junk norms i : (i < length norms)%nat -> read_norm junk norms i = nth i norms 0.
Proof. intros H. unfold read_norm. destruct (Nat.ltb_spec i (length norms)); auto. lia. Qed.
Lemma cross_dists_nth d junk s X i : (i < length X)%nat ->
  nth i (cross_dists d junk s X) [] = map (fun j => 1 - rmax (normalized_cc d (nth i X []) (nth j (ks_centers s) []) (read_norm junk (fill_norms (ks_norms s) X) i) (nth j (fill_norms (ks_norms_c s) (ks_centers s)) 0))) (seq 0 (length (ks_centers s))).
Proof.
  intros Hi. unfold cross_dists, cdist_ncc_rows. cbv zeta.
  match goal with |- nth i (map ?f (map ?g ?l)) [] = _ => change (@nil R) with (f []) at 1; rewrite (map_nth f) end.
  rewrite map_seq_nth_gen by auto. rewrite map_map. reflexivity.
Qed.
Lemma cross_dists_length d junk s X : length (cross_dists d junk s X) = length X.
Proof. unfold cross_dists, cdist_ncc_rows. rewrite !map_length, seq_length. reflexivity. Qed.
Lemma nth_map_rargmin D i : nth i (map rargmin D) 0%nat = rargmin (nth i D []).
Proof. change 0%nat with (rargmin []). apply map_nth. Qed.

(** ** C57 *)
(** [predict] on at most as many series as the training set: although the training series' norms are used, each
    label is the first centre of least shape-based distance, provided no product of norms is below 1e-9. *)
Theorem C57_labels_partial d junk s X : (0 < length (ks_centers s))%nat -> ks_norms_c s = map l2norm (ks_centers s) ->
  (length X <= length (ks_norms s))%nat -> (forall x, In x (ks_norms s) -> 0 <= x) ->
  (forall i c, (i < length X)%nat -> In c (ks_centers s) -> 1 / 10 ^ 9 <= nth i (ks_norms s) 0 * l2norm c /\ 1 / 10 ^ 9 <= l2norm (standardise d (nth i X [])) * l2norm c) ->
  length (ks_predict d junk s X) = length X /\
  forall i, (i < length X)%nat ->
    first_least (length (ks_centers s)) (fun j => sbd d (standardise d (nth i X [])) (nth j (ks_centers s) [])) (nth i (ks_predict d junk s X) 0%nat).
Proof.
  intros Hk Hc Hn Hp Hb. unfold ks_predict. split; [rewrite map_length, cross_dists_length, map_length; auto|]. intros i Hi.
  rewrite nth_map_rargmin, cross_dists_nth by (rewrite map_length; auto). set (k := length (ks_centers s)) in *.
  assert (EX : nth i (map (standardise d) X) [] = standardise d (nth i X [])).
  { rewrite (nth_indep _ [] (standardise d [])) by (rewrite map_length; auto). apply map_nth. }
  rewrite EX, (fill_keep (ks_norms s)), read_in by (auto; lia). rewrite fill_keep by (rewrite Hc; intros x Hx; apply in_map_iff in Hx; destruct Hx as (c & <- & _); apply l2norm_nonneg).
  set (x := standardise d (nth i X [])) in *. set (f := fun j => 1 - rmax (normalized_cc d x (nth j (ks_centers s) []) (nth i (ks_norms s) 0) (nth j (ks_norms_c s) 0))).
  set (f' := fun j => sbd d x (nth j (ks_centers s) [])).
  assert (Ni : 0 <= nth i (ks_norms s) 0) by (apply Hp, nth_In; lia).
  assert (NC : forall j, (j < k)%nat -> nth j (ks_norms_c s) 0 = l2norm (nth j (ks_centers s) [])).
  { intros j Hj. rewrite Hc. rewrite (nth_indep _ 0 (l2norm [])) by (rewrite map_length; auto). apply map_nth. }
  assert (F : forall j, (j < k)%nat -> f j = 1 - rmax (raw_cc d x (nth j (ks_centers s) [])) / (nth i (ks_norms s) 0 * l2norm (nth j (ks_centers s) []))).
  { intros j Hj. unfold f. rewrite NC by auto. destruct (Hb i (nth j (ks_centers s) []) Hi ltac:(apply nth_In; auto)) as [B1 B2].
    rewrite rmax_normalized; rewrite ?own_norm_keep by (auto; apply l2norm_nonneg); auto. }
  assert (F' : forall j, (j < k)%nat -> f' j = 1 - rmax (raw_cc d x (nth j (ks_centers s) [])) / (l2norm x * l2norm (nth j (ks_centers s) []))).
  { intros j Hj. unfold f', sbd. destruct (Hb i (nth j (ks_centers s) []) Hi ltac:(apply nth_In; auto)) as [B1 B2].
    rewrite rmax_normalized; rewrite ?own_norm_keep by (auto; apply l2norm_nonneg); auto. }
  pose proof (rargmin_first_least k f Hk) as FL. pose proof (rargmin_first_least k f' Hk) as FL'.
  assert (P0 : 0 < 1 / 10 ^ 9) by lra.
  assert (PC : forall j, (j < k)%nat -> 0 < nth i (ks_norms s) 0 /\ 0 < l2norm x /\ 0 < l2norm (nth j (ks_centers s) [])).
  { intros j Hj. destruct (Hb i (nth j (ks_centers s) []) Hi ltac:(apply nth_In; auto)) as [B1 B2]. fold x in B2.
    pose proof (l2norm_nonneg (nth j (ks_centers s) [])) as Q. pose proof (l2norm_nonneg x) as Q'.
    repeat split; apply Rnot_le_lt; intros Z; nra. }
  replace (rargmin (map f (seq 0 k))) with (rargmin (map f' (seq 0 k))); auto. symmetry. eapply first_least_same; eauto.
  intros a b Ha Hb'. rewrite !F, !F' by auto. destruct (PC a Ha) as (P1 & P2 & P3). destruct (PC b Hb') as (_ & _ & P4).
  set (qa := rmax (raw_cc d x (nth a (ks_centers s) []))) in *. set (qb := rmax (raw_cc d x (nth b (ks_centers s) []))) in *.
  set (n := nth i (ks_norms s) 0) in *. set (m := l2norm x) in *. set (ca := l2norm (nth a (ks_centers s) [])) in *. set (cb := l2norm (nth b (ks_centers s) [])) in *.
  assert (E : forall q u v, 0 < u -> 0 < v -> q / (u * v) = (q / v) * / u) by (intros; field; lra).
  rewrite !E by auto. set (ta := qa / ca). set (tb := qb / cb).
  pose proof (Rinv_0_lt_compat n P1) as I1. pose proof (Rinv_0_lt_compat m P2) as I2. split; intros Q.
  - assert (tb * / n < ta * / n) by lra. apply Rmult_lt_reg_r in H; auto. assert (tb * / m < ta * / m) by (apply Rmult_lt_compat_r; auto). lra.
  - assert (tb * / m < ta * / m) by lra. apply Rmult_lt_reg_r in H; auto. assert (tb * / n < ta * / n) by (apply Rmult_lt_compat_r; auto). lra.
Qed.
Print Assumptions C57_labels_partial.

(** ** series of two time steps and one feature, to compute examples *)
Definition two_pts (a b : R) : rseries := [[a]; [b]].
Lemma cc_two a b x y n1 n2 : normalized_cc 1 (two_pts a b) (two_pts x y) n1 n2 =
  map (normalize (own_norm n1 (two_pts a b) * own_norm n2 (two_pts x y))) [a * y; a * x + b * y; b * x].
Proof.
  rewrite normalized_cc_eq by (simpl; lia). cbn [two_pts length Nat.mul Nat.add Nat.sub seq map].
  assert (E : forall z, cc_entry 1 (two_pts a b) (two_pts x y) z = sliding (two_pts a b) (two_pts x y) z).
  { intros z. symmetry. apply sliding_cc. split; [|split]; try (split; [lia|split; [discriminate|]]); auto; intros r Hr; cbn in Hr; destruct Hr as [<-|[<-|[]]]; auto. }
  unfold two_pts in *. cbn [length]. rewrite !E. unfold sliding, PropCycc.dot. cbn. unfold rsum. cbn. change (Pos.to_nat 1) with 1%nat. cbn. set (u := own_norm n1 _ * own_norm n2 _). replace (0 + (a * y + 0 + 0)) with (a * y) by ring. replace (a * x + 0 + (b * y + 0 + 0)) with (a * x + b * y) by ring. replace (b * x + 0 + (0 + 0)) with (b * x) by ring. reflexivity.
Qed.
Lemma norm_two a b : l2norm (two_pts a b) = sqrt (a * a + b * b).
Proof. unfold l2norm, two_pts, rsum. cbn. f_equal. ring. Qed.
Lemma frob_two a b : frob (two_pts a b) = sqrt (a * a + b * b).
Proof. rewrite <- l2norm_frob. apply norm_two. Qed.
Lemma std_two a b : std_r [a; b] = Rabs (a - b) / 2.
Proof.
  unfold std_r, mean_r, rsum. cbn. replace (1 + 1) with 2 by ring.
  replace (_ / 2) with (((a - b) / 2) * ((a - b) / 2)) by field. change (sqrt (((a - b) / 2)²) = Rabs (a - b) / 2). rewrite sqrt_Rsqr_abs.
  unfold Rdiv. rewrite Rabs_mult, (Rabs_pos_eq (/ 2)) by lra. reflexivity.
Qed.
Lemma mean_two a b : mean_r [a; b] = (a + b) / 2.
Proof. unfold mean_r, rsum. cbn. replace (1 + 1) with 2 by ring. f_equal. ring. Qed.
Lemma standardise_two a b : a <> b -> standardise 1 (two_pts a b) = two_pts ((a - b) / Rabs (a - b)) ((b - a) / Rabs (a - b)).
Proof.
  intros H. assert (Rabs (a - b) <> 0) by (apply Rabs_no_R0; lra).
  unfold standardise, two_pts. cbn. unfold col_of. cbn. unfold scale_of. rewrite std_two, mean_two. destruct Req_EM_T as [E|E]; [exfalso; lra|].
  assert (F1 : (a - (a + b) / 2) / (Rabs (a - b) / 2) = (a - b) / Rabs (a - b)) by (field; auto).
  assert (F2 : (b - (a + b) / 2) / (Rabs (a - b) / 2) = (b - a) / Rabs (a - b)) by (field; auto).
  rewrite F1, F2. reflexivity.
Qed.
Lemma std_down : standardise 1 (two_pts 1 (-1)) = two_pts 1 (-1).
Proof. rewrite standardise_two by lra. replace (1 - -1) with 2 by ring. rewrite Rabs_pos_eq by lra. unfold two_pts. repeat f_equal; lra. Qed.
Lemma std_up : standardise 1 (two_pts (-1) 1) = two_pts (-1) 1.
Proof. rewrite standardise_two by lra. replace (-1 - 1) with (- (2)) by ring. rewrite Rabs_Ropp, Rabs_pos_eq by lra. unfold two_pts. repeat f_equal; lra. Qed.
Lemma sqrt2_sq : sqrt 2 * sqrt 2 = 2. Proof. apply sqrt_sqrt. lra. Qed.
Lemma sqrt2_bounds : 1.4 < sqrt 2 < 1.5.
Proof. pose proof sqrt2_sq. pose proof (sqrt_pos 2). split; nra. Qed.
(** An estimator trained on [n] series, centres (1,-1) and (-1,1).  Asked to label n+1 copies of (-1,1), it reads for the last
    one a norm outside [norms_]: with 1 there the label is 1, with 0 it is 0. *)
Theorem C57_out_of_bounds_refuted norms : (forall x, In x norms -> 0 < x) ->
  let s := {| ks_labels := []; ks_inertia := None; ks_centers := [two_pts 1 (-1); two_pts (-1) 1]; ks_norms := norms;
              ks_norms_c := map l2norm [two_pts 1 (-1); two_pts (-1) 1]; ks_iter := 1 |} in
  let X := repeat (two_pts (-1) 1) (S (length norms)) in
  nth (length norms) (ks_predict 1 (fun _ => 1) s X) 0%nat = 1%nat /\
  nth (length norms) (ks_predict 1 (fun _ => 0) s X) 0%nat = 0%nat /\
  first_least 2 (fun j => sbd 1 (two_pts (-1) 1) (nth j (ks_centers s) [])) 1.
Proof.
  intros Hn s X. set (n := length norms) in *.
  assert (LX : length X = S n) by apply repeat_length.
  assert (EX : nth n (map (standardise 1) X) [] = two_pts (-1) 1).
  { unfold X. rewrite (nth_indep _ [] (standardise 1 (two_pts (-1) 1))) by (rewrite map_length, repeat_length; lia). rewrite map_nth, nth_repeat. apply std_up. }
  pose proof sqrt2_sq as S2. pose proof sqrt2_bounds as SB.
  assert (N1 : l2norm (two_pts 1 (-1)) = sqrt 2) by (rewrite norm_two; f_equal; ring).
  assert (N2 : l2norm (two_pts (-1) 1) = sqrt 2) by (rewrite norm_two; f_equal; ring).
  assert (ROW : forall junk, nth n (cross_dists 1 junk s (map (standardise 1) X)) [] =
     [1 - rmax (normalized_cc 1 (two_pts (-1) 1) (two_pts 1 (-1)) (junk n) (sqrt 2)); 1 - rmax (normalized_cc 1 (two_pts (-1) 1) (two_pts (-1) 1) (junk n) (sqrt 2))]).
  { intros junk. rewrite cross_dists_nth by (rewrite map_length; lia). rewrite EX. cbn [s ks_centers ks_norms ks_norms_c length seq map nth].
    rewrite N1, N2. rewrite !fill_keep; [|intros x [<-|[<-|[]]]; lra|intros x Hx; specialize (Hn x Hx); lra].
    unfold read_norm. destruct (Nat.ltb_spec n (length norms)); [lia|]. reflexivity. }
  assert (OW : forall v a b, 0 <= v -> own_norm v (two_pts a b) = v) by (intros; apply own_norm_keep; auto).
  assert (CC : forall u, 1 / 10 ^ 9 <= u -> rmax (map (normalize u) [1; 2; 1]) = 2 / u /\ rmax (map (normalize u) [1; -2; 1]) = 1 / u).
  { intros u Hu. assert (Q : forall x, normalize u x = x / u) by (intros x; unfold normalize; destruct (Rltb u (1 / 10 ^ 9)) eqn:E; auto; apply Rltb_true in E; lra).
    cbn [map]. rewrite !Q. assert (0 < / u) by (apply Rinv_0_lt_compat; lra). unfold Rdiv. cbn [rmax]. unfold Rmax. split; repeat destruct (Rle_dec _ _); lra. }
  assert (E1 : [-1 * -1; -1 * 1 + 1 * -1; 1 * 1] = [1; -2; 1]) by (repeat f_equal; ring).
  assert (E2 : [-1 * 1; -1 * -1 + 1 * 1; 1 * -1] = [-1; 2; -1]) by (repeat f_equal; ring).
  assert (CC2 : forall u, 1 / 10 ^ 9 <= u -> rmax (map (normalize u) [-1; 2; -1]) = 2 / u).
  { intros u Hu. assert (Q : forall x, normalize u x = x / u) by (intros x; unfold normalize; destruct (Rltb u (1 / 10 ^ 9)) eqn:E; auto; apply Rltb_true in E; lra).
    cbn [map]. rewrite !Q. assert (0 < / u) by (apply Rinv_0_lt_compat; lra). unfold Rdiv. cbn [rmax]. unfold Rmax. repeat destruct (Rle_dec _ _); lra. }
  split; [|split].
  - unfold ks_predict. rewrite nth_map_rargmin, ROW, !cc_two, !OW, E1, E2 by lra. destruct (CC (1 * sqrt 2)) as [_ R1]; [lra|]. rewrite R1, CC2 by lra.
    assert (1 / (1 * sqrt 2) < 2 / (1 * sqrt 2)) by (apply Rmult_lt_compat_r; [apply Rinv_0_lt_compat; lra|lra]).
    cbn [rargmin rargmin_from]. rewrite (proj2 (Rltb_true _ _)) by lra. reflexivity.
  - unfold ks_predict. rewrite nth_map_rargmin, ROW, !cc_two, !OW, E1, E2 by lra. rewrite Rmult_0_l.
    assert (Q : forall x, normalize 0 x = 0) by (intros x; unfold normalize; rewrite (proj2 (Rltb_true _ _)) by lra; auto). cbn [map]. rewrite !Q.
    cbn [rargmin rargmin_from]. rewrite (proj2 (Rltb_false _ _)) by lra. reflexivity.
  - split; [lia|]. assert (F0 : sbd 1 (two_pts (-1) 1) (two_pts 1 (-1)) = 1 / 2).
    { unfold sbd. rewrite N1, N2, cc_two, !OW, E1, S2 by lra. destruct (CC 2) as [_ R1]; [lra|]. rewrite R1. lra. }
    assert (F1 : sbd 1 (two_pts (-1) 1) (two_pts (-1) 1) = 0).
    { unfold sbd. rewrite N2, cc_two, !OW, E2, S2, CC2 by lra. lra. }
    intros j Hj. assert (j = 0 \/ j = 1)%nat as [->| ->] by lia; cbn [s ks_centers nth]; rewrite ?F0, ?F1; split; try lra; lia.
Qed.
Print Assumptions C57_out_of_bounds_refuted.

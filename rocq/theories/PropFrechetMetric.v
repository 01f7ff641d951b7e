(** C230: the discrete Frechet distance with a user's metric, [frechet_path_from_metric]. *)
From Coq Require Import Bool List Arith ZArith QArith Lia Floats Reals Lra.
From Verif Require Import Num NumLaws Py Series Masks DtwModel Spec SpecDtw DpProofs DtwProofs DtwThms DtwExact PropDtw RList PathSum RealSeries.
Import ListNotations.
Local Open Scope nat_scope.

(** Any non-negative matrix: the score is the least maximum along an admissible warping path, and
    the path attains it. *)
Theorem C230_optimal : forall N nn fin, num_laws N nn fin ->
  forall l1 l2 g radius slope allowed (D : mat N),
  0 < l1 -> 0 < l2 -> constraint l1 l2 g radius slope allowed ->
  (forall i j, i < l1 -> j < l2 -> nn (D i j)) ->
  exists p w, elastic_path_precomputed comb_frechet l1 l2 D g radius slope = Ok (p, w) /\
    least_cost (warping_path l1 l2 allowed) (path_cost nmax D) w /\
    (w <> ninf -> warping_path l1 l2 allowed p /\ path_cost nmax D p = w).
Proof.
  intros N nn fin L l1 l2 g r s A D H1 H2 Hc HD.
  destruct (constraint_mask _ _ _ _ _ _ Hc) as (code & mask & E1 & E2 & Hm).
  unfold elastic_path_precomputed. rewrite E1. simpl. rewrite E2. simpl.
  destruct (compute_path_total N l1 l2 (acc_matrix comb_frechet l1 l2 D mask) H1 H2) as (p & Hp).
  rewrite Hp. exists p. eexists. split; [reflexivity|]. split.
  - apply (table_optimal N nn fin L _ _ (comb_laws_frechet N nn fin L) (frechet_op N nn fin L)); auto.
  - intros Hf. exact (table_path N nn fin L _ _ (comb_laws_frechet N nn fin L) (frechet_op N nn fin L) l1 l2 D D mask A p H1 H2
      (fun _ _ => eq_refl) (fun i j Hi Hj _ => HD i j Hi Hj) Hm Hf Hp).
Qed.
Print Assumptions C230_optimal.
(** The squared Euclidean metric: the path of [frechet_path], and the square of its score. *)
Theorem C230_sqeuclidean : forall N nn fin, num_laws N nn fin ->
  forall d s1 s2 g radius slope allowed pairwise p (v : N),
  finite_series fin d s1 -> finite_series fin d s2 ->
  constraint (length s1) (length s2) g radius slope allowed ->
  (forall i j, i < length s1 -> j < length s2 ->
     pairwise (nth i s1 []) (nth j s2 []) = sq_euclid (nth i s1 []) (nth j s2 [])) ->
  frechet_path (Raw2 s1) (Raw2 s2) g radius slope = Ok (p, v) ->
  exists w, elastic_path_metric comb_frechet pairwise (Raw2 s1) (Raw2 s2) g radius slope = Ok (p, w) /\ v = nsqrt w.
Proof.
  intros N nn fin L d s1 s2 g r s A pw p v F1 F2 Hc Hp H.
  exact (elastic_path_metric_agrees N nn fin L _ d s1 s2 F1 F2 pw g r s A p v Hc Hp H).
Qed.
Print Assumptions C230_sqeuclidean.

(** ** increasing changes of the metric *)
(** [f] is strictly increasing from the non-negative numbers to the non-negative numbers *)
Definition increasing (f : R -> R) : Prop := (forall x, 0 <= x -> 0 <= f x)%R /\ (forall x y, 0 <= x -> 0 <= y -> (x < y)%R <-> (f x < f y)%R)%R.
Definition applied (f : R -> R) (x : xr) : xr := match x with XR v => XR (f v) | y => y end.
Definition plain (x : xr) : Prop := match x with XR v => (0 <= v)%R | XInf => True | _ => False end.

Section Increasing.
Variables (f : R -> R).
Hypothesis Hf : increasing f.
Notation F := (applied f).
Lemma ltb_applied a b : plain a -> plain b -> xltb (F a) (F b) = xltb a b.
Proof.
  destruct a as [x| | |], b as [y| | |]; cbn; try tauto; try reflexivity. intros Hx Hy. destruct Hf as [_ H]. specialize (H x y Hx Hy).
  unfold Rltb. destruct (Rlt_dec x y), (Rlt_dec (f x) (f y)); try reflexivity; exfalso; tauto.
Qed.
Lemma min_applied a b : plain a -> plain b -> plain (pymin (N:=Xnum) a b) /\ pymin (N:=Xnum) (F a) (F b) = F (pymin (N:=Xnum) a b).
Proof. intros Ha Hb. unfold pymin. cbn [Xnum nltb]. rewrite ltb_applied by assumption. destruct (xltb b a); auto. Qed.
Lemma min3_applied a b c : plain a -> plain b -> plain c -> plain (pymin3 (N:=Xnum) a b c) /\ pymin3 (N:=Xnum) (F a) (F b) (F c) = F (pymin3 (N:=Xnum) a b c).
Proof. intros Ha Hb Hc. unfold pymin3. destruct (min_applied a b Ha Hb) as [P1 ->]. apply min_applied; assumption. Qed.
Lemma max_applied a b : plain a -> plain b -> plain (pymax (N:=Xnum) a b) /\ pymax (N:=Xnum) (F a) (F b) = F (pymax (N:=Xnum) a b).
Proof. intros Ha Hb. unfold pymax. cbn [Xnum nltb]. rewrite ltb_applied by assumption. destruct (xltb a b); auto. Qed.
Lemma argmin_applied a b c : plain a -> plain b -> plain c -> argmin3 (N:=Xnum) (F a) (F b) (F c) = argmin3 (N:=Xnum) a b c.
Proof. intros Ha Hb Hc. unfold argmin3. cbn [Xnum nltb]. rewrite !ltb_applied by assumption. reflexivity. Qed.

(** what the two tables have in common *)
Definition twins (c c' : mat xr) : Prop :=
  c 0 0 = XR 0 /\ c' 0 0 = XR 0 /\
  (forall j, c 0 (S j) = XInf /\ c' 0 (S j) = XInf) /\ (forall i, c (S i) 0 = XInf /\ c' (S i) 0 = XInf) /\
  forall i j, plain (c (S i) (S j)) /\ c' (S i) (S j) = F (c (S i) (S j)).
Lemma twins_step D D' mask c c' i j : plain (D i j) -> D' i j = F (D i j) -> twins c c' ->
  twins (cum_step (N:=Xnum) comb_frechet D mask c (i, j)) (cum_step (N:=Xnum) comb_frechet D' mask c' (i, j)).
Proof.
  intros PD ED T. pose proof T as (T1 & T2 & T3 & T4 & T5). unfold cum_step. destruct (mask i j); [|exact T].
  split; [exact T1|split; [exact T2|split; [intros k; exact (T3 k)|split]]].
  - intros k. unfold upd. rewrite !andb_false_r. apply T4.
  - intros k l. unfold upd. destruct ((S k =? S i) && (S l =? S j)); [|apply T5]. unfold comb_frechet. rewrite ED.
    destruct i as [|i].
    + destruct j as [|j].
      * destruct (T3 0) as [-> ->]. destruct (T4 0) as [-> ->]. rewrite T1, T2. cbn. destruct (D 0 0) as [x| | |]; cbn in *; try tauto.
        destruct Hf as [H0 _]. specialize (H0 x PD). unfold pymax. cbn. unfold Rltb. destruct (Rlt_dec x 0); [lra|]. destruct (Rlt_dec (f x) 0); [lra|]. split; [exact PD|reflexivity].
      * destruct (T3 (S j)) as [-> ->]. destruct (T3 j) as [-> ->]. destruct (T5 0 j) as [P ->]. 
        destruct (min3_applied XInf (c 1 (S j)) XInf I P I) as [P3 E3]. change (F XInf) with XInf in E3. rewrite E3. apply max_applied; assumption.
    + destruct j as [|j].
      * destruct (T4 (S i)) as [-> ->]. destruct (T4 i) as [-> ->]. destruct (T5 i 0) as [P ->]. 
        destruct (min3_applied (c (S i) 1) XInf XInf P I I) as [P3 E3]. change (F XInf) with XInf in E3. rewrite E3. apply max_applied; assumption.
      * destruct (T5 i (S j)) as [P1 ->]. destruct (T5 (S i) j) as [P2 ->]. destruct (T5 i j) as [P3 ->]. destruct (min3_applied _ _ _ P1 P2 P3) as [P4 ->]. apply max_applied; assumption.
Qed.
Lemma twins_table l1 l2 D D' mask : (forall i j, i < l1 -> j < l2 -> plain (D i j) /\ D' i j = F (D i j)) ->
  twins (cum_matrix (N:=Xnum) comb_frechet l1 l2 D mask) (cum_matrix (N:=Xnum) comb_frechet l1 l2 D' mask).
Proof.
  intros H. unfold cum_matrix. assert (T : twins (cum_init (N:=Xnum)) (cum_init (N:=Xnum))) by (repeat split).
  assert (B : forall i j, In (i, j) (row_major l1 l2) -> i < l1 /\ j < l2) by (intros i j Hij; apply in_row_major; exact Hij).
  assert (G : forall l c c', (forall i j, In (i, j) l -> i < l1 /\ j < l2) -> twins c c' ->
    twins (fold_left (cum_step (N:=Xnum) comb_frechet D mask) l c) (fold_left (cum_step (N:=Xnum) comb_frechet D' mask) l c')).
  { clear B T. induction l as [|[i j] l IH]; intros c c' B T; [exact T|]. cbn [fold_left]. apply IH; [intros; apply B; right; assumption|].
    destruct (B i j (or_introl eq_refl)) as [Hi Hj]. destruct (H i j Hi Hj). apply twins_step; assumption. }
  apply G; assumption.
Qed.
Lemma backtrack_applied (a a' : mat xr) : (forall i j, plain (a i j) /\ a' i j = F (a i j)) ->
  forall fuel i j p, backtrack (N:=Xnum) fuel a' i j p = backtrack (N:=Xnum) fuel a i j p.
Proof.
  intros H. induction fuel as [|n IH]; intros i j p; [reflexivity|]. cbn [backtrack]. destruct i as [|i], j as [|j]; try apply IH; [reflexivity|].
  destruct (H i j) as [P1 ->]. destruct (H i (S j)) as [P2 ->]. destruct (H (S i) j) as [P3 ->]. rewrite argmin_applied by assumption.
  destruct (argmin3 (N:=Xnum) (a i j) (a i (S j)) (a (S i) j)) as [|[|k]]; apply IH.
Qed.
End Increasing.

Lemma increasing_full f l1 l2 (Dr : nat -> nat -> R) g radius slope p v : increasing f -> (forall i j, i < l1 -> j < l2 -> (0 <= Dr i j)%R) ->
  elastic_path_precomputed (N:=Xnum) comb_frechet l1 l2 (fun i j => XR (Dr i j)) g radius slope = Ok (p, v) -> plain v /\
  elastic_path_precomputed (N:=Xnum) comb_frechet l1 l2 (fun i j => XR (f (Dr i j))) g radius slope = Ok (p, applied f v).
Proof.
  intros Hf HD. unfold elastic_path_precomputed. destruct (gc_code g) as [code|e]; [|discriminate]. cbn [bind].
  destruct (compute_mask l1 l2 code radius slope) as [mask|e]; [|discriminate]. cbn [bind].
  pose proof (twins_table f Hf l1 l2 (fun i j => XR (Dr i j)) (fun i j => XR (f (Dr i j))) mask) as T. destruct T as (_ & _ & _ & _ & T); [intros i j Hi Hj; split; [apply HD; assumption|reflexivity]|].
  set (a := acc_matrix (N:=Xnum) comb_frechet l1 l2 (fun i j => XR (Dr i j)) mask). set (a' := acc_matrix (N:=Xnum) comb_frechet l1 l2 (fun i j => XR (f (Dr i j))) mask).
  assert (H : forall i j, plain (a i j) /\ a' i j = applied f (a i j)) by (intros i j; apply T).
  unfold compute_path. rewrite (backtrack_applied f Hf a a' H). destruct (backtrack (N:=Xnum) (l1 + l2) a (l1 - 1) (l2 - 1) [(l1 - 1, l2 - 1)]) as [q|]; [|discriminate].
  intros E. injection E as <- <-. split; [apply H|]. do 2 f_equal. apply H.
Qed.
(** The path does not depend on strictly increasing changes of the metric, and the score follows them. *)
Theorem C230_increasing f l1 l2 (Dr : nat -> nat -> R) g radius slope p v : increasing f -> (forall i j, i < l1 -> j < l2 -> (0 <= Dr i j)%R) ->
  elastic_path_precomputed (N:=Xnum) comb_frechet l1 l2 (fun i j => XR (Dr i j)) g radius slope = Ok (p, v) ->
  elastic_path_precomputed (N:=Xnum) comb_frechet l1 l2 (fun i j => XR (f (Dr i j))) g radius slope = Ok (p, applied f v).
Proof. intros Hf HD E. exact (proj2 (increasing_full f l1 l2 Dr g radius slope p v Hf HD E)). Qed.
Print Assumptions C230_increasing.
(** The Euclidean metric: path and score of [frechet_path]. *)
Theorem C230_euclidean d s1 s2 g radius slope allowed pairwise : real_series d s1 -> real_series d s2 ->
  constraint (length s1) (length s2) g radius slope allowed ->
  (forall a b, length a = d -> length b = d -> pairwise (map XR a) (map XR b) = XR (sqrt (sqd a b))) ->
  elastic_path_metric (N:=Xnum) comb_frechet pairwise (Raw2 (lift s1)) (Raw2 (lift s2)) g radius slope = frechet_path (N:=Xnum) (Raw2 (lift s1)) (Raw2 (lift s2)) g radius slope.
Proof.
  intros H1 H2 Hc Hp. pose proof (lift_finite d s1 H1) as F1. pose proof (lift_finite d s2 H2) as F2.
  destruct (C07_frechet_path_realises_score Xnum xnn xfin Xlaws d (lift s1) (lift s2) g radius slope allowed F1 F2) as (p & v & E & _); [rewrite !lift_length; exact Hc|].
  rewrite E. assert (HC' : constraint (length (lift s1)) (length (lift s2)) g radius slope allowed) by (rewrite !lift_length; exact Hc).
  destruct (elastic_path_precomputed_agrees Xnum xnn xfin Xlaws comb_frechet d (lift s1) (lift s2) F1 F2 (fun i j => XR (costs s1 s2 i j)) g radius slope allowed p v HC') as (w & Ew & Ev).
  { intros i j _ _. symmetry. apply local_costs_lift. }
  { exact E. }
  rewrite !lift_length in Ew.
  assert (IS : increasing sqrt). { split; [intros; apply sqrt_pos|]. intros x y Hx Hy. split; [intros; apply sqrt_lt_1_alt; lra|]. intros Hs. apply sqrt_lt_0_alt, Hs. }
  assert (CP : forall i j, i < length s1 -> j < length s2 -> (0 <= costs s1 s2 i j)%R) by (intros; apply sqd_nonneg).
  destruct (increasing_full sqrt _ _ _ g radius slope p w IS CP Ew) as [PW EW].
  assert (AV : applied sqrt w = v). { rewrite Ev. destruct w as [x| | |]; cbn in *; try tauto. unfold Rleb. destruct (Rle_dec 0 x); [reflexivity|tauto]. }
  rewrite AV in EW. etransitivity; [|exact EW]. unfold elastic_path_metric.
  rewrite (to_time_series_finite Xnum xnn xfin Xlaws d _ F1), (to_time_series_finite Xnum xnn xfin Xlaws d _ F2). cbv zeta. rewrite !lift_length.
  destruct (constraint_mask _ _ _ _ _ _ Hc) as (code & mask & E1 & E2 & _). unfold elastic_path_precomputed. rewrite E1. cbn [bind]. rewrite E2. cbn [bind].
  rewrite (acc_matrix_ext Xnum comb_frechet (length s1) (length s2) (fun i j => pairwise (nth i (lift s1) []) (nth j (lift s2) [])) (fun i j => XR (sqrt (costs s1 s2 i j))) mask mask); [reflexivity| |auto].
  intros i j Hi Hj. rewrite !lift_nth. apply Hp; [apply H1|apply H2]; apply nth_In; assumption.
Qed.
Print Assumptions C230_euclidean.
(** a case: a cubed metric and a band *)
Example C230_instance : increasing (fun x => x * x * x)%R /\ exists A, constraint 2 3 GcSakoeChiba (Some 1%Z) None A.
Proof.
  split; [split|].
  - intros x Hx. repeat apply Rmult_le_pos; assumption.
  - intros x y Hx Hy. split; intros H.
    + assert (P : (0 < (y - x) * (x * x + x * y + y * y))%R) by (apply Rmult_lt_0_compat; nra). lra.
    + apply Rnot_le_lt. intros G. assert (P : (0 <= (x - y) * (x * x + x * y + y * y))%R) by (apply Rmult_le_pos; nra). lra.
  - eexists. split; [|reflexivity]. cbn. lia.
Qed.

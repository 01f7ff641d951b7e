(** Properties C01-C09 and C73: elastic distances and their paths.

    Statements range over every number system satisfying [num_laws]; [Xlaws]
    (exact extended reals) and [Flaws] (binary64) are the instances.  Lengths,
    feature counts, values and constraint arguments are arbitrary. *)
From Coq Require Import Bool List Arith ZArith QArith Lia Floats Reals.
From Verif Require Import Num NumLaws Py Series Masks DtwModel Spec SpecDtw
  DpProofs DtwProofs DtwThms DtwExact.
Import ListNotations.
Local Open Scope nat_scope.

(** Example data used below: bivariate, unequal lengths. *)
Definition ex1 : series Fnum := [[0; 1]; [2; 1]; [5; 0]]%float.
Definition ex2 : series Fnum := [[1; 1]; [1; 0]; [4; 0]; [6; 2]]%float.
Ltac fin_series :=
  split; [lia|split; [discriminate|]]; simpl; intros r Hr;
  repeat destruct Hr as [<-|Hr]; try contradiction; (split; [reflexivity|]); simpl;
  intros x Hx; repeat destruct Hx as [<-|Hx]; try contradiction; vm_compute; reflexivity.
Lemma ex1_fin : finite_series (N:=Fnum) ffin 2 ex1. Proof. fin_series. Qed.
Lemma ex2_fin : finite_series (N:=Fnum) ffin 2 ex2. Proof. fin_series. Qed.
Example ex_constraint : constraint 3 4 GcNone (Some 1%Z) None (band 3 4 1).
Proof. split; [lia|reflexivity]. Qed.
Example ex_constraint_ita : exists a, constraint 3 4 GcItakura None None a.
Proof. eexists. reflexivity. Qed.

(** ** C01 *)
Theorem C01_dtw_optimal : forall N nn fin, num_laws N nn fin ->
  forall d s1 s2 g radius slope allowed,
  finite_series fin d s1 -> finite_series fin d s2 ->
  constraint (length s1) (length s2) g radius slope allowed ->
  exists w : N, dtw (Raw2 s1) (Raw2 s2) g radius slope = Ok (nsqrt w) /\
    least_cost (warping_path (length s1) (length s2) allowed)
               (path_cost nadd (local_costs s1 s2)) w.
Proof.
  intros N nn fin L d s1 s2 g r s allowed F1 F2 Hc.
  destruct (elastic_optimal N nn fin L _ _ (comb_laws_dtw N nn fin L) (dtw_op N nn) d s1 s2 F1 F2 g r s allowed Hc)
    as (w & E & _ & H). exists w. split; [exact E|exact H].
Qed.
Print Assumptions C01_dtw_optimal.

Theorem C01_dtw_infinite_iff_infeasible : forall d s1 s2 g radius slope allowed,
  finite_series (N:=Xnum) xfin d s1 -> finite_series (N:=Xnum) xfin d s2 ->
  constraint (length s1) (length s2) g radius slope allowed ->
  (dtw (N:=Xnum) (Raw2 s1) (Raw2 s2) g radius slope = Ok XInf <->
   forall p, ~ warping_path (length s1) (length s2) allowed p).
Proof. exact (elastic_inf_iff _ _ (comb_laws_dtw Xnum xnn xfin Xlaws) (dtw_op Xnum xnn) xadd_xfin). Qed.
Print Assumptions C01_dtw_infinite_iff_infeasible.

Example C01_nontrivial : exists w : Fnum,
  dtw (N:=Fnum) (Raw2 ex1) (Raw2 ex2) GcNone (Some 1%Z) None = Ok (nsqrt w) /\ w = 9%float.
Proof. exists 9%float. split; vm_compute; reflexivity. Qed.

(** ** C02 *)
Theorem C02_dtw_path_returns : forall N nn fin, num_laws N nn fin ->
  forall d s1 s2 g radius slope allowed,
  finite_series fin d s1 -> finite_series fin d s2 ->
  constraint (length s1) (length s2) g radius slope allowed ->
  exists p v, dtw_path (N:=N) (Raw2 s1) (Raw2 s2) g radius slope = Ok (p, v).
Proof.
  intros N nn fin L d s1 s2 g r s allowed F1 F2 Hc.
  exact (elastic_path_returns N nn fin L _ d s1 s2 F1 F2 g r s allowed Hc).
Qed.
Print Assumptions C02_dtw_path_returns.

Theorem C02_dtw_path_realises_score : forall N nn fin, num_laws N nn fin ->
  forall d s1 s2 g radius slope allowed p (v : N),
  finite_series fin d s1 -> finite_series fin d s2 ->
  constraint (length s1) (length s2) g radius slope allowed ->
  dtw_path (Raw2 s1) (Raw2 s2) g radius slope = Ok (p, v) ->
  dtw (Raw2 s1) (Raw2 s2) g radius slope = Ok v /\
  (v <> ninf -> warping_path (length s1) (length s2) allowed p /\
                v = nsqrt (path_cost nadd (local_costs s1 s2) p)).
Proof.
  intros N nn fin L d s1 s2 g r s allowed p v F1 F2 Hc H.
  exact (elastic_path_correct N nn fin L _ _ (comb_laws_dtw N nn fin L) (dtw_op N nn) d s1 s2 F1 F2 g r s allowed p v Hc H).
Qed.
Print Assumptions C02_dtw_path_realises_score.

Example C02_nontrivial :
  dtw_path (N:=Fnum) (Raw2 ex1) (Raw2 ex2) GcNone (Some 1%Z) None =
  Ok ([(0, 0); (1, 1); (2, 2); (2, 3)], 3%float).
Proof. vm_compute. reflexivity. Qed.

(** ** C03 *)
Theorem C03_dtw_symmetric : forall N nn fin, num_laws N nn fin ->
  forall d s1 s2 g radius slope allowed,
  finite_series fin d s1 -> finite_series fin d s2 -> not_itakura g slope ->
  constraint (length s1) (length s2) g radius slope allowed ->
  dtw (N:=N) (Raw2 s1) (Raw2 s2) g radius slope = dtw (Raw2 s2) (Raw2 s1) g radius slope.
Proof.
  intros N nn fin L d s1 s2 g r s A F1 F2 Hn Hc.
  exact (elastic_sym N nn fin L _ _ d s1 s2 g r s A (comb_laws_dtw N nn fin L) (dtw_op N nn) F1 F2 Hn Hc).
Qed.
Print Assumptions C03_dtw_symmetric.

Theorem C03_dtw_nonnegative : forall N nn fin, num_laws N nn fin ->
  forall d s1 s2 g radius slope allowed (v : N),
  finite_series fin d s1 -> finite_series fin d s2 ->
  constraint (length s1) (length s2) g radius slope allowed ->
  dtw (Raw2 s1) (Raw2 s2) g radius slope = Ok v -> nleb nzero v = true.
Proof.
  intros N nn fin L d s1 s2 g r s A v F1 F2 Hc H.
  exact (elastic_nonneg N nn fin L _ _ d s1 s2 g r s A v (comb_laws_dtw N nn fin L) (dtw_op N nn) F1 F2 Hc H).
Qed.
Print Assumptions C03_dtw_nonnegative.

Theorem C03_dtw_self_zero : forall N nn fin, num_laws N nn fin ->
  forall d s g radius slope allowed,
  finite_series fin d s -> not_itakura g slope ->
  constraint (length s) (length s) g radius slope allowed ->
  dtw (N:=N) (Raw2 s) (Raw2 s) g radius slope = Ok nzero.
Proof.
  intros N nn fin L d s g r sl A F1 Hn Hc.
  exact (elastic_self N nn fin L _ _ d s g r sl A (comb_laws_dtw N nn fin L) (dtw_op N nn) F1 Hc
    (fun i _ => constraint_diag _ _ _ _ _ Hn Hc i)).
Qed.
Print Assumptions C03_dtw_self_zero.
Example C03_nontrivial : not_itakura GcNone None /\
  dtw (N:=Fnum) (Raw2 ex2) (Raw2 ex1) GcNone (Some 1%Z) None = Ok 3%float.
Proof. split; [split; [discriminate|right; reflexivity]|vm_compute; reflexivity]. Qed.

(** ** C04 *)
Theorem C04_radius_monotone : forall N nn fin, num_laws N nn fin ->
  forall d s1 s2 r r' (v v' u : N),
  finite_series fin d s1 -> finite_series fin d s2 -> (0 <= r <= r')%Z ->
  dtw (Raw2 s1) (Raw2 s2) GcNone (Some r) None = Ok v ->
  dtw (Raw2 s1) (Raw2 s2) GcNone (Some r') None = Ok v' ->
  dtw (Raw2 s1) (Raw2 s2) GcNone None None = Ok u ->
  nleb v' v = true /\ nleb u v' = true.
Proof.
  intros N nn fin L d s1 s2 r r' v v' u F1 F2 [Hr Hr'] Hv Hv' Hu. split.
  - exact (elastic_mono N nn fin L _ _ d s1 s2 GcNone (Some r) None (band _ _ r) GcNone (Some r') None (band _ _ r') v v'
      (comb_laws_dtw N nn fin L) (dtw_op N nn) F1 F2 (conj Hr eq_refl) (conj (Z.le_trans _ _ _ Hr Hr') eq_refl)
      (fun i j _ _ H => band_mono _ _ _ _ _ _ Hr' H) Hv Hv').
  - exact (elastic_mono N nn fin L _ _ d s1 s2 GcNone (Some r') None (band _ _ r') GcNone None None everywhere v' u
      (comb_laws_dtw N nn fin L) (dtw_op N nn) F1 F2 (conj (Z.le_trans _ _ _ Hr Hr') eq_refl) eq_refl
      (fun i j _ _ H => eq_refl) Hv' Hu).
Qed.
Print Assumptions C04_radius_monotone.
Definition ex3 : series Fnum := [[0]; [0]; [0]; [5]; [6]; [7]]%float.
Definition ex4 : series Fnum := [[0]; [5]; [6]; [7]; [7]; [7]]%float.
Example C04_nontrivial :
  dtw (N:=Fnum) (Raw2 ex3) (Raw2 ex4) GcNone (Some 1%Z) None = Ok (PrimFloat.sqrt 27) /\
  dtw (N:=Fnum) (Raw2 ex3) (Raw2 ex4) GcNone (Some 2%Z) None = Ok 0%float /\
  dtw (N:=Fnum) (Raw2 ex3) (Raw2 ex4) GcNone None None = Ok 0%float.
Proof. repeat split; vm_compute; reflexivity. Qed.

(** ** C05 *)
Theorem C05_mask_is_band : forall n m r i j, (0 <= r)%Z -> i < n -> j < m ->
  sakoe_chiba_mask n m r i j = band n m r i j.
Proof. exact sakoe_chiba_band. Qed.
Print Assumptions C05_mask_is_band.
Theorem C05_mask_transpose : forall n m r i j, (0 <= r)%Z -> i < n -> j < m ->
  sakoe_chiba_mask n m r i j = sakoe_chiba_mask m n r j i.
Proof. intros. rewrite !sakoe_chiba_band by assumption. apply band_transpose. Qed.
Print Assumptions C05_mask_transpose.
Theorem C05_mask_feasible : forall n m r, (0 <= r)%Z -> 0 < n -> 0 < m ->
  exists p, warping_path n m (sakoe_chiba_mask n m r) p.
Proof.
  intros n m r Hr Hn Hm. destruct (band_feasible n m r Hr Hn Hm) as (p & Hp). exists p.
  apply (wpath_ext n m (band n m r)); auto. intros; symmetry; apply sakoe_chiba_band; auto.
Qed.
Print Assumptions C05_mask_feasible.
Theorem C05_sakoe_chiba_dtw_finite : forall d s1 s2 r,
  finite_series (N:=Xnum) xfin d s1 -> finite_series (N:=Xnum) xfin d s2 -> (0 <= r)%Z ->
  exists v, (0 <= v)%R /\ dtw (N:=Xnum) (Raw2 s1) (Raw2 s2) GcSakoeChiba (Some r) None = Ok (XR v).
Proof.
  intros d s1 s2 r F1 F2 Hr.
  exact (elastic_finite_iff _ _ (comb_laws_dtw Xnum xnn xfin Xlaws) (dtw_op Xnum xnn) xadd_xfin d s1 s2
    GcSakoeChiba (Some r) None (band _ _ r) F1 F2 (conj Hr eq_refl)
    (band_feasible _ _ r Hr (finite_len Xnum xfin d s1 F1) (finite_len Xnum xfin d s2 F2))).
Qed.
Print Assumptions C05_sakoe_chiba_dtw_finite.
Example C05_nontrivial :
  map (fun i => map (sakoe_chiba_mask 4 6 1 i) (seq 0 6)) (seq 0 4) =
  [[true; true; true; true; false; false];
   [true; true; true; true; true; false];
   [false; true; true; true; true; true];
   [false; false; true; true; true; true]].
Proof. vm_compute. reflexivity. Qed.

(** ** C06 *)
Theorem C06_torch_dtw_matrix : forall N nn fin, num_laws N nn fin ->
  forall l1 l2 (D : mat N) mask i j, i < l1 -> j < l2 ->
  (forall a b, a < l1 -> b < l2 -> mask a b = true -> nn (D a b)) ->
  torch_acc_matrix comb_dtw l1 l2 D mask i j = acc_matrix comb_dtw l1 l2 D mask i j.
Proof.
  intros N nn fin L l1 l2 D mask i j Hi Hj HD.
  exact (torch_acc_eq N nn fin L _ (comb_laws_dtw N nn fin L) l1 l2 D mask HD i j Hi Hj).
Qed.
Print Assumptions C06_torch_dtw_matrix.
Theorem C06_torch_frechet_matrix : forall N nn fin, num_laws N nn fin ->
  forall l1 l2 (D : mat N) mask i j, i < l1 -> j < l2 ->
  (forall a b, a < l1 -> b < l2 -> mask a b = true -> nn (D a b)) ->
  torch_acc_matrix comb_frechet l1 l2 D mask i j = acc_matrix comb_frechet l1 l2 D mask i j.
Proof.
  intros N nn fin L l1 l2 D mask i j Hi Hj HD.
  exact (torch_acc_eq N nn fin L _ (comb_laws_frechet N nn fin L) l1 l2 D mask HD i j Hi Hj).
Qed.
Print Assumptions C06_torch_frechet_matrix.
Example C06_nontrivial :
  map (fun i => map (torch_acc_matrix (N:=Fnum) comb_dtw 3 4 (local_costs ex1 ex2) (band 3 4 0) i) (seq 0 4)) (seq 0 3)
  = map (fun i => map (acc_matrix (N:=Fnum) comb_dtw 3 4 (local_costs ex1 ex2) (band 3 4 0) i) (seq 0 4)) (seq 0 3) /\
  torch_acc_matrix (N:=Fnum) comb_dtw 3 4 (local_costs ex1 ex2) (band 3 4 0) 1 1 = 3%float /\
  torch_acc_matrix (N:=Fnum) comb_dtw 3 4 (local_costs ex1 ex2) (band 3 4 0) 2 1 = infinity.
Proof. repeat split; vm_compute; reflexivity. Qed.

(** ** C07 *)
Theorem C07_frechet_optimal : forall N nn fin, num_laws N nn fin ->
  forall d s1 s2 g radius slope allowed,
  finite_series fin d s1 -> finite_series fin d s2 ->
  constraint (length s1) (length s2) g radius slope allowed ->
  exists w : N, frechet (Raw2 s1) (Raw2 s2) g radius slope = Ok (nsqrt w) /\
    least_cost (warping_path (length s1) (length s2) allowed)
               (path_cost nmax (local_costs s1 s2)) w.
Proof.
  intros N nn fin L d s1 s2 g r s allowed F1 F2 Hc.
  destruct (elastic_optimal N nn fin L _ _ (comb_laws_frechet N nn fin L) (frechet_op N nn fin L) d s1 s2 F1 F2 g r s allowed Hc)
    as (w & E & _ & H). exists w. split; [exact E|exact H].
Qed.
Print Assumptions C07_frechet_optimal.
Theorem C07_frechet_infinite_iff_infeasible : forall d s1 s2 g radius slope allowed,
  finite_series (N:=Xnum) xfin d s1 -> finite_series (N:=Xnum) xfin d s2 ->
  constraint (length s1) (length s2) g radius slope allowed ->
  (frechet (N:=Xnum) (Raw2 s1) (Raw2 s2) g radius slope = Ok XInf <->
   forall p, ~ warping_path (length s1) (length s2) allowed p).
Proof.
  exact (elastic_inf_iff _ _ (comb_laws_frechet Xnum xnn xfin Xlaws) (frechet_op Xnum xnn xfin Xlaws) nmax_xfin).
Qed.
Print Assumptions C07_frechet_infinite_iff_infeasible.
Theorem C07_frechet_path_realises_score : forall N nn fin, num_laws N nn fin ->
  forall d s1 s2 g radius slope allowed,
  finite_series fin d s1 -> finite_series fin d s2 ->
  constraint (length s1) (length s2) g radius slope allowed ->
  exists p (v : N), frechet_path (Raw2 s1) (Raw2 s2) g radius slope = Ok (p, v) /\
  frechet (Raw2 s1) (Raw2 s2) g radius slope = Ok v /\
  (v <> ninf -> warping_path (length s1) (length s2) allowed p /\
                v = nsqrt (path_cost nmax (local_costs s1 s2) p)).
Proof.
  intros N nn fin L d s1 s2 g r s allowed F1 F2 Hc.
  destruct (elastic_path_returns N nn fin L comb_frechet d s1 s2 F1 F2 g r s allowed Hc) as (p & v & E).
  exists p, v. split; [exact E|].
  exact (elastic_path_correct N nn fin L _ _ (comb_laws_frechet N nn fin L) (frechet_op N nn fin L) d s1 s2 F1 F2 g r s allowed p v Hc E).
Qed.
Print Assumptions C07_frechet_path_realises_score.
Theorem C07_frechet_symmetric : forall N nn fin, num_laws N nn fin ->
  forall d s1 s2 g radius slope allowed,
  finite_series fin d s1 -> finite_series fin d s2 -> not_itakura g slope ->
  constraint (length s1) (length s2) g radius slope allowed ->
  frechet (N:=N) (Raw2 s1) (Raw2 s2) g radius slope = frechet (Raw2 s2) (Raw2 s1) g radius slope.
Proof.
  intros N nn fin L d s1 s2 g r s A F1 F2 Hn Hc.
  exact (elastic_sym N nn fin L _ _ d s1 s2 g r s A (comb_laws_frechet N nn fin L) (frechet_op N nn fin L) F1 F2 Hn Hc).
Qed.
Print Assumptions C07_frechet_symmetric.
Example C07_nontrivial :
  frechet_path (N:=Fnum) (Raw2 ex1) (Raw2 ex2) GcNone (Some 1%Z) None =
  Ok ([(0, 0); (1, 1); (2, 2); (2, 3)], PrimFloat.sqrt 5).
Proof. vm_compute. reflexivity. Qed.

(** ** C08 *)
Theorem C08_frechet_le_dtw : forall N nn fin, num_laws N nn fin ->
  forall d s1 s2 g radius slope allowed (v w : N),
  finite_series fin d s1 -> finite_series fin d s2 ->
  constraint (length s1) (length s2) g radius slope allowed ->
  frechet (Raw2 s1) (Raw2 s2) g radius slope = Ok v ->
  dtw (Raw2 s1) (Raw2 s2) g radius slope = Ok w -> nleb v w = true.
Proof.
  intros N nn fin L d s1 s2 g r s A v w F1 F2 Hc Hv Hw.
  exact (frechet_le_dtw_gen N nn fin L d s1 s2 g r s A v w F1 F2 Hc Hv Hw).
Qed.
Print Assumptions C08_frechet_le_dtw.

(** ** C09 *)
Theorem C09_from_metric_sqeuclidean : forall N nn fin, num_laws N nn fin ->
  forall d s1 s2 g radius slope allowed pairwise p (v : N),
  finite_series fin d s1 -> finite_series fin d s2 ->
  constraint (length s1) (length s2) g radius slope allowed ->
  (forall i j, i < length s1 -> j < length s2 ->
     pairwise (nth i s1 []) (nth j s2 []) = sq_euclid (nth i s1 []) (nth j s2 [])) ->
  dtw_path (Raw2 s1) (Raw2 s2) g radius slope = Ok (p, v) ->
  exists w, elastic_path_metric comb_dtw pairwise (Raw2 s1) (Raw2 s2) g radius slope = Ok (p, w) /\
            v = nsqrt w.
Proof.
  intros N nn fin L d s1 s2 g r s A pw p v F1 F2 Hc Hp H.
  exact (elastic_path_metric_agrees N nn fin L _ d s1 s2 F1 F2 pw g r s A p v Hc Hp H).
Qed.
Print Assumptions C09_from_metric_sqeuclidean.
Theorem C09_from_metric_precomputed : forall N nn fin, num_laws N nn fin ->
  forall d s1 s2 g radius slope allowed D p (v : N),
  finite_series fin d s1 -> finite_series fin d s2 ->
  constraint (length s1) (length s2) g radius slope allowed ->
  (forall i j, i < length s1 -> j < length s2 -> D i j = local_costs s1 s2 i j) ->
  dtw_path (Raw2 s1) (Raw2 s2) g radius slope = Ok (p, v) ->
  exists w, elastic_path_precomputed comb_dtw (length s1) (length s2) D g radius slope = Ok (p, w) /\
            v = nsqrt w.
Proof.
  intros N nn fin L d s1 s2 g r s A D p v F1 F2 Hc Hp H.
  exact (elastic_path_precomputed_agrees N nn fin L _ d s1 s2 F1 F2 D g r s A p v Hc Hp H).
Qed.
Print Assumptions C09_from_metric_precomputed.
(** with any non-negative matrix of local costs the precomputed variant is optimal too *)
Theorem C09_precomputed_optimal : forall N nn fin, num_laws N nn fin ->
  forall l1 l2 g radius slope allowed (D : mat N),
  0 < l1 -> 0 < l2 -> constraint l1 l2 g radius slope allowed ->
  (forall i j, i < l1 -> j < l2 -> nn (D i j)) ->
  exists p w, elastic_path_precomputed comb_dtw l1 l2 D g radius slope = Ok (p, w) /\
    least_cost (warping_path l1 l2 allowed) (path_cost nadd D) w /\
    (w <> ninf -> warping_path l1 l2 allowed p /\ path_cost nadd D p = w).
Proof.
  intros N nn fin L l1 l2 g r s A D H1 H2 Hc HD.
  destruct (constraint_mask _ _ _ _ _ _ Hc) as (code & mask & E1 & E2 & Hm).
  unfold elastic_path_precomputed. rewrite E1. simpl. rewrite E2. simpl.
  destruct (compute_path_total N l1 l2 (acc_matrix comb_dtw l1 l2 D mask) H1 H2) as (p & Hp).
  rewrite Hp. exists p. eexists. split; [reflexivity|]. split.
  - apply (table_optimal N nn fin L _ _ (comb_laws_dtw N nn fin L) (dtw_op N nn)); auto.
  - intros Hf. exact (table_path N nn fin L _ _ (comb_laws_dtw N nn fin L) (dtw_op N nn) l1 l2 D D mask A p H1 H2
      (fun _ _ => eq_refl) (fun i j Hi Hj _ => HD i j Hi Hj) Hm Hf Hp).
Qed.
Print Assumptions C09_precomputed_optimal.
Example C09_nontrivial :
  elastic_path_precomputed (N:=Fnum) comb_dtw 3 4 (local_costs ex1 ex2) GcNone (Some 1%Z) None =
  Ok ([(0, 0); (1, 1); (2, 2); (2, 3)], 9%float).
Proof. vm_compute. reflexivity. Qed.

(** ** C73: binary64 *)
Theorem C73_binary64_optimal : forall d s1 s2 g radius slope allowed,
  finite_series (N:=Fnum) ffin d s1 -> finite_series (N:=Fnum) ffin d s2 ->
  constraint (length s1) (length s2) g radius slope allowed ->
  exists p (w : float),
    dtw_path (N:=Fnum) (Raw2 s1) (Raw2 s2) g radius slope = Ok (p, PrimFloat.sqrt w) /\
    least_cost (N:=Fnum) (warping_path (length s1) (length s2) allowed)
               (path_cost (N:=Fnum) PrimFloat.add (local_costs s1 s2)) w /\
    (w <> infinity -> warping_path (length s1) (length s2) allowed p /\
       path_cost (N:=Fnum) PrimFloat.add (local_costs s1 s2) p = w).
Proof.
  intros d s1 s2 g r s A F1 F2 Hc.
  destruct (elastic_path_full Fnum fnn ffin Flaws _ _ (comb_laws_dtw Fnum fnn ffin Flaws) (dtw_op Fnum fnn) d s1 s2 F1 F2 g r s A Hc)
    as (p & w & E & _ & H). exists p, w. split; [exact E|exact H].
Qed.
Print Assumptions C73_binary64_optimal.
Definition ex5 : series Fnum := [[0x1.999999999999ap-4]; [0x1.999999999999ap-3]; [0x1.3333333333333p-2]]%float.
Definition ex6 : series Fnum := [[0x1.999999999999ap-4]; [0x1.3333333333333p-2]]%float.
Lemma ex56_fin : finite_series (N:=Fnum) ffin 1 ex5 /\ finite_series (N:=Fnum) ffin 1 ex6.
Proof. split; fin_series. Qed.
(** 0.2 is closer to 0.3 than to 0.1 in binary64 *)
Example C73_nontrivial :
  dtw_path (N:=Fnum) (Raw2 ex5) (Raw2 ex6) GcNone None None =
  Ok ([(0, 0); (1, 1); (2, 1)], 0x1.9999999999998p-4%float).
Proof. vm_compute. reflexivity. Qed.

(** C218, C219: DTW and LCSS with a user's metric on double tensors, PyTorch back end. *)
From Coq Require Import Bool List Arith Lia ZArith QArith Reals Lra Psatz.
From Flocq Require Import Core Relative.
From Verif Require Import Num NumLaws Py Series Masks DtwModel VariantModel Spec SpecDtw SpecLcss RList RealSeries DpProofs DtwProofs DtwThms ValidThms PathSum SubseqThms LimitedThms PropDtw PropVariants PropLcss BackendModel SubTorchModel MetricTorchModel PropSubTorch.
Import ListNotations.
Local Open Scope R_scope.

(** ** Specification: the metric as a function of real vectors *)
Definition computes (F : list xr -> list xr -> xr) (f : list R -> list R -> R) : Prop := forall a b, F (map XR a) (map XR b) = XR (f a b).
Definition dists (f : list R -> list R -> R) (s1 s2 : list (list R)) (i j : nat) : R := f (nth i s1 []) (nth j s2 []).
(** least cost of an admissible warping path *)
Definition least_among (paths : list cell -> Prop) (D : nat -> nat -> R) (w : R) : Prop :=
  (exists p, paths p /\ cost D p = w) /\ forall p, paths p -> w <= cost D p.

Lemma stored_dists F f s1 s2 i j : computes F f -> stored (F (nth i (lift s1) []) (nth j (lift s2) [])) = local32 (dists f s1 s2) i j.
Proof. intros HF. rewrite !lift_nth. rewrite HF. reflexivity. Qed.
Lemma in_range n m allowed p i j : (0 < n)%nat -> (0 < m)%nat -> warping_path n m allowed p -> In (i, j) p -> (i < n /\ j < m)%nat.
Proof. intros Hn Hm W I. exact (wpath_bounds _ _ _ _ Hn Hm W i j I). Qed.
Lemma short n m allowed p : (0 < n)%nat -> (0 < m)%nat -> warping_path n m allowed p -> (S (length p) <= n + m)%nat.
Proof. intros Hn Hm W. apply wpath_rpath in W; [|exact Hn|exact Hm]. apply rpath_len in W. rewrite rev_length in W. unfold cell in *. lia. Qed.

Section Metric.
Variables (d : nat) (s1 s2 : list (list R)) (F : list xr -> list xr -> xr) (f : list R -> list R -> R).
Hypothesis F1 : real_series d s1.
Hypothesis F2 : real_series d s2.
Hypothesis HF : computes F f.
Notation D := (dists f s1 s2).
Notation n := (length s1).
Notation m := (length s2).
Hypothesis HN : forall i j, (i < n)%nat -> (j < m)%nat -> normal (D i j).
Notation P := (path_cost (N:=Snum) (nadd (n:=Snum)) (local32 D)).

Lemma torch_metric_optimal g r sl allowed : constraint n m g r sl allowed ->
  exists p w, torch_dtw_path_from_metric (Callable F) false (Raw2 (lift s1)) (Raw2 (lift s2)) g r sl = Ok (p, w) /\
    least_cost (N:=Snum) (warping_path n m allowed) P w /\ (w <> XInf -> warping_path n m allowed p /\ P p = w).
Proof.
  intros Hc. pose proof (real_len d s1 F1) as P1. pose proof (real_len d s2 F2) as P2.
  destruct (constraint_mask _ _ _ _ _ _ Hc) as (code & mask & E1 & E2 & _).
  unfold torch_dtw_path_from_metric. rewrite (to_time_series_finite Xnum xnn xfin Xlaws d _ (lift_finite d s1 F1)), (to_time_series_finite Xnum xnn xfin Xlaws d _ (lift_finite d s2 F2)).
  cbv zeta. rewrite !lift_length. rewrite E1. cbn [bind]. rewrite E2. cbn [bind torch_pairwise fst snd].
  set (DD := fun i j => stored (F (nth i (lift s1) []) (nth j (lift s2) []))).
  assert (E : forall i j, DD i j = local32 D i j) by (intros; apply stored_dists, HF).
  destruct (C09_precomputed_optimal Snum snn xfin Slaws n m g r sl allowed DD P1 P2 Hc) as (p & w & EQ & L & A).
  { intros i j Hi Hj. rewrite E. apply stored_snn, normal_pos, HN; assumption. }
  assert (PC : forall p, path_cost (N:=Snum) (nadd (n:=Snum)) DD p = P p) by (intros q; apply path_cost_ext; intros; apply E).
  exists p, w. split; [exact EQ|]. split.
  - destruct L as (L1 & L2). split; [intros q Hq; rewrite <- PC; apply L1, Hq|]. destruct L2 as [(q & Hq & Eq)|L2]; [left; exists q; split; [exact Hq|]; rewrite <- PC; exact Eq|right; exact L2].
  - intros Hw. destruct (A Hw) as (A1 & A2). split; [exact A1|]. rewrite <- PC. exact A2.
Qed.
Lemma near_warping allowed p : warping_path n m allowed p -> near (n + m) (P p) (cost D p).
Proof.
  pose proof (real_len d s1 F1) as P1. pose proof (real_len d s2 F2) as P2. intros W. eapply near_weaken; [exact (short _ _ _ _ P1 P2 W)|].
  apply near_path. intros i j I. destruct (in_range _ _ _ _ _ _ P1 P2 W I). apply HN; assumption.
Qed.
End Metric.

(** C218: the score is the least cost up to as many SINGLE precision roundings as the series have time steps together, and the path is
    as nearly optimal; or the score overflows. *)
Theorem C218_error d s1 s2 F f g r sl allowed w :
  real_series d s1 -> real_series d s2 -> computes F f -> (forall i j, (i < length s1)%nat -> (j < length s2)%nat -> normal (dists f s1 s2 i j)) ->
  constraint (length s1) (length s2) g r sl allowed -> least_among (warping_path (length s1) (length s2) allowed) (dists f s1 s2) w ->
  let n := (length s1 + length s2)%nat in
  exists p v, torch_dtw_path_from_metric (Callable F) false (Raw2 (lift s1)) (Raw2 (lift s2)) g r sl = Ok (p, v) /\
    ((v = XInf /\ bpow radix2 128 <= (1 + u32) ^ n * w) \/
     (exists x, v = XR x /\ (1 - u32) ^ n * w <= x <= (1 + u32) ^ n * w /\
        warping_path (length s1) (length s2) allowed p /\ (1 - u32) ^ n * cost (dists f s1 s2) p <= (1 + u32) ^ n * w)).
Proof.
  intros F1 F2 HF HN Hc ((p0 & W0 & E0) & MIN) n.
  destruct (torch_metric_optimal d s1 s2 F f F1 F2 HF HN g r sl allowed Hc) as (p & v & EQ & L & A).
  exists p, v. split; [exact EQ|]. destruct L as (L1 & L2).
  pose proof (near_warping d s1 s2 f F1 F2 HN allowed p0 W0) as (N0 & B0). rewrite E0 in N0, B0. specialize (L1 p0 W0). cbn [Snum nleb] in L1.
  pose proof (normal_pos w N0) as W0'. pose proof (pow_lo n) as PL. fold n in B0.
  destruct v as [x| | |].
  - right. exists x. split; [reflexivity|]. destruct (A ltac:(discriminate)) as (Wp & Ep).
    pose proof (near_warping d s1 s2 f F1 F2 HN allowed p Wp) as (Np & Bp). rewrite Ep in Bp. fold n in Bp. destruct Bp as (_ & Bt & Bl & Bh). pose proof (MIN p Wp) as Mp.
    assert (U : x <= (1 + u32) ^ n * w).
    { destruct (path_cost _ _ p0) as [y| | |]; try contradiction; [|lra]. cbn [xleb] in L1. apply Rleb_true in L1. lra. }
    split; [split; [|exact U]|split; [exact Wp|lra]]. eapply Rle_trans; [|exact Bl]. apply Rmult_le_compat_l; lra.
  - left. split; [reflexivity|]. destruct (path_cost _ _ p0) as [y| | |]; try contradiction; [discriminate|]. exact B0.
  - exfalso. destruct (A ltac:(discriminate)) as (Wp & Ep). pose proof (near_warping d s1 s2 f F1 F2 HN allowed p Wp) as (_ & Bp). rewrite Ep in Bp. exact Bp.
  - exfalso. destruct (A ltac:(discriminate)) as (Wp & Ep). pose proof (near_warping d s1 s2 f F1 F2 HN allowed p Wp) as (_ & Bp). rewrite Ep in Bp. exact Bp.
Qed.
Print Assumptions C218_error.

(** the absolute difference of one feature *)
Definition absdiff (a b : list R) : R := Rabs (hd 0 a - hd 0 b).
Definition Absdiff (a b : list xr) : xr :=
  match hd (XR 0) a, hd (XR 0) b with XR x, XR y => XR (Rabs (x - y)) | _, _ => XNaN end.
Lemma absdiff_computes : computes Absdiff absdiff.
Proof. intros [|x a] [|y b]; reflexivity. Qed.

(** C219: when no distance is within a single precision rounding of [eps], the path is a longest sequence of pairs within [eps]. *)
Theorem C219_longest d s1 s2 F f eps fuel : real_series d s1 -> real_series d s2 -> computes F f -> eps < bpow radix2 128 ->
  (forall i j, (i < length s1)%nat -> (j < length s2)%nat -> normal (dists f s1 s2 i j) /\
     ((1 + u32) * dists f s1 s2 i j <= eps \/ eps < (1 - u32) * dists f s1 s2 i j)) ->
  (length s1 + length s2 < fuel)%nat ->
  let ok := fun i j => Rleb (dists f s1 s2 i j) eps in
  exists p, torch_lcss_path_from_metric fuel (Callable F) false (Raw2 (lift s1)) (Raw2 (lift s2)) (XR eps) GcNone None None =
      Ok (Some (p, ratio (length p) (length s1) (length s2))) /\
    chain (length s1) (length s2) ok p /\ longest (length s1) (length s2) ok (length p).
Proof.
  intros F1 F2 HF HE HN Hf ok. pose proof (real_len d s1 F1) as P1. pose proof (real_len d s2 F2) as P2.
  unfold torch_lcss_path_from_metric. rewrite (to_time_series_finite Xnum xnn xfin Xlaws d _ (lift_finite d s1 F1)), (to_time_series_finite Xnum xnn xfin Xlaws d _ (lift_finite d s2 F2)).
  cbv zeta. rewrite !lift_length. cbn [gc_code bind torch_pairwise fst snd].
  replace (compute_mask (length s1) (length s2) _ None None) with (Ok full_mask) by reflexivity. cbn [bind].
  set (DD := fun i j => stored (F (nth i (lift s1) []) (nth j (lift s2) []))).
  destruct (C26_from_metric_unconstrained Xnum false (length s1) (length s2) DD (XR eps) fuel P1 P2 Hf) as (p & EQ & C & L).
  assert (E : forall i j, (i < length s1)%nat -> (j < length s2)%nat -> xleb (DD i j) (XR eps) = ok i j).
  { intros i j Hi Hj. unfold DD. rewrite (stored_dists F f) by exact HF. unfold ok, local32. destruct (HN i j Hi Hj) as (N & B). pose proof (normal_pos _ N) as Z. pose proof (single_error _ N) as (S1 & S2). pose proof u32_range as U.
    set (x := dists f s1 s2 i j) in *. destruct (stored_nn x Z) as [(-> & T)|(-> & T)]; cbn [xleb].
    - destruct B as [B|B].
      + rewrite (proj2 (Rleb_true (single x) eps)) by lra. symmetry. apply Rleb_true. nra.
      + rewrite (proj2 (Rleb_false (single x) eps)) by lra. symmetry. apply Rleb_false. nra.
    - destruct B as [B|B]; [lra|]. symmetry. apply Rleb_false. nra. }
  assert (CE : forall q, chain (length s1) (length s2) (fun i j => nleb (n:=Xnum) (DD i j) (XR eps)) q <-> chain (length s1) (length s2) ok q).
  { intros q. unfold chain. split; intros (Hl & Hq); (split; [exact Hl|]); intros i j I; destruct (Hq i j I) as (Hi & Hj & Ho); (split; [exact Hi|]; split; [exact Hj|]); [rewrite <- (E i j Hi Hj)|cbn [Xnum nleb]; rewrite (E i j Hi Hj)]; exact Ho. }
  exists p. split; [exact EQ|]. split; [apply CE, C|]. destruct L as ((q & Hq & Lq) & M). split; [exists q; split; [apply CE, Hq|exact Lq]|]. intros q' Hq'. apply M, CE, Hq'.
Qed.
Print Assumptions C219_longest.

Lemma stored_half : stored (XR (16777216 + / 2)) = XR 16777216.
Proof.
  assert (B1 : bpow radix2 24 = 16777216) by (cbn; lra). assert (B2 : bpow radix2 25 = 33554432) by (cbn; lra). assert (B3 : bpow radix2 25 < bpow radix2 128) by (apply bpow_lt; lia).
  cbn [stored]. rewrite (single_even _ 8388608); [|rewrite B1, B2; lra|apply Rabs_def1; lra]. replace (8388608 * 2) with 16777216 by lra.
  rewrite Rabs_pos_eq by lra. unfold Rltb. destruct (Rlt_dec 16777216 (bpow radix2 128)); [reflexivity|lra].
Qed.
Definition one_a : list (list R) := [[0]].
Definition one_b : list (list R) := [[16777216 + / 2]].
(** C219 is false as stated: two points at distance 2^24 + 1/2 are matched with [eps = 2^24] *)
Theorem C219_match_refuted : exists s1 s2 eps p, real_series 1 s1 /\ real_series 1 s2 /\
  torch_lcss_path_from_metric 3 (Callable Absdiff) false (Raw2 (lift s1)) (Raw2 (lift s2)) (XR eps) GcNone None None = Ok (Some (p, ratio 1 1 1)) /\
  In (0, 0)%nat p /\ eps < dists absdiff s1 s2 0 0.
Proof.
  exists one_a, one_b, 16777216, [(0, 0)%nat].
  assert (F1 : real_series 1 one_a) by (split; [lia|]; split; [discriminate|]; intros r [<-|[]]; reflexivity).
  assert (F2 : real_series 1 one_b) by (split; [lia|]; split; [discriminate|]; intros r [<-|[]]; reflexivity).
  split; [exact F1|]. split; [exact F2|].
  assert (E : dists absdiff one_a one_b 0 0 = 16777216 + / 2). { unfold dists, absdiff, one_a, one_b. cbn [nth hd]. rewrite Rabs_left; lra. }
  split; [|split; [left; reflexivity|rewrite E; lra]].
  unfold torch_lcss_path_from_metric. rewrite (to_time_series_finite Xnum xnn xfin Xlaws 1 _ (lift_finite 1 _ F1)), (to_time_series_finite Xnum xnn xfin Xlaws 1 _ (lift_finite 1 _ F2)).
  cbv zeta. rewrite !lift_length. cbn [gc_code bind torch_pairwise fst snd]. replace (compute_mask _ _ _ None None) with (Ok full_mask) by reflexivity. cbn [bind].
  set (DD := fun i j => stored (Absdiff (nth i (lift one_a) []) (nth j (lift one_b) []))).
  assert (ED : DD 0%nat 0%nat = XR 16777216). { unfold DD. rewrite (stored_dists Absdiff absdiff) by apply absdiff_computes. unfold local32. rewrite E. apply stored_half. }
  assert (P1 : (0 < length one_a)%nat) by (cbn; lia). assert (P2 : (0 < length one_b)%nat) by (cbn; lia). assert (HF : (length one_a + length one_b < 3)%nat) by (cbn; lia).
  destruct (C26_from_metric_unconstrained Xnum false (length one_a) (length one_b) DD (XR 16777216) 3 P1 P2 HF) as (p & EQ & C & L).
  rewrite EQ. assert (C1 : chain 1 1 (fun i j => nleb (n:=Xnum) (DD i j) (XR 16777216)) [(0, 0)%nat]).
  { split; [exact I|]. intros i j [K|[]]. injection K as <- <-. split; [lia|]. split; [lia|]. cbn [Xnum nleb]. rewrite ED. cbn [xleb]. apply Rleb_true. lra. }
  pose proof (proj2 L _ C1) as LP. cbn [length one_a one_b] in *. destruct C as (CL & CI).
  destruct p as [|[i j] [|[i' j'] p]]; [cbn in LP; lia| |].
  - destruct (CI i j (or_introl eq_refl)) as (Hi & Hj & _). replace i with 0%nat by lia. replace j with 0%nat by lia. reflexivity.
  - exfalso. destruct (CI i j (or_introl eq_refl)) as (Hi & Hj & _). destruct (CI i' j' (or_intror (or_introl eq_refl))) as (Hi' & Hj' & _). cbn in CL. destruct CL as (B & _). unfold before in B. cbn in B. lia.
Qed.
Print Assumptions C219_match_refuted.
Lemma one_real : real_series 1 one_a /\ real_series 1 one_b.
Proof. split; (split; [lia|]; split; [discriminate|]; intros r [<-|[]]; reflexivity). Qed.
Lemma one_dist : dists absdiff one_a one_b 0 0 = 16777216 + / 2.
Proof. unfold dists, absdiff, one_a, one_b. cbn [nth hd]. rewrite Rabs_left; lra. Qed.
Lemma one_normal i j : (i < length one_a)%nat -> (j < length one_b)%nat -> normal (dists absdiff one_a one_b i j).
Proof.
  cbn. intros Hi Hj. replace i with 0%nat by lia. replace j with 0%nat by lia. rewrite one_dist. right.
  assert (B : bpow radix2 (-126) <= bpow radix2 0) by (apply bpow_le; lia). change (bpow radix2 0) with 1 in B. lra.
Qed.
Lemma one_path p : warping_path 1 1 everywhere p -> p = [(0, 0)%nat].
Proof.
  intros W. assert (L : (S (length p) <= 2)%nat) by (apply (short 1 1 everywhere); auto). destruct W as (F & _). destruct p as [|c [|c' p]]; [discriminate| |cbn in L; lia].
  unfold first_is in F. cbn in F. injection F as ->. reflexivity.
Qed.
Lemma one_warping : warping_path 1 1 everywhere [(0, 0)%nat].
Proof. split; [reflexivity|]. split; [reflexivity|]. split; [exact I|]. intros i j _. reflexivity. Qed.
Lemma one_least : least_among (warping_path (length one_a) (length one_b) everywhere) (dists absdiff one_a one_b) (16777216 + / 2).
Proof.
  assert (C : cost (dists absdiff one_a one_b) [(0, 0)%nat] = 16777216 + / 2) by (unfold cost; cbn [map fst snd rsum fold_right]; rewrite one_dist; lra).
  split; [exists [(0, 0)%nat]; split; [exact one_warping|exact C]|]. intros p W. apply one_path in W. subst p. rewrite C. lra.
Qed.
(** C218 is false as stated: the least cost is the double 2^24 + 1/2, the score returned is 2^24, a relative error above 2^-26 *)
Theorem C218_score_refuted : exists s1 s2 w p v, real_series 1 s1 /\ real_series 1 s2 /\
  least_among (warping_path (length s1) (length s2) everywhere) (dists absdiff s1 s2) w /\
  torch_dtw_path_from_metric (Callable Absdiff) false (Raw2 (lift s1)) (Raw2 (lift s2)) GcNone None None = Ok (p, XR v) /\
  bpow radix2 (-26) * w < Rabs (v - w).
Proof.
  destruct one_real as (F1 & F2).
  destruct (torch_metric_optimal 1 one_a one_b Absdiff absdiff F1 F2 absdiff_computes one_normal GcNone None None everywhere eq_refl) as (p & v & EQ & (L1 & _) & A).
  assert (EP : path_cost (N:=Snum) (nadd (n:=Snum)) (local32 (dists absdiff one_a one_b)) [(0, 0)%nat] = XR 16777216).
  { unfold path_cost. cbn [fold_left fst snd]. unfold local32. rewrite one_dist, stored_half. cbn [Snum nadd nzero xadd]. rewrite Rplus_0_r.
    apply stored_same; [lra| |apply Rlt_trans with (bpow radix2 25); [cbn; lra|apply bpow_lt; lia]].
    rewrite (single_even 16777216 8388608); [lra|cbn; lra|apply Rabs_def1; lra]. }
  specialize (L1 _ one_warping). rewrite EP in L1.
  assert (V : v <> XInf) by (intros ->; discriminate). destruct (A V) as (W & E). apply one_path in W. subst p. rewrite EP in E.
  exists one_a, one_b, (16777216 + / 2), [(0, 0)%nat], 16777216. split; [exact F1|]. split; [exact F2|]. split; [exact one_least|].
  split; [rewrite EQ, <- E; reflexivity|]. rewrite Rabs_left by lra. change (bpow radix2 (-26)) with (/ 67108864). lra.
Qed.
Print Assumptions C218_score_refuted.
(** the example meets the hypotheses of C218_error *)
Example C218_nontrivial : real_series 1 one_a /\ real_series 1 one_b /\ computes Absdiff absdiff /\
  (forall i j, (i < length one_a)%nat -> (j < length one_b)%nat -> normal (dists absdiff one_a one_b i j)) /\ constraint (length one_a) (length one_b) GcNone None None everywhere /\
  least_among (warping_path (length one_a) (length one_b) everywhere) (dists absdiff one_a one_b) (16777216 + / 2).
Proof. destruct one_real. split; [assumption|]. split; [assumption|]. split; [apply absdiff_computes|]. split; [apply one_normal|]. split; [reflexivity|apply one_least]. Qed.
(** a case for C219_longest: 0 1 5 against 5 0 with eps = 2 *)
Definition lc_a : list (list R) := [[0]; [1]; [5]].
Definition lc_b : list (list R) := [[5]; [0]].
Example C219_nontrivial : real_series 1 lc_a /\ real_series 1 lc_b /\ 2 < bpow radix2 128 /\
  forall i j, (i < length lc_a)%nat -> (j < length lc_b)%nat -> normal (dists absdiff lc_a lc_b i j) /\
     ((1 + u32) * dists absdiff lc_a lc_b i j <= 2 \/ 2 < (1 - u32) * dists absdiff lc_a lc_b i j).
Proof.
  split; [split; [lia|]; split; [discriminate|]; intros r H; repeat destruct H as [<-|H]; try destruct H; reflexivity|].
  split; [split; [lia|]; split; [discriminate|]; intros r H; repeat destruct H as [<-|H]; try destruct H; reflexivity|].
  split; [apply Rlt_trans with (bpow radix2 2); [cbn; lra|apply bpow_lt; lia]|].
  assert (U : 0 < u32 < / 4). { split; [apply u32_range|]. change (/ 4) with (bpow radix2 (-2)). apply bpow_lt. lia. }
  assert (B : bpow radix2 (-126) <= bpow radix2 0) by (apply bpow_le; lia). change (bpow radix2 0) with 1 in B.
  intros i j Hi Hj. unfold dists, absdiff. cbn in Hi, Hj.
  destruct i as [|[|[|i]]]; [| | |lia]; (destruct j as [|[|j]]; [| |lia]); cbn [nth hd lc_a lc_b];
    first [rewrite Rabs_pos_eq by lra|rewrite Rabs_left by lra]; (split; [unfold normal; first [left; lra|right; lra]|first [left; lra|right; lra]]).
Qed.

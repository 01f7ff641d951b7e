(** C217: subsequence DTW of double precision tensors with the PyTorch back end. *)
From Coq Require Import Bool List Arith Lia ZArith Reals Lra Psatz.
From Flocq Require Import Core Relative.
From Verif Require Import Num NumLaws Py Series Masks DtwModel VariantModel Spec SpecDtw RList RealSeries DpProofs DtwProofs ValidThms PathSum SubseqThms PropVariants LimitedThms BackendModel SubTorchModel.
Import ListNotations.
Local Open Scope R_scope.

(** ** Specification: the unit roundoff of binary32 and the range without underflow *)
Definition u32 : R := bpow radix2 (-24).
Definition normal (x : R) : Prop := x = 0 \/ bpow radix2 (-126) <= x.

Notation f32 := (FLT_exp (-149) 24).
Global Instance prec32 : Prec_gt_0 24. Proof. red. lia. Qed.
Notation top := (bpow radix2 128).
Lemma single_0 : single 0 = 0. Proof. apply round_0, valid_rnd_N. Qed.
Lemma single_le x y : x <= y -> single x <= single y. Proof. apply round_le; [apply FLT_exp_valid; exact prec32|apply valid_rnd_N]. Qed.
Lemma single_pos x : 0 <= x -> 0 <= single x. Proof. intros H. rewrite <- single_0. apply single_le, H. Qed.
Lemma single_idem x : single (single x) = single x.
Proof. unfold single. apply round_generic; [apply valid_rnd_N|]. apply generic_format_round; [apply FLT_exp_valid; exact prec32|apply valid_rnd_N]. Qed.
Lemma single_normal x : bpow radix2 (-126) <= x -> bpow radix2 (-126) <= single x.
Proof.
  intros H. assert (E : single (bpow radix2 (-126)) = bpow radix2 (-126)). { unfold single. apply round_generic; [apply valid_rnd_N|]. apply generic_format_bpow. unfold FLT_exp. lia. }
  rewrite <- E. apply single_le, H.
Qed.
Lemma u32_range : 0 < u32 < 1.
Proof. unfold u32. split; [apply bpow_gt_0|]. change 1 with (bpow radix2 0). apply bpow_lt. lia. Qed.
Lemma single_error x : normal x -> (1 - u32) * x <= single x <= (1 + u32) * x.
Proof.
  intros [->|H]; [rewrite single_0; lra|]. assert (P : 0 < x) by (eapply Rlt_le_trans; [apply (bpow_gt_0 radix2 (-126))|exact H]).
  assert (E : Rabs (single x - x) <= / 2 * bpow radix2 (- 24 + 1) * Rabs x).
  { apply relative_error_N_FLT; [exact prec32|]. rewrite Rabs_pos_eq by lra. exact H. }
  replace (/ 2 * bpow radix2 (-24 + 1)) with u32 in E. 2:{ unfold u32. rewrite bpow_plus. change (bpow radix2 1) with 2. field. }
  rewrite (Rabs_pos_eq x) in E by lra. apply Rabs_le_inv in E. lra.
Qed.

(** ** binary32 satisfies the laws on the stored non-negative numbers *)
Definition snn (a : xr) : Prop := match a with XR r => 0 <= r /\ single r = r /\ r < top | XInf => True | _ => False end.
Lemma stored_nn r : 0 <= r -> (stored (XR r) = XR (single r) /\ single r < top) \/ (stored (XR r) = XInf /\ top <= single r).
Proof.
  intros H. pose proof (single_pos r H) as P. cbn [stored]. rewrite Rabs_pos_eq by auto. unfold Rltb. destruct (Rlt_dec (single r) top); [left; auto|right].
  assert (T : top <= single r) by lra. destruct (Rlt_dec 0 r); [auto|]. assert (r = 0) by lra. subst. rewrite single_0 in T. pose proof (bpow_gt_0 radix2 128). lra.
Qed.
Lemma stored_snn r : 0 <= r -> snn (stored (XR r)).
Proof. intros H. destruct (stored_nn r H) as [(-> & L)|(-> & _)]; cbn; [|exact I]. split; [apply single_pos, H|]. split; [apply single_idem|exact L]. Qed.
Lemma stored_same r : 0 <= r -> single r = r -> r < top -> stored (XR r) = XR r.
Proof. intros H E L. destruct (stored_nn r H) as [(-> & _)|(_ & T)]; [congruence|lra]. Qed.
Lemma stored_mono a b : 0 <= a -> a <= b -> xleb (stored (XR a)) (stored (XR b)) = true.
Proof.
  intros H L. pose proof (single_le a b L) as M. destruct (stored_nn a H) as [(-> & La)|(-> & La)], (stored_nn b ltac:(lra)) as [(-> & Lb)|(-> & Lb)]; cbn; auto; [apply Rleb_true; auto|lra].
Qed.
Lemma sq_pos t : 0 <= t * t. Proof. exact (Rle_0_sqr t). Qed.
Lemma stored_opp_sq x y : xmul (stored (XR (x - y))) (stored (XR (x - y))) = xmul (stored (XR (y - x))) (stored (XR (y - x))).
Proof.
  replace (y - x) with (- (x - y)) by lra. generalize (x - y). intros t. cbn [stored].
  assert (E : single (- t) = - single t) by (unfold single; apply round_NE_opp). rewrite E, Rabs_Ropp. unfold Rltb.
  destruct (Rlt_dec (Rabs (single t)) top) as [L|L]; [cbn; f_equal; ring|].
  assert (t <> 0). { intros ->. rewrite single_0, Rabs_R0 in L. pose proof (bpow_gt_0 radix2 128). lra. }
  destruct (Rlt_dec 0 t), (Rlt_dec 0 (- t)); cbn; auto; lra.
Qed.
Lemma stored_sq t : snn (stored (xmul (stored (XR t)) (stored (XR t)))).
Proof.
  cbn [stored]. unfold Rltb at 1 3. destruct (Rlt_dec _ _); [cbn [xmul]; apply stored_snn, sq_pos|]. destruct (Rltb 0 t); exact I.
Qed.
Ltac sc := intros; repeat match goal with a : xr |- _ => destruct a | a : carrier Snum |- _ => destruct a end; cbn [snn xfin] in *; try tauto; try reflexivity; try exact I.
Lemma Slaws : num_laws Snum snn xfin.
Proof.
  pose proof (bpow_gt_0 radix2 128) as T.
  constructor; cbn [Snum nadd nsub nmul nsqrt nleb nltb nzero ninf nnan nisnan].
  - cbn. rewrite single_0. lra.
  - exact I.
  - sc. apply stored_snn. lra.
  - sc.
  - sc.
  - sc. cbn. apply Rleb_true. lra.
  - sc. all: cbn in *; rewrite ?Rleb_true in *; try discriminate; lra.
  - sc. all: cbn; rewrite ?Rleb_true; auto; lra.
  - sc. all: cbn in *; rewrite ?Rleb_true in *; try discriminate; f_equal; lra.
  - sc. cbn. unfold Rltb, Rleb. destruct (Rlt_dec r0 r), (Rle_dec r r0); cbn; auto; lra.
  - sc. cbn. apply Rleb_true. lra.
  - sc.
  - sc. all: cbn [xleb xadd] in *; rewrite ?Rleb_true in *; try discriminate; try (apply stored_mono; lra).
    all: match goal with |- context [stored (XR ?t)] => destruct (stored_nn t ltac:(lra)) as [(-> & _)|(-> & _)]; reflexivity end.
  - sc.
  - sc. cbn [xadd]. rewrite Rplus_0_r. apply stored_same; tauto.
  - sc. cbn [xadd]. rewrite Rplus_comm. reflexivity.
  - sc. cbn [xsub xadd xopp]. apply stored_sq.
  - sc. cbn [xsub xadd xopp]. f_equal. apply stored_opp_sq.
  - sc. cbn [xsub xadd xopp]. rewrite Rplus_opp_r. rewrite (stored_same 0) by (rewrite ?single_0; lra). cbn [xmul]. rewrite Rmult_0_l. apply stored_same; rewrite ?single_0; lra.
  - sc. cbn [xsqrt]. rewrite Rleb_nn by tauto. apply stored_snn, sqrt_pos.
  - sc. all: cbn [xleb xsqrt] in *; rewrite ?Rleb_true in *; try discriminate; rewrite ?Rleb_nn by tauto.
    + apply stored_mono; [apply sqrt_pos|]. apply sqrt_le_1; lra.
    + destruct (stored_nn (sqrt r) (sqrt_pos r)) as [(-> & _)|(-> & _)]; reflexivity.
  - cbn [xsqrt]. rewrite Rleb_nn by lra. rewrite sqrt_0. apply stored_same; rewrite ?single_0; lra.
  - reflexivity.
  - sc. cbn [xsqrt] in *. rewrite Rleb_nn in * by tauto. exfalso.
    destruct (stored_nn (sqrt r) (sqrt_pos r)) as [(E & _)|(_ & L)]; [congruence|]. destruct H as (P & _ & B).
    assert (Q : sqrt r <= bpow radix2 64). { rewrite <- (sqrt_Rsqr (bpow radix2 64)) by apply bpow_ge_0. apply sqrt_le_1_alt. unfold Rsqr. rewrite <- bpow_plus. apply Rlt_le. exact B. }
    assert (E : single (bpow radix2 64) = bpow radix2 64). { unfold single. apply round_generic; [apply valid_rnd_N|]. apply generic_format_bpow. unfold FLT_exp. lia. }
    apply single_le in Q. rewrite E in Q. assert (bpow radix2 64 < bpow radix2 128) by (apply bpow_lt; lia). lra.
Qed.

(** ** Rounding errors: [n] relative roundings, or overflow *)
Definition near (n : nat) (v : xr) (r : R) : Prop :=
  normal r /\ match v with XR g => normal g /\ g < top /\ (1 - u32) ^ n * r <= g <= (1 + u32) ^ n * r | XInf => top <= (1 + u32) ^ n * r | _ => False end.
Lemma normal_pos x : normal x -> 0 <= x. Proof. intros [->|H]; [lra|]. pose proof (bpow_gt_0 radix2 (-126)). lra. Qed.
Lemma normal_plus x y : normal x -> normal y -> normal (x + y).
Proof. intros [->|H] G; [rewrite Rplus_0_l; exact G|]. right. pose proof (normal_pos y G). lra. Qed.
Lemma normal_single x : normal x -> normal (single x).
Proof. intros [->|H]; [left; apply single_0|right; apply single_normal, H]. Qed.
Lemma pow_lo n : 0 < (1 - u32) ^ n <= 1.
Proof. pose proof u32_range. split; [apply pow_lt; lra|]. induction n as [|n IH]; cbn [pow]; [lra|]. assert (K : 0 < (1 - u32) ^ n) by (apply pow_lt; lra). generalize dependent ((1 - u32) ^ n). intros t Ht G. nra. Qed.
Lemma pow_hi n : 1 <= (1 + u32) ^ n.
Proof. pose proof u32_range. apply pow_R1_Rle. lra. Qed.
Lemma pow_up n m : (n <= m)%nat -> (1 + u32) ^ n <= (1 + u32) ^ m.
Proof. pose proof u32_range as U. intros H. apply Rle_pow; [lra|auto]. Qed.
Lemma pow_down n m : (n <= m)%nat -> (1 - u32) ^ m <= (1 - u32) ^ n.
Proof. intros H. replace m with (n + (m - n))%nat by lia. rewrite pow_add. pose proof (pow_lo n). pose proof (pow_lo (m - n)). nra. Qed.
Lemma near_weaken n m v r : (n <= m)%nat -> near n v r -> near m v r.
Proof.
  intros H (N & V). split; [exact N|]. pose proof (normal_pos r N). pose proof (pow_up n m H). pose proof (pow_down n m H). destruct v as [g| | |]; auto.
  - destruct V as (A & B & C & D). split; [exact A|]. split; [exact B|]. split; nra.
  - nra.
Qed.
(** storing adds a rounding *)
Lemma near_stored n g r : normal r -> normal g -> (1 - u32) ^ n * r <= g <= (1 + u32) ^ n * r -> near (S n) (stored (XR g)) r.
Proof.
  intros Nr Ng (A & B). split; [exact Nr|]. pose proof (normal_pos g Ng) as P. pose proof (single_error g Ng) as (E1 & E2). pose proof u32_range as U.
  assert (L : (1 - u32) ^ S n * r <= single g) by (cbn [pow]; rewrite Rmult_assoc; eapply Rle_trans; [|exact E1]; apply Rmult_le_compat_l; lra).
  assert (H : single g <= (1 + u32) ^ S n * r) by (cbn [pow]; rewrite Rmult_assoc; eapply Rle_trans; [exact E2|]; apply Rmult_le_compat_l; lra).
  destruct (stored_nn g P) as [(-> & T)|(-> & T)]; [|lra]. split; [apply normal_single, Ng|]. auto.
Qed.
Lemma near_add n a b r s : near n a r -> near n b s -> near (S n) (stored (xadd a b)) (r + s).
Proof.
  intros (Nr & A) (Ns & B). pose proof (normal_plus r s Nr Ns) as N. pose proof (normal_pos r Nr). pose proof (normal_pos s Ns). pose proof (pow_hi n). pose proof (pow_up n (S n) ltac:(lia)).
  destruct a as [g| | |], b as [h| | |]; try contradiction; cbn [xadd].
  - destruct A as (Ng & _ & A), B as (Nh & _ & B). apply near_stored; [exact N|apply normal_plus; assumption|]. rewrite !Rmult_plus_distr_l. lra.
  - split; [exact N|]. cbn [stored]. nra.
  - split; [exact N|]. cbn [stored]. nra.
  - split; [exact N|]. cbn [stored]. nra.
Qed.
Definition local32 (D : nat -> nat -> R) (i j : nat) : xr := stored (XR (D i j)).
Lemma near_path D p : (forall i j, In (i, j) p -> normal (D i j)) -> near (S (length p)) (path_cost (N:=Snum) (nadd (n:=Snum)) (local32 D) p) (cost D p).
Proof.
  assert (H : forall p n v r, (forall i j, In (i, j) p -> normal (D i j)) -> near n v r -> (1 <= n)%nat -> near (n + length p) (fold_left (fun acc c => nadd (n:=Snum) (local32 D (fst c) (snd c)) acc) p v) (r + cost D p)).
  { clear p. induction p as [|[i j] p IH]; intros n v r HD H G.
    - cbn. rewrite Nat.add_0_r, Rplus_0_r. exact H.
    - cbn [fold_left length fst snd]. change (cost D ((i, j) :: p)) with (D i j + cost D p). replace (n + S (length p))%nat with (S n + length p)%nat by lia.
      replace (r + (D i j + cost D p)) with (D i j + r + cost D p) by lra.
      assert (HC : normal (D i j)) by (apply HD; left; reflexivity).
      apply IH; [intros a b I; apply HD; right; exact I| |lia]. cbn [Snum nadd]. apply near_add; [|exact H]. apply near_weaken with (n := 1%nat); [exact G|]. apply near_stored; [exact HC|exact HC|cbn; lra]. }
  intros HD. unfold path_cost. specialize (H p 1%nat (XR 0) 0 HD). rewrite Rplus_0_l in H. cbn [Nat.add] in H. apply H; [|lia].
  assert (N : normal 0) by (left; reflexivity). split; [exact N|]. split; [exact N|]. split; [apply bpow_gt_0|]. lra.
Qed.
Lemma near_sqrt n k v r : (n + 2 <= 2 * k)%nat -> near n v r -> near k (nsqrt (n:=Snum) v) (sqrt r) \/ (nsqrt (n:=Snum) v = XInf /\ top <= (1 + u32) ^ (2 * k) * r).
Proof.
  intros H (N & V). pose proof (normal_pos r N) as P. pose proof u32_range as U. destruct k as [|k]; [lia|].
  assert (SN : forall x, normal x -> normal (sqrt x)).
  { intros x [->|G]; [left; apply sqrt_0|right]. apply Rle_trans with (bpow radix2 (-63)); [apply bpow_le; lia|]. rewrite <- (sqrt_Rsqr (bpow radix2 (-63))) by apply bpow_ge_0. apply sqrt_le_1_alt. unfold Rsqr. rewrite <- bpow_plus. exact G. }
  destruct v as [g| | |]; try contradiction.
  - left. destruct V as (Ng & _ & A & B). cbn [Snum nsqrt xsqrt]. rewrite Rleb_nn by (apply normal_pos, Ng). apply near_stored; [apply SN, N|apply SN, Ng|].
    assert (Q : forall t, 0 <= t -> t ^ k * sqrt r = sqrt (t ^ (2 * k) * r)).
    { intros t Ht. rewrite sqrt_mult by (try apply pow_le; auto). f_equal. replace (t ^ (2 * k)) with (t ^ k * t ^ k) by (rewrite <- pow_add; f_equal; lia). rewrite sqrt_square; [reflexivity|apply pow_le, Ht]. }
    rewrite !Q by lra. pose proof (pow_up n (2 * k) ltac:(lia)). pose proof (pow_down n (2 * k) ltac:(lia)). split; apply sqrt_le_1_alt; nra.
  - right. split; [reflexivity|]. pose proof (pow_up n (2 * S k) ltac:(lia)). nra.
Qed.

Section Real.
Variables (d : nat) (q s : list (list R)).
Hypothesis Fq : real_series d q.
Hypothesis Fs : real_series d s.
Notation D := (costs q s).
Lemma torch_best : exists p a b, torch_dtw_subsequence_path (Raw2 (lift q)) (Raw2 (lift s)) = Ok (p, nsqrt (n:=Snum) (path_cost (N:=Snum) (nadd (n:=Snum)) (local32 D) p)) /\
  (a <= b < length s)%nat /\ window_path (length q) a b p /\
  (forall a' b' p', (b' < length s)%nat -> window_path (length q) a' b' p' ->
     xleb (path_cost (N:=Snum) (nadd (n:=Snum)) (local32 D) p) (path_cost (N:=Snum) (nadd (n:=Snum)) (local32 D) p') = true).
Proof.
  pose proof (real_len d q Fq) as P1. pose proof (real_len d s Fs) as P2.
  assert (E : forall i j, stored (sq_dists (N:=Xnum) (lift q) (lift s) i j) = local32 D i j) by (intros; rewrite sq_dists_lift; reflexivity).
  assert (Dnn : forall i j, snn (local32 D i j)). { intros. apply stored_snn. unfold costs, sqd. apply rsum_nonneg. intros x Hx. apply in_map_iff in Hx. destruct Hx as (y & <- & _). apply sq_pos. }
  set (DD := fun i j => stored (sq_dists (N:=Xnum) (lift q) (lift s) i j)).
  assert (Dnn' : forall i j, snn (DD i j)) by (intros; unfold DD; rewrite E; auto).
  destruct (subseq_best Snum snn xfin Slaws (length q) (length s) DD Dnn' P1 P2) as (Hw & (p & a & EB & He & Hp & Hc) & Hmin).
  assert (PC : forall p, path_cost (N:=Snum) (nadd (n:=Snum)) DD p = path_cost (N:=Snum) (nadd (n:=Snum)) (local32 D) p).
  { intros r. apply path_cost_ext. intros. apply E. }
  unfold torch_dtw_subsequence_path. rewrite (to_time_series_finite Xnum xnn xfin Xlaws d _ (lift_finite d q Fq)), (to_time_series_finite Xnum xnn xfin Xlaws d _ (lift_finite d s Fs)).
  cbv zeta. unfold torch_subsequence_cost_matrix. fold DD. rewrite !lift_length.
  destruct (Nat.eqb_spec (length q) 0); [lia|]. destruct (Nat.eqb_spec (length s) 0); [lia|].
  rewrite EB. exists p, a. eexists. split; [rewrite <- Hc, PC; reflexivity|]. split; [split; [apply (window_le _ _ _ _ Hp)|exact He]|]. split; [exact Hp|].
  intros a' b' p' Hb Hp'. rewrite <- !PC, Hc. exact (Hmin a' b' p' Hb Hp').
Qed.
End Real.
Lemma window_short n m a b p : (0 < n)%nat -> (b < m)%nat -> window_path n a b p -> (S (length p) <= n + m)%nat.
Proof.
  intros P1 Hb W. pose proof (window_le _ _ _ _ W) as LE. destruct (window_shift _ _ _ _ W) as (r' & -> & W'). assert (Hpos : (0 < b - a + 1)%nat) by lia.
  unfold shift. rewrite map_length. apply wpath_rpath in W'; [|exact P1|exact Hpos]. apply rpath_len in W'. rewrite rev_length in W'. unfold cell in *. lia.
Qed.
Lemma pow2_pos k : 0 < (1 + u32) ^ k. Proof. pose proof u32_range. apply pow_lt. lra. Qed.

(** C217: the value returned on double tensors is the exact one up to [k] roundings of SINGLE precision, where [2 k] is at least the two
    lengths plus 2; or it overflows. *)
Theorem C217_error d q s k : real_series d q -> real_series d s -> (forall i j, normal (costs q s i j)) -> (length q + length s + 2 <= 2 * k)%nat ->
  exists p v p' D, torch_dtw_subsequence_path (Raw2 (lift q)) (Raw2 (lift s)) = Ok (p, v) /\
    dtw_subsequence_path (N:=Xnum) (Raw2 (lift q)) (Raw2 (lift s)) = Ok (p', XR D) /\
    ((v = XInf /\ bpow radix2 128 <= (1 + u32) ^ (2 * k) * (D * D)) \/
     (exists g, v = XR g /\ (1 - u32) ^ k * D <= g <= (1 + u32) ^ k * D)).
Proof.
  intros Fq Fs HN HK. pose proof (real_len d q Fq) as P1. pose proof (real_len d s Fs) as P2.
  destruct (torch_best d q s Fq Fs) as (p & a & b & E & Hab & W & M).
  destruct (C20_subsequence_best_path Xnum xnn xfin Xlaws d (lift q) (lift s) (lift_finite d q Fq) (lift_finite d s Fs)) as (p' & a' & b' & E' & Hab' & W' & M').
  rewrite !lift_length in *.
  assert (PX : forall r, path_cost (N:=Xnum) (nadd (n:=Xnum)) (local_costs (N:=Xnum) (lift q) (lift s)) r = XR (cost (costs q s) r)).
  { intros r. rewrite <- (path_cost_lift (costs q s) r). apply path_cost_ext. intros i j _. apply local_costs_lift. }
  rewrite PX in E'. assert (CN : forall r, normal (cost (costs q s) r)) by (intros r; exact (proj1 (near_path (costs q s) r (fun i j _ => HN i j)))).
  assert (NW : forall r a b, (b < length s)%nat -> window_path (length q) a b r -> near (length q + length s) (path_cost (N:=Snum) (nadd (n:=Snum)) (local32 (costs q s)) r) (cost (costs q s) r)).
  { intros r a0 b0 Hb Hr. eapply near_weaken; [|apply near_path; intros; apply HN]. exact (window_short _ _ _ _ _ P1 Hb Hr). }
  set (n := (length q + length s)%nat) in *. set (x := cost (costs q s) p') in *.
  assert (NL : near n (path_cost (N:=Snum) (nadd (n:=Snum)) (local32 (costs q s)) p) x).
  { pose proof (NW p a b (proj2 Hab) W) as (_ & N1). pose proof (NW p' a' b' (proj2 Hab') W') as (_ & N2). specialize (M a' b' p' (proj2 Hab') W').
    specialize (M' a b p (proj2 Hab) W). rewrite !PX in M'. cbn [Xnum nleb xleb] in M'. apply Rleb_true in M'. fold x in M', N2. split; [apply CN|].
    pose proof (pow_lo n) as PL. pose proof (normal_pos x (CN p')) as X0.
    destruct (path_cost _ _ p) as [g| | |], (path_cost _ _ p') as [h| | |]; try contradiction; try discriminate.
    - destruct N1 as (A & B & C & _), N2 as (_ & _ & _ & F). cbn [xleb] in M. apply Rleb_true in M. split; [exact A|]. split; [exact B|]. split; [|lra].
      eapply Rle_trans; [|exact C]. apply Rmult_le_compat_l; lra.
    - destruct N1 as (A & B & C & _). split; [exact A|]. split; [exact B|]. split; [|lra]. eapply Rle_trans; [|exact C]. apply Rmult_le_compat_l; lra.
    - exact N2. }
  exists p, (nsqrt (n:=Snum) (path_cost (N:=Snum) (nadd (n:=Snum)) (local32 (costs q s)) p)), p', (sqrt x). split; [exact E|].
  pose proof (normal_pos x (CN p')) as X0. split. { rewrite E'. cbn [Xnum nsqrt xsqrt]. rewrite Rleb_nn by exact X0. reflexivity. }
  rewrite sqrt_sqrt by exact X0. destruct (near_sqrt n k _ x HK NL) as [(_ & V)|V]; [|left; exact V].
  destruct (nsqrt _) as [g| | |]; try contradiction; [right; exists g; tauto|left]. split; [reflexivity|].
  assert (Q : (1 + u32) ^ (2 * k) * x = ((1 + u32) ^ k * sqrt x) * ((1 + u32) ^ k * sqrt x)).
  { replace (2 * k)%nat with (k + k)%nat by lia. rewrite pow_add. rewrite <- (sqrt_sqrt x X0) at 1. ring. }
  rewrite Q. generalize dependent ((1 + u32) ^ k * sqrt x). intros t Ht _. assert (1 <= top) by (change 1 with (bpow radix2 0); apply bpow_le; lia). nra.
Qed.
Print Assumptions C217_error.
(** the match returned is nearly the best one: without overflow, no other match is better by more than the roundings *)
Theorem C217_nearly_best d q s p g : real_series d q -> real_series d s -> (forall i j, normal (costs q s i j)) ->
  torch_dtw_subsequence_path (Raw2 (lift q)) (Raw2 (lift s)) = Ok (p, XR g) ->
  exists a b, (a <= b < length s)%nat /\ window_path (length q) a b p /\
  forall a' b' p', (b' < length s)%nat -> window_path (length q) a' b' p' ->
    (1 - u32) ^ (length q + length s) * cost (costs q s) p <= (1 + u32) ^ (length q + length s) * cost (costs q s) p'.
Proof.
  intros Fq Fs HN E. pose proof (real_len d q Fq) as P1. destruct (torch_best d q s Fq Fs) as (p0 & a & b & E0 & Hab & W & M).
  rewrite E0 in E. injection E as <- EG. exists a, b. split; [exact Hab|]. split; [exact W|]. intros a' b' p' Hb W'.
  pose proof (near_weaken _ (length q + length s) _ _ (window_short _ _ _ _ _ P1 (proj2 Hab) W) (near_path (costs q s) p0 (fun i j _ => HN i j))) as (_ & N1).
  pose proof (near_weaken _ (length q + length s) _ _ (window_short _ _ _ _ _ P1 Hb W') (near_path (costs q s) p' (fun i j _ => HN i j))) as (_ & N2).
  specialize (M a' b' p' Hb W'). destruct (path_cost _ _ p0) as [x| | |], (path_cost _ _ p') as [y| | |]; try contradiction; try discriminate.
  - cbn [xleb] in M. apply Rleb_true in M. lra.
  - lra.
Qed.
Print Assumptions C217_nearly_best.

(** numbers between 2^24 and 2^25 are stored as even integers *)
Lemma single_even x n : bpow radix2 24 <= x < bpow radix2 25 -> Rabs (x * / 2 - IZR n) < / 2 -> single x = IZR n * 2.
Proof.
  intros H N. assert (C : cexp radix2 f32 x = 1%Z).
  { unfold cexp. rewrite (mag_unique_pos radix2 x 25); [reflexivity|]. exact H. }
  assert (Z : ZnearestE (scaled_mantissa radix2 f32 x) = n). { apply Znearest_imp. unfold scaled_mantissa. rewrite C. exact N. }
  unfold single, round. rewrite Z, C. reflexivity.
Qed.
Definition close_q : list (list R) := [[0]].
Definition close_s : list (list R) := [[4096 + / 16384]; [4096]].
Lemma close_costs : costs close_q close_s 0 0 = 16777216 + 1 / 2 + / 268435456 /\ costs close_q close_s 0 1 = 16777216.
Proof. unfold costs, sqd, close_q, close_s. cbn. split; lra. Qed.
Lemma close_stored : stored (XR (costs close_q close_s 0 0)) = XR 16777216 /\ stored (XR (costs close_q close_s 0 1)) = XR 16777216.
Proof.
  destruct close_costs as (-> & ->). assert (B1 : bpow radix2 24 = 16777216) by (cbn; lra). assert (B2 : bpow radix2 25 = 33554432) by (cbn; lra).
  assert (B3 : bpow radix2 25 < top) by (apply bpow_lt; lia).
  split; cbn [stored]; (rewrite (single_even _ 8388608); [|rewrite B1, B2; lra|apply Rabs_def1; lra]);
    (replace (8388608 * 2) with 16777216 by lra); rewrite Rabs_pos_eq by lra; unfold Rltb; destruct (Rlt_dec 16777216 top); [reflexivity|lra|reflexivity|lra].
Qed.
Lemma close_real : real_series 1 close_q /\ real_series 1 close_s.
Proof. split; (split; [lia|]; split; [discriminate|]); intros r H; repeat destruct H as [<-|H]; try destruct H; reflexivity. Qed.
Lemma close_path : torch_dtw_subsequence_path (Raw2 (lift close_q)) (Raw2 (lift close_s)) = Ok ([(0, 0)%nat], nsqrt (n:=Snum) (XR 16777216)).
Proof.
  destruct close_real as (Fq & Fs). unfold torch_dtw_subsequence_path. rewrite (to_time_series_finite Xnum xnn xfin Xlaws 1 _ (lift_finite 1 _ Fq)), (to_time_series_finite Xnum xnn xfin Xlaws 1 _ (lift_finite 1 _ Fs)).
  cbv zeta. unfold torch_subsequence_cost_matrix. set (DD := fun i j => stored (sq_dists (N:=Xnum) (lift close_q) (lift close_s) i j)).
  assert (E : DD 0%nat 0%nat = XR 16777216 /\ DD 0%nat 1%nat = XR 16777216) by (unfold DD; rewrite !sq_dists_lift; exact close_stored).
  assert (Dnn : forall i j, snn (DD i j)). { intros. unfold DD. rewrite sq_dists_lift. apply stored_snn. unfold costs, sqd. apply rsum_nonneg. intros x Hx. apply in_map_iff in Hx. destruct Hx as (y & <- & _). apply sq_pos. }
  rewrite !lift_length. cbn [close_q close_s length Nat.eqb Nat.sub seq map Nat.add].
  rewrite !(acc_top Snum snn xfin Slaws 1 2 DD Dnn) by lia. destruct E as (E0 & E1). rewrite E0, E1.
  assert (A : argmin (N:=Snum) [XR 16777216; XR 16777216] = 0%nat). { cbn. unfold Rltb. destruct (Rlt_dec 16777216 16777216); [lra|reflexivity]. }
  match goal with |- context [argmin ?l] => replace (argmin l) with 0%nat by (symmetry; exact A) end. cbn [sub_backtrack]. rewrite (acc_top Snum snn xfin Slaws 1 2 DD Dnn) by lia. rewrite E0. reflexivity.
Qed.
(** C217 is false as stated: the match found is not the best one.  The query 0 is nearer to 4096 than to 4096 + 2^-14; the three numbers
    and the squared differences are doubles. *)
Theorem C217_best_match_refuted : exists q s p v, real_series 1 q /\ real_series 1 s /\ (forall i j, normal (costs q s i j)) /\
  torch_dtw_subsequence_path (Raw2 (lift q)) (Raw2 (lift s)) = Ok (p, v) /\
  exists p' v', dtw_subsequence_path (N:=Xnum) (Raw2 (lift q)) (Raw2 (lift s)) = Ok (p', v') /\ p' <> p /\ cost (costs q s) p' < cost (costs q s) p.
Proof.
  exists close_q, close_s, [(0, 0)%nat], (nsqrt (n:=Snum) (XR 16777216)). destruct close_real as (Fq & Fs). split; [exact Fq|]. split; [exact Fs|].
  destruct close_costs as (C0 & C1).
  split. { assert (B : bpow radix2 (-126) <= 1) by (change 1 with (bpow radix2 0); apply bpow_le; lia).
    intros [|i] [|[|j]]; try (left; unfold costs, sqd, close_q, close_s; try destruct i; try destruct j; reflexivity); right; [rewrite C0|rewrite C1]; lra. }
  split; [exact close_path|].
  destruct (C20_subsequence_best_path Xnum xnn xfin Xlaws 1 (lift close_q) (lift close_s) (lift_finite 1 _ Fq) (lift_finite 1 _ Fs)) as (p' & a & b & E & Hab & W & M).
  eexists p', _. split; [exact E|].
  assert (PX : forall r, path_cost (N:=Xnum) (nadd (n:=Xnum)) (local_costs (N:=Xnum) (lift close_q) (lift close_s)) r = XR (cost (costs close_q close_s) r)).
  { intros r. rewrite <- (path_cost_lift (costs close_q close_s) r). apply path_cost_ext. intros i j _. apply local_costs_lift. }
  assert (W1 : window_path 1 1 1 [(0, 1)%nat]) by (repeat split; reflexivity).
  specialize (M 1%nat 1%nat [(0, 1)%nat] ltac:(cbn; lia) W1). rewrite !PX in M. cbn [Xnum nleb xleb] in M. apply Rleb_true in M.
  assert (K1 : cost (costs close_q close_s) [(0, 1)%nat] = 16777216) by (unfold cost; cbn [map fst snd rsum fold_right]; rewrite C1; lra).
  assert (K0 : cost (costs close_q close_s) [(0, 0)%nat] = 16777216 + 1 / 2 + / 268435456) by (unfold cost; cbn [map fst snd rsum fold_right]; rewrite C0; lra).
  rewrite K1 in M. assert (L : cost (costs close_q close_s) p' < cost (costs close_q close_s) [(0, 0)%nat]) by (rewrite K0; lra).
  split; [|exact L]. intros ->. lra.
Qed.
Print Assumptions C217_best_match_refuted.
(** the example meets the hypotheses of the two positive theorems *)
Example C217_nontrivial : real_series 1 close_q /\ real_series 1 close_s /\ (length close_q + length close_s + 2 <= 2 * 3)%nat /\
  exists g, torch_dtw_subsequence_path (Raw2 (lift close_q)) (Raw2 (lift close_s)) = Ok ([(0, 0)%nat], XR g) /\ 0 < g.
Proof.
  destruct close_real as (A & B). split; [exact A|]. split; [exact B|]. split; [cbn; lia|]. exists 4096. split; [|lra]. rewrite close_path. do 2 f_equal.
  cbn [Snum nsqrt xsqrt]. rewrite Rleb_nn by lra. assert (Q : sqrt 16777216 = 4096) by (replace 16777216 with (4096 * 4096) by lra; apply sqrt_square; lra). rewrite Q.
  assert (E : single 4096 = 4096). { replace 4096 with (bpow radix2 12) by (cbn; lra). unfold single. apply round_generic; [apply valid_rnd_N|]. apply generic_format_bpow. unfold FLT_exp. lia. }
  assert (B1 : bpow radix2 12 = 4096) by (cbn; lra). assert (B2 : bpow radix2 12 < top) by (apply bpow_lt; lia).
  apply stored_same; [lra|exact E|lra].
Qed.

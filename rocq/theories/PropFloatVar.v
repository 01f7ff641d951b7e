(** C191: the rounding error of DTW with limited warping length and of subsequence DTW in binary64. *)
From Coq Require Import Bool List Arith Lia ZArith Floats Reals Lra.
From Flocq Require Import Core IEEE754.BinarySingleNaN IEEE754.PrimFloat.
From Verif Require Import Num NumLaws Py Series Masks DtwModel VariantModel Spec SpecDtw RList RealSeries FloatOps DpProofs DtwProofs ValidThms PathSum SubseqThms LimitedThms PropDtw PropVariants PropFloatDtw.
Import ListNotations.
Local Open Scope R_scope.
Notation u := unit_roundoff.

Section Two.
Variables (d : nat) (s1 s2 : list (list PrimFloat.float)).
Hypothesis F1 : finite_series (N:=Fnum) ffin d s1.
Hypothesis F2 : finite_series (N:=Fnum) ffin d s2.
Hypothesis AP : apart s1 s2.
Notation DF := (local_costs (N:=Fnum) s1 s2).
Notation DX := (local_costs (N:=Xnum) (lift (exactly s1)) (lift (exactly s2))).
Lemma cell_fits i j : (i < length s1)%nat -> (j < length s2)%nat -> fits DF DX (3 + d) (i, j).
Proof.
  intros Hi Hj. unfold fits. cbn [fst snd]. rewrite local_costs_lift. unfold costs. rewrite !exactly_nth.
  destruct F1 as (_ & _ & R1), F2 as (_ & _ & R2). pose proof (nth_In s1 [] Hi) as I1. pose proof (nth_In s2 [] Hj) as I2. destruct (R1 _ I1) as (L1 & G1), (R2 _ I2) as (L2 & G2).
  destruct (near_local d (nth i s1 []) (nth j s2 []) L1 L2 G1 G2) as (g & V & N); [intros a b I3; exact (AP _ _ a b I1 I2 I3)|].
  exists g. eexists. split; [exact V|]. split; [reflexivity|exact N].
Qed.
(** the least cost over any set of paths through the table, and its root *)
Lemma least_error (paths : list cell -> Prop) k wF wX :
  (forall p, paths p -> (S (length p) <= length s1 + length s2)%nat /\ forall i j, In (i, j) p -> (i < length s1 /\ j < length s2)%nat) -> (exists p, paths p) ->
  (length s1 + length s2 + d + 4 <= 2 * k)%nat ->
  least_cost (N:=Fnum) paths (path_cost (N:=Fnum) PrimFloat.add DF) wF -> least_cost (N:=Xnum) paths (path_cost (N:=Xnum) xadd DX) wX ->
  exists D, nsqrt (n:=Xnum) wX = XR D /\
    ((PrimFloat.sqrt wF = infinity /\ bpow radix2 1024 <= (1 + u) ^ (2 * k) * (D * D)) \/
     (fok (PrimFloat.sqrt wF) /\ (1 - u) ^ k * D <= fv (PrimFloat.sqrt wF) <= (1 + u) ^ k * D)).
Proof.
  intros HP EX HK LF LX.
  assert (NL : exists gw W, wX = XR W /\ val wF gw /\ near (d + length s1 + length s2 + 2) gw W).
  { eapply near_least; [|exact EX|exact LF|exact LX]. intros p P. destruct (HP p P) as (SH & IN).
    destruct (near_path _ _ _ p (fun c => match c with (i, j) => fun Hc => cell_fits i j (proj1 (IN i j Hc)) (proj2 (IN i j Hc)) end)) as (gp & rp & Vp & Xp & Np).
    exists gp, rp. split; [exact Vp|]. split; [exact Xp|]. eapply near_weaken; [|exact Np]. lia. }
  destruct NL as (gw & W & -> & V & N). pose proof (proj1 N) as PW. exists (sqrt W). split; [cbn; unfold Rleb; destruct (Rle_dec 0 W); [reflexivity|lra]|].
  assert (HK' : (d + length s1 + length s2 + 2 + 2 <= 2 * k)%nat) by lia. destruct (near_sqrt _ k wF gw W HK' V N) as [(E & B)|H]; [left|right; exact H].
  split; [exact E|]. change (bpow radix2 1024) with top. eapply Rle_trans; [exact B|]. rewrite sqrt_sqrt by exact PW. apply Rmult_le_compat_r; [exact PW|]. apply pow_up. lia.
Qed.
End Two.
(** a shortest warping path *)
Lemma limited_some n m : (0 < n)%nat -> (0 < m)%nat -> exists p, warping_path n m everywhere p /\ length p = Nat.max n m.
Proof.
  intros Hn Hm. assert (G : forall a b, exists p, rpath everywhere a b p /\ length p = S (Nat.max a b)).
  { induction a as [|a IH]; [induction b as [|b IHb]|intros [|b]].
    - exists [(0, 0)%nat]. split; [constructor; reflexivity|reflexivity].
    - destruct IHb as (p & R & L). exists ((0, S b)%nat :: p). split; [eapply rp_step; [exact R| |reflexivity]|cbn in *; lia]. unfold move. cbn. lia.
    - destruct (IH 0%nat) as (p & R & L). exists ((S a, 0)%nat :: p). split; [eapply rp_step; [exact R| |reflexivity]|cbn in *; lia]. unfold move. cbn. lia.
    - destruct (IH b) as (p & R & L). exists ((S a, S b)%nat :: p). split; [eapply rp_step; [exact R| |reflexivity]|cbn in *; lia]. unfold move. cbn. lia. }
  destruct (G (n - 1)%nat (m - 1)%nat) as (p & R & L). exists (rev p). split; [apply rpath_wpath; assumption|]. rewrite rev_length, L. lia.
Qed.
(** C191: with [D] the exact value for the given numbers, the computed value is [D] up to [k] relative roundings, where [2 k] is at least the
    lengths of both series plus the number of features plus 4; or it overflows, and then the square of [D] is near the largest float. *)
Theorem C191_limited_error d (s1 s2 : list (list PrimFloat.float)) L k :
  finite_series (N:=Fnum) ffin d s1 -> finite_series (N:=Fnum) ffin d s2 -> apart s1 s2 -> (Z.of_nat (Nat.max (length s1) (length s2)) <= L)%Z ->
  (length s1 + length s2 + d + 4 <= 2 * k)%nat ->
  exists v D, dtw_limited (N:=Fnum) (Raw2 (N:=Fnum) s1) (Raw2 (N:=Fnum) s2) L = Ok v /\
    dtw_limited (N:=Xnum) (Raw2 (lift (exactly s1))) (Raw2 (lift (exactly s2))) L = Ok (XR D) /\
    ((v = infinity /\ bpow radix2 1024 <= (1 + u) ^ (2 * k) * (D * D)) \/
     (fok v /\ (1 - u) ^ k * D <= fv v <= (1 + u) ^ k * D)).
Proof.
  intros F1 F2 AP HL HK. destruct (C17_limited_optimal Fnum fnn ffin Flaws d s1 s2 L F1 F2 HL) as (wF & EF & LF).
  destruct (C17_limited_optimal Xnum xnn xfin Xlaws d (lift (exactly s1)) (lift (exactly s2)) L (lift_finite d _ (exactly_real d s1 F1)) (lift_finite d _ (exactly_real d s2 F2))) as (wX & EX & LX).
  { rewrite !lift_length, !exactly_length. exact HL. }
  rewrite !lift_length, !exactly_length in LX.
  pose proof (some_steps d s1 F1) as P1. pose proof (some_steps d s2 F2) as P2.
  set (paths := fun p => warping_path (length s1) (length s2) everywhere p /\ (Z.of_nat (length p) <= L)%Z) in *.
  destruct (least_error d s1 s2 F1 F2 AP paths k wF wX) with (3 := HK) (4 := LF) (5 := LX) as (D & E & H).
  - intros p (W & _). split; [exact (path_short d s1 s2 F1 F2 _ p W)|]. intros i j I. exact (path_cell d s1 s2 F1 F2 _ p i j W I).
  - destruct LX as (_ & [(p & P & _)|(NO & _)]); [exists p; exact P|]. exfalso.
    destruct (limited_some (length s1) (length s2) P1 P2) as (p & W & LP). apply (NO p). split; [exact W|]. lia.
  - exists (PrimFloat.sqrt wF), D. split; [exact EF|]. split; [rewrite EX; f_equal; exact E|exact H].
Qed.
Print Assumptions C191_limited_error.
Theorem C191_subsequence_error d (q s : list (list PrimFloat.float)) k :
  finite_series (N:=Fnum) ffin d q -> finite_series (N:=Fnum) ffin d s -> apart q s ->
  (length q + length s + d + 4 <= 2 * k)%nat ->
  exists p p' v D, dtw_subsequence_path (N:=Fnum) (Raw2 (N:=Fnum) q) (Raw2 (N:=Fnum) s) = Ok (p, v) /\
    dtw_subsequence_path (N:=Xnum) (Raw2 (lift (exactly q))) (Raw2 (lift (exactly s))) = Ok (p', XR D) /\
    ((v = infinity /\ bpow radix2 1024 <= (1 + u) ^ (2 * k) * (D * D)) \/
     (fok v /\ (1 - u) ^ k * D <= fv v <= (1 + u) ^ k * D)).
Proof.
  intros F1 F2 AP HK.
  destruct (C20_subsequence_best_path Fnum fnn ffin Flaws d q s F1 F2) as (p & a & b & EF & Hab & HW & MF).
  destruct (C20_subsequence_best_path Xnum xnn xfin Xlaws d (lift (exactly q)) (lift (exactly s)) (lift_finite d _ (exactly_real d q F1)) (lift_finite d _ (exactly_real d s F2))) as (p' & a' & b' & EX & Hab' & HW' & MX).
  rewrite !lift_length, !exactly_length in *.
  pose proof (some_steps d q F1) as P1. pose proof (some_steps d s F2) as P2.
  set (paths := fun p => exists a b, (b < length s)%nat /\ window_path (length q) a b p).
  destruct (least_error d q s F1 F2 AP paths k (path_cost (N:=Fnum) PrimFloat.add (local_costs (N:=Fnum) q s) p) (path_cost (N:=Xnum) xadd (local_costs (N:=Xnum) (lift (exactly q)) (lift (exactly s))) p')) with (3 := HK) as (D & E & H).
  - intros r (a0 & b0 & Hb & W). pose proof (window_le _ _ _ _ W) as LE. destruct (window_shift _ _ _ _ W) as (r' & -> & W').
    assert (Hpos : (0 < b0 - a0 + 1)%nat) by lia. split.
    + unfold shift. rewrite map_length. apply wpath_rpath in W'; [|exact P1|exact Hpos]. apply rpath_len in W'. rewrite rev_length in W'. unfold cell in *. change (@length (list (carrier Fnum))) with (@length (list PrimFloat.float)) in *. lia.
    + intros i j I. unfold shift in I. apply in_map_iff in I. destruct I as ((i', j') & E & I). cbn in E. injection E as <- <-. destruct (wpath_bounds _ _ _ _ P1 Hpos W' i' j' I). change (@length (list (carrier Fnum))) with (@length (list PrimFloat.float)) in *. lia.
  - exists p, a, b. split; [apply Hab|exact HW].
  - split; [|left; exists p; split; [exists a, b; split; [apply Hab|exact HW]|reflexivity]]. intros r (a0 & b0 & Hb & W). exact (MF a0 b0 r Hb W).
  - split; [|left; exists p'; split; [exists a', b'; split; [apply Hab'|exact HW']|reflexivity]]. intros r (a0 & b0 & Hb & W). exact (MX a0 b0 r Hb W).
  - eexists p, p', _, D. split; [exact EF|]. split; [rewrite EX; do 2 f_equal; exact E|exact H].
Qed.
Print Assumptions C191_subsequence_error.
(** the series of C187_case also meet these hypotheses *)
Example C191_case : finite_series (N:=Fnum) ffin 1 ex5 /\ finite_series (N:=Fnum) ffin 1 ex6 /\ apart ex5 ex6 /\ (Z.of_nat (Nat.max (length ex5) (length ex6)) <= 3)%Z /\ (length ex5 + length ex6 + 1 + 4 <= 2 * 5)%nat.
Proof. destruct C187_case as (A & B & C & _ & E). split; [exact A|]. split; [exact B|]. split; [exact C|]. split; [vm_compute; discriminate|exact E]. Qed.

(** Operations of binary64 on finite numbers, as rounded operations on real numbers. *)
From Coq Require Import Bool List Floats Uint63 ZArith Reals Psatz.
From Flocq Require Import Core IEEE754.BinarySingleNaN IEEE754.PrimFloat.
From Flocq Require Import Plus_error.
From Verif Require Import Num NumLaws.
Local Open Scope R_scope.

#[local] Existing Instance Hprec.
#[local] Existing Instance Hmax.
#[local] Existing Instance vexp.

(** the real number a finite float stands for *)
Definition fv (x : PrimFloat.float) : R := B2R (Prim2B x).
Definition fok (x : PrimFloat.float) : Prop := PrimFloat.is_finite x = true.
Definition small (r : R) : Prop := Rabs (rnd r) < bpow radix2 emax.

Lemma fok_B x : fok x <-> is_finite (Prim2B x) = true.
Proof. unfold fok. rewrite is_finite_equiv. tauto. Qed.
Lemma fv_fmt x : fmt (fv x).
Proof. apply generic_format_B2R. Qed.
Lemma rnd_fv x : rnd (fv x) = fv x.
Proof. apply round_generic; auto with typeclass_instances. apply fv_fmt. Qed.
Lemma small_fv x : small (fv x).
Proof. unfold small. rewrite rnd_fv. apply abs_B2R_lt_emax. Qed.
Lemma rnd_le a b : a <= b -> rnd a <= rnd b.
Proof. intros. apply round_le; auto with typeclass_instances. Qed.
Lemma rnd_0 : rnd 0 = 0.
Proof. apply round_0; auto with typeclass_instances. Qed.
Lemma rnd_nn a : 0 <= a -> 0 <= rnd a.
Proof. intros. rewrite <- rnd_0. apply rnd_le. auto. Qed.
Lemma small_between a b : 0 <= a <= b -> small b -> small a.
Proof.
  unfold small. intros H Hb. pose proof (rnd_nn a). pose proof (rnd_nn b). rewrite Rabs_pos_eq in * by lra. pose proof (rnd_le a b). lra.
Qed.
Lemma small_cases a : small a \/ Rlt_bool (Rabs (rnd a)) (bpow radix2 emax) = false.
Proof. unfold small. destruct (Rlt_bool_spec (Rabs (rnd a)) (bpow radix2 emax)); auto. Qed.
Lemma small_bool a : small a -> Rlt_bool (Rabs (rnd a)) (bpow radix2 emax) = true.
Proof. apply Rlt_bool_true. Qed.

(** if the exact result is small enough the operation is the rounded exact one *)
Lemma fadd_ok x y : fok x -> fok y -> small (fv x + fv y) -> fok (x + y)%float /\ fv (x + y)%float = rnd (fv x + fv y).
Proof.
  rewrite !fok_B. unfold fv. rewrite add_equiv. intros Fx Fy S. pose proof (Bplus_correct prec emax _ _ mode_NE _ _ Fx Fy) as H. rewrite small_bool in H by exact S. tauto.
Qed.
Lemma fsub_ok x y : fok x -> fok y -> small (fv x - fv y) -> fok (x - y)%float /\ fv (x - y)%float = rnd (fv x - fv y).
Proof.
  rewrite !fok_B. unfold fv. rewrite sub_equiv. intros Fx Fy S. pose proof (Bminus_correct prec emax _ _ mode_NE _ _ Fx Fy) as H. rewrite small_bool in H by exact S. tauto.
Qed.
Lemma fmul_ok x y : fok x -> fok y -> small (fv x * fv y) -> fok (x * y)%float /\ fv (x * y)%float = rnd (fv x * fv y).
Proof.
  rewrite !fok_B. unfold fv. rewrite mul_equiv. intros Fx Fy S. pose proof (Bmult_correct prec emax _ _ mode_NE (Prim2B x) (Prim2B y)) as H. rewrite small_bool in H by exact S.
  destruct H as (H1 & H2 & _). rewrite Fx, Fy in H2. auto.
Qed.
Lemma fdiv_ok x y : fok x -> fv y <> 0 -> small (fv x / fv y) -> fok (x / y)%float /\ fv (x / y)%float = rnd (fv x / fv y).
Proof.
  rewrite !fok_B. unfold fv. rewrite div_equiv. intros Fx Ny S. pose proof (Bdiv_correct prec emax _ _ mode_NE (Prim2B x) (Prim2B y) Ny) as H. rewrite small_bool in H by exact S.
  destruct H as (H1 & H2 & _). rewrite Fx in H2. auto.
Qed.
(** a finite result shows that there was no overflow *)
Lemma fadd_fin x y : fok (x + y)%float -> fok x /\ fok y /\ small (fv x + fv y).
Proof.
  rewrite !fok_B. unfold fv. rewrite add_equiv. intros H. assert (F : is_finite (Prim2B x) = true /\ is_finite (Prim2B y) = true).
  { destruct (Prim2B x) as [s|s| |s m e E], (Prim2B y) as [s'|s'| |s' m' e' E']; try (destruct s); try (destruct s'); simpl in *; auto; discriminate. }
  destruct F as [Fx Fy]. split; auto. split; auto. pose proof (Bplus_correct prec emax _ _ mode_NE _ _ Fx Fy) as K. destruct (small_cases (B2R (Prim2B x) + B2R (Prim2B y))) as [S|S]; auto. rewrite S in K.
  destruct K as [K _]. apply inf_overflow_s in K. rewrite K in H. discriminate.
Qed.
Lemma fsub_fin x y : fok (x - y)%float -> fok x /\ fok y /\ small (fv x - fv y).
Proof.
  rewrite !fok_B. unfold fv. rewrite sub_equiv. intros H. assert (F : is_finite (Prim2B x) = true /\ is_finite (Prim2B y) = true).
  { destruct (Prim2B x) as [s|s| |s m e E], (Prim2B y) as [s'|s'| |s' m' e' E']; try (destruct s); try (destruct s'); simpl in *; auto; discriminate. }
  destruct F as [Fx Fy]. split; auto. split; auto. pose proof (Bminus_correct prec emax _ _ mode_NE _ _ Fx Fy) as K. destruct (small_cases (B2R (Prim2B x) - B2R (Prim2B y))) as [S|S]; auto. rewrite S in K.
  destruct K as [K _]. apply inf_overflow_s in K. rewrite K in H. discriminate.
Qed.
Lemma fmul_fin x y : fok (x * y)%float -> fok x /\ fok y /\ small (fv x * fv y).
Proof.
  rewrite !fok_B. unfold fv. rewrite mul_equiv. intros H. assert (F : is_finite (Prim2B x) = true /\ is_finite (Prim2B y) = true).
  { destruct (Prim2B x) as [s|s| |s m e E], (Prim2B y) as [s'|s'| |s' m' e' E']; try (destruct s); try (destruct s'); simpl in *; auto; discriminate. }
  destruct F as [Fx Fy]. split; auto. split; auto. pose proof (Bmult_correct prec emax _ _ mode_NE (Prim2B x) (Prim2B y)) as K. destruct (small_cases (B2R (Prim2B x) * B2R (Prim2B y))) as [S|S]; auto. rewrite S in K.
  apply inf_overflow_s in K. rewrite K in H. discriminate.
Qed.
Lemma fdiv_fin x y : fok y -> fok (x / y)%float -> fv y <> 0 -> fok x /\ small (fv x / fv y).
Proof.
  rewrite !fok_B. unfold fv. rewrite div_equiv. intros Fy H Ny. assert (Fx : is_finite (Prim2B x) = true).
  { destruct (Prim2B x) as [s|s| |s m e E], (Prim2B y) as [s'|s'| |s' m' e' E']; try (destruct s); try (destruct s'); simpl in *; auto; discriminate. }
  split; auto. pose proof (Bdiv_correct prec emax _ _ mode_NE (Prim2B x) (Prim2B y) Ny) as K. destruct (small_cases (B2R (Prim2B x) / B2R (Prim2B y))) as [S|S]; auto. rewrite S in K.
  apply inf_overflow_s in K. rewrite K in H. discriminate.
Qed.
(** a sum or difference of floats that is not zero is not rounded to zero *)
Lemma sub_zero x y : rnd (fv x - fv y) = 0 -> fv x = fv y.
Proof.
  intros H. unfold Rminus in H. apply round_plus_eq_0 in H; auto with typeclass_instances; [lra| |apply fv_fmt|apply generic_format_opp, fv_fmt].
  intros e. unfold SpecFloat.fexp, SpecFloat.emin, prec, emax. lia.
Qed.

Lemma fleb x y : fok x -> fok y -> (x <=? y)%float = true <-> fv x <= fv y.
Proof. rewrite !fok_B. intros Fx Fy. rewrite leb_equiv, Bleb_correct by auto. unfold fv, Rle_bool. destruct (Rcompare_spec (B2R (Prim2B x)) (B2R (Prim2B y))); split; intros; auto; try discriminate; lra. Qed.
Lemma fltb x y : fok x -> fok y -> (x <? y)%float = true <-> fv x < fv y.
Proof. rewrite !fok_B. intros Fx Fy. rewrite ltb_equiv, Bltb_correct by auto. unfold fv, Rlt_bool. destruct (Rcompare_spec (B2R (Prim2B x)) (B2R (Prim2B y))); split; intros; auto; try discriminate; lra. Qed.
Lemma feqb x y : fok x -> fok y -> (x =? y)%float = true <-> fv x = fv y.
Proof. rewrite !fok_B. intros Fx Fy. rewrite eqb_equiv, Beqb_correct by auto. unfold fv, Req_bool. destruct (Rcompare_spec (B2R (Prim2B x)) (B2R (Prim2B y))); split; intros; auto; try discriminate; lra. Qed.
Lemma fok_notnan x : fok x -> PrimFloat.is_nan x = false.
Proof. unfold fok, PrimFloat.is_finite. destruct (PrimFloat.is_nan x); auto. Qed.
Lemma fv_zero : fv 0 = 0.
Proof. unfold fv. change 0%float with PrimFloat.zero. now rewrite Prim2B_zero. Qed.
Lemma fok_zero : fok 0. Proof. reflexivity. Qed.
Lemma fv_one : fv 1 = 1.
Proof. unfold fv. change 1%float with PrimFloat.one. rewrite one_equiv, Prim2B_B2Prim. apply Bone_correct. Qed.
Lemma fok_one : fok 1. Proof. reflexivity. Qed.

(** NaN spreads *)
Lemma nan_B x : PrimFloat.is_nan x = true <-> Prim2B x = B754_nan.
Proof. rewrite is_nan_equiv. destruct (Prim2B x); simpl; split; intros; auto; discriminate. Qed.
Lemma fadd_nan x y : PrimFloat.is_nan x = true -> PrimFloat.is_nan (x + y)%float = true.
Proof. rewrite !nan_B, add_equiv. intros ->. destruct (Prim2B y); reflexivity. Qed.
Lemma fsub_nan x y : PrimFloat.is_nan x = true -> PrimFloat.is_nan (x - y)%float = true.
Proof. rewrite !nan_B, sub_equiv. intros ->. destruct (Prim2B y); reflexivity. Qed.
Lemma fmul_nan x y : PrimFloat.is_nan x = true -> PrimFloat.is_nan (x * y)%float = true.
Proof. rewrite !nan_B, mul_equiv. intros ->. destruct (Prim2B y); reflexivity. Qed.
Lemma fdiv_nan x y : PrimFloat.is_nan x = true -> PrimFloat.is_nan (x / y)%float = true.
Proof. rewrite !nan_B, div_equiv. intros ->. destruct (Prim2B y); reflexivity. Qed.

(** integers below 2^53 *)
Lemma int_fmt z : (Z.abs z < 2 ^ 53)%Z -> fmt (IZR z).
Proof.
  intros H. change (SpecFloat.fexp prec emax) with (FLT_exp (SpecFloat.emin prec emax) prec). apply generic_format_FLT.
  exists (Defs.Float radix2 z 0); [unfold F2R; simpl; ring|exact H|]. unfold SpecFloat.emin, prec, emax. simpl. lia.
Qed.
Lemma int_small z : (Z.abs z < 2 ^ 53)%Z -> small (IZR z).
Proof.
  intros H. unfold small. rewrite round_generic by (auto with typeclass_instances; apply int_fmt; auto). rewrite <- abs_IZR. apply Rlt_trans with (IZR (2 ^ 53)); [apply IZR_lt; auto|].
  change (IZR (2 ^ 53)) with (IZR (Zpower radix2 53)). rewrite IZR_Zpower by lia. apply bpow_lt. reflexivity.
Qed.
Lemma int_rnd z : (Z.abs z < 2 ^ 53)%Z -> rnd (IZR z) = IZR z.
Proof. intros H. apply round_generic; auto with typeclass_instances. apply int_fmt; auto. Qed.
Lemma fcount_spec n : (0 <= n < 2 ^ 53)%Z -> fok (of_uint63 (of_Z n)) /\ fv (of_uint63 (of_Z n)) = IZR n.
Proof.
  intros H. rewrite fok_B. unfold fv. rewrite of_int63_equiv. rewrite of_Z_spec, Z.mod_small by (split; [lia|]; apply Z.lt_trans with (2 ^ 53)%Z; [lia|reflexivity]).
  pose proof (binary_normalize_correct prec emax Hprec Hmax mode_NE n 0 false) as K. cbv zeta in K.
  assert (E : F2R (Defs.Float radix2 n 0) = IZR n) by (unfold F2R; simpl; ring). rewrite E in K.
  assert (S : small (IZR n)) by (apply int_small; rewrite Z.abs_eq; lia). rewrite small_bool in K by exact S. destruct K as (K1 & K2 & _). split; [exact K2|]. etransitivity; [exact K1|]. apply int_rnd. rewrite Z.abs_eq; lia.
Qed.
Lemma fsqrt_zero x : fok x -> fv x = 0 -> fok (PrimFloat.sqrt x) /\ fv (PrimFloat.sqrt x) = 0.
Proof.
  rewrite !fok_B. unfold fv. rewrite sqrt_equiv. intros F Z. destruct (Bsqrt_correct prec emax Hprec Hmax mode_NE (Prim2B x)) as (A & B & _). rewrite Z, sqrt_0 in A. split.
  - rewrite B. destruct (Prim2B x) as [s|s| |s m e E]; simpl in *; auto; try discriminate. exfalso. destruct s; simpl in Z; unfold F2R in Z; simpl in Z;
    apply Rmult_integral in Z; destruct Z as [Z|Z]; try (apply eq_IZR in Z; discriminate); pose proof (bpow_gt_0 radix2 e); simpl in *; lra.
  - rewrite A. apply rnd_0.
Qed.

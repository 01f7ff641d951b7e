(** Both number systems satisfy [num_laws]. *)
From Coq Require Import Bool List Floats Reals Psatz ZArith.
From Flocq Require Import Core IEEE754.BinarySingleNaN IEEE754.PrimFloat.
From Verif Require Import Num.
Local Open Scope R_scope.

Lemma Rleb_true a b : Rleb a b = true <-> a <= b.
Proof. unfold Rleb; destruct (Rle_dec a b); split; intros; congruence || tauto. Qed.
Lemma Rltb_true a b : Rltb a b = true <-> a < b.
Proof. unfold Rltb; destruct (Rlt_dec a b); split; intros; congruence || tauto. Qed.
Lemma Rleb_false a b : Rleb a b = false <-> b < a.
Proof. unfold Rleb; destruct (Rle_dec a b); split; intros; try congruence; try lra. Qed.
Lemma Rltb_false a b : Rltb a b = false <-> b <= a.
Proof. unfold Rltb; destruct (Rlt_dec a b); split; intros; try congruence; try lra. Qed.

(** ** Extended reals *)
Definition xnn (a : xr) : Prop :=
  match a with XR r => 0 <= r | XInf => True | _ => False end.
Definition xfin (a : xr) : Prop := match a with XR _ => True | _ => False end.

Ltac xcases := intros; repeat match goal with a : xr |- _ => destruct a end;
  simpl in *; try tauto; try discriminate; try reflexivity.
Lemma Rleb_nn r : 0 <= r -> Rleb 0 r = true.
Proof. apply Rleb_true. Qed.

Lemma Xlaws : num_laws Xnum xnn xfin.
Proof.
  constructor; simpl.
  - lra.
  - exact I.
  - xcases; lra.
  - xcases.
  - xcases.
  - xcases. apply Rleb_true; lra.
  - xcases. rewrite Rleb_true in *; lra.
  - xcases. rewrite !Rleb_true; lra.
  - xcases. rewrite Rleb_true in *; f_equal; lra.
  - xcases. unfold Rltb, Rleb.
    match goal with |- (if ?c then _ else _) = _ => destruct c end;
    match goal with |- _ = negb (if ?c then _ else _) => destruct c end;
    simpl; auto; exfalso; lra.
  - xcases. apply Rleb_true; lra.
  - xcases.
  - xcases. rewrite Rleb_true in *; lra.
  - xcases.
  - xcases. f_equal; lra.
  - xcases. f_equal; lra.
  - xcases. match goal with |- 0 <= ?t * ?t => exact (Rle_0_sqr t) end.
  - xcases. f_equal; ring.
  - xcases. f_equal; ring.
  - xcases. rewrite Rleb_nn by assumption. apply sqrt_pos.
  - xcases; rewrite ?Rleb_true in *; rewrite ?Rleb_nn by assumption; simpl; auto.
    rewrite Rleb_true. apply sqrt_le_1; lra.
  - rewrite Rleb_nn by lra. f_equal. apply sqrt_0.
  - reflexivity.
  - xcases. destruct (Rleb 0 r); discriminate.
Qed.

(** ** binary64

    [vx] maps a non-negative float to the extended real it denotes; [RO] is
    rounding to nearest even followed by overflow to +oo. *)
Notation bf := (binary_float prec emax).
Notation rnd := (round radix2 (SpecFloat.fexp prec emax) (round_mode mode_NE)).
Notation fmt := (generic_format radix2 (SpecFloat.fexp prec emax)).

Definition bnn (x : bf) : Prop := is_nan x = false /\ Bsign x = false.
Definition fnn (x : PrimFloat.float) : Prop := bnn (Prim2B x).
Definition ffin (x : PrimFloat.float) : Prop := is_finite (Prim2B x) = true.

Definition bx (x : bf) : xr :=
  match x with
  | B754_nan => XNaN
  | B754_infinity s => if s then XNInf else XInf
  | _ => XR (B2R x)
  end.
Definition RO (r : R) : xr :=
  if Rlt_bool (Rabs (rnd r)) (bpow radix2 emax) then XR (rnd r) else XInf.

Lemma bx_fin x : is_finite x = true -> bx x = XR (B2R x).
Proof. destruct x; simpl; try discriminate; reflexivity. Qed.

Lemma bnn_xnn x : bnn x -> xnn (bx x).
Proof.
  unfold bnn; destruct x as [s|s| |s m e H]; simpl; intros [H1 H2]; subst; try discriminate; simpl; auto; try lra.
  unfold F2R; simpl. apply Rmult_le_pos; [apply IZR_le; lia|apply bpow_ge_0].
Qed.

Lemma bx_inj x y : bnn x -> bnn y -> bx x = bx y -> x = y.
Proof.
  intros [Nx Sx] [Ny Sy] E.
  destruct (is_finite x) eqn:Fx; destruct (is_finite y) eqn:Fy.
  - apply B2R_Bsign_inj; auto; [|congruence].
    rewrite !bx_fin in E by assumption. congruence.
  - destruct x, y; simpl in *; try discriminate; subst; discriminate.
  - destruct x, y; simpl in *; try discriminate; subst; discriminate.
  - destruct x, y; simpl in *; try discriminate; subst; auto.
Qed.

Lemma bx_leb x y : bnn x -> bnn y -> Bleb x y = xleb (bx x) (bx y).
Proof.
  intros [Nx Sx] [Ny Sy].
  destruct (is_finite x) eqn:Fx; destruct (is_finite y) eqn:Fy.
  - rewrite !bx_fin by assumption. simpl. rewrite Bleb_correct by assumption.
    unfold Rleb, Rle_bool. destruct (Rcompare_spec (B2R x) (B2R y)), (Rle_dec (B2R x) (B2R y)); auto; exfalso; lra.
  - destruct x, y; simpl in *; try discriminate; subst; try discriminate; auto.
  - destruct x, y; simpl in *; try discriminate; subst; try discriminate; auto.
  - destruct x, y; simpl in *; try discriminate; subst; try discriminate; auto.
Qed.

Lemma bx_ltb x y : bnn x -> bnn y -> Bltb x y = xltb (bx x) (bx y).
Proof.
  intros [Nx Sx] [Ny Sy].
  destruct (is_finite x) eqn:Fx; destruct (is_finite y) eqn:Fy.
  - rewrite !bx_fin by assumption. simpl. rewrite Bltb_correct by assumption.
    unfold Rltb, Rlt_bool. destruct (Rcompare_spec (B2R x) (B2R y)), (Rlt_dec (B2R x) (B2R y)); auto; exfalso; lra.
  - destruct x, y; simpl in *; try discriminate; subst; try discriminate; auto.
  - destruct x, y; simpl in *; try discriminate; subst; try discriminate; auto.
  - destruct x, y; simpl in *; try discriminate; subst; try discriminate; auto.
Qed.

#[local] Existing Instance Hprec.
#[local] Existing Instance Hmax.

#[local] Instance vexp : Valid_exp (SpecFloat.fexp prec emax).
Proof. apply fexp_correct. exact Hprec. Qed.

Lemma RO_mono a b : 0 <= a -> a <= b -> xleb (RO a) (RO b) = true.
Proof.
  intros Ha Hab.
  assert (Hr : rnd a <= rnd b) by (apply round_le; auto with typeclass_instances).
  assert (H0 : 0 <= rnd a).
  { rewrite <- (round_0 radix2 (SpecFloat.fexp prec emax) (round_mode mode_NE)).
    apply round_le; auto with typeclass_instances. }
  unfold RO.
  destruct (Rlt_bool_spec (Rabs (rnd a)) (bpow radix2 emax)) as [A|A];
    destruct (Rlt_bool_spec (Rabs (rnd b)) (bpow radix2 emax)) as [B|B]; simpl; auto.
  - apply Rleb_true; exact Hr.
  - rewrite Rabs_pos_eq in A, B by lra. exfalso; lra.
Qed.

Lemma RO_fmt (x : bf) : is_finite x = true -> RO (B2R x) = XR (B2R x).
Proof.
  intros F. unfold RO.
  rewrite round_generic by (auto with typeclass_instances; apply generic_format_B2R).
  rewrite Rlt_bool_true; auto. apply abs_B2R_lt_emax.
Qed.

Lemma RO_nn a : 0 <= a -> xnn (RO a).
Proof.
  intros Ha. unfold RO. destruct (Rlt_bool _ _); simpl; auto.
  rewrite <- (round_0 radix2 (SpecFloat.fexp prec emax) (round_mode mode_NE)).
  apply round_le; auto with typeclass_instances.
Qed.

Lemma inf_overflow (x : bf) : B2SF x = binary_overflow prec emax mode_NE false -> x = B754_infinity false.
Proof. destruct x; simpl; intros H; try discriminate; inversion H; reflexivity. Qed.
Lemma inf_overflow_s (x : bf) s : B2SF x = binary_overflow prec emax mode_NE s -> x = B754_infinity s.
Proof. destruct x; simpl; intros H; try discriminate; inversion H; reflexivity. Qed.

Lemma badd_fin (x y : bf) : is_finite x = true -> is_finite y = true -> bnn x -> bnn y ->
  bnn (Bplus mode_NE x y) /\ bx (Bplus mode_NE x y) = RO (B2R x + B2R y).
Proof.
  intros Fx Fy Hx Hy.
  pose proof (bnn_xnn _ Hx) as Px. pose proof (bnn_xnn _ Hy) as Py.
  rewrite bx_fin in Px, Py by assumption. simpl in Px, Py.
  destruct Hx as [Nx Sx], Hy as [Ny Sy].
  pose proof (Bplus_correct prec emax _ _ mode_NE x y Fx Fy) as H. unfold RO.
  destruct (Rlt_bool _ _) eqn:E.
  - destruct H as (H1 & H2 & H3). rewrite bx_fin by assumption. rewrite H1. split; auto. split.
    + destruct (Bplus mode_NE x y); auto; discriminate.
    + rewrite H3. destruct (Rcompare_spec (B2R x + B2R y) 0); auto; [exfalso; lra|].
      rewrite Sx; auto.
  - destruct H as (H1 & H2). rewrite Sx in H1. apply inf_overflow in H1. rewrite H1. split; [split; auto|reflexivity].
Qed.

Lemma badd_spec (x y : bf) : bnn x -> bnn y ->
  bnn (Bplus mode_NE x y) /\
  bx (Bplus mode_NE x y) =
    match bx x, bx y with XR a, XR b => RO (a + b) | _, _ => XInf end.
Proof.
  intros Hx Hy.
  destruct (is_finite x) eqn:Fx; destruct (is_finite y) eqn:Fy.
  - rewrite (bx_fin x Fx), (bx_fin y Fy). apply badd_fin; auto.
  - destruct Hx as [Nx Sx], Hy as [Ny Sy].
    destruct x, y; simpl in *; try discriminate; subst; repeat split; auto.
  - destruct Hx as [Nx Sx], Hy as [Ny Sy].
    destruct x, y; simpl in *; try discriminate; subst; repeat split; auto.
  - destruct Hx as [Nx Sx], Hy as [Ny Sy].
    destruct x, y; simpl in *; try discriminate; subst; repeat split; auto.
Qed.

Definition bsq (x y : bf) : bf := Bmult mode_NE (Bminus mode_NE x y) (Bminus mode_NE x y).

Lemma bsq_spec (x y : bf) : is_finite x = true -> is_finite y = true ->
  bnn (bsq x y) /\
  bx (bsq x y) =
    (if Rlt_bool (Rabs (rnd (B2R x - B2R y))) (bpow radix2 emax)
     then RO (rnd (B2R x - B2R y) * rnd (B2R x - B2R y)) else XInf).
Proof.
  intros Fx Fy. unfold bsq.
  pose proof (Bminus_correct prec emax _ _ mode_NE x y Fx Fy) as H.
  destruct (Rlt_bool (Rabs (rnd (B2R x - B2R y))) (bpow radix2 emax)) eqn:E.
  - destruct H as (H1 & H2 & _). rewrite <- H1. set (z := Bminus mode_NE x y) in *. clearbody z.
    pose proof (Bmult_correct prec emax _ _ mode_NE z z) as H. unfold RO.
    destruct (Rlt_bool (Rabs (rnd (B2R z * B2R z))) (bpow radix2 emax)) eqn:E2.
    + destruct H as (H3 & H4 & H5). rewrite H2 in H4. simpl in H4. rewrite bx_fin by assumption.
      rewrite H3. split; auto.
      assert (Hn : is_nan (Bmult mode_NE z z) = false) by (destruct (Bmult mode_NE z z); auto; discriminate).
      split; auto. rewrite H5 by assumption. apply xorb_nilpotent.
    + rewrite xorb_nilpotent in H. apply inf_overflow in H. rewrite H. repeat split; auto.
  - destruct H as (H1 & _). apply inf_overflow_s in H1. rewrite H1.
    destruct (Bsign x); simpl; repeat split; auto.
Qed.

Lemma rnd_opp r : rnd (- r) = - rnd r.
Proof. apply round_NE_opp. Qed.

Lemma bsq_sym (x y : bf) : is_finite x = true -> is_finite y = true -> bsq x y = bsq y x.
Proof.
  intros Fx Fy. destruct (bsq_spec x y Fx Fy) as [N1 E1]. destruct (bsq_spec y x Fy Fx) as [N2 E2].
  apply bx_inj; auto. rewrite E1, E2.
  replace (B2R y - B2R x) with (- (B2R x - B2R y)) by ring.
  rewrite rnd_opp, Rabs_Ropp. replace (- rnd (B2R x - B2R y) * - rnd (B2R x - B2R y)) with (rnd (B2R x - B2R y) * rnd (B2R x - B2R y)) by ring.
  reflexivity.
Qed.

Lemma RO_0 : RO 0 = XR 0.
Proof.
  unfold RO. rewrite round_0 by auto with typeclass_instances.
  rewrite Rabs_R0, Rlt_bool_true by apply bpow_gt_0. reflexivity.
Qed.

Lemma bsq_diag (x : bf) : is_finite x = true -> bsq x x = B754_zero false.
Proof.
  intros Fx. destruct (bsq_spec x x Fx Fx) as [N1 E1].
  apply bx_inj; auto; [split; reflexivity|]. rewrite E1.
  replace (B2R x - B2R x) with 0 by ring. rewrite round_0 by auto with typeclass_instances.
  rewrite Rabs_R0, Rlt_bool_true by apply bpow_gt_0. rewrite Rmult_0_l. apply RO_0.
Qed.

Lemma bsqrt_spec (x : bf) : bnn x ->
  bnn (Bsqrt mode_NE x) /\
  bx (Bsqrt mode_NE x) = match bx x with XR a => XR (rnd (sqrt a)) | _ => XInf end.
Proof.
  intros [Nx Sx]. destruct (Bsqrt_correct prec emax _ _ mode_NE x) as (H1 & H2 & H3).
  destruct (is_finite x) eqn:Fx.
  - rewrite (bx_fin x Fx). rewrite <- H1.
    assert (F : is_finite (Bsqrt mode_NE x) = true).
    { rewrite H2. destruct x; simpl in *; try discriminate; subst; auto. }
    rewrite bx_fin by assumption.
    assert (Hn : is_nan (Bsqrt mode_NE x) = false) by (destruct (Bsqrt mode_NE x); auto; discriminate).
    repeat split; auto. rewrite H3; auto.
  - destruct x; simpl in *; try discriminate; subst; repeat split; auto.
Qed.

Lemma xleb_RO_sum (d a b : R) : 0 <= d -> 0 <= a -> a <= b -> xleb (RO (d + a)) (RO (d + b)) = true.
Proof. intros. apply RO_mono; lra. Qed.

Lemma Prim2B_zero : Prim2B PrimFloat.zero = B754_zero false.
Proof. apply B2SF_inj. rewrite B2SF_Prim2B. reflexivity. Qed.
Lemma Prim2B_inf : Prim2B PrimFloat.infinity = B754_infinity false.
Proof. apply B2SF_inj. rewrite B2SF_Prim2B. reflexivity. Qed.

Lemma isnan_Prim2B (x : PrimFloat.float) : is_nan (Prim2B x) = false -> PrimFloat.is_nan x = false.
Proof.
  intros H. rewrite is_nan_equiv. exact H.
Qed.

Lemma Flaws : num_laws Fnum fnn ffin.
Proof.
  constructor; simpl; unfold fnn, ffin.
  - rewrite Prim2B_zero; split; reflexivity.
  - rewrite Prim2B_inf; split; reflexivity.
  - intros a b Ha Hb. rewrite add_equiv. apply (proj1 (badd_spec _ _ Ha Hb)).
  - intros a [Ha _]. apply isnan_Prim2B; auto.
  - intros a Ha. apply isnan_Prim2B. destruct (Prim2B a); auto; discriminate.
  - intros a Ha. rewrite leb_equiv, bx_leb by assumption. apply (leb_refl _ _ _ Xlaws), bnn_xnn; auto.
  - intros a b c Ha Hb Hc. rewrite !leb_equiv, !bx_leb by assumption.
    apply (leb_trans _ _ _ Xlaws); apply bnn_xnn; auto.
  - intros a b Ha Hb. rewrite !leb_equiv, !bx_leb by assumption.
    apply (leb_total _ _ _ Xlaws); apply bnn_xnn; auto.
  - intros a b Ha Hb. rewrite !leb_equiv, !bx_leb by assumption. intros H1 H2.
    apply Prim2B_inj. apply bx_inj; auto.
    apply (leb_antisym _ _ _ Xlaws); auto; apply bnn_xnn; auto.
  - intros a b Ha Hb. rewrite ltb_equiv, leb_equiv, bx_ltb, bx_leb by assumption.
    apply (ltb_leb _ _ _ Xlaws); apply bnn_xnn; auto.
  - intros a Ha. rewrite leb_equiv, bx_leb by (auto; rewrite Prim2B_zero; split; reflexivity).
    rewrite Prim2B_zero. apply (leb_zero _ _ _ Xlaws), bnn_xnn; auto.
  - intros a Ha. rewrite leb_equiv, bx_leb by (auto; rewrite Prim2B_inf; split; reflexivity).
    rewrite Prim2B_inf. apply (leb_inf _ _ _ Xlaws), bnn_xnn; auto.
  - intros d a b Hd Ha Hb. rewrite !leb_equiv, !add_equiv. intros H.
    destruct (badd_spec _ _ Hd Ha) as [N1 E1]. destruct (badd_spec _ _ Hd Hb) as [N2 E2].
    rewrite bx_leb in * by assumption. rewrite E1, E2.
    apply bnn_xnn in Hd, Ha, Hb.
    destruct (bx (Prim2B d)), (bx (Prim2B a)), (bx (Prim2B b)); simpl in *; try tauto; try discriminate.
    + apply Rleb_true in H. apply RO_mono; lra.
    + destruct (RO (r + r0)) eqn:E; auto; pose proof (RO_nn (r + r0)) as P; rewrite E in P; simpl in P; destruct P; lra.
  - intros d Hd. apply Prim2B_inj. rewrite add_equiv.
    assert (Hi : bnn (Prim2B PrimFloat.infinity)) by (rewrite Prim2B_inf; split; reflexivity).
    destruct (badd_spec _ _ Hd Hi) as [N1 E1]. apply bx_inj; auto. rewrite E1, Prim2B_inf.
    destruct (bx (Prim2B d)); reflexivity.
  - intros d Hd. apply Prim2B_inj. rewrite add_equiv.
    assert (Hi : bnn (Prim2B PrimFloat.zero)) by (rewrite Prim2B_zero; split; reflexivity).
    destruct (badd_spec _ _ Hd Hi) as [N1 E1]. apply bx_inj; auto. rewrite E1, Prim2B_zero. simpl.
    destruct (is_finite (Prim2B d)) eqn:F.
    + rewrite bx_fin by assumption. rewrite Rplus_0_r. apply RO_fmt; auto.
    + destruct Hd as [? ?]; destruct (Prim2B d); simpl in *; try discriminate; subst; reflexivity.
  - intros a b Ha Hb. apply Prim2B_inj. rewrite !add_equiv.
    destruct (badd_spec _ _ Ha Hb) as [N1 E1]. destruct (badd_spec _ _ Hb Ha) as [N2 E2].
    apply bx_inj; auto. rewrite E1, E2.
    destruct (bx (Prim2B a)), (bx (Prim2B b)); auto. rewrite Rplus_comm; reflexivity.
  - intros x y Hx Hy. rewrite mul_equiv, sub_equiv. apply (proj1 (bsq_spec _ _ Hx Hy)).
  - intros x y Hx Hy. apply Prim2B_inj. rewrite !mul_equiv, !sub_equiv. apply (bsq_sym _ _ Hx Hy).
  - intros x Hx. apply Prim2B_inj. rewrite mul_equiv, sub_equiv, Prim2B_zero. apply (bsq_diag _ Hx).
  - intros a Ha. rewrite sqrt_equiv. apply (proj1 (bsqrt_spec _ Ha)).
  - intros a b Ha Hb. rewrite !leb_equiv, !sqrt_equiv. intros H.
    destruct (bsqrt_spec _ Ha) as [N1 E1]. destruct (bsqrt_spec _ Hb) as [N2 E2].
    rewrite bx_leb in * by assumption. rewrite E1, E2.
    apply bnn_xnn in Ha, Hb.
    destruct (bx (Prim2B a)), (bx (Prim2B b)); simpl in *; try tauto; try discriminate.
    apply Rleb_true in H. apply Rleb_true. apply round_le; auto with typeclass_instances.
    apply sqrt_le_1; lra.
  - reflexivity.
  - reflexivity.
  - intros a Ha H. apply Prim2B_inj. apply (f_equal Prim2B) in H. rewrite sqrt_equiv in H.
    destruct (bsqrt_spec _ Ha) as [N1 E1]. rewrite H, Prim2B_inf in E1. simpl in E1.
    apply bx_inj; auto. { rewrite Prim2B_inf; split; reflexivity. } rewrite Prim2B_inf.
    apply bnn_xnn in Ha.
    destruct (bx (Prim2B a)); simpl in *; try tauto; try discriminate.
Qed.

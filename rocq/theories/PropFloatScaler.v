(** C174, C175: the scalers in binary64 arithmetic. *)
From Coq Require Import Bool List Floats Uint63 ZArith Reals Psatz Permutation.
From Flocq Require Import Core IEEE754.BinarySingleNaN IEEE754.PrimFloat.
From Verif Require Import Num NumLaws FloatOps FloatScalerModel.
Import ListNotations.
Local Open Scope R_scope.
Set Warnings "-inexact-float".
#[local] Existing Instance Hprec.
#[local] Existing Instance Hmax.
#[local] Existing Instance vexp.

(** ** specification *)
(** every entry is a finite number or missing *)
Definition observed (l : list PrimFloat.float) : Prop := forall x, In x l -> PrimFloat.is_finite x = true \/ PrimFloat.is_nan x = true.
(** [m] is the smallest entry, [M] the largest one *)
Definition extremes (l : list PrimFloat.float) (m M : PrimFloat.float) : Prop :=
  In m l /\ In M l /\ PrimFloat.is_finite m = true /\ PrimFloat.is_finite M = true /\ forall x, In x l -> PrimFloat.is_finite x = true -> (m <=? x)%float = true /\ (x <=? M)%float = true.

Lemma fold_min l : forall a, fok a -> (forall x, In x l -> fok x) ->
  let m := fold_left (fun a b => if (b <? a)%float then b else a) l a in
  fok m /\ (m = a \/ In m l) /\ fv m <= fv a /\ forall x, In x l -> fv m <= fv x.
Proof.
  induction l as [|b l IH]; intros a Ha Hl; cbn [fold_left]; cbv zeta; [repeat split; auto; try lra; intros ? []|].
  assert (Hb : fok b) by (apply Hl; left; auto). pose proof (fltb b a Hb Ha) as L.
  destruct (b <? a)%float eqn:E.
  - destruct (IH b Hb (fun x Hx => Hl x (or_intror Hx))) as (A & B & C & D). split; auto. split; [right; destruct B; [left; auto|right; auto]|].
    assert (fv b < fv a) by (apply L; auto). split; [lra|]. intros x [->|Hx]; [auto|auto].
  - destruct (IH a Ha (fun x Hx => Hl x (or_intror Hx))) as (A & B & C & D). split; auto. split; [destruct B; [left; auto|right; right; auto]|].
    split; auto. intros x [->|Hx]; [|auto]. destruct (Rlt_or_le (fv x) (fv a)) as [K|K]; [|lra]. apply L in K. discriminate.
Qed.
Lemma fold_max l : forall a, fok a -> (forall x, In x l -> fok x) ->
  let m := fold_left (fun a b => if (a <? b)%float then b else a) l a in
  fok m /\ (m = a \/ In m l) /\ fv a <= fv m /\ forall x, In x l -> fv x <= fv m.
Proof.
  induction l as [|b l IH]; intros a Ha Hl; cbn [fold_left]; cbv zeta; [repeat split; auto; try lra; intros ? []|].
  assert (Hb : fok b) by (apply Hl; left; auto). pose proof (fltb a b Ha Hb) as L.
  destruct (a <? b)%float eqn:E.
  - destruct (IH b Hb (fun x Hx => Hl x (or_intror Hx))) as (A & B & C & D). split; auto. split; [right; destruct B; [left; auto|right; auto]|].
    assert (fv a < fv b) by (apply L; auto). split; [lra|]. intros x [->|Hx]; [auto|auto].
  - destruct (IH a Ha (fun x Hx => Hl x (or_intror Hx))) as (A & B & C & D). split; auto. split; [destruct B; [left; auto|right; right; auto]|].
    split; auto. intros x [->|Hx]; [|auto]. destruct (Rlt_or_le (fv a) (fv x)) as [K|K]; [|lra]. apply L in K. discriminate.
Qed.
Lemma numbers_in l x : observed l -> In x (numbers_of l) <-> In x l /\ fok x.
Proof.
  intros H. unfold numbers_of. rewrite filter_In. split.
  - intros [I N]. split; auto. destruct (H x I) as [F|F]; auto. rewrite F in N. discriminate.
  - intros [I F]. split; auto. rewrite fok_notnan by auto. auto.
Qed.
Lemma min_max_spec l : observed l -> (exists x, In x l /\ PrimFloat.is_finite x = true) -> extremes l (fnanmin l) (fnanmax l).
Proof.
  intros H (x0 & I0 & F0). assert (N0 : In x0 (numbers_of l)) by (apply numbers_in; auto).
  unfold extremes, fnanmin, fnanmax. assert (K : forall x, In x (numbers_of l) -> fok x) by (intros x Hx; apply (numbers_in l x H); auto).
  assert (K' : forall x, In x (numbers_of l) -> In x l) by (intros x Hx; apply (numbers_in l x H); auto).
  assert (J : forall x, In x l -> PrimFloat.is_finite x = true -> In x (numbers_of l)) by (intros; apply numbers_in; auto).
  destruct (numbers_of l) as [|a g]; [destruct N0|]. destruct (fold_min g a) as (A & B & C & D); [apply K; left; auto|intros; apply K; right; auto|].
  destruct (fold_max g a) as (A' & B' & C' & D'); [apply K; left; auto|intros; apply K; right; auto|]. cbv zeta in *.
  split; [apply K'; destruct B as [B|B]; [left|right]; auto|]. split; [apply K'; destruct B' as [B'|B']; [left|right]; auto|]. split; auto. split; auto.
  intros x Hx Fx. specialize (J x Hx Fx). split; apply fleb; auto; destruct J as [<-|J]; auto.
Qed.

(** what the scaler does with a value between the extremes, if the image of the largest one is finite *)
Lemma value_spec lo hi m M : fok m -> fok M -> fok lo -> fok hi -> fv m <= fv M -> fv lo < fv hi -> fok (fmm_value lo hi m M M) ->
  exists g : R -> R, (forall a b, a <= b -> g a <= g b) /\ g 0 = fv lo /\ (forall x, fok x -> fv m <= fv x <= fv M -> fok (fmm_value lo hi m M x) /\ fv (fmm_value lo hi m M x) = g (rnd (fv x - fv m))).
Proof.
  intros Fm FM Fl Fh Hm Hl H. unfold fmm_value in *. set (r := if (M - m =? 0)%float then 1%float else (M - m)%float) in *.
  destruct (fadd_fin _ _ H) as (F1 & _ & S1).
  assert (HN : fok ((M - m) * (hi - lo))%float /\ fok r /\ 0 < fv r /\ small (fv ((M - m) * (hi - lo))%float / fv r)).
  { destruct (PrimFloat.is_finite (M - m)%float) eqn:EF.
    - assert (Fr : fok r) by (unfold r; destruct (M - m =? 0)%float; [apply fok_one|exact EF]).
      assert (Pr : 0 < fv r). { unfold r. destruct (fsub_fin _ _ EF) as (_ & _ & Ss). destruct (fsub_ok _ _ FM Fm Ss) as [_ Es]. pose proof (feqb _ _ EF fok_zero) as Q. destruct (M - m =? 0)%float; [rewrite fv_one; lra|].
        rewrite fv_zero in Q. pose proof (rnd_nn (fv M - fv m)). rewrite <- Es in *. destruct (Req_dec (fv (M - m)%float) 0) as [Z|Z]; [apply Q in Z; discriminate|]. lra. }
      destruct (fdiv_fin _ _ Fr F1 (Rgt_not_eq _ _ Pr)) as [A B]. auto.
    - exfalso.
      (* the difference is infinite: the quotient is NaN *)
      assert (EB : Prim2B (M - m)%float = B754_infinity false \/ Prim2B (M - m)%float = B754_infinity true).
      { rewrite sub_equiv. pose proof (Bminus_correct prec emax _ _ mode_NE (Prim2B M) (Prim2B m)) as K. apply fok_B in FM, Fm. specialize (K FM Fm).
        destruct (small_cases (B2R (Prim2B M) - B2R (Prim2B m))) as [S|S].
        - rewrite small_bool in K by exact S. destruct K as (_ & K & _). rewrite <- sub_equiv in K. rewrite is_finite_equiv in EF. congruence.
        - rewrite S in K. destruct K as [K _]. apply inf_overflow_s in K. rewrite K. destruct (Bsign (Prim2B M)); auto. }
      apply fok_B in F1. rewrite div_equiv, mul_equiv in F1.
      assert (ER : Prim2B r = Prim2B (M - m)%float). { unfold r. assert (Q : (M - m =? 0)%float = false); [|rewrite Q; auto]. rewrite eqb_equiv. change 0%float with PrimFloat.zero. rewrite Prim2B_zero. destruct EB as [-> | ->]; reflexivity. }
      rewrite ER in F1. destruct EB as [E|E]; rewrite E in F1; destruct (Prim2B (hi - lo)%float) as [[]|[]| |[]]; simpl in F1; discriminate. }
  destruct HN as (FN & Fr & Pr & SQ). destruct (fmul_fin _ _ FN) as (FD & FW & SM). destruct (fsub_fin _ _ FD) as (_ & _ & SD).
  destruct (fsub_fin _ _ FW) as (_ & _ & SW). destruct (fsub_ok _ _ FM Fm SD) as [_ ED]. destruct (fsub_ok _ _ Fh Fl SW) as [_ EW]. destruct (fmul_ok _ _ FD FW SM) as [_ EM].
  destruct (fdiv_ok _ _ FN (Rgt_not_eq _ _ Pr) SQ) as [FQ EQ]. set (w := fv (hi - lo)%float) in *. assert (Hw : 0 <= w) by (rewrite EW; apply rnd_nn; lra).
  assert (IP : 0 <= / fv r) by (left; apply Rinv_0_lt_compat; auto).
  exists (fun a => rnd (rnd (rnd (a * w) / fv r) + fv lo)). split; [|split].
  - intros a b Hab. apply rnd_le, Rplus_le_compat_r, rnd_le, Rmult_le_compat_r; auto. apply rnd_le, Rmult_le_compat_r; auto.
  - rewrite Rmult_0_l, rnd_0. unfold Rdiv. rewrite Rmult_0_l, rnd_0, Rplus_0_l. apply rnd_fv.
  - intros x Fx Hx. destruct (fsub_ok x m Fx Fm) as [F2 E2]; [apply (small_between _ (fv M - fv m)); [lra|auto]|].
    assert (B2 : 0 <= fv (x - m)%float <= fv (M - m)%float). { rewrite E2, ED. split; [apply rnd_nn; lra|apply rnd_le; lra]. }
    assert (P3 : 0 <= fv (x - m)%float * w <= fv (M - m)%float * w) by (split; [apply Rmult_le_pos; lra|apply Rmult_le_compat_r; lra]).
    destruct (fmul_ok (x - m)%float (hi - lo)%float F2 FW) as [F3 E3]; [apply (small_between _ (fv (M - m)%float * w)); auto|].
    assert (B3 : 0 <= fv ((x - m) * (hi - lo))%float <= fv ((M - m) * (hi - lo))%float). { rewrite E3, EM. fold w. split; [apply rnd_nn; lra|apply rnd_le; lra]. }
    assert (P4 : 0 <= fv ((x - m) * (hi - lo))%float / fv r <= fv ((M - m) * (hi - lo))%float / fv r) by (unfold Rdiv; split; [apply Rmult_le_pos; lra|apply Rmult_le_compat_r; lra]).
    destruct (fdiv_ok ((x - m) * (hi - lo))%float r F3 (Rgt_not_eq _ _ Pr)) as [F4 E4]; [apply (small_between _ (fv ((M - m) * (hi - lo))%float / fv r)); auto|].
    assert (B4 : 0 <= fv ((x - m) * (hi - lo) / r)%float <= fv ((M - m) * (hi - lo) / r)%float). { rewrite E4, EQ. split; [apply rnd_nn; lra|apply rnd_le; lra]. }
    assert (S5 : small (fv ((x - m) * (hi - lo) / r)%float + fv lo)).
    { unfold small in *. assert (U : rnd (fv ((x - m) * (hi - lo) / r)%float + fv lo) <= rnd (fv ((M - m) * (hi - lo) / r)%float + fv lo)) by (apply rnd_le; lra).
      assert (D : rnd (fv lo) <= rnd (fv ((x - m) * (hi - lo) / r)%float + fv lo)) by (apply rnd_le; lra). pose proof (small_fv lo) as SL. unfold small in SL.
      apply Rabs_def1; [apply Rabs_def2 in S1; lra|apply Rabs_def2 in SL; lra]. }
    destruct (fadd_ok _ _ F4 Fl S5) as [F5 E5]. split; auto. rewrite E5, E4, E3, E2. reflexivity.
Qed.
Lemma sub_self m : fok m -> rnd (fv m - fv m) = 0.
Proof. intros _. replace (fv m - fv m) with 0 by ring. apply rnd_0. Qed.
Lemma range_ok lo hi : (lo <? hi)%float = true -> (hi <=? lo)%float = false.
Proof. rewrite ltb_equiv, leb_equiv. unfold Bltb, Bleb, SpecFloat.SFltb, SpecFloat.SFleb. intros H. destruct (SpecFloat.SFcompare (B2SF (Prim2B lo)) (B2SF (Prim2B hi))) as [[]|] eqn:E; try discriminate.
  assert (K : SpecFloat.SFcompare (B2SF (Prim2B hi)) (B2SF (Prim2B lo)) = Some Gt). { pose proof (Bcompare_swap prec emax (Prim2B lo) (Prim2B hi)) as Q. unfold Bcompare in Q. rewrite E in Q. exact Q. }
  rewrite K. auto.
Qed.

(** ** C174 *)
(** Unless the image of the largest value overflows: no image is below the lower bound, the
    smallest value has exactly that image, order is kept, and missing values stay missing. *)
Theorem C174_order lo hi l : (lo <? hi)%float = true -> PrimFloat.is_finite lo = true -> PrimFloat.is_finite hi = true -> observed l -> (exists x, In x l /\ PrimFloat.is_finite x = true) ->
  exists m M f, extremes l m M /\ fmm_group lo hi l = Some (map f l) /\
    (PrimFloat.is_finite (f M) = true ->
     (f m =? lo)%float = true /\ (forall x, In x l -> PrimFloat.is_nan x = true -> PrimFloat.is_nan (f x) = true) /\
     (forall x, In x l -> PrimFloat.is_finite x = true -> PrimFloat.is_finite (f x) = true /\ (lo <=? f x)%float = true) /\
     (forall x y, In x l -> In y l -> PrimFloat.is_finite x = true -> PrimFloat.is_finite y = true -> (x <=? y)%float = true -> (f x <=? f y)%float = true)).
Proof.
  intros Hlt Fl Fh O NE. pose proof (min_max_spec l O NE) as E. exists (fnanmin l), (fnanmax l), (fmm_value lo hi (fnanmin l) (fnanmax l)). split; auto. split; [unfold fmm_group; rewrite range_ok; auto|].
  destruct E as (Im & IM & Fm & FM & B). intros FI. assert (BB : forall x, In x l -> fok x -> fv (fnanmin l) <= fv x <= fv (fnanmax l)).
  { intros x Ix Fx. destruct (B x Ix Fx) as [A C]. apply fleb in A; auto. apply fleb in C; auto. }
  apply fltb in Hlt; auto. destruct (value_spec lo hi (fnanmin l) (fnanmax l) Fm FM Fl Fh) as (g & Mg & G0 & V); auto; [apply (BB _ Im Fm)|].
  split; [|split; [|split]].
  - destruct (V (fnanmin l) Fm (BB _ Im Fm)) as [F1 E1]. apply feqb; auto. rewrite E1, sub_self by auto. auto.
  - intros x _ Nx. unfold fmm_value. apply fadd_nan, fdiv_nan, fmul_nan, fsub_nan. auto.
  - intros x Ix Fx. destruct (V x Fx (BB _ Ix Fx)) as [F1 E1]. split; auto. apply fleb; auto. rewrite E1, <- G0. apply Mg. apply rnd_nn. pose proof (BB x Ix Fx). lra.
  - intros x y Ix Iy Fx Fy H. apply fleb in H; auto. destruct (V x Fx (BB _ Ix Fx)) as [F1 E1]. destruct (V y Fy (BB _ Iy Fy)) as [F2 E2]. apply fleb; auto. rewrite E1, E2. apply Mg, rnd_le. lra.
Qed.
Print Assumptions C174_order.
(** With the default range (0, 1) all images lie in it, and both bounds are met exactly by a series
    that is not constant, provided that the difference of the extremes is finite. *)
Theorem C174_default l : observed l -> (exists x, In x l /\ PrimFloat.is_finite x = true) ->
  exists m M f, extremes l m M /\ fmm_group 0 1 l = Some (map f l) /\
    (PrimFloat.is_finite (M - m) = true ->
     (f m =? 0)%float = true /\ ((m <? M)%float = true -> (f M =? 1)%float = true) /\
     forall x, In x l -> PrimFloat.is_finite x = true -> (0 <=? f x)%float = true /\ (f x <=? 1)%float = true).
Proof.
  intros O NE. pose proof (min_max_spec l O NE) as E. exists (fnanmin l), (fnanmax l), (fmm_value 0 1 (fnanmin l) (fnanmax l)). split; auto. split; [unfold fmm_group; rewrite range_ok; auto|].
  destruct E as (Im & IM & Fm & FM & B). intros FD. set (m := fnanmin l) in *. set (M := fnanmax l) in *. assert (BB : forall x, In x l -> fok x -> fv m <= fv x <= fv M).
  { intros x Ix Fx. destruct (B x Ix Fx) as [A C]. apply fleb in A; auto. apply fleb in C; auto. }
  pose proof (BB _ Im Fm) as HmM. destruct (fsub_fin _ _ FD) as (_ & _ & SD). destruct (fsub_ok _ _ FM Fm SD) as [_ ED].
  assert (W : (1 - 0)%float = 1%float) by reflexivity.
  assert (V : fok (fmm_value 0 1 m M M) /\ fv (fmm_value 0 1 m M M) = if Req_EM_T (fv m) (fv M) then 0 else 1).
  { unfold fmm_value. rewrite W. set (r := if (M - m =? 0)%float then 1%float else (M - m)%float).
    assert (R1 : rnd (fv (M - m)%float) = fv (M - m)%float) by apply rnd_fv.
    destruct (fmul_ok (M - m)%float 1%float FD fok_one) as [F1 E1]; [rewrite fv_one, Rmult_1_r; apply small_fv|]. rewrite fv_one, Rmult_1_r, R1 in E1.
    assert (Q : fok ((M - m) * 1 / r)%float /\ fv ((M - m) * 1 / r)%float = if Req_EM_T (fv m) (fv M) then 0 else 1).
    { pose proof (feqb _ _ FD fok_zero) as Z. rewrite fv_zero in Z. unfold r. destruct (Req_EM_T (fv m) (fv M)) as [EQ|NQ].
      - assert (Z0 : fv (M - m)%float = 0) by (rewrite ED; replace (fv M - fv m) with 0 by lra; apply rnd_0). destruct (M - m =? 0)%float; [|apply Z in Z0; discriminate].
        destruct (fdiv_ok ((M - m) * 1)%float 1%float F1) as [F2 E2]; [rewrite fv_one; lra|rewrite fv_one, E1, Z0; unfold Rdiv; rewrite Rmult_0_l, <- fv_zero; apply small_fv|].
        split; auto. rewrite E2, fv_one, E1, Z0. unfold Rdiv. rewrite Rmult_0_l. apply rnd_0.
      - assert (Z0 : fv (M - m)%float <> 0) by (intros Z0; rewrite ED in Z0; apply sub_zero in Z0; lra). destruct (M - m =? 0)%float; [exfalso; apply Z0, Z; auto|].
        assert (X : fv ((M - m) * 1)%float / fv (M - m)%float = fv 1) by (rewrite E1, fv_one; field; auto).
        destruct (fdiv_ok ((M - m) * 1)%float (M - m)%float F1 Z0) as [F2 E2]; [rewrite X; apply small_fv|]. split; auto. rewrite E2, X, rnd_fv. apply fv_one. }
    destruct Q as [F2 E2]. destruct (fadd_ok ((M - m) * 1 / r)%float 0%float F2 fok_zero) as [F3 E3]; [rewrite fv_zero, Rplus_0_r; apply small_fv|]. split; auto. rewrite E3, fv_zero, Rplus_0_r, rnd_fv. auto. }
  destruct V as [FV EV]. destruct (value_spec 0 1 m M Fm FM fok_zero fok_one) as (g & Mg & G0 & V); auto; [lra|rewrite fv_zero, fv_one; lra|].
  split; [|split].
  - destruct (V m Fm HmM) as [F1 E1]. apply feqb; auto; [apply fok_zero|]. rewrite E1, sub_self by auto. auto.
  - intros L. apply fltb in L; auto. apply feqb; auto; [apply fok_one|]. rewrite EV, fv_one. destruct (Req_EM_T (fv m) (fv M)); [lra|auto].
  - intros x Ix Fx. pose proof (BB x Ix Fx). destruct (V x Fx (BB _ Ix Fx)) as [F1 E1]. destruct (V M FM (BB _ IM FM)) as [F2 E2]. split; apply fleb; auto; try apply fok_zero; try apply fok_one; rewrite E1.
    + rewrite <- G0. apply Mg, rnd_nn. lra.
    + rewrite fv_one. apply Rle_trans with (fv (fmm_value 0 1 m M M)); [rewrite E2; apply Mg, rnd_le; lra|]. rewrite EV. destruct (Req_EM_T (fv m) (fv M)); lra.
Qed.
Print Assumptions C174_default.
(** Other ranges are left: in (-0.7, 0.4) the largest value of the series (0, 1) gets more than
    0.4; a series with extremes too far apart becomes NaN; one with extremes too close together
    does not reach the upper bound. *)
Theorem C174_refuted :
  (exists y, fmm_group (-0.7) 0.4 [0; 1]%float = Some [-0.7; y]%float /\ (0.4 <? y)%float = true) /\
  (exists y, fmm_group 0 1 [-1e308; 1e308; 0]%float = Some y /\ forall v, In v y -> v = 0%float \/ PrimFloat.is_nan v = true) /\
  fmm_group 0 0.5 [0; 0x1p-1074]%float = Some [0; 0]%float.
Proof.
  split; [eexists; split; [vm_compute; reflexivity|vm_compute; reflexivity]|]. split; [eexists; split; [vm_compute; reflexivity|]|vm_compute; reflexivity].
  intros v Hv. cbn [In] in Hv. decompose [or] Hv; subst; try tauto; vm_compute; auto.
Qed.
Print Assumptions C174_refuted.
Example C174_nontrivial : observed [3; nan; 1; 2]%float /\ fmm_group 0 1 [3; nan; 1; 2]%float = Some [1; nan; 0; 0.5]%float.
Proof. split; [|vm_compute; reflexivity]. intros x Hx. cbn [In] in Hx. decompose [or] Hx; subst; vm_compute; auto. Qed.

(** ** C175 *)
(** [sum] adds the entries in some order *)
Definition sums (sum : list PrimFloat.float -> PrimFloat.float) : Prop := forall l, added l (sum l).
Lemma perm_repeat (c : PrimFloat.float) k l1 l2 : Permutation (repeat c k) (l1 ++ l2) -> exists k1 k2, l1 = repeat c k1 /\ l2 = repeat c k2 /\ (k = k1 + k2)%nat.
Proof.
  intros H. assert (A : forall x, In x (l1 ++ l2) -> x = c) by (intros x Hx; apply (repeat_spec k c); apply (Permutation_in _ (Permutation_sym H)); auto).
  assert (R : forall l, (forall x, In x l -> x = c) -> l = repeat c (length l)). { induction l as [|x l IH]; intros Hl; auto. cbn [length repeat]. f_equal; [apply Hl; left; auto|apply IH; intros; apply Hl; right; auto]. }
  exists (length l1), (length l2). split; [apply R; intros; apply A, in_or_app; auto|]. split; [apply R; intros; apply A, in_or_app; auto|].
  apply Permutation_length in H. rewrite repeat_length, app_length in H. auto.
Qed.
Lemma three_sum s : added [0.1; 0.1; 0.1]%float s -> s = 0.30000000000000004%float.
Proof.
  intros H. assert (K : forall l s, added l s -> forall k, (k <= 3)%nat -> l = repeat 0.1%float k -> s = nth k [0; 0.1; 0.2; 0.30000000000000004]%float 0%float).
  { clear. induction 1 as [|x|l1 l2 l a b H1 IH1 H2 IH2 P]; intros k Hk E.
    - destruct k; [reflexivity|discriminate].
    - destruct k as [|[|k]]; try discriminate. cbn in E. injection E as ->. reflexivity.
    - subst l. apply perm_repeat in P. destruct P as (k1 & k2 & -> & -> & ->). rewrite (IH1 k1), (IH2 k2) by (auto; lia).
      destruct k1 as [|[|[|[|k1]]]]; destruct k2 as [|[|[|[|k2]]]]; try lia; vm_compute; reflexivity. }
  apply (K _ _ H 3%nat); auto.
Qed.
Definition eps0 : PrimFloat.float := Eval vm_compute in ((0.1 - 0.30000000000000004 / 3) * (0.1 - 0.30000000000000004 / 3))%float.
Lemma three_sq s : added [eps0; eps0; eps0] s -> exists e, In e [(eps0 + eps0 + eps0)%float] /\ s = e.
Proof.
  intros H. assert (K : forall l s, added l s -> forall k, (k <= 3)%nat -> l = repeat eps0 k -> s = nth k [0; eps0; eps0 + eps0; eps0 + eps0 + eps0]%float 0%float).
  { clear. induction 1 as [|x|l1 l2 l a b H1 IH1 H2 IH2 P]; intros k Hk E.
    - destruct k; [reflexivity|discriminate].
    - destruct k as [|[|k]]; try discriminate. cbn in E. injection E as ->. reflexivity.
    - subst l. apply perm_repeat in P. destruct P as (k1 & k2 & -> & -> & ->). rewrite (IH1 k1), (IH2 k2) by (auto; lia).
      destruct k1 as [|[|[|[|k1]]]]; destruct k2 as [|[|[|[|k2]]]]; try lia; vm_compute; reflexivity. }
  exists (eps0 + eps0 + eps0)%float. split; [left; auto|]. apply (K _ _ H 3%nat); auto.
Qed.
(** The constant series (0.1, 0.1, 0.1) is scaled to (-1, -1, -1) instead of (0, 0, 0), in whatever order the sums are taken. *)
Theorem C175_refuted : forall sum, sums sum -> fmv_group sum 0 1 [0.1; 0.1; 0.1]%float = [-1; -1; -1]%float.
Proof.
  intros sum H. unfold fmv_group, fnanstd, fnanmean. replace (numbers_of [0.1; 0.1; 0.1]%float) with [0.1; 0.1; 0.1]%float by (vm_compute; reflexivity).
  rewrite (three_sum (sum [0.1; 0.1; 0.1]%float)) by apply H. replace (fcount [0.1; 0.1; 0.1]%float) with 3%float by (vm_compute; reflexivity).
  cbn [map]. replace ((0.1 - 0.30000000000000004 / 3) * (0.1 - 0.30000000000000004 / 3))%float with eps0 by (vm_compute; reflexivity).
  destruct (three_sq (sum [eps0; eps0; eps0]) (H _)) as (e & [<-|[]] & ->). vm_compute. reflexivity.
Qed.
Print Assumptions C175_refuted.
(** A constant series of [n] times the integer [z], [n * |z| < 2^53], is scaled to [mu]. *)
Lemma added_ints c z : fok c -> fv c = IZR z -> forall l s, added l s -> forall k, (Z.of_nat k * Z.abs z < 2 ^ 53)%Z -> l = repeat c k -> fok s /\ fv s = IZR (Z.of_nat k * z).
Proof.
  intros Fc Ec. induction 1 as [|x|l1 l2 l a b H1 IH1 H2 IH2 P]; intros k Hk E.
  - destruct k; [|discriminate]. split; [apply fok_zero|]. rewrite fv_zero. auto.
  - destruct k as [|[|k]]; try discriminate. cbn in E. injection E as ->. split; auto. rewrite Ec. f_equal. lia.
  - subst l. apply perm_repeat in P. destruct P as (k1 & k2 & -> & -> & ->). destruct (IH1 k1) as [F1 E1]; [nia|auto|]. destruct (IH2 k2) as [F2 E2]; [nia|auto|].
    assert (Q : fv a + fv b = IZR (Z.of_nat (k1 + k2) * z)) by (rewrite E1, E2, <- plus_IZR; f_equal; lia). assert (B : (Z.abs (Z.of_nat (k1 + k2) * z) < 2 ^ 53)%Z) by nia.
    destruct (fadd_ok a b F1 F2) as [F3 E3]; [rewrite Q; apply int_small; auto|]. split; auto. rewrite E3, Q. apply int_rnd. auto.
Qed.
Lemma added_zeros : forall l s, added l s -> (forall x, In x l -> fok x /\ fv x = 0) -> fok s /\ fv s = 0.
Proof.
  induction 1 as [|x|l1 l2 l a b H1 IH1 H2 IH2 P]; intros H.
  - split; [apply fok_zero|apply fv_zero].
  - apply H. left. auto.
  - assert (K : forall x, In x (l1 ++ l2) -> fok x /\ fv x = 0) by (intros x Hx; apply H; apply (Permutation_in _ (Permutation_sym P)); auto).
    destruct IH1 as [F1 E1]; [intros; apply K, in_or_app; auto|]. destruct IH2 as [F2 E2]; [intros; apply K, in_or_app; auto|].
    destruct (fadd_ok a b F1 F2) as [F3 E3]; [rewrite E1, E2, Rplus_0_l, <- fv_zero; apply small_fv|]. split; auto. rewrite E3, E1, E2, Rplus_0_l. apply rnd_0.
Qed.
Lemma zero_small : small 0.
Proof. rewrite <- fv_zero. apply small_fv. Qed.
Lemma nan_left x y : PrimFloat.is_nan x = true -> (PrimFloat.is_nan (x + y) = true /\ PrimFloat.is_nan (x - y) = true /\ PrimFloat.is_nan (x * y) = true /\ PrimFloat.is_nan (x / y) = true)%float.
Proof.
  assert (N : forall t, PrimFloat.is_nan t = true <-> Prim2SF t = S754_nan).
  { intros t. unfold PrimFloat.is_nan. rewrite FloatAxioms.eqb_spec. destruct (Prim2SF t) as [[|]|[|]| |[|] m e] eqn:E; cbn; try (split; [discriminate|discriminate]); try (split; auto; fail).
    all: unfold SFeqb, SFcompare; rewrite ?Z.compare_refl, ?Pos.compare_cont_refl; cbn; split; discriminate. }
  rewrite !N. intros E. rewrite FloatAxioms.add_spec, FloatAxioms.sub_spec, FloatAxioms.mul_spec, FloatAxioms.div_spec, E. cbn. auto.
Qed.
(** the padding of shorter series stays NaN and does not count *)
Theorem C175_integers sum mu std c z l : sums sum -> PrimFloat.is_finite mu = true -> PrimFloat.is_finite std = true ->
  PrimFloat.is_finite c = true -> fv c = IZR z -> (forall x, In x l -> x = c \/ PrimFloat.is_nan x = true) ->
  (Z.of_nat (List.length l) < 2 ^ 53)%Z -> (Z.of_nat (List.length l) * Z.abs z < 2 ^ 53)%Z ->
  List.length (fmv_group sum mu std l) = List.length l /\
  forall i, (i < List.length l)%nat -> if PrimFloat.is_nan (nth i l 0%float) then PrimFloat.is_nan (nth i (fmv_group sum mu std l) 0%float) = true else (nth i (fmv_group sum mu std l) 0 =? mu)%float = true.
Proof.
  intros HS Fm Fs Fc Ec HL Bn0 Bz0. split; [unfold fmv_group; apply map_length|]. intros i Hi.
  destruct (PrimFloat.is_nan (nth i l 0%float)) eqn:NI.
  { unfold fmv_group. cbv zeta. match goal with |- context [map ?f l] => rewrite (nth_indep (map f l) 0%float (f 0%float)) by (rewrite map_length; auto); rewrite (map_nth f l 0%float i) end. unfold fmv_value. apply nan_left, nan_left, nan_left, nan_left. exact NI. }
  assert (XC : nth i l 0%float = c) by (destruct (HL (nth i l 0%float) (nth_In _ _ Hi)); [auto|congruence]).
  assert (HG : exists n, numbers_of l = repeat c n /\ (1 <= n <= List.length l)%nat).
  { exists (List.length (numbers_of l)). assert (IC : In c (numbers_of l)) by (apply filter_In; split; [rewrite <- XC; apply nth_In; auto|rewrite (fok_notnan c Fc); auto]). split.
    - assert (F : forall x, In x (numbers_of l) -> x = c). { intros x Hx. apply filter_In in Hx. destruct Hx as [Hx Nx]. destruct (HL x Hx) as [|Nx']; auto. rewrite Nx' in Nx. discriminate. }
      clear - F. induction (numbers_of l) as [|x g IH]; [reflexivity|]. cbn [List.length repeat]. rewrite <- IH by (intros; apply F; right; auto). f_equal. apply F. left. auto.
    - split; [destruct (numbers_of l); [destruct IC|cbn; lia]|]. unfold numbers_of. clear. induction l as [|x l IH]; cbn; [lia|]. destruct (negb _); cbn [List.length]; lia. }
  destruct HG as (n & NG & Hn). assert (Bn : (Z.of_nat n < 2 ^ 53)%Z) by lia. assert (Bz : (Z.of_nat n * Z.abs z < 2 ^ 53)%Z) by nia.
  match goal with |- (?y =? mu)%float = true => assert (Hy : exists x, x = c /\ y = (let mean_ := fnanmean sum l in let std_ := fnanstd sum l in let std_ := if (std_ =? 0)%float then 1%float else std_ in fmv_value mu std mean_ std_ x)) end.
  { exists c. split; auto. unfold fmv_group. cbv zeta. match goal with |- context [map ?f l] => rewrite (nth_indep (map f l) 0%float (f 0%float)) by (rewrite map_length; auto); rewrite (map_nth f l 0%float i) end. rewrite XC. reflexivity. }
  destruct Hy as (x & -> & ->). cbv zeta. set (g := repeat c n) in *. assert (L : List.length g = n) by apply repeat_length.
  destruct (added_ints c z Fc Ec g (sum g) (HS g) n Bz eq_refl) as [F1 E1].
  destruct (fcount_spec (Z.of_nat n)) as [F2 E2]; [lia|]. assert (N0 : IZR (Z.of_nat n) <> 0) by (apply not_0_IZR; lia).
  assert (M : fok (fnanmean sum l) /\ fv (fnanmean sum l) = IZR z).
  { unfold fnanmean. cbv zeta. rewrite NG. unfold fcount. rewrite L. assert (Q : fv (sum g) / fv (of_uint63 (of_Z (Z.of_nat n))) = fv c) by (rewrite E1, E2, Ec, mult_IZR; field; auto).
    destruct (fdiv_ok (sum g) (of_uint63 (of_Z (Z.of_nat n))) F1) as [F3 E3]; [rewrite E2; auto|rewrite Q; apply small_fv|]. split; auto. rewrite E3, Q, rnd_fv. auto. }
  destruct M as [FM EM]. set (mean := fnanmean sum l) in *.
  assert (D : fok (c - mean)%float /\ fv (c - mean)%float = 0).
  { destruct (fsub_ok c mean Fc FM) as [F3 E3]; [rewrite Ec, EM, Rminus_diag_eq by auto; apply zero_small|]. split; auto. rewrite E3, Ec, EM, Rminus_diag_eq by auto. apply rnd_0. }
  destruct D as [FD ED].
  assert (SD : fok (fnanstd sum l) /\ fv (fnanstd sum l) = 0).
  { unfold fnanstd. cbv zeta. fold mean. rewrite NG. unfold fcount. rewrite L. destruct (added_zeros _ _ (HS (map (fun x => ((x - mean) * (x - mean))%float) g))) as [F4 E4].
    { intros x Hx. apply in_map_iff in Hx. destruct Hx as (x' & <- & Hx'). apply repeat_spec in Hx'. subst x'. destruct (fmul_ok (c - mean)%float (c - mean)%float FD FD) as [F5 E5]; [rewrite ED, Rmult_0_l; apply zero_small|].
      split; auto. rewrite E5, ED, Rmult_0_l. apply rnd_0. }
    destruct (fdiv_ok (sum (map (fun x => ((x - mean) * (x - mean))%float) g)) (of_uint63 (of_Z (Z.of_nat n))) F4) as [F6 E6]; [rewrite E2; auto|rewrite E4; unfold Rdiv; rewrite Rmult_0_l; apply zero_small|].
    rewrite E4 in E6. unfold Rdiv in E6. rewrite Rmult_0_l, rnd_0 in E6. apply fsqrt_zero; auto. }
  destruct SD as [FSD ESD]. assert (Z1 : (fnanstd sum l =? 0)%float = true) by (apply (feqb _ _ FSD fok_zero); rewrite fv_zero; auto). rewrite Z1. unfold fmv_value.
  destruct (fmul_ok (c - mean)%float std FD Fs) as [F5 E5]; [rewrite ED, Rmult_0_l; apply zero_small|]. rewrite ED, Rmult_0_l, rnd_0 in E5.
  destruct (fdiv_ok ((c - mean) * std)%float 1%float F5) as [F6 E6]; [rewrite fv_one; lra|rewrite E5; unfold Rdiv; rewrite Rmult_0_l; apply zero_small|]. rewrite E5 in E6. unfold Rdiv in E6. rewrite Rmult_0_l, rnd_0 in E6.
  destruct (fadd_ok ((c - mean) * std / 1)%float mu F6 Fm) as [F7 E7]; [rewrite E6, Rplus_0_l; apply small_fv|]. apply (feqb _ _ F7 Fm). rewrite E7, E6, Rplus_0_l. apply rnd_fv.
Qed.
Print Assumptions C175_integers.
(** orders of summation exist; the constant series (3, 3, NaN, 3) becomes (5, 5, NaN, 5) *)
Example C175_nontrivial : sums (fold_right PrimFloat.add 0%float) /\ fmv_group (fold_right PrimFloat.add 0%float) 5 2 [3; 3; nan; 3]%float = [5; 5; nan; 5]%float /\ fv 3 = IZR 3.
Proof.
  split; [|split].
  - intros l. induction l as [|x l IH]; [constructor|]. cbn [fold_right]. apply (added_app [x] l); auto. constructor.
  - vm_compute. reflexivity.
  - destruct (fcount_spec 3) as [_ E]; [lia|]. rewrite <- E. f_equal.
Qed.

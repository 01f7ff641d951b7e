(** C176: how far LB_Keogh computed in binary64 can exceed the computed DTW. *)
From Coq Require Import Bool List Arith Lia ZArith Floats Reals Lra Permutation.
From Flocq Require Import Core IEEE754.BinarySingleNaN IEEE754.PrimFloat.
From Verif Require Import Num NumLaws Py Series Masks DtwModel Spec SpecDtw RList RealSeries FloatOps PathSum LbModel PropLb FloatScalerModel FloatLbModel PropFloatScaler PropFloatLb PropFloatDtw.
Import ListNotations.
Local Open Scope R_scope.
#[local] Existing Instance Hprec.
#[local] Existing Instance Hmax.
#[local] Existing Instance vexp.
Notation u := unit_roundoff.
Notation flt := PrimFloat.float.

(** ** Specification *)
Definition finite_floats (l : list flt) : Prop := forall x, In x l -> fok x.
(** any two values of the two series are equal or at least [2^-511] apart *)
Definition separated (q c : list flt) : Prop := forall a b, In a q -> In b c -> fv a = fv b \/ bpow radix2 (-511) <= Rabs (fv a - fv b).

(** ** the envelope of floats is that of the numbers they stand for *)
Lemma slice_map {A B} (f : A -> B) a b l : slice a b (map f l) = map f (slice a b l).
Proof. unfold slice. rewrite skipn_map, firstn_map. reflexivity. Qed.
Lemma window_values c r i : env_window (map fv c) r i = map fv (fwindow c r i).
Proof. unfold env_window, fwindow. rewrite map_length. apply slice_map. Qed.
Lemma window_in c r i x : In x (fwindow c r i) -> In x c.
Proof. unfold fwindow, slice. intros H. assert (G : forall n (l : list flt) y, In y (firstn n l) -> In y l) by (intros n l y Hy; rewrite <- (firstn_skipn n l); apply in_or_app; left; exact Hy). apply G in H.
  rewrite <- (firstn_skipn (i - r) c). apply in_or_app. right. exact H. Qed.
Lemma window_some c r i : (i < length c)%nat -> fwindow c r i <> [].
Proof. intros H E. apply (env_window_ne (map fv c) r i); [rewrite map_length; exact H|]. rewrite window_values, E. reflexivity. Qed.
Lemma extremes_values w : finite_floats w -> w <> [] ->
  In (fnanmin w) w /\ In (fnanmax w) w /\ fv (fnanmin w) = rmin (map fv w) /\ fv (fnanmax w) = rmax (map fv w).
Proof.
  intros F N. destruct (min_max_spec w) as (A & B & C & D & E); [intros x Hx; left; apply F; exact Hx|destruct w as [|x w]; [congruence|]; exists x; split; [left; reflexivity|apply F; left; reflexivity]|].
  assert (NM : map fv w <> []) by (destruct w; [congruence|discriminate]).
  split; [exact A|]. split; [exact B|]. split; apply Rle_antisym.
  - pose proof (rmin_in _ NM) as I. apply in_map_iff in I. destruct I as (x & <- & I). apply fleb; [exact C|exact (F x I)|]. apply (E x I). exact (F x I).
  - apply rmin_le. apply in_map. exact A.
  - apply rmax_ge. apply in_map. exact B.
  - pose proof (rmax_in _ NM) as I. apply in_map_iff in I. destruct I as (x & <- & I). apply fleb; [exact (F x I)|exact D|]. apply (E x I). exact (F x I).
Qed.
Lemma envelope_values c r : finite_floats c ->
  map fv (fst (flb_envelope c r)) = fst (lb_envelope (map fv c) r) /\ map fv (snd (flb_envelope c r)) = snd (lb_envelope (map fv c) r) /\
  (forall x, In x (fst (flb_envelope c r)) -> In x c) /\ (forall x, In x (snd (flb_envelope c r)) -> In x c).
Proof.
  intros F. unfold flb_envelope, lb_envelope. cbn [fst snd]. rewrite !map_map, !map_length.
  assert (G : forall i, In i (seq 0 (length c)) -> finite_floats (fwindow c r i) /\ fwindow c r i <> []).
  { intros i Hi. apply in_seq in Hi. split; [intros x Hx; apply F; exact (window_in c r i x Hx)|apply window_some; lia]. }
  split; [apply map_ext_in; intros i Hi; destruct (G i Hi) as (P & Q); rewrite window_values; apply (extremes_values _ P Q)|].
  split; [apply map_ext_in; intros i Hi; destruct (G i Hi) as (P & Q); rewrite window_values; apply (extremes_values _ P Q)|].
  split; intros x Hx; apply in_map_iff in Hx; destruct Hx as (i & <- & Hi); destruct (G i Hi) as (P & Q); apply (window_in c r i), (extremes_values _ P Q).
Qed.
(** ** the pairs of entries that are selected *)
Definition both (p : flt * flt) : R * R := (fv (fst p), fv (snd p)).
Lemma combine_values (l m : list flt) : combine (map fv l) (map fv m) = map both (combine l m).
Proof. revert m. induction l as [|x l IH]; intros [|y m]; cbn; auto. rewrite IH. reflexivity. Qed.
Lemma filter_values (f : flt * flt -> bool) (g : R * R -> bool) L : (forall p, In p L -> g (both p) = f p) -> filter g (map both L) = map both (filter f L).
Proof. induction L as [|p L IH]; intros H; cbn; auto. rewrite (H p (or_introl eq_refl)). rewrite IH by (intros; apply H; right; auto). destruct (f p); reflexivity. Qed.
Lemma filter_shorter {A} (f : A -> bool) l : (length (filter f l) <= length l)%nat.
Proof. induction l as [|x l IH]; cbn; [lia|]. destruct (f x); cbn; lia. Qed.
Lemma ltb_values a b : fok a -> fok b -> Rltb (fv a) (fv b) = (a <? b)%float.
Proof. intros A B. pose proof (fltb a b A B) as L. unfold Rltb. destruct (Rlt_dec (fv a) (fv b)) as [H|H]; destruct (a <? b)%float; auto; [destruct L as [_ L]; symmetry; auto|elim H; apply L; auto]. Qed.
(** ** sums in any order *)
Lemma near_nil k : near k 0 0.
Proof. split; [lra|]. lra. Qed.
Definition zero_or_normal (x : R) : Prop := x = 0 \/ bpow radix2 (-1022) <= x.
Lemma zero_or_normal_nn x : zero_or_normal x -> 0 <= x.
Proof. intros [->|H]; [lra|]. pose proof (bpow_gt_0 radix2 (-1022)). lra. Qed.
Lemma normal_rnd x : bpow radix2 (-1022) <= x -> bpow radix2 (-1022) <= rnd x.
Proof. intros H. rewrite <- (rnd_fmt (bpow radix2 (-1022))) by (apply fmt_bpow; lia). apply rnd_le. exact H. Qed.
Lemma added_near e l s : added l s -> forall L : list (flt * R), l = map fst L -> fok s ->
  (forall p, In p L -> fok (fst p) -> near e (fv (fst p)) (snd p) /\ zero_or_normal (fv (fst p))) ->
  near (e + length L) (fv s) (rsum (map snd L)) /\ zero_or_normal (fv s).
Proof.
  induction 1 as [|x|l1 l2 l a b H1 IH1 H2 IH2 P]; intros L E Fs HL.
  - destruct L; [|discriminate]. cbn [map rsum]. rewrite fv_zero. split; [apply near_nil|left; reflexivity].
  - destruct L as [|p [|? ?]]; try discriminate. injection E as ->. destruct (HL p (or_introl eq_refl) Fs) as (N & Z). replace (rsum (map snd [p])) with (snd p) by (cbn; ring). split; [|exact Z].
    eapply near_weaken; [|exact N]. lia.
  - subst l. apply Permutation_sym in P. apply Permutation_map_inv in P. destruct P as (L' & E' & P). symmetry in E'. apply map_eq_app in E'. destruct E' as (L1 & L2 & -> & E1 & E2).
    destruct (fadd_fin _ _ Fs) as (Fa & Fb & Sm). destruct (fadd_ok _ _ Fa Fb Sm) as (_ & V). rewrite V.
    destruct (IH1 L1 (eq_sym E1) Fa) as (N1 & Z1); [intros p Hp; apply HL; apply (Permutation_in _ (Permutation_sym P)); apply in_or_app; left; exact Hp|].
    destruct (IH2 L2 (eq_sym E2) Fb) as (N2 & Z2); [intros p Hp; apply HL; apply (Permutation_in _ (Permutation_sym P)); apply in_or_app; right; exact Hp|].
    assert (RS : rsum (map snd L) = rsum (map snd L1) + rsum (map snd L2)).
    { rewrite <- rsum_app, <- map_app. apply rsum_perm. apply Permutation_map. exact P. }
    rewrite RS, (Permutation_length P), app_length. clear RS.
    split.
    + destruct L1 as [|p1 L1]; [|destruct L2 as [|p2 L2]].
      * cbn [map] in E1. subst l1. rewrite (added_nil_inv _ _ H1 eq_refl) in *. rewrite fv_zero, Rplus_0_l, rnd_fv. cbn [map rsum length]. rewrite Rplus_0_l. exact N2.
      * cbn [map] in E2. subst l2. rewrite (added_nil_inv _ _ H2 eq_refl) in *. rewrite fv_zero, Rplus_0_r, rnd_fv. cbn [map rsum length]. rewrite Rplus_0_r, Nat.add_0_r. exact N1.
      * pose proof (rnd_sum (fv a) (fv b) (fv_fmt a) (fv_fmt b)) as Ep.
        assert (N : near (e + length L1 + length L2 + 1) (fv a + fv b) (rsum (map snd (p1 :: L1)) + rsum (map snd (p2 :: L2)))).
        { apply near_add; [eapply near_weaken; [|exact N1]|eapply near_weaken; [|exact N2]]; cbn [length]; lia. }
        pose proof (near_step _ _ _ _ N Ep) as NS. eapply near_weaken; [|exact NS]. cbn [length]. lia.
    + destruct Z1 as [Z1|Z1]; [rewrite Z1, Rplus_0_l, rnd_fv; exact Z2|]. right. apply normal_rnd. pose proof (zero_or_normal_nn _ Z2). lra.
Qed.
(** ** squares and roots *)
Lemma square_near a b : fok a -> fok b -> fv a = fv b \/ bpow radix2 (-511) <= Rabs (fv a - fv b) -> fok ((a - b) * (a - b))%float ->
  near 3 (fv ((a - b) * (a - b))%float) ((fv a - fv b) * (fv a - fv b)) /\ zero_or_normal (fv ((a - b) * (a - b))%float).
Proof.
  intros Fa Fb S F. destruct (fmul_fin _ _ F) as (Fd & _ & Sm). destruct (fmul_ok _ _ Fd Fd Sm) as (_ & V). destruct (fsub_fin _ _ Fd) as (_ & _ & Sd). destruct (fsub_ok _ _ Fa Fb Sd) as (_ & Vd).
  rewrite V, Vd. split; [apply near_sq; [apply fok_B; exact Fa|apply fok_B; exact Fb|exact S]|].
  destruct S as [S|S]; [left; rewrite S, Rminus_diag_eq, rnd_0, Rmult_0_r by reflexivity; apply rnd_0|]. right. apply normal_rnd.
  assert (A : bpow radix2 (-511) <= Rabs (rnd (fv a - fv b))).
  { apply (abs_round_ge_generic radix2 (FLT_exp (-1074) prec) ZnearestE); [apply fmt_bpow; lia|exact S]. }
  pose proof (bpow_gt_0 radix2 (-511)). change (-1022)%Z with (-511 + -511)%Z. rewrite bpow_plus. rewrite <- (Rabs_pos_eq (rnd _ * rnd _)) by apply Rle_0_sqr. rewrite Rabs_mult. apply Rmult_le_compat; lra.
Qed.
Lemma fsqrt_fin x : fok (PrimFloat.sqrt x) -> fok x /\ fv (PrimFloat.sqrt x) = rnd (sqrt (fv x)).
Proof.
  intros F. apply fok_B in F. rewrite sqrt_equiv in F. destruct (Bsqrt_correct prec emax Hprec Hmax mode_NE (Prim2B x)) as (V & G & _).
  split; [|unfold fv; rewrite sqrt_equiv; exact V]. apply fok_B. rewrite G in F. destruct (Prim2B x) as [s|s| |[|] m e H]; auto.
Qed.
Lemma near_root K k g W : (K + 2 <= 2 * k)%nat -> 0 <= g -> fmt g -> near K g W -> near k (rnd (sqrt g)) (sqrt W).
Proof.
  intros HK P F (HW & L & U). assert (X : exists e, Rabs e <= u /\ rnd (sqrt g) = sqrt g * (1 + e)).
  { destruct (Req_dec g 0) as [->|NZ]; [exists 0; rewrite sqrt_0, rnd_0, Rabs_R0; split; [apply Rlt_le, u_pos|ring]|].
    apply rnd_normal. assert (M : bpow radix2 (-1074) <= g).
    { rewrite <- (Rabs_pos_eq g) by exact P. apply (generic_format_ge_bpow radix2 (FLT_exp (-1074) prec)); [intros x; unfold FLT_exp; lia|rewrite Rabs_pos_eq by exact P; lra|]. apply generic_format_abs. exact F. }
    rewrite Rabs_pos_eq by apply sqrt_pos. apply sqrt_le_1_alt in M. eapply Rle_trans; [|exact M]. change (-1074)%Z with (-537 + -537)%Z. rewrite bpow_plus, sqrt_square by apply bpow_ge_0. apply bpow_le. lia. }
  destruct k as [|k]; [lia|]. apply (near_step k (sqrt g)); [|exact X]. split; [apply sqrt_pos|]. split.
  - rewrite <- (sqrt_square ((1 - u) ^ k)) by (apply Rlt_le, down_pos). rewrite <- sqrt_mult_alt by (apply Rmult_le_pos; apply Rlt_le, down_pos). apply sqrt_le_1_alt. eapply Rle_trans; [|exact L]. apply Rmult_le_compat_r; [exact HW|].
    rewrite <- pow_add. apply pow_down. lia.
  - rewrite <- (sqrt_square ((1 + u) ^ k)) by (pose proof (up_pos k); lra). rewrite <- sqrt_mult_alt by (apply Rmult_le_pos; pose proof (up_pos k); lra). apply sqrt_le_1_alt. eapply Rle_trans; [exact U|]. apply Rmult_le_compat_r; [exact HW|].
    rewrite <- pow_add. apply pow_up. lia.
Qed.
Lemma near_mul k g h r t : near k g r -> near k h t -> near (k + k) (g * h) (r * t).
Proof.
  intros N N'. pose proof (near_nonneg _ _ _ N). pose proof (near_nonneg _ _ _ N'). destruct N as (P & L & U), N' as (P' & L' & U'). pose proof (down_pos k). pose proof (up_pos k).
  split; [apply Rmult_le_pos; assumption|]. rewrite !pow_add. split.
  - replace ((1 - u) ^ k * (1 - u) ^ k * (r * t)) with ((1 - u) ^ k * r * ((1 - u) ^ k * t)) by ring. apply Rmult_le_compat; try assumption; apply Rmult_le_pos; lra.
  - replace ((1 + u) ^ k * (1 + u) ^ k * (r * t)) with ((1 + u) ^ k * r * ((1 + u) ^ k * t)) by ring. apply Rmult_le_compat; assumption.
Qed.
(** the norm of the differences of the selected pairs, multiplied by itself *)
Lemma norm_near sum (L : list (flt * flt)) n k : sums sum -> (length L <= n)%nat -> (n + 5 <= 2 * k)%nat ->
  (forall p, In p L -> fok (fst p) /\ fok (snd p) /\ (fv (fst p) = fv (snd p) \/ bpow radix2 (-511) <= Rabs (fv (fst p) - fv (snd p)))) ->
  let w := fnorm sum (map (fun p => (fst p - snd p)%float) L) in
  let W := norm (map (fun p => fst p - snd p) (map both L)) in
  fok (w * w)%float -> near (S (k + k)) (fv (w * w)%float) (W * W).
Proof.
  intros HS HL HK HP w W F. destruct (fmul_fin _ _ F) as (Fw & _ & Sm). destruct (fmul_ok _ _ Fw Fw Sm) as (_ & V). rewrite V. unfold w, fnorm in Fw. rewrite map_map in Fw.
  set (s := sum (map (fun p : flt * flt => ((fst p - snd p) * (fst p - snd p))%float) L)) in *. destruct (fsqrt_fin s Fw) as (Fs & Vs).
  set (M := map (fun p : flt * flt => (((fst p - snd p) * (fst p - snd p))%float, (fv (fst p) - fv (snd p)) * (fv (fst p) - fv (snd p)))) L).
  assert (AN : near (3 + length M) (fv s) (rsum (map snd M)) /\ zero_or_normal (fv s)).
  { apply (added_near 3 _ s (HS _) M); [unfold M; rewrite map_map; reflexivity|exact Fs|]. intros p Hp Fp. apply in_map_iff in Hp. destruct Hp as (p' & <- & Hp). cbn [fst snd] in *. destruct (HP p' Hp) as (A & B & C). apply square_near; assumption. }
  destruct AN as (N & Z). unfold M in N at 1. rewrite map_length in N.
  assert (EW : W * W = rsum (map snd M)). { unfold W. rewrite norm_sq. unfold M. rewrite !map_map. reflexivity. }
  assert (Vw : fv w = rnd (sqrt (fv s))). { unfold w, fnorm. rewrite map_map. exact Vs. }
  pose proof (zero_or_normal_nn _ Z) as Ps.
  assert (NR : near k (fv w) (sqrt (rsum (map snd M)))). { rewrite Vw. apply (near_root (3 + length L)); [lia|exact Ps|apply fv_fmt|exact N]. }
  rewrite EW. rewrite <- (sqrt_sqrt (rsum (map snd M))) by exact (proj1 N). apply (near_step _ _ _ _ (near_mul _ _ _ _ _ NR NR)).
  destruct Z as [Z|Z]; [exists 0; rewrite Vw, Z, sqrt_0, rnd_0, Rmult_0_r, rnd_0, Rabs_R0; split; [apply Rlt_le, u_pos|ring]|]. apply rnd_normal.
  assert (B : bpow radix2 (-511) <= fv w).
  { rewrite Vw, <- (rnd_fmt (bpow radix2 (-511))) by (apply fmt_bpow; lia). apply rnd_le. apply sqrt_le_1_alt in Z. eapply Rle_trans; [|exact Z]. change (-1022)%Z with (-511 + -511)%Z. rewrite bpow_plus, sqrt_square by apply bpow_ge_0. lra. }
  pose proof (bpow_gt_0 radix2 (-511)). change (-1022)%Z with (-511 + -511)%Z. rewrite bpow_plus, Rabs_pos_eq by apply Rle_0_sqr. apply Rmult_le_compat; lra.
Qed.
(** ** C176 *)
(** The computed bound, if it does not overflow, is the exact bound [LB] of the given numbers up to [k] relative roundings, where [2 k] is
    at least the length of the series plus 9, in whatever order the squares are added. *)
Theorem C176_lb_error sum (q c : list flt) r k lb : sums sum -> length q = length c -> finite_floats q -> finite_floats c -> separated q c -> (length q + 9 <= 2 * k)%nat ->
  flb_keogh sum q c r = Ok lb -> fok lb ->
  exists LB, lb_keogh (map fv q) (map fv c) r = Ok LB /\ (1 - u) ^ k * LB <= fv lb <= (1 + u) ^ k * LB.
Proof.
  intros HS HL Fq Fc SP HK E Fl. destruct (envelope_values c r Fc) as (Ed & Eu & Id & Iu). unfold flb_keogh in E. unfold lb_keogh.
  destruct (flb_envelope c r) as [down up]. cbn [fst snd] in *. destruct (lb_envelope (map fv c) r) as [rdown rup]. cbn [fst snd] in *. subst rdown rup.
  rewrite !map_length. rewrite HL, Nat.eqb_refl in *. cbn [negb] in *. cbv zeta in E. injection E as E.
  assert (PR : forall env p, (forall x, In x env -> In x c) -> In p (combine q env) -> fok (fst p) /\ fok (snd p) /\ (fv (fst p) = fv (snd p) \/ bpow radix2 (-511) <= Rabs (fv (fst p) - fv (snd p)))).
  { intros env (a, b) I Hp. pose proof (in_combine_l _ _ _ _ Hp) as A. pose proof (I _ (in_combine_r _ _ _ _ Hp)) as B. cbn [fst snd]. split; [exact (Fq a A)|]. split; [exact (Fc b B)|]. exact (SP a b A B). }
  rewrite !combine_values.
  rewrite (filter_values (fun p => (snd p <? fst p)%float)) by (intros p Hp; cbn [both fst snd]; destruct (PR up p Iu Hp) as (A & B & _); apply ltb_values; assumption).
  rewrite (filter_values (fun p => (fst p <? snd p)%float)) by (intros p Hp; cbn [both fst snd]; destruct (PR down p Id Hp) as (A & B & _); apply ltb_values; assumption).
  set (above := filter (fun p : flt * flt => (snd p <? fst p)%float) (combine q up)) in *. set (below := filter (fun p : flt * flt => (fst p <? snd p)%float) (combine q down)) in *.
  eexists. split; [reflexivity|]. subst lb. destruct (fsqrt_fin _ Fl) as (FX & VX). destruct (fadd_fin _ _ FX) as (F1 & F2 & Sm). destruct (fadd_ok _ _ F1 F2 Sm) as (_ & VA).
  assert (BL : forall (f : flt * flt -> bool) (env : list flt), (length (filter f (combine q env)) <= length q)%nat).
  { intros f env. eapply Nat.le_trans; [apply filter_shorter|]. rewrite combine_length. lia. }
  destruct k as [|[|k]]; [lia|lia|].
  assert (N1 := norm_near sum above (length q) k HS (BL _ _) ltac:(lia) ltac:(intros p Hp; apply (PR up p Iu); apply filter_In in Hp; apply Hp) F1).
  assert (N2 := norm_near sum below (length q) k HS (BL _ _) ltac:(lia) ltac:(intros p Hp; apply (PR down p Id); apply filter_In in Hp; apply Hp) F2).
  assert (NS := near_step _ _ _ _ (near_add _ _ _ _ _ N1 N2) (rnd_sum _ _ (fv_fmt _) (fv_fmt _))).
  rewrite VX, VA. assert (NR := near_root (S (S (k + k))) (S (S k)) _ _ ltac:(lia) (near_nonneg _ _ _ NS) (fmt_rnd _) NS). exact (proj2 NR).
Qed.
Print Assumptions C176_lb_error.
(** The computed bound exceeds the computed DTW at most by the factor [((1 + u) / (1 - u)) ^ k], where [k] is the length of the series plus 5. *)
Definition column (l : list flt) : list (list flt) := map (fun x => [x]) l.
Theorem C176_excess sum (q c : list flt) r lb v : sums sum -> length q = length c -> q <> [] -> finite_floats q -> finite_floats c -> separated q c ->
  flb_keogh sum q c r = Ok lb -> fok lb ->
  dtw (N:=Fnum) (Raw1 (N:=Fnum) q) (Raw1 (N:=Fnum) c) GcSakoeChiba (Some (Z.of_nat r)) None = Ok v ->
  v = infinity \/ (fok v /\ (1 - u) ^ (length q + 5) * fv lb <= (1 + u) ^ (length q + 5) * fv v).
Proof.
  intros HS HL NE Fq Fc SP EL FL ED. destruct (C176_lb_error sum q c r (length q + 5) lb HS HL Fq Fc SP ltac:(lia) EL FL) as (LB & EB & _ & UB).
  assert (FS : forall l : list flt, l <> [] -> finite_floats l -> finite_series (N:=Fnum) ffin 1 (column l)).
  { intros l Nl Fl. split; [lia|]. split; [destruct l; [congruence|discriminate]|]. intros row Hr. apply in_map_iff in Hr. destruct Hr as (x & <- & Hx). split; [reflexivity|]. intros y [<-|[]]. apply fok_B. exact (Fl x Hx). }
  assert (NC : c <> []) by (destruct c; [destruct q; [congruence|discriminate]|discriminate]).
  assert (AP : apart (column q) (column c)).
  { intros x y a b Hx Hy Hab. apply in_map_iff in Hx, Hy. destruct Hx as (x' & <- & Hx), Hy as (y' & <- & Hy). destruct Hab as [Hab|[]]. injection Hab as <- <-. exact (SP _ _ Hx Hy). }
  assert (Lq : length (column q) = length q) by apply map_length. assert (Lc : length (column c) = length q) by (unfold column; rewrite map_length; auto).
  destruct (C187_dtw_error 1 (column q) (column c) GcSakoeChiba (Some (Z.of_nat r)) None (band (length q) (length q) (Z.of_nat r)) (length q + 5) (FS q NE Fq) (FS c NC Fc) AP) as (v' & D & EF & EX & H).
  { rewrite Lq, Lc. split; [simpl; lia|reflexivity]. }
  { exact I. }
  { rewrite Lq, Lc. lia. }
  assert (v' = v). { change (dtw (N:=Fnum) (Raw1 (N:=Fnum) q) (Raw1 (N:=Fnum) c) GcSakoeChiba (Some (Z.of_nat r)) None = Ok v') in EF. congruence. } subst v'.
  destruct H as [(Hi & _)|(Fv & Lo & _)]; [left; exact Hi|]. right. split; [exact Fv|].
  destruct (C21_lb_keogh_lower_bound (map fv q) (map fv c) r) as (LB' & D' & EB' & ED' & LE); [rewrite !map_length; exact HL|destruct q; [congruence|discriminate]|].
  assert (LB' = LB) by congruence. subst LB'.
  assert (D' = D). { replace (lift (exactly (column q))) with (map (fun x => [x]) (map XR (map fv q))) in EX by (unfold lift, exactly, column; rewrite !map_map; reflexivity).
    replace (lift (exactly (column c))) with (map (fun x => [x]) (map XR (map fv c))) in EX by (unfold lift, exactly, column; rewrite !map_map; reflexivity).
    change (dtw (N:=Xnum) (Raw1 (N:=Xnum) (map XR (map fv q))) (Raw1 (N:=Xnum) (map XR (map fv c))) GcSakoeChiba (Some (Z.of_nat r)) None = Ok (XR D)) in EX. congruence. } subst D'.
  set (K := (length q + 5)%nat) in *. pose proof (down_pos K). pose proof (up_pos K).
  apply Rle_trans with ((1 - u) ^ K * ((1 + u) ^ K * D)).
  - apply Rmult_le_compat_l; [lra|]. eapply Rle_trans; [exact UB|]. apply Rmult_le_compat_l; [lra|exact LE].
  - replace ((1 - u) ^ K * ((1 + u) ^ K * D)) with ((1 + u) ^ K * ((1 - u) ^ K * D)) by ring. apply Rmult_le_compat_l; [lra|exact Lo].
Qed.
Print Assumptions C176_excess.
(** the hypotheses are met by the series of C176_refuted, where the bound does exceed the distance *)
Lemma sums_right : sums (fold_right PrimFloat.add 0%float).
Proof.
  intros l. induction l as [|x l IH]; cbn; [apply added_nil|]. apply (added_app [x] l (x :: l)); [apply added_one|exact IH|reflexivity].
Qed.
Example C176_excess_case : finite_floats [2; 2; -1]%float /\ finite_floats [0; 0; 0]%float /\ separated [2; 2; -1]%float [0; 0; 0]%float /\
  exists sum lb, sums sum /\ flb_keogh sum [2; 2; -1]%float [0; 0; 0]%float 0 = Ok lb /\ fok lb /\ (3 <? lb)%float = true.
Proof.
  split; [intros x [<-|[<-|[<-|[]]]]; reflexivity|]. split; [intros x [<-|[<-|[<-|[]]]]; reflexivity|]. split.
  - assert (T : fv 2 = 2) by (rewrite (fv_literal 2 false 4503599627370496 (-51)) by reflexivity; unfold F2R; simpl; lra).
    assert (M : fv (-1) = -1) by (rewrite (fv_literal (-1) true 4503599627370496 (-52)) by reflexivity; unfold F2R; simpl; lra).
    assert (B : bpow radix2 (-511) <= 1) by (change 1 with (bpow radix2 0); apply bpow_le; lia).
    assert (Z : fv 0 = 0) by apply fv_zero.
    intros a b Ha Hb. right. assert (b = 0%float) by (destruct Hb as [<-|[<-|[<-|[]]]]; reflexivity). subst b. rewrite Z.
    destruct Ha as [<-|[<-|[<-|[]]]]; rewrite ?T, ?M; unfold Rabs; destruct Rcase_abs; lra.
  - exists (fold_right PrimFloat.add 0%float). eexists. split; [exact sums_right|split; [vm_compute; reflexivity|split; reflexivity]].
Qed.

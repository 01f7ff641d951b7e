(** C187, C188: the rounding error of DTW and of the discrete Frechet distance in binary64. *)
From Coq Require Import Bool List Arith Lia ZArith QArith Floats Reals Lra.
From Flocq Require Import Core IEEE754.BinarySingleNaN IEEE754.PrimFloat.
From Flocq Require Import Plus_error Relative.
From Verif Require Import Num NumLaws Py Series Masks DtwModel Spec SpecDtw RList RealSeries FloatOps DpProofs DtwProofs ValidThms CdistThms PathSum LimitedThms PropDtw.
Import ListNotations.
Local Open Scope R_scope.
#[local] Existing Instance Hprec.
#[local] Existing Instance Hmax.
#[local] Existing Instance vexp.

(** ** Specification *)
(** the unit roundoff of binary64 *)
Definition unit_roundoff : R := bpow radix2 (-53).
Notation u := unit_roundoff.
(** the series of real numbers that a series of floats stands for *)
Definition exactly (s : list (list PrimFloat.float)) : list (list R) := map (map fv) s.
(** any two values that are compared are equal or at least [2^-511] apart, so that no square underflows *)
Definition apart (s1 s2 : list (list PrimFloat.float)) : Prop :=
  forall x y a b, In x s1 -> In y s2 -> In (a, b) (combine x y) -> fv a = fv b \/ bpow radix2 (-511) <= Rabs (fv a - fv b).

(** ** Relative error *)
Definition near (k : nat) (g r : R) : Prop := 0 <= r /\ (1 - u) ^ k * r <= g <= (1 + u) ^ k * r.
Lemma u_pos : 0 < u. Proof. apply bpow_gt_0. Qed.
Lemma u_lt1 : u < 1. Proof. unfold u. change 1 with (bpow radix2 0). apply bpow_lt. lia. Qed.
Lemma down_pos k : 0 < (1 - u) ^ k <= 1.
Proof. pose proof u_pos. pose proof u_lt1. induction k as [|k IH]; simpl; [lra|]. split; [apply Rmult_lt_0_compat; lra|]. apply Rle_trans with (1 * 1); [|lra]. apply Rmult_le_compat; lra. Qed.
Lemma up_pos k : 1 <= (1 + u) ^ k.
Proof. pose proof u_pos. induction k as [|k IH]; simpl; [lra|]. apply Rle_trans with (1 * 1); [lra|]. apply Rmult_le_compat; lra. Qed.
Lemma near_nonneg k g r : near k g r -> 0 <= g.
Proof. intros (H & L & _). pose proof (down_pos k). eapply Rle_trans; [|exact L]. apply Rmult_le_pos; lra. Qed.
Lemma near_refl k r : 0 <= r -> near k r r.
Proof. intros H. split; [exact H|]. pose proof (down_pos k). pose proof (up_pos k). split; [rewrite <- (Rmult_1_l r) at 2|rewrite <- (Rmult_1_l r) at 1]; apply Rmult_le_compat_r; lra. Qed.
Lemma pow_down a b : (a <= b)%nat -> (1 - u) ^ b <= (1 - u) ^ a.
Proof. intros H. replace b with (a + (b - a))%nat by lia. rewrite pow_add. pose proof (down_pos a). pose proof (down_pos (b - a)). rewrite <- (Rmult_1_r ((1 - u) ^ a)) at 2. apply Rmult_le_compat_l; lra. Qed.
Lemma pow_up a b : (a <= b)%nat -> (1 + u) ^ a <= (1 + u) ^ b.
Proof. intros H. replace b with (a + (b - a))%nat by lia. rewrite pow_add. pose proof (up_pos a). pose proof (up_pos (b - a)). rewrite <- (Rmult_1_r ((1 + u) ^ a)) at 1. apply Rmult_le_compat_l; lra. Qed.
Lemma near_weaken a b g r : (a <= b)%nat -> near a g r -> near b g r.
Proof.
  intros H (P & L & U). split; [exact P|]. split.
  - eapply Rle_trans; [|exact L]. apply Rmult_le_compat_r; [exact P|apply pow_down; exact H].
  - eapply Rle_trans; [exact U|]. apply Rmult_le_compat_r; [exact P|apply pow_up; exact H].
Qed.
Lemma near_add k g h r t : near k g r -> near k h t -> near k (g + h) (r + t).
Proof. intros (P & L & U) (P' & L' & U'). split; [lra|]. rewrite !Rmult_plus_distr_l. lra. Qed.
Lemma near_step k g r x : near k g r -> (exists e, Rabs e <= u /\ x = g * (1 + e)) -> near (S k) x r.
Proof.
  intros N (e & E & ->). pose proof (near_nonneg _ _ _ N) as G. destruct N as (P & L & U). pose proof u_pos. pose proof u_lt1. apply Rabs_le_inv in E. pose proof (down_pos k). pose proof (up_pos k).
  split; [exact P|]. simpl pow. split.
  - replace ((1 - u) * (1 - u) ^ k * r) with ((1 - u) ^ k * r * (1 - u)) by ring. apply Rmult_le_compat; try lra. apply Rmult_le_pos; lra.
  - replace ((1 + u) * (1 + u) ^ k * r) with ((1 + u) ^ k * r * (1 + u)) by ring. apply Rmult_le_compat; try lra.
Qed.

(** ** Rounding *)
Lemma half_ulp : / 2 * bpow radix2 (- prec + 1) = u.
Proof. unfold u. change (- prec + 1)%Z with (-52)%Z. change (-53)%Z with (-52 + -1)%Z. rewrite bpow_plus. change (bpow radix2 (-1)) with (/ 2). ring. Qed.
Lemma fexp_FLT : SpecFloat.fexp prec emax = FLT_exp (-1074) prec.
Proof. reflexivity. Qed.
Lemma rnd_sum a b : fmt a -> fmt b -> exists e, Rabs e <= u /\ rnd (a + b) = (a + b) * (1 + e).
Proof.
  intros Fa Fb. destruct (FLT_plus_error_N_ex radix2 (-1074) prec (fun x => negb (Z.even x)) a b Fa Fb) as (e & E & H).
  exists e. split; [|exact H]. eapply Rle_trans; [exact E|]. unfold u_ro. rewrite half_ulp. pose proof u_pos. unfold Rdiv. apply Rle_trans with (u * 1); [|lra]. apply Rmult_le_compat_l; [lra|].
  apply Rle_trans with (/ 1); [|lra]. apply Rinv_le_contravar; lra.
Qed.
Lemma rnd_normal x : bpow radix2 (-1022) <= Rabs x -> exists e, Rabs e <= u /\ rnd x = x * (1 + e).
Proof. intros H. rewrite <- half_ulp. exact (relative_error_N_FLT_ex radix2 (-1074) prec Hprec (fun x => negb (Z.even x)) x H). Qed.
Lemma fmt_rnd x : fmt (rnd x).
Proof. apply generic_format_round; auto with typeclass_instances. Qed.
Lemma rnd_fmt x : fmt x -> rnd x = x.
Proof. intros H. apply round_generic; auto with typeclass_instances. Qed.
Lemma fmt_bpow e : (-1074 <= e)%Z -> fmt (bpow radix2 e).
Proof. intros H. apply generic_format_bpow. rewrite fexp_FLT. unfold FLT_exp. change prec with 53%Z. lia. Qed.

(** ** the value of a computation that may overflow: [g] is the value it would have without an upper bound of the exponents *)
Definition top : R := bpow radix2 emax.
Definition cut (g : R) : xr := if Rlt_bool g top then XR g else XInf.
Definition val (x : PrimFloat.float) (g : R) : Prop := fnn x /\ 0 <= g /\ fmt g /\ bx (Prim2B x) = cut g.
Lemma RO_cut r : 0 <= r -> RO r = cut (rnd r).
Proof. intros H. unfold RO, cut. rewrite Rabs_pos_eq by (apply rnd_nn; exact H). reflexivity. Qed.
Lemma top_pos : 0 < top. Proof. apply bpow_gt_0. Qed.
Lemma rnd_top r : top <= r -> top <= rnd r.
Proof. intros H. rewrite <- (rnd_fmt top) by (apply fmt_bpow; unfold emax; lia). apply rnd_le. exact H. Qed.
Lemma cut_big r : top <= r -> cut r = XInf.
Proof. intros H. unfold cut. rewrite Rlt_bool_false by exact H. reflexivity. Qed.
Lemma val_zero : val 0%float 0.
Proof.
  split; [unfold fnn; change 0%float with PrimFloat.zero; rewrite Prim2B_zero; split; reflexivity|]. split; [lra|]. split; [apply generic_format_0|].
  change 0%float with PrimFloat.zero. rewrite Prim2B_zero. unfold cut. rewrite Rlt_bool_true by apply top_pos. reflexivity.
Qed.
Lemma val_add x y g h : val x g -> val y h -> val (x + y)%float (rnd (g + h)).
Proof.
  intros (Nx & Pg & Fg & Ex) (Ny & Ph & Fh & Ey). destruct (badd_spec _ _ Nx Ny) as (N & E). unfold val, fnn. rewrite add_equiv. split; [exact N|].
  assert (P : 0 <= g + h) by lra. split; [apply rnd_nn; exact P|]. split; [apply fmt_rnd|]. rewrite E, Ex, Ey. unfold cut at 1 2.
  destruct (Rlt_bool_spec g top) as [G|G]; [destruct (Rlt_bool_spec h top) as [H|H]; [apply RO_cut; exact P|]|]; symmetry; apply cut_big; apply rnd_top; lra.
Qed.
Lemma val_sq x y : ffin x -> ffin y -> val ((x - y) * (x - y))%float (rnd (rnd (fv x - fv y) * rnd (fv x - fv y))).
Proof.
  intros Fx Fy. destruct (bsq_spec _ _ Fx Fy) as (N & E). unfold val, fnn. rewrite mul_equiv, sub_equiv. fold (bsq (Prim2B x) (Prim2B y)). split; [exact N|].
  set (r := rnd (fv x - fv y)). assert (P : 0 <= r * r) by (pose proof (Rle_0_sqr r); auto). split; [apply rnd_nn; exact P|]. split; [apply fmt_rnd|].
  rewrite E. fold (fv x) (fv y). fold r. destruct (Rlt_bool_spec (Rabs r) (bpow radix2 emax)) as [B|B]; [apply RO_cut; exact P|]. symmetry. apply cut_big, rnd_top.
  fold top in B. assert (T1 : 1 <= top) by (unfold top; change 1 with (bpow radix2 0); apply bpow_le; unfold emax; lia).
  replace (r * r) with (Rabs r * Rabs r) by (rewrite <- Rabs_mult; apply Rabs_pos_eq; exact P). rewrite <- (Rmult_1_r top). apply Rmult_le_compat; lra.
Qed.
Lemma val_leb x y g h : val x g -> val y h -> (x <=? y)%float = true -> g < top -> h < top -> g <= h.
Proof.
  intros (Nx & _ & _ & Ex) (Ny & _ & _ & Ey) H G1 H1. rewrite leb_equiv, bx_leb in H by assumption. rewrite Ex, Ey in H. unfold cut in H. rewrite !Rlt_bool_true in H by assumption. apply Rleb_true in H. exact H.
Qed.
Lemma val_leb' x y g h : val x g -> val y h -> (x <=? y)%float = true -> g < top -> g <= h.
Proof. intros X Y L G. destruct (Rlt_le_dec h top) as [H|H]; [exact (val_leb x y g h X Y L G H)|lra]. Qed.
Lemma val_leb_big x y g h : val x g -> val y h -> (x <=? y)%float = true -> top <= g -> top <= h.
Proof.
  intros (Nx & _ & _ & Ex) (Ny & _ & _ & Ey) H G. destruct (Rlt_le_dec h top) as [H1|H1]; [|exact H1]. rewrite leb_equiv, bx_leb in H by assumption. rewrite Ex, Ey in H. unfold cut in H.
  rewrite Rlt_bool_false, Rlt_bool_true in H by assumption. discriminate.
Qed.

(** ** local costs *)
Lemma near_sq x y : ffin x -> ffin y -> fv x = fv y \/ bpow radix2 (-511) <= Rabs (fv x - fv y) ->
  near 3 (rnd (rnd (fv x - fv y) * rnd (fv x - fv y))) ((fv x - fv y) * (fv x - fv y)).
Proof.
  intros Fx Fy [E|E].
  - rewrite E. replace (fv y - fv y) with 0 by ring. rewrite rnd_0, Rmult_0_l, rnd_0. apply near_refl. lra.
  - set (r := fv x - fv y) in *. assert (B : bpow radix2 (-511) <= Rabs (rnd r)).
    { apply abs_round_ge_generic; auto with typeclass_instances. apply fmt_bpow. lia. }
    destruct (rnd_sum (fv x) (- fv y)) as (e & He & Ee); [apply fv_fmt|apply generic_format_opp, fv_fmt|]. change (fv x + - fv y) with r in Ee.
    apply (near_step 2 (rnd r * rnd r)).
    + assert (N1 : near 1 (Rabs (rnd r)) (Rabs r)).
      { apply (near_step 0 (Rabs r)); [apply near_refl, Rabs_pos|]. exists e. split; [exact He|]. rewrite Ee, Rabs_mult. f_equal. apply Rabs_pos_eq. pose proof u_lt1. apply Rabs_le_inv in He. lra. }
      destruct N1 as (P & L & U). replace (rnd r * rnd r) with (Rabs (rnd r) * Rabs (rnd r)) by (rewrite <- Rabs_mult; apply Rabs_pos_eq; pose proof (Rle_0_sqr (rnd r)); auto).
      replace (r * r) with (Rabs r * Rabs r) by (rewrite <- Rabs_mult; apply Rabs_pos_eq; pose proof (Rle_0_sqr r); auto). rewrite pow_1 in L, U. pose proof u_lt1. pose proof u_pos.
      split; [apply Rmult_le_pos; exact P|]. simpl pow. split.
      * replace ((1 - u) * ((1 - u) * 1) * (Rabs r * Rabs r)) with (((1 - u) * Rabs r) * ((1 - u) * Rabs r)) by ring. apply Rmult_le_compat; auto; apply Rmult_le_pos; lra.
      * replace ((1 + u) * ((1 + u) * 1) * (Rabs r * Rabs r)) with (((1 + u) * Rabs r) * ((1 + u) * Rabs r)) by ring. apply Rmult_le_compat; auto; apply Rabs_pos.
    + apply rnd_normal. rewrite Rabs_mult. change (-1022)%Z with (-511 + -511)%Z. rewrite bpow_plus. apply Rmult_le_compat; auto; apply bpow_ge_0.
Qed.
Lemma near_sum k l : forall (a : PrimFloat.float) ga ra, val a ga -> near k ga ra ->
  (forall t, In t l -> exists gt, val (fst t) gt /\ near k gt (snd t)) ->
  exists g, val (fold_left PrimFloat.add (map fst l) a) g /\ near (k + length l) g (ra + rsum (map (@snd PrimFloat.float R) l)).
Proof.
  intros a ga ra Va Na H. assert (G : forall j a ga ra, val a ga -> near (k + j) ga ra -> exists g, val (fold_left PrimFloat.add (map fst l) a) g /\ near (k + j + length l) g (ra + rsum (map (@snd PrimFloat.float R) l))).
  { clear a ga ra Va Na. induction l as [|t l IH]; intros j a ga ra Va Na; cbn [map fold_left length].
    - exists ga. split; [exact Va|]. replace (ra + rsum []) with ra by (unfold rsum; simpl; lra). eapply near_weaken; [|exact Na]. lia.
    - destruct (H t (or_introl eq_refl)) as (gt & Vt & Nt). destruct (IH (fun t I => H t (or_intror I)) (S j) (a + fst t)%float (rnd (ga + gt)) (ra + snd t)) as (g & Vg & Ng).
      + apply val_add; assumption.
      + rewrite Nat.add_succ_r. apply (near_step _ (ga + gt)); [apply near_add; [exact Na|eapply near_weaken; [|exact Nt]; lia]|]. apply rnd_sum; [apply Va|apply Vt].
      + exists g. split; [exact Vg|]. change (rsum (snd t :: map snd l)) with (snd t + rsum (map snd l)). rewrite <- Rplus_assoc. eapply near_weaken; [|exact Ng]. lia. }
  destruct (G 0%nat a ga ra Va) as (g & V & N); [eapply near_weaken; [|exact Na]; lia|]. exists g. split; [exact V|]. eapply near_weaken; [|exact N]. lia.
Qed.
Lemma near_local d x y : length x = d -> length y = d -> (forall a, In a x -> ffin a) -> (forall a, In a y -> ffin a) ->
  (forall a b, In (a, b) (combine x y) -> fv a = fv b \/ bpow radix2 (-511) <= Rabs (fv a - fv b)) ->
  exists g, val (sq_euclid (N:=Fnum) x y) g /\ near (3 + d) g (sqd (map fv x) (map fv y)).
Proof.
  intros Lx Ly Fx Fy A. set (l := map (fun p => (((fst p - snd p) * (fst p - snd p))%float, (fv (fst p) - fv (snd p)) * (fv (fst p) - fv (snd p)))) (combine x y)).
  destruct (near_sum 3 l 0%float 0 0 val_zero (near_refl 3 0 (Rle_refl 0))) as (g & V & N).
  - intros t I. apply in_map_iff in I. destruct I as ((a & b) & <- & I). cbn [fst snd]. pose proof (in_combine_l _ _ _ _ I). pose proof (in_combine_r _ _ _ _ I). eexists. split; [apply val_sq; auto|]. apply near_sq; auto.
  - exists g. split.
    + unfold sq_euclid. unfold l in V. rewrite map_map in V. exact V.
    + rewrite Rplus_0_l in N. unfold l in N. rewrite map_length, combine_length, Lx, Ly, Nat.min_id, map_map in N. cbn [snd] in N. unfold sqd. replace (combine (map fv x) (map fv y)) with (map (fun p => (fv (fst p), fv (snd p))) (combine x y)).
      * rewrite map_map. exact N.
      * clear. revert y. induction x as [|a x IH]; intros [|b y]; cbn; auto. f_equal. apply IH.
Qed.

(** ** costs of paths *)
Section Paths.
Variables (DF : nat -> nat -> PrimFloat.float) (DX : nat -> nat -> xr) (e : nat).
Definition fits (c : cell) : Prop := exists g r, val (DF (fst c) (snd c)) g /\ DX (fst c) (snd c) = XR r /\ near e g r.
Lemma near_path p : (forall c, In c p -> fits c) ->
  exists g r, val (path_cost (N:=Fnum) PrimFloat.add DF p) g /\ path_cost (N:=Xnum) xadd DX p = XR r /\ near (e + length p) g r.
Proof.
  intros H. unfold path_cost. assert (G : forall j a ga ra, val a ga -> near (e + j) ga ra ->
    exists g r, val (fold_left (fun acc c => PrimFloat.add (DF (fst c) (snd c)) acc) p a) g /\ fold_left (fun acc c => xadd (DX (fst c) (snd c)) acc) p (XR ra) = XR r /\ near (e + j + length p) g r).
  { induction p as [|c p IH]; intros j a ga ra Va Na; cbn [fold_left length].
    - exists ga, ra. split; [exact Va|]. split; [reflexivity|]. eapply near_weaken; [|exact Na]. lia.
    - destruct (H c (or_introl eq_refl)) as (gc & rc & Vc & Xc & Nc). destruct (IH (fun c I => H c (or_intror I)) (S j) (DF (fst c) (snd c) + a)%float (rnd (gc + ga)) (rc + ra)) as (g & r & V & X & N).
      + apply val_add; assumption.
      + rewrite Nat.add_succ_r. apply (near_step _ (gc + ga)); [apply near_add; [eapply near_weaken; [|exact Nc]; lia|exact Na]|]. apply rnd_sum; [apply Vc|apply Va].
      + exists g, r. split; [exact V|]. split; [rewrite Xc; exact X|]. eapply near_weaken; [|exact N]. lia. }
  destruct (G 0%nat 0%float 0 0 val_zero (near_refl _ 0 (Rle_refl 0))) as (g & r & V & X & N). exists g, r. split; [exact V|]. split; [exact X|]. eapply near_weaken; [|exact N]. lia.
Qed.
Lemma near_max k g h r t : near k g r -> near k h t -> near k (Rmax g h) (Rmax r t).
Proof.
  intros (P & L & U) (P' & L' & U'). pose proof (down_pos k). pose proof (up_pos k). split; [eapply Rle_trans; [exact P|apply Rmax_l]|]. split.
  - unfold Rmax at 1. destruct (Rle_dec r t); [eapply Rle_trans; [exact L'|apply Rmax_r]|eapply Rle_trans; [exact L|apply Rmax_l]].
  - apply Rmax_lub; [eapply Rle_trans; [exact U|]|eapply Rle_trans; [exact U'|]]; apply Rmult_le_compat_l; try lra; [apply Rmax_l|apply Rmax_r].
Qed.
Lemma val_max x y g h : val x g -> val y h -> val (nmax (N:=Fnum) x y) (Rmax g h).
Proof.
  intros X Y. unfold nmax. cbn [nleb Fnum]. destruct (x <=? y)%float eqn:E.
  - destruct (Rle_dec g h) as [H|H]; [rewrite Rmax_right by exact H; exact Y|].
    destruct (Rlt_le_dec g top) as [G|G]; [elim H; exact (val_leb' x y g h X Y E G)|]. pose proof (val_leb_big x y g h X Y E G) as H1. rewrite Rmax_left by lra.
    destruct X as (_ & Pg & Fg & _), Y as (Ny & _ & _ & Ey). split; [exact Ny|]. split; [exact Pg|]. split; [exact Fg|]. rewrite Ey, !cut_big by assumption. reflexivity.
  - destruct (Rle_dec h g) as [H|H]; [rewrite Rmax_left by exact H; exact X|]. assert (E' : (y <=? x)%float = true) by (destruct (leb_total _ _ _ Flaws x y (proj1 X) (proj1 Y)) as [Q|Q]; [cbn in Q; congruence|exact Q]).
    destruct (Rlt_le_dec h top) as [G|G]; [elim H; exact (val_leb' y x h g Y X E' G)|]. pose proof (val_leb_big y x h g Y X E' G) as H1. rewrite Rmax_right by lra.
    destruct Y as (_ & Pg & Fg & _), X as (Ny & _ & _ & Ey). split; [exact Ny|]. split; [exact Pg|]. split; [exact Fg|]. rewrite Ey, !cut_big by assumption. reflexivity.
Qed.
Lemma nmax_real a b : nmax (N:=Xnum) (XR a) (XR b) = XR (Rmax a b).
Proof. unfold nmax. cbn. unfold Rleb, Rmax. destruct (Rle_dec a b); reflexivity. Qed.
Lemma near_path_max p : (forall c, In c p -> fits c) ->
  exists g r, val (path_cost (N:=Fnum) nmax DF p) g /\ path_cost (N:=Xnum) nmax DX p = XR r /\ near e g r.
Proof.
  intros H. unfold path_cost. assert (G : forall a ga ra, val a ga -> near e ga ra ->
    exists g r, val (fold_left (fun acc c => nmax (N:=Fnum) (DF (fst c) (snd c)) acc) p a) g /\ fold_left (fun acc c => nmax (N:=Xnum) (DX (fst c) (snd c)) acc) p (XR ra) = XR r /\ near e g r).
  { induction p as [|c p IH]; intros a ga ra Va Na; cbn [fold_left].
    - exists ga, ra. split; [exact Va|]. split; [reflexivity|exact Na].
    - destruct (H c (or_introl eq_refl)) as (gc & rc & Vc & Xc & Nc). destruct (IH (fun c I => H c (or_intror I)) (nmax (N:=Fnum) (DF (fst c) (snd c)) a) (Rmax gc ga) (Rmax rc ra)) as (g & r & V & X & N).
      + apply val_max; assumption.
      + apply near_max; assumption.
      + exists g, r. split; [exact V|]. split; [rewrite Xc, nmax_real; exact X|exact N]. }
  exact (G 0%float 0 0 val_zero (near_refl _ 0 (Rle_refl 0))).
Qed.
End Paths.

(** ** the least cost *)
Lemma near_least (paths : list cell -> Prop) (cF : list cell -> PrimFloat.float) (cX : list cell -> xr) k wF wX :
  (forall p, paths p -> exists g r, val (cF p) g /\ cX p = XR r /\ near k g r) ->
  (exists p, paths p) ->
  least_cost (N:=Fnum) paths cF wF -> least_cost (N:=Xnum) paths cX wX -> exists g W, wX = XR W /\ val wF g /\ near k g W.
Proof.
  intros H (q & Q) (LF & AF) (LX & AX). destruct AX as [(p0 & P0 & E0)|(N0 & _)]; [|elim (N0 q Q)]. destruct AF as [(p1 & P1 & E1)|(N1 & _)]; [|elim (N1 p0 P0)].
  destruct (H p0 P0) as (g0 & r0 & V0 & X0 & N0). destruct (H p1 P1) as (g1 & r1 & V1 & X1 & N1). rewrite X0 in E0. subst wX. rename r0 into W.
  specialize (LF p0 P0). specialize (LX p1 P1). rewrite X1 in LX. cbn in LX. apply Rleb_true in LX. rewrite E1 in V1. cbn in LF.
  destruct (Rlt_le_dec g1 top) as [G|G].
  - exists g1, W. split; [reflexivity|]. split; [exact V1|]. pose proof (val_leb' _ _ _ _ V1 V0 LF G) as G0. destruct N0 as (P & L & U), N1 as (P1' & L1 & U1). split; [exact P|]. split; [|lra].
    eapply Rle_trans; [|exact L1]. apply Rmult_le_compat_l; [apply Rlt_le, down_pos|exact LX].
  - exists g0, W. split; [reflexivity|]. split; [|exact N0]. pose proof (val_leb_big _ _ _ _ V1 V0 LF G) as G0. destruct V0 as (_ & P & F & _), V1 as (N & _ & _ & E). split; [exact N|]. split; [exact P|]. split; [exact F|].
    rewrite E, !cut_big by assumption. reflexivity.
Qed.

(** ** the square root *)
Lemma near_sqrt K k (wF : PrimFloat.float) g W : (K + 2 <= 2 * k)%nat -> val wF g -> near K g W ->
  (PrimFloat.sqrt wF = infinity /\ top <= (1 + u) ^ K * W) \/ (fok (PrimFloat.sqrt wF) /\ (1 - u) ^ k * sqrt W <= fv (PrimFloat.sqrt wF) <= (1 + u) ^ k * sqrt W).
Proof.
  intros HK (N & P & F & E) (HW & L & U). destruct (bsqrt_spec _ N) as (N' & E'). rewrite <- sqrt_equiv in N', E'. rewrite E in E'. unfold cut in E'. destruct (Rlt_bool_spec g top) as [G|G].
  - right. assert (FF : fok (PrimFloat.sqrt wF)).
    { apply fok_B. destruct (Prim2B (PrimFloat.sqrt wF)) as [s|[|]| |s m x Hm]; cbn in E'; try discriminate; reflexivity. }
    split; [exact FF|]. assert (V : fv (PrimFloat.sqrt wF) = rnd (sqrt g)).
    { unfold fv. apply fok_B in FF. rewrite (bx_fin _ FF) in E'. injection E' as E'. exact E'. }
    rewrite V. assert (X : exists e, Rabs e <= u /\ rnd (sqrt g) = sqrt g * (1 + e)).
    { destruct (Req_dec g 0) as [->|NZ]; [exists 0; rewrite sqrt_0, rnd_0, Rabs_R0; split; [apply Rlt_le, u_pos|ring]|].
      apply rnd_normal. assert (M : bpow radix2 (-1074) <= g).
      { rewrite <- (Rabs_pos_eq g) by exact P. apply (generic_format_ge_bpow radix2 (FLT_exp (-1074) prec)); [intros x; unfold FLT_exp; lia|rewrite Rabs_pos_eq by exact P; lra|]. apply generic_format_abs. exact F. }
      rewrite Rabs_pos_eq by apply sqrt_pos. apply sqrt_le_1_alt in M. eapply Rle_trans; [|exact M]. change (-1074)%Z with (-537 + -537)%Z. rewrite bpow_plus, sqrt_square by apply bpow_ge_0. apply bpow_le. lia. }
    destruct k as [|k]; [lia|]. assert (K2 : (K <= 2 * k)%nat) by lia.
    assert (NN : near k (sqrt g) (sqrt W)).
    { split; [apply sqrt_pos|]. split.
      - rewrite <- (sqrt_square ((1 - u) ^ k)) by (apply Rlt_le, down_pos). rewrite <- sqrt_mult_alt by (apply Rmult_le_pos; apply Rlt_le, down_pos). apply sqrt_le_1_alt. eapply Rle_trans; [|exact L]. apply Rmult_le_compat_r; [exact HW|].
        rewrite <- pow_add. apply pow_down. lia.
      - rewrite <- (sqrt_square ((1 + u) ^ k)) by (pose proof (up_pos k); lra). rewrite <- sqrt_mult_alt by (apply Rmult_le_pos; pose proof (up_pos k); lra). apply sqrt_le_1_alt. eapply Rle_trans; [exact U|]. apply Rmult_le_compat_r; [exact HW|].
        rewrite <- pow_add. apply pow_up. lia. }
    apply (near_step k (sqrt g) (sqrt W)); assumption.
  - left. split; [|lra]. apply Prim2B_inj. rewrite Prim2B_inf. destruct (Prim2B (PrimFloat.sqrt wF)) as [s|[|]| |s m x Hm]; cbn in E'; try discriminate; reflexivity.
Qed.

(** ** the two series *)
Lemma rpath_in o a b p : rpath o a b p -> forall x y, In (x, y) p -> (x <= a)%nat /\ (y <= b)%nat.
Proof.
  induction 1; simpl; intros x y Hin.
  - destruct Hin as [[= <- <-]|[]]. lia.
  - destruct Hin as [[= <- <-]|Hin]; [lia|]. apply IHrpath in Hin. unfold move in *. simpl in *. lia.
Qed.
Section Series.
Variables (d : nat) (s1 s2 : list (list PrimFloat.float)).
Hypothesis F1 : finite_series (N:=Fnum) ffin d s1.
Hypothesis F2 : finite_series (N:=Fnum) ffin d s2.
Hypothesis AP : apart s1 s2.
Lemma exactly_real s : finite_series (N:=Fnum) ffin d s -> real_series d (exactly s).
Proof.
  intros (D0 & NE & R). split; [exact D0|]. split; [destruct s; [congruence|discriminate]|]. intros r I. apply in_map_iff in I. destruct I as (x & <- & I). rewrite map_length. apply (R x I).
Qed.
Lemma some_steps (s : list (list PrimFloat.float)) : finite_series (N:=Fnum) ffin d s -> (0 < length s)%nat.
Proof. intros (_ & N & _). destruct s; [elim N; reflexivity|apply Nat.lt_0_succ]. Qed.
Lemma exactly_length s : length (exactly s) = length s.
Proof. apply map_length. Qed.
Lemma exactly_nth s i : nth i (exactly s) [] = map fv (nth i s []).
Proof. exact (map_nth (map fv) s [] i). Qed.
Lemma path_cell allowed p i j : warping_path (length s1) (length s2) allowed p -> In (i, j) p -> (i < length s1 /\ j < length s2)%nat.
Proof.
  intros W I. apply wpath_rpath in W; [|apply some_steps; assumption|apply some_steps; assumption]. apply in_rev in I. destruct (rpath_in _ _ _ _ W i j I) as (A & B). pose proof (some_steps s1 F1). pose proof (some_steps s2 F2). lia.
Qed.
Lemma cells_fit allowed p : warping_path (length s1) (length s2) allowed p ->
  forall c, In c p -> fits (local_costs (N:=Fnum) s1 s2) (local_costs (N:=Xnum) (lift (exactly s1)) (lift (exactly s2))) (3 + d) c.
Proof.
  intros W (i & j) I. destruct (path_cell allowed p i j W I) as (Hi & Hj). unfold fits. cbn [fst snd]. rewrite local_costs_lift. unfold costs. rewrite !exactly_nth.
  destruct F1 as (_ & _ & R1), F2 as (_ & _ & R2). pose proof (nth_In s1 [] Hi) as I1. pose proof (nth_In s2 [] Hj) as I2. destruct (R1 _ I1) as (L1 & G1), (R2 _ I2) as (L2 & G2).
  destruct (near_local d (nth i s1 []) (nth j s2 []) L1 L2 G1 G2) as (g & V & N); [intros a b I3; exact (AP _ _ a b I1 I2 I3)|].
  exists g. eexists. split; [exact V|]. split; [reflexivity|exact N].
Qed.
Lemma path_short allowed p : warping_path (length s1) (length s2) allowed p -> (S (length p) <= length s1 + length s2)%nat.
Proof.
  intros W. apply wpath_rpath in W; [|apply some_steps; assumption|apply some_steps; assumption]. apply rpath_len in W. rewrite rev_length in W. pose proof (some_steps s1 F1). pose proof (some_steps s2 F2). lia.
Qed.
End Series.

(** C187: with [D] the exact DTW of the given numbers, the computed one is [D] up to [k] relative roundings, where [2 k] is at least the
    lengths of both series plus the number of features plus 4; or it overflows, and then the square of [D] is near the largest float. *)
Theorem C187_dtw_error d (s1 s2 : list (list PrimFloat.float)) g radius slope allowed k :
  finite_series (N:=Fnum) ffin d s1 -> finite_series (N:=Fnum) ffin d s2 -> apart s1 s2 ->
  constraint (length s1) (length s2) g radius slope allowed -> positive_slope slope ->
  (length s1 + length s2 + d + 4 <= 2 * k)%nat ->
  exists v D, dtw (N:=Fnum) (Raw2 (N:=Fnum) s1) (Raw2 (N:=Fnum) s2) g radius slope = Ok v /\
    dtw (N:=Xnum) (Raw2 (lift (exactly s1))) (Raw2 (lift (exactly s2))) g radius slope = Ok (XR D) /\
    ((v = infinity /\ bpow radix2 1024 <= (1 + u) ^ (2 * k) * (D * D)) \/
     (fok v /\ (1 - u) ^ k * D <= fv v <= (1 + u) ^ k * D)).
Proof.
  intros F1 F2 AP C PS HK. destruct (C01_dtw_optimal Fnum fnn ffin Flaws d s1 s2 g radius slope allowed F1 F2 C) as (wF & EF & LF).
  assert (C' : constraint (length (lift (exactly s1))) (length (lift (exactly s2))) g radius slope allowed) by (rewrite !lift_length, !exactly_length; exact C).
  destruct (C01_dtw_optimal Xnum xnn xfin Xlaws d _ _ g radius slope allowed (lift_finite d _ (exactly_real d s1 F1)) (lift_finite d _ (exactly_real d s2 F2)) C') as (wX & EX & LX).
  rewrite !lift_length, !exactly_length in LX.
  assert (NL : exists gw W, wX = XR W /\ val wF gw /\ near (d + length s1 + length s2 + 2) gw W).
  { eapply near_least; [|exact (constraint_feasible _ _ g radius slope allowed (some_steps d s1 F1) (some_steps d s2 F2) PS C)|exact LF|exact LX]. intros p P.
    destruct (near_path _ _ _ p (cells_fit d s1 s2 F1 F2 AP allowed p P)) as (gp & rp & Vp & Xp & Np). exists gp, rp. split; [exact Vp|]. split; [exact Xp|].
    eapply near_weaken; [|exact Np]. pose proof (path_short d s1 s2 F1 F2 allowed p P). change (@length (list (carrier Fnum))) with (@length (list PrimFloat.float)) in *. lia. }
  destruct NL as (gw & W & -> & V & N). assert (HK' : (d + length s1 + length s2 + 2 + 2 <= 2 * k)%nat) by (change (@length (list (carrier Fnum))) with (@length (list PrimFloat.float)) in *; lia).
  pose proof (proj1 N) as PW. exists (PrimFloat.sqrt wF), (sqrt W). split; [exact EF|]. split; [rewrite EX; cbn; unfold Rleb; destruct (Rle_dec 0 W); [reflexivity|lra]|].
  destruct (near_sqrt _ k wF gw W HK' V N) as [(E & B)|H]; [left|right; exact H].
  split; [exact E|]. change (bpow radix2 1024) with top. eapply Rle_trans; [exact B|]. rewrite sqrt_sqrt by exact PW. apply Rmult_le_compat_r; [exact PW|]. apply pow_up. lia.
Qed.
Print Assumptions C187_dtw_error.

(** C188: for the discrete Frechet distance the error does not depend on the lengths: [2 k] is at least the number of features plus 5. *)
Theorem C188_frechet_error d (s1 s2 : list (list PrimFloat.float)) g radius slope allowed k :
  finite_series (N:=Fnum) ffin d s1 -> finite_series (N:=Fnum) ffin d s2 -> apart s1 s2 ->
  constraint (length s1) (length s2) g radius slope allowed -> positive_slope slope ->
  (d + 5 <= 2 * k)%nat ->
  exists v D, frechet (N:=Fnum) (Raw2 (N:=Fnum) s1) (Raw2 (N:=Fnum) s2) g radius slope = Ok v /\
    frechet (N:=Xnum) (Raw2 (lift (exactly s1))) (Raw2 (lift (exactly s2))) g radius slope = Ok (XR D) /\
    ((v = infinity /\ bpow radix2 1024 <= (1 + u) ^ (2 * k) * (D * D)) \/
     (fok v /\ (1 - u) ^ k * D <= fv v <= (1 + u) ^ k * D)).
Proof.
  intros F1 F2 AP C PS HK. destruct (C07_frechet_optimal Fnum fnn ffin Flaws d s1 s2 g radius slope allowed F1 F2 C) as (wF & EF & LF).
  assert (C' : constraint (length (lift (exactly s1))) (length (lift (exactly s2))) g radius slope allowed) by (rewrite !lift_length, !exactly_length; exact C).
  destruct (C07_frechet_optimal Xnum xnn xfin Xlaws d _ _ g radius slope allowed (lift_finite d _ (exactly_real d s1 F1)) (lift_finite d _ (exactly_real d s2 F2)) C') as (wX & EX & LX).
  rewrite !lift_length, !exactly_length in LX.
  assert (NL : exists gw W, wX = XR W /\ val wF gw /\ near (3 + d) gw W).
  { eapply near_least; [|exact (constraint_feasible _ _ g radius slope allowed (some_steps d s1 F1) (some_steps d s2 F2) PS C)|exact LF|exact LX]. intros p P. exact (near_path_max _ _ _ p (cells_fit d s1 s2 F1 F2 AP allowed p P)). }
  destruct NL as (gw & W & -> & V & N). assert (HK' : (3 + d + 2 <= 2 * k)%nat) by lia.
  pose proof (proj1 N) as PW. exists (PrimFloat.sqrt wF), (sqrt W). split; [exact EF|]. split; [rewrite EX; cbn; unfold Rleb; destruct (Rle_dec 0 W); [reflexivity|lra]|].
  destruct (near_sqrt _ k wF gw W HK' V N) as [(E & B)|H]; [left|right; exact H].
  split; [exact E|]. change (bpow radix2 1024) with top. eapply Rle_trans; [exact B|]. rewrite sqrt_sqrt by exact PW. apply Rmult_le_compat_r; [exact PW|]. apply pow_up. lia.
Qed.
Print Assumptions C188_frechet_error.

(** ** concrete cases *)
Lemma fv_literal x s m e : Prim2SF x = S754_finite s m e -> fv x = F2R (Float radix2 (cond_Zopp s (Zpos m)) e).
Proof. intros E. unfold fv. rewrite <- SF2R_B2SF, B2SF_Prim2B, E. reflexivity. Qed.
(** the hypotheses are met by the series 0.1, 0.2, 0.3 and 0.1, 0.3 *)
Example C187_case : finite_series (N:=Fnum) ffin 1 ex5 /\ finite_series (N:=Fnum) ffin 1 ex6 /\ apart ex5 ex6 /\ constraint (length ex5) (length ex6) GcNone None None everywhere /\
  (length ex5 + length ex6 + 1 + 4 <= 2 * 5)%nat.
Proof.
  split; [apply ex56_fin|]. split; [apply ex56_fin|]. split; [|split; [reflexivity|cbn; lia]].
  assert (A : fv 0x1.999999999999ap-4 = 7205759403792794 * bpow radix2 (-56)) by (rewrite (fv_literal _ false 7205759403792794 (-56)) by (vm_compute; reflexivity); reflexivity).
  assert (B : fv 0x1.999999999999ap-3 = 14411518807585588 * bpow radix2 (-56)).
  { rewrite (fv_literal _ false 7205759403792794 (-55)) by (vm_compute; reflexivity). unfold F2R, Defs.Fnum, Defs.Fexp, cond_Zopp. change (-55)%Z with (-56 + 1)%Z. rewrite bpow_plus. change (bpow radix2 1) with 2. lra. }
  assert (C : fv 0x1.3333333333333p-2 = 21617278211378380 * bpow radix2 (-56)).
  { rewrite (fv_literal _ false 5404319552844595 (-54)) by (vm_compute; reflexivity). unfold F2R, Defs.Fnum, Defs.Fexp, cond_Zopp. change (-54)%Z with (-56 + 2)%Z. rewrite bpow_plus. change (bpow radix2 2) with 4. lra. }
  assert (S : bpow radix2 (-511) <= 1 * bpow radix2 (-56)) by (rewrite Rmult_1_l; apply bpow_le; lia). pose proof (bpow_gt_0 radix2 (-56)) as P.
  assert (K : forall p q, q - p <= -1 \/ 1 <= q - p \/ p = q -> p * bpow radix2 (-56) = q * bpow radix2 (-56) \/ bpow radix2 (-511) <= Rabs (p * bpow radix2 (-56) - q * bpow radix2 (-56))).
  { intros p q H. destruct H as [H|[H|H]]; [right|right|left; rewrite H; reflexivity]; (eapply Rle_trans; [exact S|]; rewrite <- Rmult_minus_distr_r, Rabs_mult, (Rabs_pos_eq (bpow radix2 (-56))) by lra; apply Rmult_le_compat_r; [lra|]).
    - rewrite Rabs_pos_eq; lra.
    - rewrite Rabs_left1; lra. }
  intros x y a b I1 I2 I3. destruct I1 as [<-|[<-|[<-|[]]]], I2 as [<-|[<-|[]]]; (destruct I3 as [E|[]]; injection E as <- <-; rewrite ?A, ?B, ?C; apply K; lra).
Qed.

(** without [apart] it is false: the square of a difference below [2^-538] is rounded to zero, so different series get the distance 0 *)
Definition tiny : list (list PrimFloat.float) := [[0x1p-600%float]].
Theorem C187_underflow : exists D, dtw (N:=Fnum) (Raw2 (N:=Fnum) tiny) (Raw2 (N:=Fnum) [[0%float]]) GcNone None None = Ok 0%float /\
  dtw (N:=Xnum) (Raw2 (lift (exactly tiny))) (Raw2 (lift (exactly [[0%float]]))) GcNone None None = Ok (XR D) /\ 0 < D.
Proof.
  assert (T : fv 0x1p-600 = bpow radix2 (-600)).
  { rewrite (fv_literal _ false 4503599627370496 (-652)) by (vm_compute; reflexivity). unfold F2R, Defs.Fnum, Defs.Fexp, cond_Zopp. change (-600)%Z with (52 + -652)%Z. rewrite bpow_plus. reflexivity. }
  assert (R1 : real_series 1 (exactly tiny)) by (split; [lia|split; [discriminate|intros r [<-|[]]; reflexivity]]).
  assert (R2 : real_series 1 (exactly [[0%float]])) by (split; [lia|split; [discriminate|intros r [<-|[]]; reflexivity]]).
  destruct (C01_dtw_optimal Xnum xnn xfin Xlaws 1 _ _ GcNone None None everywhere (lift_finite 1 _ R1) (lift_finite 1 _ R2) eq_refl) as (wX & EX & LX & AX).
  change (length (lift (exactly tiny))) with 1%nat in *. change (length (lift (exactly [[0%float]]))) with 1%nat in *.
  destruct AX as [(p & (Fp & _) & E)|(NP & _)].
  2:{ destruct (constraint_feasible 1 1 GcNone None None everywhere ltac:(lia) ltac:(lia) I eq_refl) as (p & P). elim (NP p P). }
  assert (C : wX = XR (cost (costs (exactly tiny) (exactly [[0%float]])) p)).
  { rewrite <- E. rewrite <- path_cost_lift. unfold path_cost. assert (X : forall l a, fold_left (fun acc c => nadd (n:=Xnum) (local_costs (N:=Xnum) (lift (exactly tiny)) (lift (exactly [[0%float]])) (fst c) (snd c)) acc) l a
      = fold_left (fun acc c => xadd (XR (costs (exactly tiny) (exactly [[0%float]]) (fst c) (snd c))) acc) l a).
    { induction l as [|c l IH]; intros a; [reflexivity|]. cbn [fold_left]. rewrite local_costs_lift. apply IH. }
    apply X. }
  assert (P : 0 < cost (costs (exactly tiny) (exactly [[0%float]])) p).
  { destruct p as [|c p]; [discriminate|]. injection Fp as ->.
    unfold cost. cbn [map fst snd]. change (rsum (?h :: ?t)) with (h + rsum t). apply Rplus_lt_le_0_compat.
    - unfold costs, sqd, exactly, tiny, nth. cbn [map combine fst snd]. rewrite T, fv_zero. pose proof (bpow_gt_0 radix2 (-600)) as B. generalize dependent (bpow radix2 (-600)). intros t _ B. unfold rsum. cbn [fold_right]. nra.
    - apply rsum_nonneg. intros v I. apply in_map_iff in I. destruct I as (c & <- & _). apply sqd_nonneg. }
  exists (sqrt (cost (costs (exactly tiny) (exactly [[0%float]])) p)). split; [vm_compute; reflexivity|]. split; [|apply sqrt_lt_R0; exact P].
  rewrite EX, C. cbn. unfold Rleb. destruct (Rle_dec 0 _) as [_|H]; [reflexivity|]. exfalso. apply H. apply Rlt_le. exact P.
Qed.
Print Assumptions C187_underflow.

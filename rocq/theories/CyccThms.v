(** The cross-correlation theorem for the discrete Fourier transform. *)
From Coq Require Import Bool List Arith ZArith Reals Lia Lra.
From Verif Require Import Num Py RList PaaThms CyccModel.
Import ListNotations.
Local Open Scope R_scope.

(** ** sums of cosines *)
Lemma cos_telescope t : forall n a,
  2 * sin (t / 2) * rsum (map (fun m => cos (INR m * t)) (seq a n)) =
  sin ((INR (a + n) - 1 / 2) * t) - sin ((INR a - 1 / 2) * t).
Proof.
  induction n as [|n IH]; intros a; simpl seq; simpl map; simpl rsum.
  - rewrite Nat.add_0_r. lra.
  - rewrite Rmult_plus_distr_l, IH. replace (a + S n)%nat with (S a + n)%nat by lia.
    rewrite S_INR.
    replace ((INR a + 1 - 1 / 2) * t) with (INR a * t + t / 2) by lra.
    replace ((INR a - 1 / 2) * t) with (INR a * t - t / 2) by lra.
    rewrite sin_plus, sin_minus. lra.
Qed.
Lemma cos_2PI_Z k x : cos (x + 2 * IZR k * PI) = cos x.
Proof.
  destruct (Z_le_gt_dec 0 k) as [H|H].
  - replace k with (Z.of_nat (Z.to_nat k)) by lia. rewrite <- INR_IZR_INZ. apply cos_period.
  - rewrite <- (cos_period (x + 2 * IZR k * PI) (Z.to_nat (- k))). f_equal.
    rewrite INR_IZR_INZ, Z2Nat.id by lia. rewrite opp_IZR. lra.
Qed.
Lemma sin_2PI_Z k x : sin (x + 2 * IZR k * PI) = sin x.
Proof.
  destruct (Z_le_gt_dec 0 k) as [H|H].
  - replace k with (Z.of_nat (Z.to_nat k)) by lia. rewrite <- INR_IZR_INZ. apply sin_period.
  - rewrite <- (sin_period (x + 2 * IZR k * PI) (Z.to_nat (- k))). f_equal.
    rewrite INR_IZR_INZ, Z2Nat.id by lia. rewrite opp_IZR. lra.
Qed.
(** orthogonality of the characters *)
Lemma cos_orthogonal n a : (0 < n)%nat ->
  rsum (map (fun m => cos (INR m * (2 * PI * IZR a / INR n))) (seq 0 n)) =
  if (a mod Z.of_nat n =? 0)%Z then INR n else 0.
Proof.
  intros Hn. assert (Hn' : INR n <> 0) by (apply not_0_INR; lia).
  destruct (Z.eqb_spec (a mod Z.of_nat n) 0) as [E|E].
  - apply Z.mod_divide in E; [|lia]. destruct E as (q & ->).
    rewrite (rsum_map_ext _ (fun _ => 1)).
    + rewrite rsum_const, seq_length. lra.
    + intros m _. replace (INR m * (2 * PI * IZR (q * Z.of_nat n) / INR n)) with (0 + 2 * IZR (Z.of_nat m * q) * PI).
      * rewrite cos_2PI_Z. apply cos_0.
      * rewrite !mult_IZR, <- !INR_IZR_INZ. field. auto.
  - set (t := 2 * PI * IZR a / INR n).
    assert (Hs : sin (t / 2) <> 0).
    { intros Z. apply sin_eq_0_0 in Z. destruct Z as (k & Hk). unfold t in Hk.
      assert (PI <> 0) by (pose proof PI_RGT_0; lra).
      assert (X : IZR a = IZR (k * Z.of_nat n)).
      { rewrite mult_IZR, <- INR_IZR_INZ. apply (Rmult_eq_reg_r (PI / INR n)).
        - replace (IZR k * INR n * (PI / INR n)) with (IZR k * PI) by (field; auto). rewrite <- Hk. field; auto.
        - unfold Rdiv. apply Rmult_integral_contrapositive_currified; auto. apply Rinv_neq_0_compat; auto. }
      apply eq_IZR in X. apply E. rewrite X. apply Z.mod_mul. lia. }
    pose proof (cos_telescope t n 0) as T.
    replace ((INR (0 + n) - 1 / 2) * t) with (- (t / 2) + 2 * IZR a * PI) in T.
    2: { simpl plus. unfold t. field. auto. }
    rewrite sin_2PI_Z in T. replace ((INR 0 - 1 / 2) * t) with (- (t / 2)) in T by (simpl; lra).
    assert (T' : 2 * sin (t / 2) * rsum (map (fun m => cos (INR m * t)) (seq 0 n)) = 0) by lra.
    apply Rmult_integral in T'. destruct T' as [T'|T']; [|exact T']. lra.
Qed.

(** ** complex sums *)
Lemma csum_fst l : fst (csum l) = rsum (map fst l).
Proof. induction l as [|a l IH]; simpl; auto. rewrite IH. reflexivity. Qed.
Lemma csum_snd l : snd (csum l) = rsum (map snd l).
Proof. induction l as [|a l IH]; simpl; auto. rewrite IH. reflexivity. Qed.
Lemma rsum_scal_r {A} (c : R) (f : A -> R) l : rsum (map (fun x => f x * c) l) = rsum (map f l) * c.
Proof. induction l; simpl; lra. Qed.
Lemma rsum_prod {A B} (f : A -> R) (g : B -> R) la lb :
  rsum (map f la) * rsum (map g lb) = rsum (map (fun a => rsum (map (fun b => f a * g b) lb)) la).
Proof. induction la as [|a la IH]; simpl; [lra|]. rewrite Rmult_plus_distr_r, IH, rsum_map_scal. reflexivity. Qed.
Lemma rsum_opp {A} (f : A -> R) l : rsum (map (fun x => - f x) l) = - rsum (map f l).
Proof. induction l; simpl; lra. Qed.
Lemma rsum_minus {A} (f g : A -> R) l : rsum (map (fun x => f x - g x) l) = rsum (map f l) - rsum (map g l).
Proof. induction l; simpl; lra. Qed.

Lemma dft_fst n x m : fst (dft n x m) = rsum (map (fun t => x t * cos (2 * PI * INR m * INR t / INR n)) (seq 0 n)).
Proof.
  unfold dft. rewrite csum_fst, map_map. apply rsum_map_ext. intros t _. simpl. rewrite cos_neg. reflexivity.
Qed.
Lemma dft_snd n x m : snd (dft n x m) = - rsum (map (fun t => x t * sin (2 * PI * INR m * INR t / INR n)) (seq 0 n)).
Proof.
  unfold dft. rewrite csum_snd, map_map, <- rsum_opp. apply rsum_map_ext. intros t _. simpl. rewrite sin_neg. lra.
Qed.
Lemma spectrum_term n x y m k : (0 < n)%nat ->
  fst (cmul (cmul (dft n x m) (cconj (dft n y m))) (cis (2 * PI * INR m * INR k / INR n))) =
  rsum (map (fun t => rsum (map (fun u => x t * y u *
    cos (INR m * (2 * PI * IZR (Z.of_nat k - Z.of_nat t + Z.of_nat u) / INR n))) (seq 0 n))) (seq 0 n)).
Proof.
  intros Hn. assert (Hn' : INR n <> 0) by (apply not_0_INR; lia).
  unfold cmul, cconj, cis. simpl. rewrite !dft_fst, !dft_snd.
  set (th := 2 * PI * INR m * INR k / INR n).
  set (C := fun t => cos (2 * PI * INR m * INR t / INR n)). set (S' := fun t => sin (2 * PI * INR m * INR t / INR n)).
  change (fun t => x t * cos (2 * PI * INR m * INR t / INR n)) with (fun t => x t * C t).
  change (fun t => y t * cos (2 * PI * INR m * INR t / INR n)) with (fun t => y t * C t).
  change (fun t => x t * sin (2 * PI * INR m * INR t / INR n)) with (fun t => x t * S' t).
  change (fun t => y t * sin (2 * PI * INR m * INR t / INR n)) with (fun t => y t * S' t).
  symmetry. transitivity (rsum (map (fun t => rsum (map (fun u =>
     ((x t * C t) * (y u * C u) * cos th + (x t * S' t) * (y u * S' u) * cos th)
     + ((x t * S' t) * (y u * C u) * sin th - (x t * C t) * (y u * S' u) * sin th)) (seq 0 n))) (seq 0 n))).
  - apply rsum_map_ext. intros t _. apply rsum_map_ext. intros u _.
    replace (INR m * (2 * PI * IZR (Z.of_nat k - Z.of_nat t + Z.of_nat u) / INR n))
      with (th - 2 * PI * INR m * INR t / INR n + 2 * PI * INR m * INR u / INR n).
    2: { unfold th. rewrite plus_IZR, minus_IZR, <- !INR_IZR_INZ. field. auto. }
    rewrite cos_plus, cos_minus, sin_minus. fold (C t) (C u) (S' t) (S' u). ring.
  - transitivity (rsum (map (fun t =>
      (rsum (map (fun u => (x t * C t) * (y u * C u)) (seq 0 n)) * cos th + rsum (map (fun u => (x t * S' t) * (y u * S' u)) (seq 0 n)) * cos th)
      + (rsum (map (fun u => (x t * S' t) * (y u * C u)) (seq 0 n)) * sin th - rsum (map (fun u => (x t * C t) * (y u * S' u)) (seq 0 n)) * sin th)) (seq 0 n))).
    { apply rsum_map_ext. intros t _. rewrite rsum_map_plus, rsum_map_plus, rsum_minus, !rsum_scal_r. reflexivity. }
    rewrite rsum_map_plus, rsum_map_plus, rsum_minus, !rsum_scal_r, <- !rsum_prod. ring.
Qed.
(** circular cross-correlation *)
Lemma circular n x y k : (0 < n)%nat ->
  fst (idft n (fun m => cmul (dft n x m) (cconj (dft n y m))) k) =
  rsum (map (fun t => rsum (map (fun u =>
    if ((Z.of_nat k - Z.of_nat t + Z.of_nat u) mod Z.of_nat n =? 0)%Z then x t * y u else 0) (seq 0 n))) (seq 0 n)).
Proof.
  intros Hn. assert (Hn' : INR n <> 0) by (apply not_0_INR; lia).
  unfold idft. simpl. rewrite csum_fst, map_map.
  rewrite (rsum_map_ext _ _ _ (fun m _ => spectrum_term n x y m k Hn)).
  rewrite (rsum_swap (fun m t => rsum (map (fun u => x t * y u *
    cos (INR m * (2 * PI * IZR (Z.of_nat k - Z.of_nat t + Z.of_nat u) / INR n))) (seq 0 n)))).
  rewrite <- rsum_map_scal. apply rsum_map_ext. intros t _.
  rewrite (rsum_swap (fun m u => x t * y u * cos (INR m * (2 * PI * IZR (Z.of_nat k - Z.of_nat t + Z.of_nat u) / INR n)))).
  rewrite <- rsum_map_scal. apply rsum_map_ext. intros u _.
  rewrite rsum_map_scal, cos_orthogonal by auto. destruct (_ =? 0)%Z; [field; auto|ring].
Qed.

(** ** sliding products *)
(** [sum over t, u with t = u + z] of [f t * g u] *)
Definition slide (n : nat) (z : Z) (f g : nat -> R) : R :=
  rsum (map (fun t => rsum (map (fun u => if (Z.of_nat t =? Z.of_nat u + z)%Z then f t * g u else 0) (seq 0 n))) (seq 0 n)).
Lemma delta_Z (f : nat -> R) w : forall n a,
  rsum (map (fun t => if (Z.of_nat t =? w)%Z then f t else 0) (seq a n)) =
  if ((Z.of_nat a <=? w) && (w <? Z.of_nat (a + n)))%Z then f (Z.to_nat w) else 0.
Proof.
  induction n as [|n IH]; intros a.
  - simpl. destruct (Z.leb_spec (Z.of_nat a) w), (Z.ltb_spec w (Z.of_nat (a + 0))); simpl; auto; lia.
  - simpl seq. simpl map. simpl rsum. rewrite IH. replace (a + S n)%nat with (S a + n)%nat by lia.
    destruct (Z.eqb_spec (Z.of_nat a) w) as [<-|Hne].
    + destruct (Z.leb_spec (Z.of_nat (S a)) (Z.of_nat a)), (Z.leb_spec (Z.of_nat a) (Z.of_nat a)),
        (Z.ltb_spec (Z.of_nat a) (Z.of_nat (S a + n))); simpl andb; cbv iota; try lia. rewrite Nat2Z.id. lra.
    + destruct (Z.leb_spec (Z.of_nat (S a)) w), (Z.leb_spec (Z.of_nat a) w),
        (Z.ltb_spec w (Z.of_nat (S a + n))); simpl andb; cbv iota; try lia; lra.
Qed.
Lemma slide_sum n z f g : slide n z f g =
  rsum (map (fun u => if ((0 <=? Z.of_nat u + z) && (Z.of_nat u + z <? Z.of_nat n))%Z
                      then f (Z.to_nat (Z.of_nat u + z)) * g u else 0) (seq 0 n)).
Proof.
  unfold slide. rewrite rsum_swap. apply rsum_map_ext. intros u _.
  rewrite (delta_Z (fun t => f t * g u)). reflexivity.
Qed.
Lemma slide_swap n z f g : slide n z f g = slide n (- z) g f.
Proof.
  unfold slide. rewrite rsum_swap. apply rsum_map_ext. intros u _. apply rsum_map_ext. intros t _.
  destruct (Z.eqb_spec (Z.of_nat t) (Z.of_nat u + z)), (Z.eqb_spec (Z.of_nat u) (Z.of_nat t + - z)); try lia; lra.
Qed.
Lemma slide_ext n z f g f' g' : (forall t, (t < n)%nat -> f t = f' t) -> (forall t, (t < n)%nat -> g t = g' t) ->
  slide n z f g = slide n z f' g'.
Proof.
  intros H H'. unfold slide. apply rsum_map_ext. intros t Ht. apply in_seq in Ht. apply rsum_map_ext. intros u Hu. apply in_seq in Hu.
  rewrite H, H' by lia. reflexivity.
Qed.
(** a sum may be cut where its terms vanish *)
Lemma rsum_cut (h : nat -> R) n m : (n <= m)%nat -> (forall i, (n <= i)%nat -> h i = 0) ->
  rsum (map h (seq 0 m)) = rsum (map h (seq 0 n)).
Proof.
  intros H Hz. replace m with (n + (m - n))%nat by lia. rewrite seq_app, map_app, rsum_app.
  rewrite (rsum_map_ext h (fun _ => 0) (seq (0 + n) (m - n))).
  - rewrite rsum_const. lra.
  - intros i Hi. apply in_seq in Hi. apply Hz. lia.
Qed.
Lemma circular_slide n sz x y k z : (0 < sz)%nat -> (2 * sz - 1 <= n)%nat -> (Z.abs z <= Z.of_nat sz - 1)%Z ->
  (k < n)%nat -> Z.of_nat k = z \/ Z.of_nat k = (z + Z.of_nat n)%Z ->
  (forall t, (sz <= t)%nat -> x t = 0) -> (forall t, (sz <= t)%nat -> y t = 0) ->
  fst (idft n (fun m => cmul (dft n x m) (cconj (dft n y m))) k) = slide sz z x y.
Proof.
  intros Hs Hn Hz Hk Hkz Hx Hy. rewrite circular by lia. unfold slide.
  rewrite (rsum_cut _ sz n) by
    (lia || (intros t Ht; rewrite (rsum_map_ext _ (fun _ => 0)); [rewrite rsum_const; lra|intros u _; rewrite Hx by auto; destruct (_ =? _)%Z; lra])).
  apply rsum_map_ext. intros t Ht. apply in_seq in Ht.
  rewrite (rsum_cut _ sz n) by (lia || (intros u Hu; rewrite Hy by auto; destruct (_ =? _)%Z; lra)).
  apply rsum_map_ext. intros u Hu. apply in_seq in Hu.
  assert (M : ((Z.of_nat k - Z.of_nat t + Z.of_nat u) mod Z.of_nat n = (z - Z.of_nat t + Z.of_nat u) mod Z.of_nat n)%Z).
  { destruct Hkz as [->|E]; [reflexivity|]. rewrite E.
    replace (z + Z.of_nat n - Z.of_nat t + Z.of_nat u)%Z with (z - Z.of_nat t + Z.of_nat u + 1 * Z.of_nat n)%Z by lia.
    apply Z.mod_add. lia. }
  rewrite M. destruct (Z.eqb_spec (Z.of_nat t) (Z.of_nat u + z)) as [E|E].
  - replace (z - Z.of_nat t + Z.of_nat u)%Z with 0%Z by lia. rewrite Z.mod_0_l by lia. reflexivity.
  - destruct (Z.eqb_spec ((z - Z.of_nat t + Z.of_nat u) mod Z.of_nat n) 0) as [E'|]; [|reflexivity].
    apply Z.mod_divide in E'; [|lia]. destruct E' as (q & Hq). exfalso.
    assert (-1 < q < 1)%Z by nia. assert (q = 0%Z) by lia. subst q. lia.
Qed.

Lemma fft_size_large sz : (0 < sz)%nat -> (2 * sz <= fft_size sz)%nat.
Proof.
  intros H. unfold fft_size. destruct (Nat.log2_spec (2 * sz - 1)) as [_ L]; [lia|].
  change (1 + Nat.log2 (2 * sz - 1))%nat with (Datatypes.S (Nat.log2 (2 * sz - 1))). lia.
Qed.
Lemma at2_beyond s t c : (length s <= t)%nat -> at2 s t c = 0.
Proof. intros H. unfold at2. rewrite (nth_overflow s) by auto. destruct c; reflexivity. Qed.

(** entry [i] of the normalised cross-correlation before normalisation *)
Definition cc_entry (d : nat) (s1 s2 : rseries) (z : Z) : R :=
  rsum (map (fun c => slide (length s1) z (fun t => at2 s1 t c) (fun u => at2 s2 u c)) (seq 0 d)).
Lemma normalized_cc_eq d s1 s2 n1 n2 : (2 <= length s1)%nat -> length s2 = length s1 ->
  normalized_cc d s1 s2 n1 n2 =
  map (fun i => normalize (own_norm n1 s1 * own_norm n2 s2) (cc_entry d s1 s2 (Z.of_nat i - (Z.of_nat (length s1) - 1))))
      (seq 0 (2 * length s1 - 1)).
Proof.
  intros H2 El. unfold normalized_cc. cbv zeta. set (sz := length s1) in *.
  pose proof (fft_size_large sz ltac:(lia)) as Hn. set (n := fft_size sz) in *.
  set (row := fun k => map (circ_cc s1 s2 n k) (seq 0 d)).
  assert (L : length (map row (seq 0 n)) = n) by (rewrite map_length, seq_length; auto).
  unfold py_from, py_upto. rewrite L. unfold slice_bound.
  destruct (Z.ltb_spec (- (Z.of_nat sz - 1)) 0); [|lia]. destruct (Z.ltb_spec (Z.of_nat sz) 0); [lia|].
  replace (Z.to_nat (Z.max 0 (- (Z.of_nat sz - 1) + Z.of_nat n))) with (n - (sz - 1))%nat by lia.
  replace (Z.to_nat (Z.min (Z.of_nat sz) (Z.of_nat n))) with sz by lia.
  rewrite skipn_map, firstn_map, skipn_seq, firstn_seq by lia.
  replace (0 + (n - (sz - 1)))%nat with (n - (sz - 1))%nat by lia.
  replace (n - (n - (sz - 1)))%nat with (sz - 1)%nat by lia.
  rewrite map_app, !map_map.
  replace (2 * sz - 1)%nat with ((sz - 1) + sz)%nat by lia. rewrite seq_app, map_app. f_equal.
  - assert (G : forall (f : nat -> R) m a, map f (seq a m) = map (fun i => f (a + i)%nat) (seq 0 m)).
    { intros f m a. revert f a. induction m as [|m IH]; intros f a; simpl; auto.
      rewrite Nat.add_0_r. f_equal. rewrite IH, (IH (fun i => f (a + i)%nat)). apply map_ext. intros i. f_equal. lia. }
    rewrite G. apply map_ext_in. intros i Hi. apply in_seq in Hi. f_equal. unfold row, cc_entry.
    apply rsum_map_ext. intros c _. unfold circ_cc.
    apply circular_slide; try lia.
    + intros t Ht. apply at2_beyond. fold sz. lia.
    + intros t Ht. apply at2_beyond. lia.
  - assert (G : forall (f : nat -> R) m a, map f (seq a m) = map (fun i => f (a + i)%nat) (seq 0 m)).
    { intros f m a. revert f a. induction m as [|m IH]; intros f a; simpl; auto.
      rewrite Nat.add_0_r. f_equal. rewrite IH, (IH (fun i => f (a + i)%nat)). apply map_ext. intros i. f_equal. lia. }
    rewrite (G _ sz (0 + (sz - 1))%nat). apply map_ext_in. intros i Hi. apply in_seq in Hi. f_equal. unfold row, cc_entry.
    apply rsum_map_ext. intros c _. unfold circ_cc.
    apply circular_slide; try lia.
    + intros t Ht. apply at2_beyond. fold sz. lia.
    + intros t Ht. apply at2_beyond. lia.
Qed.

(** ** Cauchy-Schwarz *)
Lemma cauchy_schwarz {A} (f g : A -> R) l :
  sq (rsum (map (fun x => f x * g x) l)) <= rsum (map (fun x => sq (f x)) l) * rsum (map (fun x => sq (g x)) l).
Proof.
  induction l as [|a l IH]; simpl; [unfold sq; lra|].
  set (P := rsum (map (fun x => f x * g x) l)) in *.
  set (X := rsum (map (fun x => sq (f x)) l)) in *. set (Y := rsum (map (fun x => sq (g x)) l)) in *.
  assert (HX : 0 <= X) by (apply rsum_nonneg; intros v Hv; apply in_map_iff in Hv; destruct Hv as (w & <- & _); apply sq_nonneg).
  assert (HY : 0 <= Y) by (apply rsum_nonneg; intros v Hv; apply in_map_iff in Hv; destruct Hv as (w & <- & _); apply sq_nonneg).
  set (x := f a) in *. set (y := g a) in *.
  assert (K : 2 * P * (x * y) <= X * sq y + Y * sq x).
  { assert (HQ : 0 <= X * sq y + Y * sq x).
    { apply Rplus_le_le_0_compat; apply Rmult_le_pos; auto using sq_nonneg. }
    apply Rle_trans with (Rabs (2 * P * (x * y))); [apply Rle_abs|].
    rewrite <- (Rabs_pos_eq (X * sq y + Y * sq x)) by auto. apply Rsqr_le_abs_0.
    unfold Rsqr, sq in *.
    assert (P * P * ((x * y) * (x * y)) <= X * Y * ((x * y) * (x * y))) by (apply Rmult_le_compat_r; [apply Rle_0_sqr|auto]).
    assert (0 <= (X * (y * y) - Y * (x * x)) * (X * (y * y) - Y * (x * x))) by apply Rle_0_sqr. nra. }
  unfold sq in *. nra.
Qed.
Lemma rsum_flat {A B} (h : A -> B -> R) la lb :
  rsum (map (fun p => h (fst p) (snd p)) (list_prod la lb)) = rsum (map (fun a => rsum (map (h a) lb)) la).
Proof.
  induction la as [|a la IH]; simpl; auto. rewrite map_app, rsum_app, IH, map_map. reflexivity.
Qed.
(** energy of the first [n] time steps *)
Definition energy (d n : nat) (s : rseries) : R :=
  rsum (map (fun c => rsum (map (fun t => sq (at2 s t c)) (seq 0 n))) (seq 0 d)).
Lemma energy_nonneg d n s : 0 <= energy d n s.
Proof.
  apply rsum_nonneg. intros v Hv. apply in_map_iff in Hv. destruct Hv as (c & <- & _).
  apply rsum_nonneg. intros v Hv. apply in_map_iff in Hv. destruct Hv as (t & <- & _). apply sq_nonneg.
Qed.
Lemma slide_energy n z (f : nat -> R) :
  rsum (map (fun t => rsum (map (fun u => sq (if (Z.of_nat t =? Z.of_nat u + z)%Z then f t else 0)) (seq 0 n))) (seq 0 n))
  <= rsum (map (fun t => sq (f t)) (seq 0 n)).
Proof.
  apply rsum_map_le. intros t Ht.
  rewrite (rsum_map_ext _ (fun u => if (Z.of_nat u =? Z.of_nat t - z)%Z then (fun _ => sq (f t)) u else 0)).
  - rewrite delta_Z. destruct (_ && _); [lra|apply sq_nonneg].
  - intros u _. destruct (Z.eqb_spec (Z.of_nat t) (Z.of_nat u + z)), (Z.eqb_spec (Z.of_nat u) (Z.of_nat t - z)); try lia; auto.
    unfold sq. lra.
Qed.
Lemma slide_energy' n z (g : nat -> R) :
  rsum (map (fun t => rsum (map (fun u => sq (if (Z.of_nat t =? Z.of_nat u + z)%Z then g u else 0)) (seq 0 n))) (seq 0 n))
  <= rsum (map (fun u => sq (g u)) (seq 0 n)).
Proof.
  rewrite rsum_swap. apply rsum_map_le. intros u Hu.
  rewrite (rsum_map_ext _ (fun t => if (Z.of_nat t =? Z.of_nat u + z)%Z then (fun _ => sq (g u)) t else 0)).
  - rewrite delta_Z. destruct (_ && _); [lra|apply sq_nonneg].
  - intros t _. destruct (_ =? _)%Z; auto. unfold sq. lra.
Qed.
Lemma cc_entry_bound d s1 s2 z : length s2 = length s1 ->
  sq (cc_entry d s1 s2 z) <= energy d (length s1) s1 * energy d (length s1) s2.
Proof.
  intros El. unfold cc_entry, slide, energy. set (n := length s1).
  rewrite (rsum_map_ext _ (fun c => rsum (map (fun p => (if (Z.of_nat (fst p) =? Z.of_nat (snd p) + z)%Z then at2 s1 (fst p) c else 0) *
      (if (Z.of_nat (fst p) =? Z.of_nat (snd p) + z)%Z then at2 s2 (snd p) c else 0)) (list_prod (seq 0 n) (seq 0 n))))).
  2: { intros c _.
       rewrite (rsum_flat (fun t u => (if (Z.of_nat t =? Z.of_nat u + z)%Z then at2 s1 t c else 0) *
         (if (Z.of_nat t =? Z.of_nat u + z)%Z then at2 s2 u c else 0))).
       apply rsum_map_ext. intros t _. apply rsum_map_ext. intros u _. destruct (_ =? _)%Z; lra. }
  rewrite <- (rsum_flat (fun c p => (if (Z.of_nat (fst p) =? Z.of_nat (snd p) + z)%Z then at2 s1 (fst p) c else 0) *
      (if (Z.of_nat (fst p) =? Z.of_nat (snd p) + z)%Z then at2 s2 (snd p) c else 0))).
  eapply Rle_trans; [apply (cauchy_schwarz
    (fun q : nat * (nat * nat) => if (Z.of_nat (fst (snd q)) =? Z.of_nat (snd (snd q)) + z)%Z then at2 s1 (fst (snd q)) (fst q) else 0)
    (fun q : nat * (nat * nat) => if (Z.of_nat (fst (snd q)) =? Z.of_nat (snd (snd q)) + z)%Z then at2 s2 (snd (snd q)) (fst q) else 0))|].
  apply Rmult_le_compat.
  - apply rsum_nonneg. intros v Hv. apply in_map_iff in Hv. destruct Hv as (c & <- & _). apply sq_nonneg.
  - apply rsum_nonneg. intros v Hv. apply in_map_iff in Hv. destruct Hv as (c & <- & _). apply sq_nonneg.
  - rewrite (rsum_flat (fun c p => sq (if (Z.of_nat (fst p) =? Z.of_nat (snd p) + z)%Z then at2 s1 (fst p) c else 0))).
    apply rsum_map_le. intros c _.
    rewrite (rsum_flat (fun t u => sq (if (Z.of_nat t =? Z.of_nat u + z)%Z then at2 s1 t c else 0))).
    apply (slide_energy n z (fun t => at2 s1 t c)).
  - rewrite (rsum_flat (fun c p => sq (if (Z.of_nat (fst p) =? Z.of_nat (snd p) + z)%Z then at2 s2 (snd p) c else 0))).
    apply rsum_map_le. intros c _.
    rewrite (rsum_flat (fun t u => sq (if (Z.of_nat t =? Z.of_nat u + z)%Z then at2 s2 u c else 0))).
    apply (slide_energy' n z (fun t => at2 s2 t c)).
Qed.
Lemma cc_entry_swap d s1 s2 z : length s2 = length s1 -> cc_entry d s1 s2 z = cc_entry d s2 s1 (- z).
Proof. intros El. unfold cc_entry. rewrite El. apply rsum_map_ext. intros c _. apply slide_swap. Qed.
Lemma cc_entry_zero_self d s : cc_entry d s s 0 = energy d (length s) s.
Proof.
  unfold cc_entry, energy. apply rsum_map_ext. intros c _. rewrite slide_sum. apply rsum_map_ext. intros u Hu. apply in_seq in Hu.
  destruct (Z.leb_spec 0 (Z.of_nat u + 0)), (Z.ltb_spec (Z.of_nat u + 0) (Z.of_nat (length s))); try lia.
  simpl. rewrite Z.add_0_r, Nat2Z.id. reflexivity.
Qed.
(** rows of length [d] *)
Lemma rsum_row (f : R -> R) (r : list R) d : length r = d -> rsum (map f r) = rsum (map (fun c => f (nth c r 0)) (seq 0 d)).
Proof. intros <-. rewrite (map_nth_seq f r 0). reflexivity. Qed.
Lemma frob_energy d s : (forall r, In r s -> length r = d) -> frob s = sqrt (energy d (length s) s).
Proof.
  intros H. unfold frob, energy. f_equal. rewrite rsum_swap. rewrite (map_nth_seq _ s []). apply rsum_map_ext.
  intros t Ht. apply in_seq in Ht. unfold at2, sq. apply (rsum_row (fun x => x * x)). apply H. apply nth_In. lia.
Qed.

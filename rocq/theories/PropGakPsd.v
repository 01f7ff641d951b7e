(** C193: the matrices of [cdist_gak] are positive semi-definite.  The local kernel g/(2-g) is the sum of the powers of g/2, so that the sum over
    warping paths is a sum over alignments in which both series may wait; these are limits of sums of products f(x) f(y). *)
From Coq Require Import Bool List Arith Lia ZArith QArith Reals Lra.
From Verif Require Import Num NumLaws Py Series Masks DtwModel Dataset Spec SpecDtw CdistThms PropCdist LimitedThms RList PathSum RealSeries GakModel PropSoft PropSoftCdist PropGak PropMeta.
Import ListNotations.
Local Open Scope R_scope.

(** ** kernels *)
Section Kernels.
Context {X : Type}.
Definition gram_sum (fs : list (X -> R)) (x y : X) : R := rsum (map (fun f => f x * f y) fs).
Definition finite_gram (K : X -> X -> R) : Prop := exists fs, forall x y, K x y = gram_sum fs x y.
Definition gram (K : X -> X -> R) : Prop :=
  exists Ks : nat -> X -> X -> R, (forall n, finite_gram (Ks n)) /\ forall x y, Un_cv (fun n => Ks n x y) (K x y).
Definition form (K : X -> X -> R) (l : list (R * X)) : R :=
  rsum (map (fun p => rsum (map (fun q => fst p * fst q * K (snd p) (snd q)) l)) l).
Definition psd (K : X -> X -> R) : Prop := forall l, 0 <= form K l.

Lemma finite_ext K K' : (forall x y, K x y = K' x y) -> finite_gram K -> finite_gram K'.
Proof. intros E (fs & H). exists fs. intros. rewrite <- E. auto. Qed.
Lemma finite_plus K K' : finite_gram K -> finite_gram K' -> finite_gram (fun x y => K x y + K' x y).
Proof. intros (fs & H) (fs' & H'). exists (fs ++ fs')%list. intros. rewrite H, H'. unfold gram_sum. rewrite map_app, rsum_app. reflexivity. Qed.
Lemma finite_rank (f : X -> R) : finite_gram (fun x y => f x * f y).
Proof. exists [f]. intros. unfold gram_sum. cbn. ring. Qed.
Lemma finite_zero : finite_gram (fun _ _ => 0).
Proof. exists []. reflexivity. Qed.
Lemma finite_const c : 0 <= c -> finite_gram (fun _ _ => c).
Proof. intros H. eapply finite_ext; [|apply (finite_rank (fun _ => sqrt c))]. intros. cbn. apply sqrt_sqrt. auto. Qed.
Lemma finite_mul K K' : finite_gram K -> finite_gram K' -> finite_gram (fun x y => K x y * K' x y).
Proof.
  intros (fs & H) (fs' & H'). exists (flat_map (fun f => map (fun f' x => f x * f' x) fs') fs). intros x y. rewrite H, H'. unfold gram_sum.
  clear H H'. induction fs as [|f fs IH]; cbn [map flat_map]; [unfold rsum; cbn; ring|]. rewrite map_app, rsum_app, <- IH, map_map. cbn [rsum fold_right] in *. unfold rsum at 1. cbn [fold_right]. fold (rsum (map (fun f0 => f0 x * f0 y) fs)).
  rewrite Rmult_plus_distr_r. f_equal. rewrite <- rsum_map_scal. apply rsum_map_ext. intros f' _. ring.
Qed.
Lemma finite_pow K n : finite_gram K -> finite_gram (fun x y => K x y ^ n).
Proof. intros H. induction n as [|n IH]; [apply (finite_const 1); lra|]. cbn [pow]. apply finite_mul; auto. Qed.
Lemma finite_map (h : X -> X) K : finite_gram K -> finite_gram (fun x y => K x y + K (h x) y + K x (h y) + K (h x) (h y)).
Proof.
  intros (fs & H). exists (map (fun f x => f x + f (h x)) fs). intros x y. rewrite !H. unfold gram_sum. rewrite map_map, <- !rsum_map_plus. apply rsum_map_ext. intros f _. ring.
Qed.

Lemma gram_finite K : finite_gram K -> gram K.
Proof. intros H. exists (fun _ => K). split; auto. intros x y e He. exists 0%nat. intros. unfold R_dist. rewrite Rminus_diag_eq, Rabs_R0; auto. Qed.
Lemma gram_ext K K' : (forall x y, K x y = K' x y) -> gram K -> gram K'.
Proof. intros E (Ks & F & L). exists Ks. split; auto. intros. rewrite <- E. auto. Qed.
Lemma gram_plus K K' : gram K -> gram K' -> gram (fun x y => K x y + K' x y).
Proof.
  intros (Ks & F & L) (Ks' & F' & L'). exists (fun n x y => Ks n x y + Ks' n x y). split; [intros; apply finite_plus; auto|].
  intros x y. apply (CV_plus (fun n => Ks n x y) (fun n => Ks' n x y)); auto.
Qed.
Lemma gram_mul K K' : gram K -> gram K' -> gram (fun x y => K x y * K' x y).
Proof.
  intros (Ks & F & L) (Ks' & F' & L'). exists (fun n x y => Ks n x y * Ks' n x y). split; [intros; apply finite_mul; auto|].
  intros x y. apply (CV_mult (fun n => Ks n x y) (fun n => Ks' n x y)); auto.
Qed.
Lemma gram_map (h : X -> X) K : gram K -> gram (fun x y => K x y + K (h x) y + K x (h y) + K (h x) (h y)).
Proof.
  intros (Ks & F & L). exists (fun n x y => Ks n x y + Ks n (h x) y + Ks n x (h y) + Ks n (h x) (h y)). split; [intros; apply finite_map; auto|].
  intros x y. apply (CV_plus (fun n => Ks n x y + Ks n (h x) y + Ks n x (h y)) (fun n => Ks n (h x) (h y))); auto.
  apply (CV_plus (fun n => Ks n x y + Ks n (h x) y) (fun n => Ks n x (h y))); auto. apply (CV_plus (fun n => Ks n x y) (fun n => Ks n (h x) y)); auto.
Qed.
(** the exponential of a kernel *)
Lemma gram_exp K : finite_gram K -> gram (fun x y => exp (K x y)).
Proof.
  intros H. exists (fun n x y => sum_f_R0 (fun i => / INR (fact i) * K x y ^ i) n). split.
  - intros n. induction n as [|n IH]; cbn [sum_f_R0].
    + apply finite_mul; [apply finite_const; left; apply Rinv_0_lt_compat, INR_fact_lt_0|apply finite_pow; auto].
    + apply finite_plus; auto. apply finite_mul; [apply finite_const; left; apply Rinv_0_lt_compat, INR_fact_lt_0|apply finite_pow; auto].
  - intros x y. unfold exp. destruct (exist_exp (K x y)) as (l & Hl). cbn. exact Hl.
Qed.

Lemma form_ext K K' l : (forall x y, K x y = K' x y) -> form K l = form K' l.
Proof. intros E. unfold form. apply rsum_map_ext. intros. apply rsum_map_ext. intros. rewrite E. reflexivity. Qed.
Lemma form_plus K K' l : form (fun x y => K x y + K' x y) l = form K l + form K' l.
Proof. unfold form. rewrite <- rsum_map_plus. apply rsum_map_ext. intros. rewrite <- rsum_map_plus. apply rsum_map_ext. intros. ring. Qed.
Lemma form_rank f l : form (fun x y => f x * f y) l = Rsqr (rsum (map (fun p => fst p * f (snd p)) l)).
Proof.
  unfold form, Rsqr. rewrite <- rsum_map_scal. apply rsum_map_ext. intros p _. rewrite Rmult_comm, <- rsum_map_scal. apply rsum_map_ext. intros q _. ring.
Qed.
Lemma psd_finite K : finite_gram K -> psd K.
Proof.
  intros (fs & H) l. rewrite (form_ext K (gram_sum fs)) by auto. clear H. induction fs as [|f fs IH].
  - apply Req_le. symmetry. unfold form. rewrite (rsum_map_ext _ (fun _ => 0)); [rewrite rsum_const; ring|]. intros. rewrite (rsum_map_ext _ (fun _ => 0)); [rewrite rsum_const; ring|]. intros. unfold gram_sum. cbn. ring.
  - rewrite (form_ext _ (fun x y => f x * f y + gram_sum fs x y)) by (intros; reflexivity). rewrite form_plus, form_rank. pose proof (Rle_0_sqr (rsum (map (fun p => fst p * f (snd p)) l))). lra.
Qed.
Lemma cv_rsum {A} (l : list A) (u : nat -> A -> R) v : (forall a, Un_cv (fun n => u n a) (v a)) -> Un_cv (fun n => rsum (map (u n) l)) (rsum (map v l)).
Proof.
  intros H. induction l as [|a l IH]; cbn [map rsum fold_right].
  - intros e He. exists 0%nat. intros. unfold R_dist. rewrite Rminus_diag_eq, Rabs_R0; auto.
  - apply (CV_plus (fun n => u n a) (fun n => rsum (map (u n) l))); auto.
Qed.
Lemma cv_const c : Un_cv (fun _ => c) c.
Proof. intros e He. exists 0%nat. intros. unfold R_dist. rewrite Rminus_diag_eq, Rabs_R0; auto. Qed.
Lemma psd_limit (Ks : nat -> X -> X -> R) K l : (forall n, psd (Ks n)) -> (forall p q, In p l -> In q l -> Un_cv (fun n => Ks n (snd p) (snd q)) (K (snd p) (snd q))) -> 0 <= form K l.
Proof.
  intros P L. destruct (Rle_or_lt 0 (form K l)) as [|Neg]; auto. exfalso.
  assert (C : Un_cv (fun n => form (Ks n) l) (form K l)).
  { unfold form.
    assert (G : forall m, incl m l -> Un_cv (fun n => rsum (map (fun p => rsum (map (fun q => fst p * fst q * Ks n (snd p) (snd q)) l)) m)) (rsum (map (fun p => rsum (map (fun q => fst p * fst q * K (snd p) (snd q)) l)) m))).
    { induction m as [|p m IH]; intros I; cbn [map]; [apply cv_const|].
      apply (CV_plus (fun n => rsum (map (fun q => fst p * fst q * Ks n (snd p) (snd q)) l)) (fun n => rsum (map (fun p => rsum (map (fun q => fst p * fst q * Ks n (snd p) (snd q)) l)) m))); [|apply IH; intros x Hx; apply I; right; auto].
      assert (G' : forall m', incl m' l -> Un_cv (fun n => rsum (map (fun q => fst p * fst q * Ks n (snd p) (snd q)) m')) (rsum (map (fun q => fst p * fst q * K (snd p) (snd q)) m'))).
      { induction m' as [|q m' IH']; intros I'; cbn [map]; [apply cv_const|]. apply (CV_plus (fun n => fst p * fst q * Ks n (snd p) (snd q)) (fun n => rsum (map (fun q => fst p * fst q * Ks n (snd p) (snd q)) m'))); [|apply IH'; intros x Hx; apply I'; right; auto].
        apply (CV_mult (fun _ => fst p * fst q) (fun n => Ks n (snd p) (snd q))); [apply cv_const|]. apply L; [apply I|apply I']; left; auto. }
      apply G'. apply incl_refl. }
    apply G. apply incl_refl. }
  destruct (C (- form K l) ltac:(lra)) as (N & HN). specialize (HN N (le_n N)). specialize (P N l). unfold R_dist in HN. apply Rabs_def2 in HN. lra.
Qed.
Lemma psd_gram K : gram K -> psd K.
Proof. intros (Ks & F & L) l. apply (psd_limit Ks); auto. intros. apply psd_finite. auto. Qed.
End Kernels.

(** ** half of the Gaussian kernel on points *)
Definition sq_d (d : nat) (x y : list R) : R := rsum (map (fun k => (nth k x 0 - nth k y 0) * (nth k x 0 - nth k y 0)) (seq 0 d)).
Definition chi (sigma : R) (d : nat) (x y : list R) : R := exp (- (sq_d d x y / (2 * sigma * sigma))) / 2.
Lemma finite_dot d c : 0 <= c -> finite_gram (fun x y : list R => c * rsum (map (fun k => nth k x 0 * nth k y 0) (seq 0 d))).
Proof.
  intros Hc. apply finite_mul; [apply finite_const; auto|]. exists (map (fun k x => nth k x 0) (seq 0 d)). intros x y. unfold gram_sum. rewrite map_map. reflexivity.
Qed.
Lemma gram_chi sigma d : sigma <> 0 -> gram (chi sigma d).
Proof.
  intros Hs. pose proof (sig2 sigma Hs) as S2. set (q := fun x : list R => rsum (map (fun k => nth k x 0 * nth k x 0) (seq 0 d))).
  apply (gram_ext (fun x y => (exp (- (q x / (2 * sigma * sigma))) * exp (- (q y / (2 * sigma * sigma)))) * (exp (/ (sigma * sigma) * rsum (map (fun k => nth k x 0 * nth k y 0) (seq 0 d))) * / 2))).
  - intros x y. unfold chi, Rdiv. rewrite <- Rmult_assoc. f_equal. rewrite <- !exp_plus. f_equal.
    assert (E : sq_d d x y = q x + q y - 2 * rsum (map (fun k => nth k x 0 * nth k y 0) (seq 0 d))).
    { unfold sq_d, q. rewrite <- rsum_map_plus. unfold Rminus. rewrite Ropp_mult_distr_l, <- rsum_map_scal, <- rsum_map_plus. apply rsum_map_ext. intros k _. ring. }
    rewrite E. field. lra.
  - apply gram_mul; [apply gram_finite, (finite_rank (fun x => exp (- (q x / (2 * sigma * sigma)))))|]. apply gram_mul; [|apply gram_finite, finite_const; lra].
    apply gram_exp. apply (finite_dot d). left. apply Rinv_0_lt_compat. apply Rsqr_pos_lt. auto.
Qed.
Lemma chi_bounds sigma d x y : sigma <> 0 -> 0 < chi sigma d x y <= / 2.
Proof.
  intros Hs. unfold chi. assert (0 <= sq_d d x y) by (apply rsum_nonneg; intros v Hv; apply in_map_iff in Hv; destruct Hv as (k & <- & _); apply Rle_0_sqr). pose proof (kern_exp sigma _ Hs H). lra.
Qed.

(** ** partial sums: alignments of bounded length, with waiting *)
Definition place : Type := list (list R) * nat.
Definition here (p : place) : list R := nth (snd p - 1) (fst p) [].
Definition back (p : place) : place := (fst p, (snd p - 1)%nat).
Definition at_border (p : place) : R := if (snd p =? 0)%nat then 1 else 0.
Definition inside_series (p : place) : R := if (snd p =? 0)%nat then 0 else 1.
Fixpoint waits (sigma : R) (d n : nat) (p q : place) : R :=
  match n with
  | O => at_border p * at_border q
  | S n => at_border p * at_border q + (inside_series p * inside_series q) * (chi sigma d (here p) (here q) * (waits sigma d n p q + waits sigma d n (back p) q + waits sigma d n p (back q) + waits sigma d n (back p) (back q)))
  end.
Lemma gram_here sigma d : sigma <> 0 -> gram (fun p q : place => chi sigma d (here p) (here q)).
Proof.
  intros Hs. destruct (gram_chi sigma d Hs) as (Ks & F & L). exists (fun n p q => Ks n (here p) (here q)). split; [|intros; apply L].
  intros n. destruct (F n) as (fs & H). exists (map (fun f p => f (here p)) fs). intros. rewrite H. unfold gram_sum. rewrite map_map. reflexivity.
Qed.
Lemma gram_waits sigma d n : sigma <> 0 -> gram (waits sigma d n).
Proof.
  intros Hs. induction n as [|n IH]; cbn [waits]; [apply gram_finite, finite_rank|]. apply gram_plus; [apply gram_finite, finite_rank|].
  apply gram_mul; [apply gram_finite, finite_rank|]. apply gram_mul; [apply gram_here; auto|]. apply gram_map. exact IH.
Qed.
(** the limit of x(n+1) = a (x(n) + r(n)) *)
Lemma cv_wait a r rl x : 0 <= a <= / 2 -> Un_cv r rl -> (forall n, x (S n) = a * (x n + r n)) -> Un_cv x (a / (1 - a) * rl).
Proof.
  intros Ha Hr Hx e He. set (l := a / (1 - a) * rl). assert (El : l = a * (l + rl)) by (unfold l; field; lra).
  destruct (Hr (e / 2) ltac:(lra)) as (N0 & HN). assert (B : forall k, Rabs (x (N0 + k)%nat - l) <= Rabs (x N0 - l) / 2 ^ k + e / 2).
  { induction k as [|k IH]; [rewrite Nat.add_0_r; cbn [pow]; lra|]. rewrite Nat.add_succ_r, Hx. rewrite El at 1.
    replace (a * (x (N0 + k)%nat + r (N0 + k)%nat) - a * (l + rl)) with (a * ((x (N0 + k)%nat - l) + (r (N0 + k)%nat - rl))) by ring.
    rewrite Rabs_mult, (Rabs_pos_eq a) by lra. pose proof (HN (N0 + k)%nat ltac:(lia)) as Q. unfold R_dist in Q. pose proof (Rabs_triang (x (N0 + k)%nat - l) (r (N0 + k)%nat - rl)) as T. pose proof (Rabs_pos ((x (N0 + k)%nat - l) + (r (N0 + k)%nat - rl))) as P0.
    assert (P2 : 0 < 2 ^ k) by (apply pow_lt; lra). replace (Rabs (x N0 - l) / 2 ^ S k) with ((Rabs (x N0 - l) / 2 ^ k) / 2) by (cbn [pow]; field; lra). nra. }
  destruct (cv_pow_half (Rabs (x N0 - l)) (e / 2) ltac:(lra)) as (K & HK). exists (N0 + K)%nat. intros n Hn. unfold R_dist. replace n with (N0 + (n - N0))%nat by lia.
  specialize (B (n - N0)%nat). specialize (HK (n - N0)%nat ltac:(lia)). unfold R_dist in HK. rewrite Rminus_0_r in HK. apply Rabs_def2 in HK. lra.
Qed.
Lemma waits_limit sigma d s t : sigma <> 0 -> forall i j,
  Un_cv (fun n => waits sigma d n (s, i) (t, j)) (bsum everywhere (fun a b => let c := chi sigma d (nth a s []) (nth b t []) in c / (1 - c)) i j).
Proof.
  intros Hs. set (w := fun a b => _). apply (sum_ind (fun i j => Un_cv (fun n => waits sigma d n (s, i) (t, j)) (bsum everywhere w i j))). intros i j IH.
  assert (BD : (i = 0 \/ j = 0)%nat -> Un_cv (fun n => waits sigma d n (s, i) (t, j)) (bsum everywhere w i j)).
  { intros Z. assert (E : forall n, waits sigma d n (s, i) (t, j) = bsum everywhere w i j).
    { intros n. assert (E0 : at_border (s, i) * at_border (t, j) = bsum everywhere w i j) by (unfold at_border, bsum; cbn [snd]; destruct i, j; cbn [Nat.eqb]; try lia; ring).
      destruct n; cbn [waits]; [exact E0|]. rewrite E0. unfold inside_series. cbn [snd]. destruct Z as [-> | ->]; cbn [Nat.eqb]; ring. }
    intros e He. exists 0%nat. intros n _. rewrite E. unfold R_dist. rewrite Rminus_diag_eq, Rabs_R0; auto. }
  destruct i as [|i]; [apply BD; auto|]. destruct j as [|j]; [apply BD; auto|]. clear BD.
  change (bsum everywhere w (S i) (S j)) with (psum everywhere w i j). rewrite psum_rec. change (everywhere i j) with true. cbv iota. unfold w at 1. cbv zeta.
  set (c := chi sigma d (nth i s []) (nth j t [])). pose proof (chi_bounds sigma d (nth i s []) (nth j t []) Hs) as CB. fold c in CB.
  apply (cv_wait c (fun n => waits sigma d n (s, i) (t, S j) + waits sigma d n (s, S i) (t, j) + waits sigma d n (s, i) (t, j))); [lra| |].
  - apply (CV_plus (fun n => waits sigma d n (s, i) (t, S j) + waits sigma d n (s, S i) (t, j)) (fun n => waits sigma d n (s, i) (t, j))); [|apply IH; lia].
    apply (CV_plus (fun n => waits sigma d n (s, i) (t, S j)) (fun n => waits sigma d n (s, S i) (t, j))); apply IH; lia.
  - intros n. cbn [waits]. unfold at_border, inside_series, here, back. cbn [fst snd Nat.eqb]. rewrite !Nat.sub_succ, !Nat.sub_0_r. fold c. ring.
Qed.
Lemma Kxy_bsum sigma d s t : sigma <> 0 -> real_series d s -> real_series d t ->
  Kxy sigma s t = bsum everywhere (fun a b => let c := chi sigma d (nth a s []) (nth b t []) in c / (1 - c)) (length s) (length t).
Proof.
  intros Hs F1 F2. pose proof (real_len _ _ F1) as L1. pose proof (real_len _ _ F2) as L2. unfold Kxy. change (kpath sigma s t) with (pweight (fun i j => kern sigma (costs s t i j))). rewrite all_paths_sum.
  destruct (length s) as [|n] eqn:En; [lia|]. destruct (length t) as [|m] eqn:Em; [lia|]. cbn [bsum]. rewrite !Nat.sub_succ, !Nat.sub_0_r. apply (psum_ext everywhere everywhere _ _ (S n) (S m)); auto; try lia.
  intros i j Hi Hj _. cbv zeta. assert (E : costs s t i j = sq_d d (nth i s []) (nth j t [])).
  { unfold costs, sq_d. apply sqd_index; [apply F1|apply F2]; apply nth_In; lia. }
  pose proof (chi_bounds sigma d (nth i s []) (nth j t []) Hs) as B. unfold kern, chi in *. cbv zeta. rewrite E. set (e := exp _) in *. field. lra.
Qed.

(** ** C193 *)
(** the quadratic form of the first [n] rows and columns *)
Definition quadratic (n : nat) (m : nat -> nat -> R) (c : nat -> R) : R :=
  rsum (map (fun i => rsum (map (fun k => c i * c k * m i k) (seq 0 n))) (seq 0 n)).
Lemma Kxy_psd sigma d ss : sigma <> 0 -> (forall s, In s ss -> real_series d s) -> forall c, 0 <= quadratic (length ss) (fun i k => Kxy sigma (nth i ss []) (nth k ss [])) c.
Proof.
  intros Hs F c. set (P := fun i => (nth i ss [], length (nth i ss [])) : place). set (l := map (fun i => (c i, P i)) (seq 0 (length ss))).
  pose (K := fun p q : place => bsum everywhere (fun a b => let c := chi sigma d (nth a (fst p) []) (nth b (fst q) []) in c / (1 - c)) (snd p) (snd q)).
  assert (Q : 0 <= form K l). { apply (psd_limit (waits sigma d)); [intros n; apply psd_gram, gram_waits; auto|]. intros p q _ _. destruct p as [cp [sp ip]], q as [cq [sq iq]]. apply waits_limit. auto. }
  replace (quadratic _ _ c) with (form K l); auto. unfold form, quadratic, l. rewrite map_map. apply rsum_map_ext. intros i Hi. rewrite map_map. apply rsum_map_ext. intros k Hk. apply in_seq in Hi, Hk. cbn [fst snd].
  f_equal. unfold K, P. cbn [fst snd]. symmetry. apply (Kxy_bsum sigma d); auto; apply F, nth_In; lia.
Qed.
(** all matrices of kernel values, for all datasets, are positive semi-definite: unnormalized ... *)
Theorem C193_unnormalized d ss sigma : sigma <> 0 -> (forall s, In s ss -> real_series d s) ->
  exists m, (forall i k, (i < length ss)%nat -> (k < length ss)%nat -> unnormalized_gak (Raw2 (lift (nth i ss []))) (Raw2 (lift (nth k ss []))) sigma = Ok (XR (m i k))) /\
  forall c, 0 <= quadratic (length ss) m c.
Proof.
  intros Hs F. exists (fun i k => Kxy sigma (nth i ss []) (nth k ss [])). split; [|apply (Kxy_psd sigma d); auto].
  intros i k Hi Hk. unfold unnormalized_gak. rewrite is_zero_neq by auto. rewrite !(strip_lift d) by (apply F, nth_In; auto). apply (unnorm_value d); auto; apply F, nth_In; auto.
Qed.
Print Assumptions C193_unnormalized.
(** ... and as returned by [cdist_gak] *)
Theorem C193_psd d ss sigma j j1 j2 : sigma <> 0 -> (forall s, In s ss -> real_series d s) -> valid_jobs j (length ss * (length ss + 1) / 2)%nat ->
  exists M m, cdist_gak (reals ss) None sigma j j1 j2 = Ok M /\ (forall i k, (i < length ss)%nat -> (k < length ss)%nat -> M i k = XR (m i k)) /\
  forall c, 0 <= quadratic (length ss) m c.
Proof.
  intros Hs F Hj. destruct (C76_cdist_gak_self d ss sigma j j1 j2 Hs F Hj) as (M & EM & HM). set (r := fun i => / sqrt (Kxy sigma (nth i ss []) (nth i ss []))).
  exists M, (fun i k => r i * r k * Kxy sigma (nth i ss []) (nth k ss [])). split; auto. split.
  - intros i k Hi Hk. specialize (HM i k Hi Hk). pose proof (F _ (nth_In _ [] Hi)) as G1. pose proof (F _ (nth_In _ [] Hk)) as G2. rewrite (gak_value d) in HM by auto. injection HM as HM. rewrite <- HM. f_equal. unfold r.
    pose proof (sqrt_lt_R0 _ (Kxy_pos d _ _ sigma Hs G1 G1)). pose proof (sqrt_lt_R0 _ (Kxy_pos d _ _ sigma Hs G2 G2)). field. lra.
  - intros c. pose proof (Kxy_psd sigma d ss Hs F (fun i => c i * r i)) as Q. replace (quadratic _ _ c) with (quadratic (length ss) (fun i k => Kxy sigma (nth i ss []) (nth k ss [])) (fun i => c i * r i)); auto.
    unfold quadratic. apply rsum_map_ext. intros i _. apply rsum_map_ext. intros k _. ring.
Qed.
Print Assumptions C193_psd.
(** a value of [gak] is at most 1 *)
Theorem C193_at_most_one d s t sigma v : sigma <> 0 -> real_series d s -> real_series d t -> gak (Raw2 (lift s)) (Raw2 (lift t)) sigma = Ok (XR v) -> 0 < v <= 1.
Proof.
  intros Hs F1 F2 E. destruct (C32_gak_normalised d s t sigma Hs F1 F2) as ((v' & E' & P) & _). rewrite E in E'. injection E' as <-. split; auto.
  rewrite (gak_value d) in E by auto. injection E as E. set (a := Kxy sigma s s) in *. set (b := Kxy sigma t t) in *. pose proof (Kxy_pos d s s sigma Hs F1 F1) as Pa. pose proof (Kxy_pos d t t sigma Hs F2 F2) as Pb. fold a in Pa. fold b in Pb.
  pose proof (sqrt_lt_R0 _ Pa) as Ra. pose proof (sqrt_lt_R0 _ Pb) as Rb. pose proof (Kxy_psd sigma d [s; t] Hs ltac:(intros x [<-|[<-|[]]]; auto) (fun i => match i with O => / sqrt a | _ => - / sqrt b end)) as Q.
  unfold quadratic in Q. cbn [length seq map nth] in Q. fold a b in Q. rewrite (Kxy_sym d t s) in Q by auto. set (k := Kxy sigma s t) in *. unfold rsum in Q. cbn [fold_right] in Q.
  assert (Ea : / sqrt a * / sqrt a * a = 1) by (rewrite <- (sqrt_sqrt a) at 3 by lra; field; lra). assert (Eb : - / sqrt b * - / sqrt b * b = 1) by (rewrite <- (sqrt_sqrt b) at 3 by lra; field; lra).
  assert (Ek : / sqrt a * - / sqrt b * k = - v) by (rewrite <- E; field; lra). assert (Ek' : - / sqrt b * / sqrt a * k = - v) by (rewrite <- E; field; lra). rewrite Ea, Eb, Ek, Ek' in Q. lra.
Qed.
Print Assumptions C193_at_most_one.
(** three series of different lengths, and a form that takes negative values for a symmetric matrix with ones on the diagonal *)
Example C193_nontrivial : (forall s, In s [[[0]; [1]]; [[2]]; [[0]; [3]; [1]]] -> real_series 1 s) /\ valid_jobs Sequential (3 * (3 + 1) / 2)%nat /\
  quadratic 3 (fun i k => if (i =? k)%nat then 1 else - 1) (fun _ => 1) < 0.
Proof.
  split; [|split].
  - intros s [<-|[<-|[<-|[]]]]; (split; [lia|]; split; [discriminate|]; intros r Hr; repeat (destruct Hr as [<-|Hr]; [reflexivity|]); destruct Hr).
  - exact I.
  - unfold quadratic, rsum. cbn. lra.
Qed.

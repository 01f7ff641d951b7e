(** C211, C212: how subsequence DTW and DTW of limited warping length change with their arguments.
    Exact reals; multivariate series of any lengths. *)
From Coq Require Import Bool List Arith Lia ZArith QArith Reals Lra Permutation.
From Verif Require Import Num NumLaws Py Series Masks DtwModel VariantModel Spec SpecDtw DpProofs DtwProofs DtwThms DtwExact
  LimitedThms SubseqThms MaskThms RList PathSum RealSeries PaaThms CyccThms IntSeries PropDtw MetaThms PropMeta PropVariants.
Import ListNotations.
Local Open Scope R_scope.

(** ** lemmas *)
Lemma sqd_sym x y : sqd x y = sqd y x.
Proof. unfold sqd. revert y. induction x as [|a x IH]; intros [|b y]; simpl; auto. rewrite IH. ring. Qed.
Lemma lift_window a b s : window a b (lift s) = lift (window a b s).
Proof. unfold window, lift. rewrite <- firstn_map, <- skipn_map. reflexivity. Qed.
Lemma real_window d a b s : real_series d s -> (a <= b < length s)%nat -> real_series d (window a b s).
Proof.
  intros (Hd & _ & Hr) H. split; auto. split; [intros K; pose proof (window_length a b s H) as W; rewrite K in W; simpl in W; lia|].
  intros r Hin. apply Hr. eapply window_in; eauto.
Qed.
Lemma real_rev d s : real_series d s -> real_series d (rev s).
Proof.
  intros (Hd & Hne & Hr). split; [auto|]. split; [intros K; apply Hne; rewrite <- (rev_involutive s), K; reflexivity|]. intros x Hx. apply Hr. apply in_rev. auto.
Qed.
Lemma real_dtw d s1 s2 : real_series d s1 -> real_series d s2 -> exists v, dtw (series_of s1) (series_of s2) GcNone None None = Ok (XR v) /\ 0 <= v.
Proof. intros H1 H2. destruct (dtw_computes d s1 s2 GcNone None None everywhere H1 H2 I eq_refl) as (v & E & _). exists (sqrt v). split; auto. apply sqrt_pos. Qed.
(** the value is the least DTW to a part of the long series *)
Definition least_window (q s : list (list R)) (v : R) : Prop :=
  (exists a b, (a <= b < length s)%nat /\ dtw (series_of q) (series_of (window a b s)) GcNone None None = Ok (XR v)) /\
  forall a b u, (a <= b < length s)%nat -> dtw (series_of q) (series_of (window a b s)) GcNone None None = Ok (XR u) -> v <= u.
Lemma subseq_real d q s : real_series d q -> real_series d s -> exists p v, dtw_subsequence_path (series_of q) (series_of s) = Ok (p, XR v) /\ 0 <= v /\ least_window q s v.
Proof.
  intros H1 H2. destruct (C20_subsequence_is_best_dtw Xnum xnn xfin Xlaws d (lift q) (lift s) (lift_finite d q H1) (lift_finite d s H2)) as (p & v & E & (a & b & Hab & _ & _ & Ev) & M).
  rewrite (lift_length s) in *. rewrite lift_window in Ev. destruct (real_dtw d q (window a b s) H1 (real_window d a b s H2 Hab)) as (u & Eu & U).
  rewrite Eu in Ev. apply Ok_inj in Ev. subst v. exists p, u. split; auto. split; auto. split; [eauto|].
  intros a' b' u' H' E'. destruct (M a' b' H') as (x & Ex & Lx). rewrite lift_window, E' in Ex. apply Ok_inj in Ex. subst x. apply Rleb_true. exact Lx.
Qed.
Lemma least_unique q s v w : least_window q s v -> least_window q s w -> v = w.
Proof. intros [(a & b & H & E) M] [(a' & b' & H' & E') M']. apply Rle_antisym; eauto. Qed.
Lemma window_rev {A} a b (s : list A) : (a <= b < length s)%nat -> window (length s - 1 - b) (length s - 1 - a) (rev s) = rev (window a b s).
Proof.
  intros H. unfold window. replace (length s - 1 - a - (length s - 1 - b) + 1)%nat with (b - a + 1)%nat by lia.
  assert (ES : s = firstn a s ++ firstn (b - a + 1) (skipn a s) ++ skipn (b - a + 1) (skipn a s)) by (rewrite !firstn_skipn; reflexivity).
  set (x := firstn a s) in *. set (y := firstn (b - a + 1) (skipn a s)) in *. set (z := skipn (b - a + 1) (skipn a s)) in *.
  assert (Lx : length x = a) by (apply firstn_length_le; lia).
  assert (Ly : length y = (b - a + 1)%nat) by (apply firstn_length_le; rewrite skipn_length; lia).
  assert (Lz : length z = (length s - 1 - b)%nat) by (unfold z; rewrite !skipn_length; lia).
  clearbody x y z. rewrite <- Lz, <- Ly. rewrite ES. rewrite !rev_app_distr, <- app_assoc. rewrite <- (rev_length z), skipn_app, skipn_all, Nat.sub_diag. cbn [app skipn].
  rewrite <- (rev_length y), firstn_app, firstn_all, Nat.sub_diag. cbn [firstn]. apply app_nil_r.
Qed.
Lemma window_app {A} (l s r : list A) a b : (a <= b < length s)%nat -> window (length l + a) (length l + b) (l ++ s ++ r) = window a b s.
Proof.
  intros H. unfold window. replace (length l + b - (length l + a) + 1)%nat with (b - a + 1)%nat by lia.
  rewrite skipn_app, skipn_all2 by lia. replace (length l + a - length l)%nat with a by lia. cbn [app]. rewrite skipn_app, firstn_app.
  rewrite skipn_length. replace (b - a + 1 - (length s - a))%nat with 0%nat by lia. cbn [firstn]. apply app_nil_r.
Qed.
Lemma window_all {A} (s : list A) : s <> [] -> window 0 (length s - 1) s = s.
Proof. intros H. unfold window. cbn [skipn]. apply firstn_all2. destruct s; [congruence|simpl; lia]. Qed.
Lemma window_map {A B} (f : A -> B) a b s : window a b (map f s) = map f (window a b s).
Proof. unfold window. rewrite <- firstn_map, <- skipn_map. reflexivity. Qed.

(** ** C211 *)
(** never more than DTW to the whole series, nor after more is appended to the long series at either end *)
Theorem C211_longer d q l s r p v : real_series d q -> real_series d s -> (forall x, In x (l ++ r) -> length x = d) ->
  dtw_subsequence_path (series_of q) (series_of s) = Ok (p, XR v) ->
  (exists u, dtw (series_of q) (series_of s) GcNone None None = Ok (XR u) /\ 0 <= v <= u) /\
  exists p' v', dtw_subsequence_path (series_of q) (series_of (l ++ s ++ r)) = Ok (p', XR v') /\ 0 <= v' <= v.
Proof.
  intros H1 H2 HX E. destruct (subseq_real d q s H1 H2) as (p0 & v0 & E0 & V0 & LW). rewrite E0 in E. apply Ok_inj in E. injection E as -> ->.
  pose proof H2 as (Hd & Hne & Hr). split.
  - destruct (real_dtw d q s H1 H2) as (u & Eu & _). exists u. split; auto. split; auto. apply (proj2 LW 0%nat (length s - 1)%nat); [destruct s; [congruence|simpl; lia]|]. rewrite window_all; auto.
  - assert (HR : real_series d (l ++ s ++ r)).
    { split; auto. split; [destruct s; [congruence|destruct l; discriminate]|]. intros x Hx. rewrite !in_app_iff in Hx. specialize (HX x). rewrite in_app_iff in HX. intuition. }
    destruct (subseq_real d q _ H1 HR) as (p' & v' & E' & V' & LW'). exists p', v'. split; auto. split; auto.
    destruct LW as [(a & b & Hab & Ev) _]. apply (proj2 LW' (length l + a)%nat (length l + b)%nat); [rewrite !app_length; lia|]. rewrite window_app; auto.
Qed.
Print Assumptions C211_longer.
(** zero exactly if the query occurs in the long series, up to repetitions of time steps *)
Theorem C211_zero d q s p v : real_series d q -> real_series d s -> dtw_subsequence_path (series_of q) (series_of s) = Ok (p, XR v) ->
  v = 0 <-> exists a b, (a <= b < length s)%nat /\ condense q = condense (window a b s).
Proof.
  intros H1 H2 E. destruct (subseq_real d q s H1 H2) as (p0 & v0 & E0 & V0 & LW). rewrite E0 in E. apply Ok_inj in E. injection E as -> ->.
  assert (Z : forall a b u, (a <= b < length s)%nat -> dtw (series_of q) (series_of (window a b s)) GcNone None None = Ok (XR u) -> (u = 0 <-> condense q = condense (window a b s))).
  { intros a b u Hab Eu. pose proof (real_window d a b s H2 Hab) as HW. destruct (frechet_computes d q (window a b s) GcNone None None everywhere H1 HW I eq_refl) as (w & Ew & _).
    apply (C179_zero d q (window a b s) u (sqrt w)); auto. }
  split.
  - intros ->. destruct LW as [(a & b & Hab & Ev) _]. exists a, b. split; auto. apply (Z a b 0 Hab Ev). reflexivity.
  - intros (a & b & Hab & C). destruct (real_dtw d q _ H1 (real_window d a b s H2 Hab)) as (u & Eu & U). apply (Z a b u Hab Eu) in C. subst u. apply Rle_antisym; [apply (proj2 LW a b); auto|auto].
Qed.
Print Assumptions C211_zero.
(** it is multiplied by k when all time steps are mapped by a similarity of factor k (shifts, changes of unit, features in another
    order), and unchanged when both series are reversed *)
Theorem C211_similarity d d' k f q s p v : real_series d q -> real_series d s -> (0 < d')%nat -> 0 <= k -> similarity d d' k f ->
  dtw_subsequence_path (series_of q) (series_of s) = Ok (p, XR v) ->
  exists p', dtw_subsequence_path (series_of (map f q)) (series_of (map f s)) = Ok (p', XR (k * v)).
Proof.
  intros H1 H2 Hd Hk Hf E. destruct (subseq_real d q s H1 H2) as (p0 & v0 & E0 & V0 & LW). rewrite E0 in E. apply Ok_inj in E. injection E as -> ->.
  assert (R1 : real_series d' (map f q)) by (apply (real_map d); auto; intros x Hx; apply (Hf x x); auto).
  assert (R2 : real_series d' (map f s)) by (apply (real_map d); auto; intros x Hx; apply (Hf x x); auto).
  destruct (subseq_real d' _ _ R1 R2) as (p' & v' & E' & V' & LW'). exists p'. rewrite E'. do 3 f_equal. apply (least_unique (map f q) (map f s)); auto.
  assert (T : forall a b u, (a <= b < length s)%nat -> dtw (series_of q) (series_of (window a b s)) GcNone None None = Ok (XR u) ->
     dtw (series_of (map f q)) (series_of (window a b (map f s))) GcNone None None = Ok (XR (k * u))).
  { intros a b u Hab Eu. rewrite window_map. apply (gen_similarity rsum dtw sum_laws dtw_computes d d' k f q (window a b s) GcNone None None everywhere); auto; [apply real_window; auto|exact I|reflexivity]. }
  destruct LW as [(a & b & Hab & Ev) M]. split.
  - exists a, b. rewrite map_length. split; auto.
  - intros a' b' u' H' Eu'. rewrite map_length in H'. destruct (real_dtw d q _ H1 (real_window d a' b' s H2 H')) as (u & Eu & U). rewrite (T a' b' u H' Eu) in Eu'. apply Ok_inj, XR_inj in Eu'. subst u'.
    apply Rmult_le_compat_l; auto. eapply M; eauto.
Qed.
Print Assumptions C211_similarity.
Theorem C211_reverse d q s p v : real_series d q -> real_series d s -> dtw_subsequence_path (series_of q) (series_of s) = Ok (p, XR v) ->
  exists p', dtw_subsequence_path (series_of (rev q)) (series_of (rev s)) = Ok (p', XR v).
Proof.
  intros H1 H2 E. destruct (subseq_real d q s H1 H2) as (p0 & v0 & E0 & V0 & LW). rewrite E0 in E. apply Ok_inj in E. injection E as -> ->.
  destruct (subseq_real d _ _ (real_rev d q H1) (real_rev d s H2)) as (p' & v' & E' & V' & LW'). exists p'. rewrite E'. do 3 f_equal. apply (least_unique (rev q) (rev s)); auto.
  assert (T : forall a b, (a <= b < length s)%nat -> dtw (series_of (rev q)) (series_of (window (length s - 1 - b) (length s - 1 - a) (rev s))) GcNone None None =
     dtw (series_of q) (series_of (window a b s)) GcNone None None).
  { intros a b Hab. rewrite window_rev by auto. apply (gen_reverse rsum dtw sum_laws dtw_computes d q (window a b s) GcNone None None everywhere); auto; [apply real_window; auto|exact I|reflexivity]. }
  destruct LW as [(a & b & Hab & Ev) M]. split.
  - exists (length s - 1 - b)%nat, (length s - 1 - a)%nat. rewrite rev_length. split; [lia|]. rewrite T; auto.
  - intros a' b' u' H' Eu'. rewrite rev_length in H'. apply (M (length s - 1 - b')%nat (length s - 1 - a')%nat); [lia|]. rewrite <- T by lia.
    replace (length s - 1 - (length s - 1 - a'))%nat with a' by lia. replace (length s - 1 - (length s - 1 - b'))%nat with b' by lia. exact Eu'.
Qed.
Print Assumptions C211_reverse.
Example C211_nontrivial : exists q s, real_series 1 q /\ real_series 1 s /\ (exists a b, (a <= b < length s)%nat /\ condense q = condense (window a b s)) /\ condense q <> condense s.
Proof.
  exists (zseries [[1]; [2]]%Z), (zseries [[0]; [1]; [1]; [2]; [5]]%Z). split; [zreal|]. split; [zreal|]. split.
  - exists 1%nat, 3%nat. split; [simpl; lia|]. apply al_eq; [discriminate|discriminate|]. cbn. apply al_r; [reflexivity|]. apply al_d; [reflexivity|]. apply al_one. reflexivity.
  - intros K. apply al_eq in K; [|discriminate|discriminate]. cbn in K. inversion K; subst; match goal with H : [_] = [_] |- _ => injection H; lra end.
Qed.

(** ** C212 *)
Definition short (L : Z) (n m : nat) (p : list cell) : Prop := warping_path n m everywhere p /\ (Z.of_nat (length p) <= L)%Z.
Definition soptimum (L : Z) (n m : nat) (D : nat -> nat -> R) (v : R) : Prop :=
  (exists p, short L n m p /\ rsum (along D p) = v) /\ forall p, short L n m p -> v <= rsum (along D p).
Lemma soptimum_unique L n m D v w : soptimum L n m D v -> soptimum L n m D w -> v = w.
Proof. intros [(p & Hp & E) H] [(q & Hq & E') H']. pose proof (H q Hq). pose proof (H' p Hp). lra. Qed.
Lemma limited_real d s1 s2 L : real_series d s1 -> real_series d s2 -> (Z.of_nat (Nat.max (length s1) (length s2)) <= L)%Z ->
  exists v, dtw_limited (series_of s1) (series_of s2) L = Ok (XR (sqrt v)) /\ 0 <= v /\ soptimum L (length s1) (length s2) (costs s1 s2) v.
Proof.
  intros H1 H2 HL. pose proof (lift_finite d s1 H1) as F1. pose proof (lift_finite d s2 H2) as F2.
  destruct (C17_limited_optimal Xnum xnn xfin Xlaws d (lift s1) (lift s2) L F1 F2) as (w & Ew & Hl & Hr); [rewrite !lift_length; auto|].
  destruct (C18_limited_path Xnum xnn xfin Xlaws d (lift s1) (lift s2) L F1 F2) as (p0 & P0 & P1 & _); [rewrite !lift_length; auto|].
  rewrite !lift_length in *. rewrite cost_fun_lift in *.
  assert (P : forall p, path_cost (N:=Xnum) xadd (fun i j => XR (costs s1 s2 i j)) p = XR (rsum (along (costs s1 s2) p))) by (intros p; exact (path_cost_lift _ p)).
  assert (N0 : forall p, 0 <= rsum (along (costs s1 s2) p)).
  { intros p. apply rsum_nonneg. intros x Hx. apply in_map_iff in Hx. destruct Hx as (c & <- & _). apply sqd_nonneg. }
  destruct Hr as [(p & Hp & Ep)|[Hno _]]; [|exfalso; apply (Hno p0); auto].
  change (nadd (n:=Xnum)) with xadd in *. rewrite P in Ep. subst w. exists (rsum (along (costs s1 s2) p)). split; [|split; [auto|split; [eexists; split; [exact Hp|reflexivity]|]]].
  - rewrite Ew. f_equal. apply xsqrt_nn. auto.
  - intros q Hq. pose proof (Hl q Hq) as K. rewrite P in K. simpl in K. apply Rleb_true in K. auto.
Qed.
Theorem C212_similarity d d' k f s1 s2 L : real_series d s1 -> real_series d s2 -> (Z.of_nat (Nat.max (length s1) (length s2)) <= L)%Z -> (0 < d')%nat -> 0 <= k -> similarity d d' k f ->
  exists v, 0 <= v /\ dtw_limited (series_of s1) (series_of s2) L = Ok (XR v) /\ dtw_limited (series_of (map f s1)) (series_of (map f s2)) L = Ok (XR (k * v)).
Proof.
  intros H1 H2 HL Hd Hk Hf. destruct (limited_real d s1 s2 L H1 H2 HL) as (w & Ew & Wn & [(p & Hp & Ep) M]).
  assert (R1 : real_series d' (map f s1)) by (apply (real_map d); auto; intros x Hx; apply (Hf x x); auto).
  assert (R2 : real_series d' (map f s2)) by (apply (real_map d); auto; intros x Hx; apply (Hf x x); auto).
  destruct (limited_real d' _ _ L R1 R2) as (w' & Ew' & _ & O'); [rewrite !map_length; auto|]. rewrite !map_length in O'.
  exists (sqrt w). split; [apply sqrt_pos|]. split; auto. rewrite Ew'. do 2 f_equal.
  assert (C : forall q, short L (length s1) (length s2) q -> rsum (along (costs (map f s1) (map f s2)) q) = k * k * rsum (along (costs s1 s2) q)).
  { intros q [Hq _]. pose proof (wpath_bounds _ _ _ q (real_len d s1 H1) (real_len d s2 H2) Hq) as B. rewrite <- (agg_scal rsum sum_laws (k * k)) by nra. f_equal. unfold along. rewrite map_map.
    apply map_ext_in. intros [i j] Hin. destruct (B i j Hin). simpl. unfold costs. rewrite !(nth_map_in f _ _ []) by auto. apply Hf; eapply real_row; eauto. }
  assert (O2 : soptimum L (length s1) (length s2) (costs (map f s1) (map f s2)) (k * k * w)).
  { split; [exists p; split; auto; rewrite C, Ep; auto|]. intros q Hq. rewrite C by auto. apply Rmult_le_compat_l; [nra|auto]. }
  rewrite (soptimum_unique _ _ _ _ _ _ O' O2). rewrite sqrt_mult by nra. rewrite sqrt_square by auto. reflexivity.
Qed.
Print Assumptions C212_similarity.
Theorem C212_reverse d s1 s2 L : real_series d s1 -> real_series d s2 -> (Z.of_nat (Nat.max (length s1) (length s2)) <= L)%Z ->
  dtw_limited (series_of (rev s1)) (series_of (rev s2)) L = dtw_limited (series_of s1) (series_of s2) L.
Proof.
  intros H1 H2 HL. destruct (limited_real d s1 s2 L H1 H2 HL) as (w & Ew & Wn & [(p & Hp & Ep) M]).
  destruct (limited_real d _ _ L (real_rev d s1 H1) (real_rev d s2 H2)) as (w' & Ew' & _ & O'); [rewrite !rev_length; auto|]. rewrite !rev_length in O'. rewrite Ew, Ew'. do 3 f_equal.
  pose proof (real_len d s1 H1) as L1. pose proof (real_len d s2 H2) as L2.
  assert (T : forall q, short L (length s1) (length s2) q -> short L (length s1) (length s2) (map (turn (length s1) (length s2)) (rev q))).
  { intros q [Hq Hl]. split; [apply (turn_path _ _ everywhere everywhere); auto|]. rewrite map_length, rev_length. auto. }
  assert (X : forall i j, (i < length s1)%nat -> (j < length s2)%nat -> costs (rev s1) (rev s2) (length s1 - 1 - i) (length s2 - 1 - j) = costs s1 s2 i j).
  { intros i j Hi Hj. unfold costs. rewrite <- (rev_length s1) at 1. rewrite nth_turn by (rewrite rev_length; auto). rewrite <- (rev_length s2) at 1. rewrite nth_turn by (rewrite rev_length; auto).
    rewrite !rev_involutive. reflexivity. }
  assert (C : forall q D E, (forall i j, (i < length s1)%nat -> (j < length s2)%nat -> E (length s1 - 1 - i)%nat (length s2 - 1 - j)%nat = D i j) ->
     short L (length s1) (length s2) q -> rsum (along E (map (turn (length s1) (length s2)) (rev q))) = rsum (along D q)).
  { intros q D E HE [Hq _]. pose proof (wpath_bounds _ _ _ q L1 L2 Hq) as B. rewrite <- (agg_rev rsum sum_laws (along D q)). f_equal. unfold along. rewrite map_map, <- map_rev.
    apply map_ext_in. intros [i j] Hin. apply in_rev in Hin. destruct (B i j Hin). simpl. apply HE; auto. }
  apply (soptimum_unique L (length s1) (length s2) (costs (rev s1) (rev s2))); auto. split.
  - eexists. split; [apply T; exact Hp|]. rewrite (C p (costs s1 s2)); auto.
  - intros q Hq. rewrite <- (C q (costs (rev s1) (rev s2)) (costs s1 s2)); auto. intros i j Hi Hj. rewrite <- X by lia. f_equal; lia.
Qed.
Print Assumptions C212_reverse.
Theorem C212_symmetric d s1 s2 L : real_series d s1 -> real_series d s2 -> (Z.of_nat (Nat.max (length s1) (length s2)) <= L)%Z ->
  dtw_limited (series_of s2) (series_of s1) L = dtw_limited (series_of s1) (series_of s2) L.
Proof.
  intros H1 H2 HL. destruct (limited_real d s1 s2 L H1 H2 HL) as (w & Ew & Wn & [(p & Hp & Ep) M]).
  destruct (limited_real d s2 s1 L H2 H1) as (w' & Ew' & _ & O'); [lia|]. rewrite Ew, Ew'. do 3 f_equal.
  assert (T : forall n m q, short L n m q -> short L m n (map swap q)).
  { intros n m q [Hq Hl]. split; [apply (wpath_swap n m everywhere q) in Hq; exact Hq|]. rewrite map_length. auto. }
  assert (C : forall q, rsum (along (costs s2 s1) (map swap q)) = rsum (along (costs s1 s2) q)).
  { intros q. f_equal. unfold along. rewrite map_map. apply map_ext. intros [i j]. unfold costs, swap. simpl. apply sqd_sym. }
  apply (soptimum_unique L (length s2) (length s1) (costs s2 s1)); auto. split.
  - exists (map swap p). split; [apply T; auto|]. rewrite C. auto.
  - intros q Hq. rewrite <- (map_id q). rewrite (map_ext (fun x => x) (fun x => swap (swap x))) by (intros [i j]; reflexivity). rewrite <- map_map, C. apply M, T, Hq.
Qed.
Print Assumptions C212_symmetric.
(** zero on identical series *)
Theorem C212_identical d s L : real_series d s -> (Z.of_nat (length s) <= L)%Z -> dtw_limited (series_of s) (series_of s) L = Ok (XR 0).
Proof.
  intros H HL. destruct (limited_real d s s L H H) as (w & Ew & Wn & [_ M]); [lia|]. rewrite Ew. do 2 f_equal.
  assert (w <= 0); [|replace w with 0 by lra; apply sqrt_0].
  eapply Rle_trans; [apply (M (diag 0 (length s)))|].
  - split; [apply diag_path; [eapply real_len; eauto|auto]|]. unfold diag. rewrite map_length, seq_length. auto.
  - rewrite along_diag. apply Req_le. apply (agg_zeros rsum sum_laws). intros x Hx. apply in_map_iff in Hx. destruct Hx as (t & <- & _). apply (costs_diag s t).
Qed.
Print Assumptions C212_identical.
(** between DTW and, for equal lengths, the Euclidean distance, which the bound [length s1] gives exactly *)
Theorem C212_euclidean d s1 s2 L : real_series d s1 -> real_series d s2 -> length s1 = length s2 -> (Z.of_nat (length s1) <= L)%Z ->
  exists u v, dtw (series_of s1) (series_of s2) GcNone None None = Ok (XR u) /\ dtw_limited (series_of s1) (series_of s2) L = Ok (XR v) /\ u <= v <= euclidean s1 s2 /\
  (L = Z.of_nat (length s1) -> v = euclidean s1 s2).
Proof.
  intros H1 H2 EL HL. destruct (limited_real d s1 s2 L H1 H2) as (w & Ew & Wn & [(p & Hp & Ep) M]); [lia|].
  destruct (dtw_computes d s1 s2 GcNone None None everywhere H1 H2 I eq_refl) as (u & Eu & Un & [_ O]). exists (sqrt u), (sqrt w). split; auto. split; auto.
  assert (DP : short L (length s1) (length s2) (diag 0 (length s1))).
  { split; [rewrite <- EL; apply diag_path; [eapply real_len; eauto|auto]|]. unfold diag. rewrite map_length, seq_length. auto. }
  split; [split; apply sqrt_le_1_alt|].
  - rewrite <- Ep. apply O. apply Hp.
  - rewrite <- (along_diag s1 s2). apply M. exact DP.
  - intros ->. unfold euclidean. f_equal. rewrite <- (along_diag s1 s2), <- Ep. do 2 f_equal. rewrite <- EL in Hp. destruct Hp as [(F & La & Li & _) Lp].
    pose proof (real_len d s1 H1) as L1.
    assert (G : forall n q i j, linked move q -> first_is q (i, j) -> last_is q (i + n, j + n)%nat -> (length q <= S n)%nat -> q = map (fun t => (i + t, j + t)%nat) (seq 0 (S n))).
    { clear. induction n as [|n IH]; intros q i j Hl Hf Ha Hn.
      - destruct q as [|c [|c' q]]; [discriminate| |simpl in Hn; lia]. unfold first_is in Hf. cbn in Hf. injection Hf as ->. cbn. repeat f_equal; lia.
      - destruct q as [|c q]; [discriminate|]. unfold first_is in Hf. cbn in Hf. injection Hf as ->. destruct q as [|[i' j'] q].
        { unfold last_is in Ha. cbn in Ha. injection Ha. lia. }
        destruct Hl as [Mv Hl].
        assert (LB : forall q i j a b, linked move q -> first_is q (i, j) -> last_is q (a, b) -> (a <= i + (length q - 1) /\ b <= j + (length q - 1))%nat).
        { clear. induction q as [|c q IH]; intros i j a b Hl Hf Ha; [discriminate|]. unfold first_is in Hf. cbn in Hf. injection Hf as ->. destruct q as [|[i' j'] q].
          - unfold last_is in Ha. cbn in Ha. injection Ha. lia.
          - destruct Hl as [Mv Hl]. change (linked move ((i', j') :: q)) in Hl. specialize (IH i' j' a b Hl eq_refl). unfold last_is in *. cbn [length] in *. replace (S (S (length q)) - 1)%nat with (S (length q)) in * by lia.
            cbn [nth_error] in Ha. replace (S (length q) - 1)%nat with (length q) in * by lia. specialize (IH Ha). unfold move in Mv. cbn in Mv. lia. }
        assert (Ha' : last_is ((i', j') :: q) (i + S n, j + S n)%nat).
        { revert Ha. clear. unfold last_is. cbn [length]. rewrite !Nat.sub_succ, !Nat.sub_0_r. auto. }
        change (linked move ((i', j') :: q)) in Hl. destruct (LB _ i' j' _ _ Hl eq_refl Ha') as [B1 B2]. cbn [length] in *. unfold move in Mv. cbn in Mv.
        assert (i' = S i /\ j' = S j) as [-> ->] by lia.
        assert (EQ : (S i, S j) :: q = map (fun t => (S i + t, S j + t)%nat) (seq 0 (S n))).
        { apply IH; auto; [reflexivity| |cbn [length]; lia]. replace (S i + n)%nat with (i + S n)%nat by lia. replace (S j + n)%nat with (j + S n)%nat by lia. exact Ha'. }
        etransitivity; [apply f_equal; exact EQ|]. change (seq 0 (S (S n))) with (0%nat :: seq 1 (S n)). rewrite <- (seq_shift (S n) 0). cbn [map]. rewrite map_map. f_equal; [f_equal; lia|].
        change (map (fun t => (S i + t, S j + t)%nat) (seq 0 (S n)) = map (fun t => (i + S t, j + S t)%nat) (seq 0 (S n))). apply map_ext. intros t. f_equal; lia. }
    rewrite (G (length s1 - 1)%nat p 0%nat 0%nat Li F La); [|lia]. unfold diag. replace (S (length s1 - 1)) with (length s1) by lia. reflexivity.
Qed.
Print Assumptions C212_euclidean.
Example C212_nontrivial : exists s1 s2, real_series 1 s1 /\ real_series 1 s2 /\ length s1 = length s2 /\ s1 <> rev s1 /\ (Z.of_nat (Nat.max (length s1) (length s2)) <= 4)%Z /\ (4 < Z.of_nat (length s1 + length s2 - 1))%Z.
Proof.
  exists (zseries [[1]; [2]; [4]]%Z), (zseries [[1]; [1]; [4]]%Z). split; [zreal|]. split; [zreal|]. split; [reflexivity|]. split; [intros K; inversion K; lra|]. simpl. lia.
Qed.

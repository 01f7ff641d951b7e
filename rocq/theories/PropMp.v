(** C60, C93-C95: the matrix profile. *)
From Coq Require Import Bool List Arith ZArith Lia Reals Lra.
From Verif Require Import Num NumLaws Py Series Dataset RList SoftModel GakModel PaaModel PaaThms PreModel PropScale MpModel.
Import ListNotations.
Local Open Scope R_scope.

(** ** Specification *)
(** a univariate series of numbers as a row of the dataset *)
Definition univ (x : list R) : series Xnum := map (fun v => [XR v]) x.
(** the values of segment [i] *)
Definition window (m : nat) (x : list R) (i : nat) : list R := map (fun t => nth (i + t) x 0) (seq 0 m).
(** zero mean and unit variance, constant segments are only centred *)
Definition znorm (l : list R) : list R :=
  map (fun v => (v - mean l) / (if Req_EM_T (std_dev l) 0 then 1 else std_dev l)) l.
Definition shown (scale : bool) (l : list R) : list R := if scale then znorm l else l.
Definition eucl (a b : list R) : R := sqrt (rsum (map (fun p => (fst p - snd p) * (fst p - snd p)) (combine a b))).
(** outside the exclusion zone: further apart than a quarter of the length, rounded up *)
Definition apart (m i j : nat) : Prop := (i < j /\ m <= 4 * (j - i - 1))%nat \/ (j < i /\ m <= 4 * (i - j - 1))%nat.
(** [v] is the least of the numbers [f j], [j] in [P]; infinite if there is none *)
Definition least (P : nat -> Prop) (f : nat -> R) (v : xr) : Prop :=
  (exists j, P j /\ v = XR (f j) /\ forall j', P j' -> f j <= f j') \/ (v = XInf /\ forall j, ~ P j).
Definition mp_spec (scale : bool) (m : nat) (x : list R) (i : nat) : xr -> Prop :=
  least (fun j => (j + m <= length x)%nat /\ apart m i j) (fun j => eucl (shown scale (window m x i)) (shown scale (window m x j))).

(** ** Segments *)
Lemma window_slice m x i : (i + m <= length x)%nat -> slice i (i + m) (univ x) = univ (window m x i).
Proof.
  intros H. unfold univ, window. apply nth_ext with (d := [XR 0]) (d' := [XR 0]).
  - rewrite slice_length. rewrite map_length. rewrite map_length. rewrite map_length. rewrite seq_length. lia.
  - intros t Ht. rewrite slice_length, map_length in Ht. rewrite slice_nth by lia.
    transitivity [XR (nth (i + t) x 0)]; [exact (map_nth (fun v => [XR v]) x 0 (i + t))|]. symmetry.
    rewrite map_map. set (q := fun t => [XR (nth (i + t) x 0)]).
    rewrite (nth_indep _ [XR 0] (q 0%nat)) by (rewrite map_length, seq_length; lia).
    rewrite (map_nth q), seq_nth by lia. reflexivity.
Qed.
Lemma segments_univ m x : (1 <= m <= length x)%nat -> to_segments (univ x) m = map (fun i => univ (window m x i)) (seq 0 (length x + 1 - m)).
Proof.
  intros H. unfold to_segments. replace (length (univ x)) with (length x) by (unfold univ; rewrite map_length; auto).
  apply map_ext_in. intros i Hi. apply in_seq in Hi. apply window_slice. lia.
Qed.
Lemma window_len m x i : length (window m x i) = m.
Proof. unfold window. rewrite map_length, seq_length. auto. Qed.
Lemma znorm_len l : length (znorm l) = length l.
Proof. unfold znorm. rewrite map_length. auto. Qed.
Lemma nth_univ l t : (t < length l)%nat -> nth t (univ l) [] = [XR (nth t l 0)].
Proof. intros H. unfold univ. rewrite (nth_indep _ [] [XR 0]) by (rewrite map_length; auto). exact (map_nth (fun v => [XR v]) l 0 t). Qed.
Lemma univ_shape L m : (forall l, In l L -> length l = m) -> shape3 (length L) m 1 (map univ L).
Proof.
  intros H. split; [apply map_length|]. intros s Hs. apply in_map_iff in Hs. destruct Hs as (l & <- & Hl). split.
  - unfold univ. rewrite map_length. auto.
  - intros r Hr. apply in_map_iff in Hr. destruct Hr as (v & <- & _). reflexivity.
Qed.
Lemma univ_numeric L : numeric (map univ L).
Proof.
  intros s r x Hs Hr Hx. apply in_map_iff in Hs. destruct Hs as (l & <- & Hl). apply in_map_iff in Hr. destruct Hr as (v & <- & _).
  destruct Hx as [<-|[]]. right. eauto.
Qed.
Lemma entry_univ L i t : (i < length L)%nat -> (t < length (nth i L []))%nat -> entry3 (map univ L) i t 0 = XR (nth t (nth i L []) 0).
Proof.
  intros Hi Ht. unfold entry3. rewrite (nth_indep _ [] (univ [])) by (rewrite map_length; auto). rewrite map_nth. rewrite nth_univ by auto. reflexivity.
Qed.
Lemma numbers_XR l : numbers (map XR l) = l.
Proof. induction l as [|v l IH]; cbn; [auto|]. f_equal. exact IH. Qed.
Lemma scope_univ L m i : (forall l, In l L -> length l = m) -> (i < length L)%nat -> scope true true (length L) m 1 (map univ L) i 0 = nth i L [].
Proof.
  intros H Hi. unfold scope. cbn [flat_map map]. rewrite app_nil_r.
  assert (Li : length (nth i L []) = m) by (apply H, nth_In; auto).
  transitivity (numbers (map XR (nth i L []))); [|apply numbers_XR]. f_equal.
  transitivity (map (fun t => XR (nth t (nth i L []) 0)) (seq 0 m)).
  2:{ rewrite <- Li at 1. rewrite <- (map_map (fun t => nth t (nth i L []) 0) XR). f_equal. symmetry. apply list_nth_seq. }
  rewrite flat_map_concat_map. 
  assert (forall (ts : list nat), (forall t, In t ts -> (t < m)%nat) -> concat (map (fun t => [entry3 (map univ L) i t 0]) ts) = map (fun t => XR (nth t (nth i L []) 0)) ts) as G.
  { induction ts as [|t ts IH]; intros Ht; cbn; [auto|]. rewrite entry_univ by (auto; rewrite Li; apply Ht; left; auto). f_equal. apply IH. intros; apply Ht; right; auto. }
  apply G. intros t Ht. apply in_seq in Ht. lia.
Qed.
Lemma scale_univ L m : (0 < m)%nat -> L <> [] -> (forall l, In l L -> length l = m) -> mp_scale (map univ L) = Ok (map univ (map znorm L)).
Proof.
  intros Hm HL H. assert (Hn : (0 < length L)%nat) by (destruct L; [congruence|cbn; lia]).
  pose proof (univ_shape L m H) as HS. pose proof (univ_numeric L) as HN.
  destruct (mv_returns (length L) m 1 (map univ L) Hn Hm HS mp_scaler) as (st & Y & E1 & E2 & SY).
  unfold mp_scale. rewrite E1. cbn [bind]. rewrite E2. f_equal.
  assert (HZ : forall l, In l (map znorm L) -> length l = m). { intros l Hl. apply in_map_iff in Hl. destruct Hl as (l0 & <- & Hl). rewrite znorm_len. auto. }
  pose proof (univ_shape (map znorm L) m HZ) as SZ. rewrite map_length in SZ.
  assert (EN : forall i t, (i < length L)%nat -> (t < m)%nat -> nth t (nth i Y []) [] = nth t (nth i (map univ (map znorm L)) []) []).
  { intros i t Hi Ht. pose proof (shape_row _ _ _ Y i t SY Hi Ht) as L1. pose proof (shape_row _ _ _ _ i t SZ Hi Ht) as L2.
    assert (Li : length (nth i L []) = m) by (apply H, nth_In; auto).
    assert (Q : entry3 Y i t 0 = entry3 (map univ (map znorm L)) i t 0).
    { rewrite (mv_entry (length L) m 1 (map univ L) Hn Hm HS HN mp_scaler st Y i t 0 E1 E2) by (auto; lia).
      assert (EZ : nth i (map znorm L) [] = znorm (nth i L [])) by exact (map_nth znorm L [] i).
      rewrite !entry_univ; rewrite ?map_length, ?EZ, ?znorm_len, ?Li; auto. cbn [mv_per_ts mv_per_feat mp_scaler]. rewrite (scope_univ L m i H Hi).
      f_equal. unfold mv_affine, znorm. cbn [mv_mu mv_std mp_scaler].
      set (f := fun v => (v - mean (nth i L [])) / (if Req_EM_T (std_dev (nth i L [])) 0 then 1 else std_dev (nth i L []))).
      rewrite (nth_indep (map f (nth i L [])) 0 (f 0)) by (rewrite map_length, Li; auto). rewrite map_nth. unfold f, Rdiv. ring. }
    unfold entry3 in Q. destruct (nth t (nth i Y []) []) as [|a [|]]; cbn in L1; try lia. destruct (nth t (nth i (map univ (map znorm L)) []) []) as [|b [|]]; cbn in L2; try lia.
    cbn in Q. subst. auto. }
  apply nth_ext with (d := []) (d' := []); [rewrite (proj1 SY), (proj1 SZ); auto|]. intros i Hi. rewrite (proj1 SY) in Hi.
  destruct (shape_series _ _ _ Y i SY Hi) as [Q1 _]. destruct (shape_series _ _ _ _ i SZ Hi) as [Q2 _].
  apply nth_ext with (d := []) (d' := []); [rewrite Q1, Q2; auto|]. intros t Ht. rewrite Q1 in Ht. auto.
Qed.
Lemma seg_dist_univ a b : seg_dist (univ a) (univ b) = XR (eucl a b).
Proof.
  assert (C : forall l, concat (univ l) = map XR l) by (intros l; induction l as [|v l IH]; cbn; [auto|f_equal; exact IH]).
  unfold seg_dist, sq_diffs. rewrite !C.
  assert (G : map (fun p => let e := xsub (fst p) (snd p) in xmul e e) (combine (map XR a) (map XR b)) = map XR (map (fun p => (fst p - snd p) * (fst p - snd p)) (combine a b))).
  { revert b. induction a as [|x a IH]; intros [|y b]; cbn [map combine]; auto. rewrite IH. reflexivity. }
  match goal with |- xsqrt (xsum ?q) = _ => replace q with (map XR (map (fun p => (fst p - snd p) * (fst p - snd p)) (combine a b))) by (symmetry; exact G) end.
  rewrite xsum_reals. unfold xsqrt, eucl. unfold Rleb. destruct (Rle_dec 0 _) as [_|N]; auto. exfalso. apply N. apply rsum_nonneg.
  intros v Hv. apply in_map_iff in Hv. destruct Hv as (p & <- & _). apply Rle_0_sqr.
Qed.
Lemma eucl_sym a b : eucl a b = eucl b a.
Proof. unfold eucl. f_equal. revert b. induction a as [|x a IH]; intros [|y b]; cbn [combine map rsum fold_right]; auto. change (fold_right Rplus 0) with rsum. rewrite IH. cbn [fst snd]. ring. Qed.
Lemma eucl_self a : eucl a a = 0.
Proof. unfold eucl. replace (rsum _) with 0; [apply sqrt_0|]. induction a as [|x a IH]; [auto|]. cbn [combine map]. cbn [rsum fold_right fst snd]. change (fold_right Rplus 0) with rsum. rewrite <- IH. ring. Qed.
Lemma band_apart m i j : (1 <= m)%nat -> band m i j = false <-> apart m i j.
Proof.
  intros Hm. unfold band, np_tri, band_width, apart. pose proof (Nat.div_mod (m + 3) 4 ltac:(lia)) as D. pose proof (Nat.mod_upper_bound (m + 3) 4 ltac:(lia)).
  set (w := ((m + 3) / 4)%nat) in *. rewrite andb_false_iff, negb_false_iff, Z.leb_gt, Z.leb_le. lia.
Qed.
Lemma np_min_least (P : nat -> Prop) (f : nat -> R) n (g : nat -> xr) :
  (forall j, (j < n)%nat -> (g j = XR (f j) /\ P j) \/ (g j = XInf /\ ~ P j)) -> least (fun j => (j < n)%nat /\ P j) f (np_min (map g (seq 0 n))).
Proof.
  intros H. unfold np_min. replace (existsb xisnan (map g (seq 0 n))) with false.
  2:{ symmetry. apply not_true_is_false. intros E. apply existsb_exists in E. destruct E as (v & Hv & Ev). apply in_map_iff in Hv. destruct Hv as (j & <- & Hj). apply in_seq in Hj.
      destruct (H j ltac:(lia)) as [[Q _]|[Q _]]; rewrite Q in Ev; discriminate. }
  induction n as [|n IH].
  - right. cbn. split; auto. intros j [Hj _]. lia.
  - rewrite seq_S, map_app, fold_left_app. cbn [Nat.add map fold_left].
    specialize (IH ltac:(intros; apply H; lia)). destruct (H n ltac:(lia)) as [[Q Pn]|[Q Pn]]; rewrite Q.
    + destruct IH as [(j & [Hj Pj] & E & Hmin)|[E Hno]]; rewrite E; cbn [xltb].
      * unfold Rltb. destruct (Rlt_dec (f n) (f j)) as [L|L].
        -- left. exists n. split; [auto|]. split; auto. intros j' [Hj' Pj']. destruct (Nat.eq_dec j' n) as [->|N]; [lra|]. specialize (Hmin j' ltac:(split; auto; lia)). lra.
        -- left. exists j. split; [split; auto|]. split; auto. intros j' [Hj' Pj']. destruct (Nat.eq_dec j' n) as [->|N]; [lra|]. apply Hmin. split; auto; lia.
      * left. exists n. split; auto. split; auto. intros j' [Hj' Pj']. destruct (Nat.eq_dec j' n) as [->|N]; [lra|]. exfalso. apply (Hno j'). split; auto; lia.
    + replace (if xltb XInf _ then XInf else _) with (fold_left (fun a b => if xltb b a then b else a) (map g (seq 0 n)) XInf).
      2:{ destruct IH as [(j & _ & E & _)|[E _]]; rewrite E; reflexivity. }
      destruct IH as [(j & [Hj Pj] & E & Hmin)|[E Hno]].
      * left. exists j. split; auto. split; auto. intros j' [Hj' Pj']. apply Hmin. split; auto. destruct (Nat.eq_dec j' n) as [->|]; [contradiction|lia].
      * right. split; auto. intros j [Hj Pj]. destruct (Nat.eq_dec j n) as [->|]; [contradiction|]. apply (Hno j). split; auto; lia.
Qed.


(** the profile of a series of numbers *)
Definition real_row (scale : bool) (m : nat) (x : list R) (n i : nat) : list xr :=
  map (fun j => if band m i j then XInf else XR (eucl (shown scale (window m x i)) (shown scale (window m x j)))) (seq 0 n).
Lemma mp_series_real scale m x : (1 <= m <= length x)%nat ->
  mp_series scale m (univ x) = Ok (map (fun i => np_min (real_row scale m x (length x + 1 - m) i)) (seq 0 (length x + 1 - m))).
Proof.
  intros Hm. unfold mp_series. rewrite segments_univ by auto. set (n := (length x + 1 - m)%nat).
  set (L := map (shown scale) (map (window m x) (seq 0 n))).
  assert (EL : (if scale then mp_scale (map (fun i => univ (window m x i)) (seq 0 n)) else Ok (map (fun i => univ (window m x i)) (seq 0 n))) = Ok (map univ L)).
  { rewrite <- (map_map (window m x) univ). unfold L. destruct scale.
    - rewrite (scale_univ _ m); [auto|lia| |].
      + intros E. apply (f_equal (@length _)) in E. rewrite map_length, seq_length in E. cbn in E. unfold n in E. lia.
      + intros l Hl. apply in_map_iff in Hl. destruct Hl as (i & <- & _). apply window_len.
    - f_equal. f_equal. symmetry. apply map_id. }
  match goal with |- context [bind ?r _] => replace r with (Ok (map univ L) : res array3) by (symmetry; exact EL) end. cbn [bind].
  assert (LL : length (map univ L) = n) by (unfold L; rewrite !map_length, seq_length; auto). rewrite LL. f_equal.
  apply map_ext_in. intros i Hi. apply in_seq in Hi. f_equal. apply map_ext_in. intros j Hj. apply in_seq in Hj. destruct (band m i j) eqn:B; auto.
  assert (NL : forall k, (k < n)%nat -> nth k (map univ L) [] = univ (shown scale (window m x k))).
  { intros k Hk. unfold L. rewrite !map_map. set (q := fun k => univ (shown scale (window m x k))).
    rewrite (nth_indep _ [] (q 0%nat)) by (rewrite map_length, seq_length; auto). rewrite (map_nth q), seq_nth by auto. reflexivity. }
  unfold square_dist. destruct (Nat.compare_spec i j) as [->|Lt|Lt].
  - rewrite eucl_self. auto.
  - rewrite !NL by lia. apply seg_dist_univ.
  - rewrite !NL by lia. rewrite seg_dist_univ. rewrite eucl_sym. auto.
Qed.
(** ** C60 *)
Theorem C60_profile scale m x : (1 <= m <= length x)%nat ->
  exists out, mp_series scale m (univ x) = Ok out /\ length out = (length x - m + 1)%nat /\
    forall i, (i + m <= length x)%nat -> mp_spec scale m x i (nth i out XNaN).
Proof.
  intros Hm. eexists. split; [apply mp_series_real; auto|]. set (n := (length x + 1 - m)%nat).
  split; [rewrite map_length, seq_length; unfold n; lia|]. intros i Hi.
  set (h := fun i => np_min (real_row scale m x n i)). assert (Hin : (i < n)%nat) by (unfold n; lia).
  rewrite (nth_indep _ XNaN (h 0%nat)) by (rewrite map_length, seq_length; auto). change (mp_spec scale m x i (nth i (map h (seq 0 n)) (h 0%nat))).
  rewrite map_nth, seq_nth by auto. cbn [Nat.add]. unfold h.
  unfold mp_spec. set (f := fun j => eucl (shown scale (window m x i)) (shown scale (window m x j))).
  assert (K : least (fun j => (j < n)%nat /\ apart m i j) f (np_min (real_row scale m x n i))).
  { apply np_min_least. intros j Hj. pose proof (band_apart m i j ltac:(lia)) as BA. destruct (band m i j) eqn:B.
    - right. split; auto. intros A. apply BA in A. discriminate.
    - left. split; [auto|apply BA; auto]. }
  destruct K as [(j & [Hj Aj] & E & Q)|[E Q]].
  - left. exists j. split; [split; auto; unfold n in Hj; lia|]. split; auto. intros j' [Hj' A']. apply Q. split; auto. unfold n; lia.
  - right. split; auto. intros j [Hj A]. apply (Q j). split; auto. unfold n; lia.
Qed.
Print Assumptions C60_profile.
(** the whole transformer: series by series; several features or a segment longer than the series are refused *)
Theorem C60_dataset scale m X : X <> [] -> (forall x, In x X -> length x = length (hd [] X)) -> (1 <= length (hd [] X))%nat ->
  match mp_transform scale m (map univ X) with
  | Ok out => (1 <= m <= length (hd [] X))%nat /\ length out = length X /\
      forall k i, (k < length X)%nat -> (i + m <= length (hd [] X))%nat -> mp_spec scale m (nth k X []) i (nth i (nth k out []) XNaN)
  | Err e => e = ValueError /\ (m = 0 \/ length (hd [] X) < m)%nat end.
Proof.
  intros HX HL H1. destruct X as [|x0 X]; [congruence|]. clear HX. cbn [hd] in *. set (sz := length x0) in *.
  unfold mp_transform. assert (EZ : arr_sz (map univ (x0 :: X)) = sz) by (unfold arr_sz, univ; cbn; apply map_length).
  assert (ED : arr_d (map univ (x0 :: X)) = 1%nat). { unfold arr_d. cbn [map hd]. destruct x0; [cbn in *; lia|reflexivity]. }
  rewrite ED, EZ. change (1 <? 1)%nat with false. cbv iota. destruct (Nat.eqb_spec m 0) as [->|M0]; cbn [orb]; [auto|]. destruct (Nat.ltb_spec sz m) as [Hm|Hm]; [auto|].
  assert (Hmm : (1 <= m <= sz)%nat) by lia. clear EZ ED M0 Hm. revert HL. generalize (x0 :: X). clearbody sz. intros Y HL.
  assert (G : exists out, mapM (mp_series scale m) (map univ Y) = Ok out /\ length out = length Y /\
     forall k i, (k < length Y)%nat -> (i + m <= sz)%nat -> mp_spec scale m (nth k Y []) i (nth i (nth k out []) XNaN)).
  { induction Y as [|y Y IH]; cbn [map mapM]. { exists []. split; auto. split; auto. intros k i Hk. cbn in Hk. lia. }
    destruct IH as (out & E & LO & Q); [intros; apply HL; right; auto|]. assert (Ly : length y = sz) by (apply HL; left; auto).
    destruct (C60_profile scale m y) as (o & Eo & _ & Qo); [rewrite Ly; exact Hmm|]. rewrite Eo. cbn [bind]. rewrite E. cbn [bind]. exists (o :: out). split; auto. split; [cbn; auto|].
    intros [|k] i Hk Hi; cbn [nth]; [apply Qo; lia|]. apply Q; auto. cbn in Hk. lia. }
  destruct G as (out & E & LO & Q). rewrite E. split; [lia|]. auto.
Qed.
Print Assumptions C60_dataset.
(** the profile of a 5-point series with segments of length 1: neighbours at distance 1 are excluded, and the middle point has 9 and 2 *)
Example C60_nontrivial : (1 <= 1 <= length [0; 5; 1; 7; 2])%nat /\ apart 1 2 0 /\ apart 1 2 4 /\ ~ apart 1 2 1 /\
  exists out, mp_series false 1 (univ [0; 5; 1; 7; 2]) = Ok out /\ nth 2 out XNaN = XR 1.
Proof.
  split; [cbn; lia|]. unfold apart. split; [lia|]. split; [lia|]. split; [lia|].
  destruct (C60_profile false 1 [0; 5; 1; 7; 2]) as (out & E & _ & Q); [cbn; lia|]. exists out. split; auto. specialize (Q 2%nat ltac:(cbn; lia)).
  assert (EU : forall a b, eucl [a] [b] = Rabs (a - b)). { intros a b. unfold eucl. cbn. rewrite Rplus_0_r. apply sqrt_Rsqr_abs. }
  destruct Q as [(j & [Hj A] & E2 & Q)|[_ Q]].
  - rewrite E2. f_equal. cbn in Hj. unfold apart in A. specialize (Q 0%nat ltac:(cbn; unfold apart; lia)).
    assert (J : (j = 0 \/ j = 4)%nat) by lia. destruct J as [-> | ->]; unfold shown, window in *; cbn [seq map nth Nat.add] in *; rewrite !EU in *; unfold Rabs in *; repeat destruct Rcase_abs; lra.
  - exfalso. apply (Q 0%nat). cbn. unfold apart. lia.
Qed.

(** ** C93: affine changes of the series *)
Lemma window_map f m x i : (i + m <= length x)%nat -> window m (map f x) i = map f (window m x i).
Proof.
  intros H. unfold window. rewrite map_map. apply map_ext_in. intros t Ht. apply in_seq in Ht.
  rewrite (nth_indep _ 0 (f 0)) by (rewrite map_length; lia). apply map_nth.
Qed.
Lemma eucl_map (c e : R) a b : length a = length b -> eucl (map (fun v => c * v + e) a) (map (fun v => c * v + e) b) = Rabs c * eucl a b.
Proof.
  intros H. unfold eucl. rewrite <- (sqrt_Rsqr_abs c), <- sqrt_mult_alt by apply Rle_0_sqr. f_equal.
  revert b H. induction a as [|x a IH]; intros [|y b] H; cbn [map combine]; try discriminate; [cbn; ring|]. cbn [rsum fold_right]. change (fold_right Rplus 0) with rsum.
  injection H as H. rewrite (IH b H). cbn [fst snd]. unfold Rsqr. ring.
Qed.
Lemma mean_aff c e l : l <> [] -> mean (map (fun v => c * v + e) l) = c * mean l + e.
Proof. intros H. rewrite <- (map_map (fun v => c * v) (fun v => v + e)). rewrite mean_plus by (destruct l; [congruence|discriminate]). rewrite mean_scal. auto. Qed.
Lemma std_aff c e l : l <> [] -> std_dev (map (fun v => c * v + e) l) = Rabs c * std_dev l.
Proof.
  intros H. unfold std_dev. rewrite (mean_aff c e l H), map_map. rewrite <- (sqrt_Rsqr_abs c), <- sqrt_mult_alt by apply Rle_0_sqr. f_equal.
  rewrite <- (mean_scal (Rsqr c) (map (fun v => (v - mean l) * (v - mean l)) l)), map_map. f_equal. apply map_ext. intros v. unfold Rsqr. ring.
Qed.
Lemma znorm_aff c e l : c <> 0 -> l <> [] -> znorm (map (fun v => c * v + e) l) = map (fun v => (c / Rabs c) * v + 0) (znorm l).
Proof.
  intros Hc H. unfold znorm. rewrite (mean_aff c e l H), (std_aff c e l H), !map_map. apply map_ext_in. intros v Hv.
  assert (A : Rabs c <> 0) by (apply Rabs_no_R0; auto).
  destruct (Req_EM_T (std_dev l) 0) as [E|E].
  - rewrite (std_zero 1 1 Nat.lt_0_1 Nat.lt_0_1 l H E v Hv). destruct (Req_EM_T (Rabs c * std_dev l) 0); unfold Rdiv; ring.
  - destruct (Req_EM_T (Rabs c * std_dev l) 0) as [E2|E2]; [exfalso; apply Rmult_integral in E2; tauto|]. field. auto.
Qed.
Definition xscale (c : R) (v : xr) : xr := match v with XR r => XR (c * r) | v => v end.
Lemma np_min_map c l : 0 < c -> (forall v, In v l -> v = XInf \/ exists r, v = XR r) -> np_min (map (xscale c) l) = xscale c (np_min l).
Proof.
  intros Hc H. unfold np_min.
  assert (N : forall q, (forall v : xr, In v q -> v = XInf \/ exists r, v = XR r) -> existsb xisnan q = false).
  { intros q Hq. apply not_true_is_false. intros E. apply existsb_exists in E. destruct E as (v & Hv & Ev). destruct (Hq v Hv) as [->|[r ->]]; discriminate. }
  rewrite (N l H). rewrite (N (map (xscale c) l)). 2:{ intros v Hv. apply in_map_iff in Hv. destruct Hv as (u & <- & Hu). destruct (H u Hu) as [->|[r ->]]; cbn; eauto. }
  change XInf with (xscale c XInf) at 1. assert (A : XInf = XInf \/ exists r, XInf = XR r) by auto. revert A. generalize XInf at 1 3 4 5. 
  induction l as [|v l IH]; intros acc A; cbn [map fold_left]; [auto|].
  assert (S : (if xltb (xscale c v) (xscale c acc) then xscale c v else xscale c acc) = xscale c (if xltb v acc then v else acc)).
  { destruct (H v (or_introl eq_refl)) as [->|[r ->]], A as [->|[r' ->]]; cbn [xscale xltb]; auto. unfold Rltb.
    destruct (Rlt_dec (c * r) (c * r')) as [L|L], (Rlt_dec r r') as [L'|L']; auto; exfalso; nra. }
  rewrite S. apply IH; [intros; apply H; right; auto|]. destruct (xltb v acc); auto. apply H. left. auto.
Qed.
Theorem C93_affine scale m x c e : (1 <= m <= length x)%nat -> c <> 0 ->
  exists out, mp_series scale m (univ x) = Ok out /\
    mp_series scale m (univ (map (fun v => c * v + e) x)) = Ok (map (xscale (if scale then 1 else Rabs c)) out).
Proof.
  intros Hm Hc. eexists. split; [apply mp_series_real; auto|]. rewrite mp_series_real by (rewrite map_length; auto). rewrite map_length.
  set (n := (length x + 1 - m)%nat). f_equal. rewrite map_map. apply map_ext_in. intros i Hi. apply in_seq in Hi.
  assert (PC : 0 < if scale then 1 else Rabs c) by (destruct scale; [lra|apply Rabs_pos_lt; auto]).
  rewrite <- np_min_map; auto.
  2:{ intros v Hv. apply in_map_iff in Hv. destruct Hv as (j & <- & _). destruct (band m i j); eauto. }
  f_equal. unfold real_row. rewrite map_map. apply map_ext_in. intros j Hj. apply in_seq in Hj. destruct (band m i j); [reflexivity|]. cbn [xscale]. f_equal.
  rewrite !window_map by (unfold n in *; lia).
  assert (W : forall k, window m x k <> []) by (intros k E; apply (f_equal (@length R)) in E; rewrite window_len in E; cbn in E; lia).
  destruct scale; cbn [shown].
  - rewrite !znorm_aff by auto. rewrite eucl_map by (rewrite !znorm_len, !window_len; auto).
    replace (Rabs (c / Rabs c)) with 1; [auto|]. unfold Rdiv. rewrite Rabs_mult, Rabs_inv, Rabs_Rabsolu. symmetry. apply Rinv_r. apply Rabs_no_R0. auto.
  - apply eucl_map. rewrite !window_len. auto.
Qed.
Print Assumptions C93_affine.

(** ** C94: with scaling, distances are at most [2 sqrt m] *)
Lemma sq_sum_znorm l : l <> [] -> rsum (map (fun v => v * v) (znorm l)) <= INR (length l).
Proof.
  intros H. unfold znorm. rewrite map_map. assert (HP : 0 < INR (length l)) by (apply lt_0_INR; destruct l; [congruence|cbn; lia]).
  destruct (Req_EM_T (std_dev l) 0) as [E|E].
  - rewrite (rsum_map_ext _ (fun _ => 0)); [rewrite rsum_const; lra|]. intros v Hv. rewrite (std_zero 1 1 Nat.lt_0_1 Nat.lt_0_1 l H E v Hv). unfold Rdiv. ring.
  - rewrite (rsum_map_ext _ (fun v => / (std_dev l * std_dev l) * ((v - mean l) * (v - mean l)))) by (intros; field; auto). rewrite rsum_map_scal.
    assert (Q : std_dev l * std_dev l = rsum (map (fun v => (v - mean l) * (v - mean l)) l) / INR (length l)).
    { unfold std_dev at 1 2. rewrite sqrt_sqrt; [unfold mean at 1; rewrite map_length; auto|]. unfold mean at 1. apply Rmult_le_pos.
      - apply rsum_nonneg. intros v Hv. apply in_map_iff in Hv. destruct Hv as (u & <- & _). apply Rle_0_sqr.
      - left. apply Rinv_0_lt_compat. rewrite map_length. auto. }
    set (s := rsum _) in *. assert (s = INR (length l) * (std_dev l * std_dev l)) as -> by (rewrite Q; field; lra).
    right. field. auto.
Qed.
Lemma eucl_bound a b (k : R) : length a = length b -> rsum (map (fun v => v * v) a) <= k -> rsum (map (fun v => v * v) b) <= k -> eucl a b <= 2 * sqrt k.
Proof.
  intros L A B. assert (0 <= k). { eapply Rle_trans; [|exact A]. apply rsum_nonneg. intros v Hv. apply in_map_iff in Hv. destruct Hv as (u & <- & _). apply Rle_0_sqr. }
  assert (S : rsum (map (fun p => (fst p - snd p) * (fst p - snd p)) (combine a b)) <= 2 * rsum (map (fun v => v * v) a) + 2 * rsum (map (fun v => v * v) b)).
  { clear A B. revert b L. induction a as [|x a IH]; intros [|y b] L; cbn [map combine]; try discriminate; [cbn; lra|]. injection L as L. specialize (IH b L).
    cbn [rsum fold_right fst snd]. change (fold_right Rplus 0) with rsum. pose proof (Rle_0_sqr (x + y)). unfold Rsqr in *. lra. }
  unfold eucl. replace (2 * sqrt k) with (sqrt (4 * k)). 2:{ rewrite sqrt_mult by lra. replace 4 with (2 * 2) by ring. rewrite sqrt_square by lra. auto. }
  apply sqrt_le_1_alt. lra.
Qed.
Theorem C94_bound m x out i v : (1 <= m <= length x)%nat -> mp_series true m (univ x) = Ok out -> (i + m <= length x)%nat -> nth i out XNaN = XR v -> 0 <= v <= 2 * sqrt (INR m).
Proof.
  intros Hm E Hi Ev. destruct (C60_profile true m x Hm) as (o & Eo & _ & Q). rewrite E in Eo. injection Eo as <-. specialize (Q i Hi). rewrite Ev in Q.
  destruct Q as [(j & _ & EQ & _)|[EQ _]]; [|discriminate]. injection EQ as ->. cbn [shown]. split; [apply sqrt_pos|].
  assert (W : forall k, window m x k <> []) by (intros k E'; apply (f_equal (@length R)) in E'; rewrite window_len in E'; cbn in E'; lia).
  apply eucl_bound; [rewrite !znorm_len, !window_len; auto| |]; (eapply Rle_trans; [apply sq_sum_znorm; auto|]); rewrite window_len; lra.
Qed.
Print Assumptions C94_bound.

(** ** C95: a NaN-padded series *)
Definition padded_univ (x : list R) (p : nat) : series Xnum := univ x ++ repeat [XNaN] p.
(** Missing values at the end reach every entry of the profile that has the last segment outside its exclusion zone. *)
Theorem C95_padded_refuted m x p : (1 <= m <= length x)%nat -> (1 <= p)%nat ->
  exists out, mp_series false m (padded_univ x p) = Ok out /\
    forall i, apart m i (length x + p - m) -> (i < length x + p - m)%nat -> nth i out (XR 0) = XNaN.
Proof.
  intros Hm Hp. eexists. split; [reflexivity|]. intros i A Hi. cbn [bind].
  assert (LP : length (padded_univ x p) = (length x + p)%nat) by (unfold padded_univ, univ; rewrite app_length, map_length, repeat_length; auto).
  set (segs := to_segments (padded_univ x p) m). assert (LS : length segs = (length x + p + 1 - m)%nat) by (unfold segs, to_segments; rewrite map_length, seq_length; repeat match goal with |- context [@length ?T (padded_univ x p)] => replace (@length T (padded_univ x p)) with (length x + p)%nat by (symmetry; exact LP) end; auto).
  set (h := fun i => np_min (map (fun j => if band m i j then XInf else square_dist segs i j) (seq 0 (length segs)))).
  rewrite (nth_indep _ (XR 0) (h 0%nat)) by (rewrite map_length, seq_length; lia). rewrite (map_nth h), seq_nth by lia. cbn [Nat.add]. unfold h, np_min.
  set (j := (length x + p - m)%nat) in *.
  assert (EX : existsb xisnan (map (fun j => if band m i j then XInf else square_dist segs i j) (seq 0 (length segs))) = true).
  { apply existsb_exists. exists XNaN. split; [|reflexivity]. apply in_map_iff. exists j. split; [|apply in_seq; lia].
    apply (band_apart m i j ltac:(lia)) in A. rewrite A. unfold square_dist. destruct (Nat.compare_spec i j) as [E|L|L]; try lia.
    assert (NS : forall k, (k < length segs)%nat -> nth k segs [] = slice k (k + m) (padded_univ x p)).
    { intros k Hk. unfold segs, to_segments in *. rewrite map_length in Hk. set (q := fun i => slice i (i + m) (padded_univ x p)). rewrite (nth_indep _ [] (q 0%nat)) by (rewrite map_length; auto).
      rewrite (map_nth q), seq_nth by (rewrite seq_length in Hk; auto). reflexivity. }
    rewrite !NS by lia.
    (* the last cell of the last segment is missing *)
    assert (SG : forall a b : series Xnum, length a = length b -> (forall r, In r a -> length r = 1%nat) -> (forall r, In r b -> length r = 1%nat) -> In [XNaN] b -> seg_dist a b = XNaN).
    { clear. intros a b Hl Ha Hb Hin. unfold seg_dist. replace (xsum (sq_diffs a b)) with XNaN; [reflexivity|]. symmetry. unfold xsum. generalize (XR 0).
      unfold sq_diffs. revert b Hl Hb Hin. induction a as [|r a IH]; intros [|r' b] Hl Hb Hin acc; try discriminate; [contradiction|].
      pose proof (Ha r (or_introl eq_refl)) as R1. pose proof (Hb r' (or_introl eq_refl)) as R2. destruct r as [|u [|]]; try discriminate. destruct r' as [|u' [|]]; try discriminate.
      cbn [concat app combine map fold_left fst snd]. destruct Hin as [E|Hin].
      - injection E as ->. replace (xadd acc _) with XNaN. 2:{ unfold xsub. destruct u; cbn; destruct acc; reflexivity. }
        generalize (combine (concat a) (concat b)). intros q. induction q as [|z q IHq]; cbn; auto.
      - apply IH; auto; intros; [apply Ha|apply Hb]; right; auto. }
    assert (R1 : forall k r, In r (slice k (k + m) (padded_univ x p)) -> length r = 1%nat).
    { intros k r Hr. apply (in_slice_iff _ _ _ _ []) in Hr. destruct Hr as (u & _ & Hu & <-). unfold padded_univ. assert (I : In (nth u (padded_univ x p) []) (univ x ++ repeat [XNaN] p)) by (apply nth_In; auto).
      apply in_app_or in I. destruct I as [I|I]; [apply in_map_iff in I; destruct I as (v & E & _)|apply repeat_spec in I; symmetry in I; rename I into E]; unfold padded_univ in E; rewrite <- E; reflexivity. }
    apply SG; auto.
    - rewrite !slice_length. repeat match goal with |- context [@length ?T (padded_univ x p)] => replace (@length T (padded_univ x p)) with (length x + p)%nat by (symmetry; exact LP) end. lia.
    - apply R1.
    - apply R1.
    - apply (in_slice_iff _ _ _ _ []). exists (length x + p - 1)%nat. repeat match goal with |- context [@length ?T (padded_univ x p)] => replace (@length T (padded_univ x p)) with (length x + p)%nat by (symmetry; exact LP) end. split; [lia|]. split; [lia|]. unfold padded_univ.
      rewrite app_nth2 by (unfold univ; rewrite map_length; lia). replace (length (univ x)) with (length x) by (unfold univ; rewrite map_length; auto). apply nth_error_nth. 
      rewrite nth_error_repeat by lia. reflexivity. }
  rewrite EX. reflexivity.
Qed.
Print Assumptions C95_padded_refuted.
(** the hypotheses of C93-C95 on a series of five points and segments of two: the first segment has a finite entry, and after
    one missing value it is missing *)
Example C95_nontrivial : let x := [0; 5; 1; 7; 2] in (1 <= 2 <= length x)%nat /\ apart 2 0 (length x + 1 - 2) /\
  (exists out v, mp_series true 2 (univ x) = Ok out /\ nth 0 out XNaN = XR v) /\
  (exists out v, mp_series false 2 (univ x) = Ok out /\ nth 0 out XNaN = XR v).
Proof.
  cbv zeta. set (x := [0; 5; 1; 7; 2]). assert (H : (1 <= 2 <= length x)%nat) by (cbn; lia). split; auto. split; [unfold apart; cbn; lia|].
  assert (G : forall scale, exists out v, mp_series scale 2 (univ x) = Ok out /\ nth 0 out XNaN = XR v).
  { intros scale. destruct (C60_profile scale 2 x H) as (out & E & _ & Q). destruct (Q 0%nat ltac:(cbn; lia)) as [(j & _ & EQ & _)|[_ N]]; [eauto|].
    exfalso. apply (N 2%nat). unfold apart. cbn. lia. }
  auto.
Qed.

(** The other entries are kept: together with [C95_padded_refuted], every entry of a segment inside the series either is
    missing or is that of the unpadded series. *)
Lemma slice_app {A} (a b : list A) i j : (j <= length a)%nat -> slice i j (a ++ b) = slice i j a.
Proof.
  intros H. unfold slice. destruct (Nat.le_gt_cases j i) as [L|L]; [replace (j - i)%nat with 0%nat by lia; auto|].
  rewrite skipn_app. replace (i - length a)%nat with 0%nat by lia. cbn [skipn]. rewrite firstn_app, skipn_length. replace (j - i - (length a - i))%nat with 0%nat by lia. rewrite firstn_O, app_nil_r. auto.
Qed.
Lemma np_min_inf l k : np_min (l ++ repeat XInf k) = np_min l.
Proof.
  unfold np_min. rewrite existsb_app. replace (existsb xisnan (repeat XInf k)) with false by (clear; induction k; auto). rewrite orb_false_r.
  destruct (existsb xisnan l); auto. rewrite fold_left_app. generalize (fold_left (fun a b => if xltb b a then b else a) l XInf). intros v.
  induction k as [|k IH]; auto. cbn [repeat fold_left]. replace (xltb XInf v) with false by (destruct v; reflexivity). auto.
Qed.
Theorem C95_kept m x p out : (1 <= m <= length x)%nat -> mp_series false m (univ x) = Ok out ->
  exists out', mp_series false m (padded_univ x p) = Ok out' /\
    forall i, (i + m <= length x)%nat -> ~ apart m i (length x + p - m) -> nth i out' XNaN = nth i out XNaN.
Proof.
  intros Hm E. eexists. split; [reflexivity|]. intros i Hi NA. unfold mp_series in E. cbn [bind] in E |- *. injection E as <-.
  assert (LU : length (univ x) = length x) by (unfold univ; rewrite map_length; auto).
  assert (LP : length (padded_univ x p) = (length x + p)%nat) by (unfold padded_univ; rewrite app_length, repeat_length, <- LU; auto).
  assert (S1 : to_segments (padded_univ x p) m = map (fun i => slice i (i + m) (padded_univ x p)) (seq 0 (length x + p + 1 - m))) by (unfold to_segments; rewrite <- LP; auto).
  assert (S2 : to_segments (univ x) m = map (fun i => slice i (i + m) (univ x)) (seq 0 (length x + 1 - m))) by (unfold to_segments; rewrite <- LU; auto).
  rewrite S1, S2. set (segs' := map _ (seq 0 (length x + p + 1 - m))). set (segs := map _ (seq 0 (length x + 1 - m))).
  assert (L1 : length segs' = (length x + p + 1 - m)%nat) by (unfold segs'; rewrite map_length, seq_length; auto).
  assert (L2 : length segs = (length x + 1 - m)%nat) by (unfold segs; rewrite map_length, seq_length; auto).
  repeat match goal with |- context [@length ?T segs'] => replace (@length T segs') with (length x + p + 1 - m)%nat by (symmetry; exact L1) end.
  repeat match goal with |- context [@length ?T segs] => replace (@length T segs) with (length x + 1 - m)%nat by (symmetry; exact L2) end.
  assert (NS : forall k, (k + m <= length x)%nat -> nth k segs' [] = nth k segs []).
  { intros k Hk. unfold segs', segs. set (q := fun i => slice i (i + m) (padded_univ x p)). set (q' := fun i => slice i (i + m) (univ x)).
    rewrite (nth_indep _ [] (q 0%nat)) by (rewrite map_length, seq_length; lia). rewrite (nth_indep (map q' _) [] (q' 0%nat)) by (rewrite map_length, seq_length; lia).
    rewrite (map_nth q), (map_nth q'), !seq_nth by lia. cbn [Nat.add]. unfold q, q', padded_univ. apply slice_app. rewrite LU. auto. }
  set (h' := fun i => np_min (map (fun j => if band m i j then XInf else square_dist segs' i j) (seq 0 (length x + p + 1 - m)))).
  set (h := fun i => np_min (map (fun j => if band m i j then XInf else square_dist segs i j) (seq 0 (length x + 1 - m)))).
  rewrite (nth_indep _ XNaN (h' 0%nat)) by (rewrite map_length, seq_length; lia). rewrite (nth_indep (map h _) XNaN (h 0%nat)) by (rewrite map_length, seq_length; lia).
  rewrite (map_nth h'), (map_nth h), !seq_nth by lia. cbn [Nat.add]. unfold h', h.
  replace (length x + p + 1 - m)%nat with ((length x + 1 - m) + p)%nat by lia. rewrite seq_app, map_app. cbn [Nat.add].
  assert (T : map (fun j => if band m i j then XInf else square_dist segs' i j) (seq (length x + 1 - m) p) = repeat XInf p).
  { assert (G : forall l : list nat, (forall j, In j l -> band m i j = true) -> map (fun j => if band m i j then XInf else square_dist segs' i j) l = repeat XInf (length l)).
    { induction l as [|j l IH]; intros Hl; auto. cbn [map length repeat]. rewrite (Hl j (or_introl eq_refl)). f_equal. apply IH. intros; apply Hl; right; auto. }
    rewrite G, seq_length; auto. intros j Hj. apply in_seq in Hj. destruct (band m i j) eqn:B; auto. exfalso. apply NA. apply (band_apart m i j ltac:(lia)) in B. destruct B as [B|B]; [left|]; lia. }
  rewrite T, np_min_inf. f_equal. apply map_ext_in. intros j Hj. apply in_seq in Hj. destruct (band m i j); auto. unfold square_dist. rewrite !NS by lia. auto.
Qed.
Print Assumptions C95_kept.
(** four points, segments of two, one missing value: the last segment inside is unaffected, with a finite entry *)
Example C95_kept_nontrivial : (1 <= 2 <= length [0; 5; 1; 7])%nat /\ ~ apart 2 2 (length [0; 5; 1; 7] + 1 - 2) /\ apart 2 2 0.
Proof. cbn [length]. unfold apart. lia. Qed.

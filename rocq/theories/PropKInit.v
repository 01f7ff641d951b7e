(** C148-C150: the k-means++ initialisation of [TimeSeriesKMeans] with DTW and soft-DTW.
    Exact reals; all random draws. *)
From Coq Require Import Bool List Arith Lia ZArith QArith Reals Lra.
From Verif Require Import Num NumLaws Py Series Masks DtwModel Spec SpecDtw RList RealSeries PaaModel PaaThms PreModel PropScale PropResample PropCtw
  GakModel SoftModel Dataset DpProofs DtwProofs ValidThms CdistThms PropCdist CdistGen PathSum SoftThms PropDtw PropSoft PropSoftCdist
  BaryModel BaryThms BaryReal PropBary ClusterModel ClusterThms PropCluster PropCluster2 KInitModel.
Import ListNotations.
Local Open Scope R_scope.

(** ** Specification.  [dd i j] is the distance from series [i] to series [j] of [n] series *)
(** squared distance of series [j] to the closest of the centres [ids] *)
Definition closest_sq (dd : nat -> nat -> R) (ids : list nat) (j : nat) : R := rmin (map (fun i => dd i j * dd i j) ids).
Definition potential (dd : nat -> nat -> R) (n : nat) (ids : list nat) : R := rsum (map (closest_sq dd ids) (seq 0 n)).
(** the series that a draw [v] of [0, 1) selects with a probability proportional to its
    squared distance: the first one up to which the squared distances sum to at least [v]
    times the total *)
Definition selects (dd : nat -> nat -> R) (n : nat) (ids : list nat) (v : R) (i : nat) : Prop :=
  (i < n)%nat /\ v * potential dd n ids <= rsum (map (closest_sq dd ids) (seq 0 (S i))) /\
  forall k, (k < i)%nat -> rsum (map (closest_sq dd ids) (seq 0 (S k))) < v * potential dd n ids.
(** [i] is selected by one of the draws, and no other selected series would leave a smaller potential *)
Definition best_selected (dd : nat -> nat -> R) (n trials : nat) (draws : nat -> R) (ids : list nat) (i : nat) : Prop :=
  (exists t, (t < trials)%nat /\ selects dd n ids (draws t) i) /\
  forall t i', (t < trials)%nat -> selects dd n ids (draws t) i' -> potential dd n (ids ++ [i]) <= potential dd n (ids ++ [i']).
(** k-means++ with several trials per round *)
Definition seeding (dd : nat -> nat -> R) (n trials : nat) (u : nat -> nat -> R) (first : nat) (ids : list nat) : Prop :=
  nth_error ids 0 = Some first /\ (forall i, In i ids -> (i < n)%nat) /\
  forall c, (0 < c < length ids)%nat -> best_selected dd n trials (u c) (firstn c ids) (nth c ids 0%nat).

(** ** lemmas *)
Lemma rmin_snoc l x : l <> [] -> rmin (l ++ [x]) = Rmin (rmin l) x.
Proof.
  intros Hl. apply Rle_antisym.
  - unfold Rmin. destruct (Rle_dec (rmin l) x); apply rmin_le; apply in_or_app; [left; apply rmin_in; auto|right; left; auto].
  - assert (H : In (rmin (l ++ [x])) (l ++ [x])) by (apply rmin_in; destruct l; discriminate). apply in_app_or in H. destruct H as [H|[<-|[]]].
    + eapply Rle_trans; [apply Rmin_l|]. apply rmin_le. auto.
    + apply Rmin_r.
Qed.
Lemma closest_snoc dd ids i j : ids <> [] -> closest_sq dd (ids ++ [i]) j = Rmin (closest_sq dd ids j) (dd i j * dd i j).
Proof. intros H. unfold closest_sq. rewrite map_app. apply rmin_snoc. destruct ids; [congruence|discriminate]. Qed.
Lemma closest_nonneg dd ids j : ids <> [] -> 0 <= closest_sq dd ids j.
Proof.
  intros H. unfold closest_sq. assert (I : In (rmin (map (fun i => dd i j * dd i j) ids)) (map (fun i => dd i j * dd i j) ids)) by (apply rmin_in; destruct ids; [congruence|discriminate]).
  apply in_map_iff in I. destruct I as (i & <- & _). apply Rle_0_sqr.
Qed.
Lemma potential_nonneg dd n ids : ids <> [] -> 0 <= potential dd n ids.
Proof. intros H. apply rsum_nonneg. intros x I. apply in_map_iff in I. destruct I as (j & <- & _). apply closest_nonneg. auto. Qed.
Lemma cumsum_from_nth (f : nat -> R) : forall n a acc k, (k < n)%nat ->
  nth k (cumsum_from (XR acc) (map (fun j => XR (f j)) (seq a n))) XNaN = XR (acc + rsum (map f (seq a (S k)))).
Proof.
  induction n as [|n IH]; intros a acc k Hk; [lia|]. cbn [seq map cumsum_from xadd]. cbv zeta. destruct k as [|k].
  - cbn [nth seq map rsum fold_right]. f_equal. lra.
  - cbn [nth]. rewrite IH by lia. f_equal. change (seq a (S (S k))) with (a :: seq (S a) (S k)). cbn [map]. change (rsum (f a :: ?l)) with (f a + rsum l). lra.
Qed.
Lemma cumsum_len : forall l acc, length (cumsum_from acc l) = length l.
Proof. induction l as [|x l IH]; intros acc; auto. simpl. f_equal. apply IH. Qed.
Lemma searchsorted_spec (f : nat -> R) v : forall l, (forall k, (k < length l)%nat -> nth k l XNaN = XR (f k)) ->
  let s := searchsorted l (XR v) in (s <= length l)%nat /\ (forall k, (k < s)%nat -> f k < v) /\ ((s < length l)%nat -> v <= f s).
Proof.
  intros l. revert f. induction l as [|x l IH]; intros f H; cbn zeta; [simpl; repeat split; intros; lia|]. cbn [searchsorted length].
  pose proof (H 0%nat ltac:(simpl; lia)) as E0. cbn [nth] in E0. subst x.
  specialize (IH (fun k => f (S k)) (fun k Hk => H (S k) ltac:(simpl; lia))). cbn zeta in IH. destruct IH as (A & B & C).
  unfold before. cbn [xltb xisnan negb andb]. rewrite orb_false_r. destruct (Rltb (f 0%nat) v) eqn:E.
  - apply Rltb_true in E. split; [lia|]. split; [|intros; apply C; lia]. intros [|k] Hk; auto. apply B. lia.
  - apply Rltb_false in E. split; [lia|]. split; [intros; lia|]. intros _. lra.
Qed.
Lemma minimum_real (f g : nat -> R) l : minimum (map (fun j => XR (f j)) l) (map (fun j => XR (g j)) l) = map (fun j => XR (Rmin (f j) (g j))) l.
Proof.
  induction l as [|x l IH]; auto. unfold minimum in *. cbn [map combine fst snd]. rewrite IH. f_equal. unfold xminimum. cbn [xisnan xltb].
  unfold Rmin. destruct (Rle_dec (f x) (g x)).
  - destruct (Rltb (g x) (f x)) eqn:E; auto. apply Rltb_true in E. lra.
  - destruct (Rltb (g x) (f x)) eqn:E; auto. apply Rltb_false in E. f_equal. lra.
Qed.

Section Rounds.
Variable cdist : array3 -> array3 -> res (list (list xr)).
Variable X : array3.
Variable u : nat -> nat -> R.
Variable dd : nat -> nat -> R.
Let n := length X.
Hypothesis HD : forall ids, ids <> [] -> (forall i, In i ids -> (i < n)%nat) ->
  cdist (map (pick X) ids) X = Ok (map (fun i => map (fun j => XR (dd i j)) (seq 0 n)) ids).
Hypothesis Hu : forall c t, 0 <= u c t < 1.
Let state (ids : list nat) : list xr := map (fun j => XR (closest_sq dd ids j)) (seq 0 n).

Lemma selected c t ids : (0 < n)%nat -> ids <> [] ->
  let i := Nat.min (searchsorted (cumsum (state ids)) (xmul (XR (u c t)) (XR (potential dd n ids)))) (length (state ids) - 1) in
  selects dd n ids (u c t) i.
Proof.
  intros Hn Hi. cbn zeta. unfold state. rewrite map_length, seq_length. cbn [xmul].
  pose proof (searchsorted_spec (fun k => rsum (map (closest_sq dd ids) (seq 0 (S k)))) (u c t * potential dd n ids)
    (cumsum (map (fun j => XR (closest_sq dd ids j)) (seq 0 n)))) as S. cbn zeta in S. unfold cumsum in *. rewrite cumsum_len, map_length, seq_length in S.
  destruct S as (A & B & C).
  { intros k Hk. rewrite cumsum_from_nth by auto. f_equal. lra. }
  set (s := searchsorted _ _) in *.
  assert (L : (s < n)%nat).
  { destruct (Nat.eq_dec s n) as [E|]; [|lia]. specialize (B (n - 1)%nat ltac:(lia)). replace (S (n - 1)) with n in B by lia.
    fold (potential dd n ids) in B. pose proof (potential_nonneg dd n ids Hi) as P. pose proof (Hu c t) as U.
    assert (u c t * potential dd n ids <= 1 * potential dd n ids) by (apply Rmult_le_compat_r; lra). lra. }
  rewrite Nat.min_l by lia. split; auto. 
Qed.
Lemma reduced ids i : ids <> [] -> minimum (state ids) (squared (map (fun j => XR (dd i j)) (seq 0 n))) = state (ids ++ [i]).
Proof.
  intros Hi. unfold squared. rewrite map_map. cbn [xmul]. unfold state. rewrite minimum_real. apply map_ext. intros j. rewrite closest_snoc; auto.
Qed.
Lemma selects_unique ids v i i' : selects dd n ids v i -> selects dd n ids v i' -> i = i'.
Proof.
  intros (A & B & C) (A' & B' & C'). destruct (lt_eq_lt_dec i i') as [[L|]|L]; auto; exfalso; [specialize (C' i L)|specialize (C i' L)]; lra.
Qed.
Lemma rounds_spec trials : (0 < trials)%nat -> (0 < n)%nat -> forall more c ids, ids <> [] -> (forall i, In i ids -> (i < n)%nat) ->
  exists new, rounds cdist X u trials more c (state ids) (XR (potential dd n ids)) = Ok (map (pick X) new) /\ length new = more /\
    (forall i, In i new -> (i < n)%nat) /\
    forall k, (k < more)%nat -> best_selected dd n trials (u (c + k)%nat) (ids ++ firstn k new) (nth k new 0%nat).
Proof.
  intros Ht Hn. induction more as [|more IH]; intros c ids Hne Hlt.
  - exists []. repeat split; auto; try (intros i []); intros; lia.
  - cbn [rounds]. set (cand := candidates u c trials (state ids) (XR (potential dd n ids))).
    assert (SC : forall t, (t < trials)%nat -> selects dd n ids (u c t) (nth t cand 0%nat)).
    { intros t Hl. unfold cand, candidates. rewrite map_seq_nth by auto. cbn [Nat.add]. apply selected; auto. }
    assert (LC : length cand = trials) by (unfold cand, candidates; rewrite map_length, seq_length; auto).
    assert (IC : forall i, In i cand -> (i < n)%nat).
    { intros i Hi. apply (In_nth _ _ 0%nat) in Hi. destruct Hi as (t & Hl & <-). apply (SC t). lia. }
    rewrite HD by (auto; intros E; rewrite E in LC; simpl in LC; lia). cbn [bind]. cbv zeta.
    assert (ED : map (fun row => minimum (state ids) (squared row)) (map (fun i => map (fun j => XR (dd i j)) (seq 0 n)) cand) = map (fun i => state (ids ++ [i])) cand).
    { rewrite map_map. apply map_ext. intros i. apply reduced. auto. }
    rewrite ED.
    assert (EX : map xsum (map (fun i => state (ids ++ [i])) cand) = map (fun i => XR (potential dd n (ids ++ [i]))) cand).
    { rewrite map_map. apply map_ext. intros i. unfold state. rewrite <- (map_map (closest_sq dd (ids ++ [i])) XR). apply xsum_reals. }
    rewrite EX.
    set (pots := map (fun i => potential dd n (ids ++ [i])) cand).
    assert (EP : map (fun i => XR (potential dd n (ids ++ [i]))) cand = map XR pots) by (unfold pots; rewrite map_map; auto). rewrite EP.
    assert (NP : pots <> []) by (unfold pots; intros E; apply map_eq_nil in E; rewrite E in LC; simpl in LC; lia).
    destruct (argmin_spec pots NP) as (LB & MB). set (b := argmin (map XR pots)) in *. unfold pots in LB. rewrite map_length, LC in LB.
    set (i := nth b cand 0%nat). 
    assert (E1 : nth b (map (fun i => state (ids ++ [i])) cand) [] = state (ids ++ [i])).
    { rewrite (nth_indep _ [] (state (ids ++ [0%nat]))) by (rewrite map_length; lia). exact (map_nth (fun i => state (ids ++ [i])) cand 0%nat b). }
    assert (E2 : nth b (map XR pots) XNaN = XR (potential dd n (ids ++ [i]))).
    { rewrite <- EP. rewrite (nth_indep _ XNaN (XR (potential dd n (ids ++ [0%nat])))) by (rewrite map_length; lia). exact (map_nth (fun i => XR (potential dd n (ids ++ [i]))) cand 0%nat b). }
    rewrite E1, E2. assert (Ii : (i < n)%nat) by (apply IC; apply nth_In; lia).
    destruct (IH (S c) (ids ++ [i])) as (new & EN & LN & IN & BN).
    { destruct ids; discriminate. }
    { intros k Hk. apply in_app_or in Hk. destruct Hk as [Hk|[<-|[]]]; auto. }
    rewrite EN. cbn [bind]. exists (i :: new). split; [reflexivity|]. split; [simpl; lia|]. split; [intros k [<-|Hk]; auto|].
    intros [|k] Hk.
    + cbn [firstn nth]. rewrite app_nil_r, Nat.add_0_r. split; [exists b; split; auto; apply SC; auto|].
      intros t i' Hl Hs. rewrite (selects_unique ids (u c t) i' (nth t cand 0%nat)) by (auto; apply SC; auto).
      destruct (MB t) as [M _]; [unfold pots; rewrite map_length; lia|].
      assert (EQ : forall q, (q < trials)%nat -> nth q pots 0 = potential dd n (ids ++ [nth q cand 0%nat])).
      { intros q Hq. unfold pots. rewrite (nth_indep _ 0 (potential dd n (ids ++ [0%nat]))) by (rewrite map_length; lia). exact (map_nth (fun i => potential dd n (ids ++ [i])) cand 0%nat q). }
      rewrite !EQ in M by auto. exact M.
    + cbn [firstn nth]. replace (c + S k)%nat with (S c + k)%nat by lia. replace (ids ++ i :: firstn k new) with ((ids ++ [i]) ++ firstn k new) by (rewrite <- app_assoc; reflexivity).
      apply BN. lia.
Qed.
Lemma trials_pos K : (0 < n_local_trials K)%nat. Proof. unfold n_local_trials. lia. Qed.
Lemma k_init_spec K first : (0 < K)%nat -> (first < n)%nat ->
  exists ids, k_init_metric cdist X u K first = Ok (map (pick X) ids) /\ length ids = K /\ seeding dd n (n_local_trials K) u first ids.
Proof.
  intros HK Hf. destruct K as [|K]; [lia|]. unfold k_init_metric. fold n. destruct (Nat.eqb_spec n 0) as [E|_]; [lia|].
  pose proof (HD [first] ltac:(discriminate) ltac:(intros i [<-|[]]; auto)) as E0. cbn [map] in E0. rewrite E0. cbn [bind hd].
  assert (ES : squared (map (fun j => XR (dd first j)) (seq 0 n)) = state [first]).
  { unfold squared, state. rewrite map_map. cbn [xmul]. reflexivity. }
  rewrite ES. cbv zeta.
  assert (EX : xsum (state [first]) = XR (potential dd n [first])) by (unfold state; rewrite <- (map_map (closest_sq dd [first]) XR); apply xsum_reals).
  rewrite EX. destruct (rounds_spec (n_local_trials (S K)) (trials_pos _) ltac:(lia) K 1 [first] ltac:(discriminate) ltac:(intros i [<-|[]]; auto)) as (new & EN & LN & IN & BN).
  rewrite EN. cbn [bind]. exists (first :: new). split; [reflexivity|]. split; [simpl; lia|]. split; [reflexivity|]. split; [intros i [<-|Hi]; auto|].
  intros [|c] Hc; [lia|]. cbn [firstn nth]. apply (BN c). simpl in Hc. lia.
Qed.
End Rounds.

(** distances of padded series are computed on the series themselves *)
Lemma cdist_padded dist d L (xs : list rser) diag (f : nat -> nat -> R) ids : (forall x, In x xs -> real_series d x) ->
  (forall i j, (i < length xs)%nat -> (j < length xs)%nat -> dist (lift (nth i xs [])) (lift (nth j xs [])) = Ok (XR (f i j))) ->
  (forall i, In i ids -> (i < length xs)%nat) ->
  exists M, cdist_generic (N:=Xnum) dist (map (pick (map (pad_to d L) xs)) ids) (Some (map (pad_to d L) xs)) diag Sequential = Ok M /\
    table (length ids) (length xs) M = map (fun i => map (fun j => XR (f i j)) (seq 0 (length xs))) ids.
Proof.
  intros Hx Hf Hi. set (X := map (pad_to d L) xs).
  assert (EX : forall j, (j < length xs)%nat -> nth j X [] = pad_to d L (nth j xs [])).
  { intros j Hj. unfold X. rewrite (nth_indep _ [] (pad_to d L [])) by (rewrite map_length; auto). apply (map_nth (pad_to d L)). }
  assert (EI : forall i, (i < length ids)%nat -> nth i (map (pick X) ids) [] = pad_to d L (nth (nth i ids 0%nat) xs [])).
  { intros i Hl. rewrite (nth_indep _ [] (pick X 0%nat)) by (rewrite map_length; auto). rewrite (map_nth (pick X)). apply EX. apply Hi. apply nth_In. auto. }
  assert (V : forall i k, (i < length ids)%nat -> (k < length xs)%nat ->
     dist (to_time_series true (Raw2 (nth i (map (pick X) ids) []))) (to_time_series true (Raw2 (nth k X []))) = Ok (XR (f (nth i ids 0%nat) k))).
  { intros i k Hl Hk. rewrite EI, EX by auto. assert (I1 : (nth i ids 0 < length xs)%nat) by (apply Hi; apply nth_In; auto).
    pose proof (strip_pad_to d L (nth (nth i ids 0%nat) xs []) (Hx _ (nth_In _ _ I1))) as S1. pose proof (strip_pad_to d L (nth k xs []) (Hx _ (nth_In _ _ Hk))) as S2.
    unfold strip in S1, S2. norm. rewrite S1, S2. apply Hf; auto. }
  assert (LX : length X = length xs) by (apply map_length). assert (LI : length (map (pick X) ids) = length ids) by (apply map_length).
  destruct (cdist_cross_returns Xnum (series Xnum) (fun a b => dist (to_time_series true (Raw2 a)) (to_time_series true (Raw2 b))) [] (map (pick X) ids) X Sequential I) as (M & EM).
  { rewrite LX, LI. intros i k Hl Hk. eexists. exact (V i k Hl Hk). }
  exists M. split; [exact EM|].
  pose proof (cdist_cross_spec Xnum (series Xnum) (fun a b => dist (to_time_series true (Raw2 a)) (to_time_series true (Raw2 b))) [] (map (pick X) ids) X Sequential M I EM) as HM.
  rewrite LX, LI in HM. unfold table. rewrite (map_nth_seq (fun i => map (fun j => XR (f i j)) (seq 0 (length xs))) ids 0%nat).
  apply map_ext_in. intros i Hs. apply in_seq in Hs. apply map_ext_in. intros k Hk. apply in_seq in Hk.
  specialize (HM i k ltac:(lia) ltac:(lia)). cbv beta in HM. pose proof (V i k ltac:(lia) ltac:(lia)) as HV. norm. rewrite HV in HM. congruence.
Qed.
Lemma dtw_lift_generic d x y g r s v : real_series d x -> real_series d y -> dtw (N:=Xnum) (Raw2 (lift x)) (Raw2 (lift y)) g r s = Ok v ->
  exists code, gc_code g = Ok code /\ elastic_generic (N:=Xnum) comb_dtw (lift x) (lift y) code r s = Ok v.
Proof.
  intros Hx Hy. unfold dtw, elastic. rewrite (validated_finite Xnum xnn xfin Xlaws d) by (apply lift_finite; auto).
  destruct (gc_code g) as [code|e]; [|discriminate]. cbn [bind]. intros E. eauto.
Qed.
Lemma soft_lift_generic d x y gamma g r s v : 0 < gamma -> real_series d x -> real_series d y ->
  soft_dtw BNumpy (Raw2 (lift x)) (Raw2 (lift y)) gamma g r s = Ok v ->
  exists code, gc_code g = Ok code /\ soft_dtw_generic BNumpy (lift x) (lift y) gamma code r s = Ok v.
Proof.
  intros Hg Hx Hy. unfold soft_dtw. rewrite (validated_finite Xnum xnn xfin Xlaws d) by (apply lift_finite; auto).
  destruct (gc_code g) as [code|e]; [|discriminate]. cbn [bind]. rewrite is_zero_false by auto. intros E. eauto.
Qed.
Lemma pick_padded d L xs ids : (forall i, In i ids -> (i < length xs)%nat) ->
  map (pick (map (pad_to d L) xs)) ids = map (fun i => pad_to d L (nth i xs [])) ids.
Proof.
  intros H. apply map_ext_in. intros i Hi. unfold pick. rewrite (nth_indep _ [] (pad_to d L [])) by (rewrite map_length; auto). apply (map_nth (pad_to d L)).
Qed.

(** ** C148: every initial centre is a series of the dataset; the first one is drawn
    uniformly, each further one is the best of the candidates that the draws select with
    probability proportional to the squared distance to the closest centre so far *)
Theorem C148_dtw d L xs gc r s u K first Dr : (forall x, In x xs -> real_series d x) ->
  (forall i j, (i < length xs)%nat -> (j < length xs)%nat ->
     dtw (N:=Xnum) (Raw2 (lift (nth i xs []))) (Raw2 (lift (nth j xs []))) (name_or_none gc) r s = Ok (XR (Dr i j))) ->
  (forall c t, 0 <= u c t < 1) -> (0 < K)%nat -> (first < length xs)%nat ->
  exists ids, kpp_dtw gc r s (map (pad_to d L) xs) u K first = Ok (map (fun i => pad_to d L (nth i xs [])) ids) /\
    length ids = K /\ seeding Dr (length xs) (n_local_trials K) u first ids.
Proof.
  intros Hx HD Hu HK Hf.
  destruct (dtw_lift_generic d _ _ _ r s _ (Hx _ (nth_In _ [] Hf)) (Hx _ (nth_In _ [] Hf)) (HD first first Hf Hf)) as (code & EC & _).
  assert (LX : length (map (pad_to d L) xs) = length xs) by apply map_length.
  destruct (k_init_spec (cdist_dtw_rows (name_or_none gc) r s) (map (pad_to d L) xs) u Dr) with (K := K) (first := first) as (ids & E & LI & S); rewrite ?LX in *; auto.
  - intros ids Hne Hi. unfold cdist_dtw_rows. rewrite EC. cbn [bind].
    destruct (cdist_padded (fun s1 s2 => elastic_generic (N:=Xnum) comb_dtw s1 s2 code r s) d L xs false Dr ids Hx) as (M & EM & HT); auto.
    + intros i j Hi' Hj. destruct (dtw_lift_generic d _ _ _ r s _ (Hx _ (nth_In _ [] Hi')) (Hx _ (nth_In _ [] Hj)) (HD i j Hi' Hj)) as (code' & EC' & EV). assert (code' = code) by congruence. subst code'. exact EV.
    + refine (eq_trans (f_equal (fun q => bind q _) EM) _). cbn [bind]. rewrite !map_length. f_equal. exact HT.
  - exists ids. rewrite <- (pick_padded d L xs ids) by (apply S). auto.
Qed.
Print Assumptions C148_dtw.
Theorem C148_softdtw d L xs gamma gc r s u K first Dr : 0 < gamma -> (forall x, In x xs -> real_series d x) ->
  (forall i j, (i < length xs)%nat -> (j < length xs)%nat ->
     soft_dtw BNumpy (Raw2 (lift (nth i xs []))) (Raw2 (lift (nth j xs []))) gamma (name_or_none gc) r s = Ok (XR (Dr i j))) ->
  (forall c t, 0 <= u c t < 1) -> (0 < K)%nat -> (first < length xs)%nat ->
  exists ids, kpp_softdtw gamma gc r s (map (pad_to d L) xs) u K first = Ok (map (fun i => pad_to d L (nth i xs [])) ids) /\
    length ids = K /\ seeding Dr (length xs) (n_local_trials K) u first ids.
Proof.
  intros Hg Hx HD Hu HK Hf.
  destruct (soft_lift_generic d _ _ gamma _ r s _ Hg (Hx _ (nth_In _ [] Hf)) (Hx _ (nth_In _ [] Hf)) (HD first first Hf Hf)) as (code & EC & _).
  assert (LX : length (map (pad_to d L) xs) = length xs) by apply map_length.
  destruct (k_init_spec (cdist_soft_rows gamma (name_or_none gc) r s) (map (pad_to d L) xs) u Dr) with (K := K) (first := first) as (ids & E & LI & S); rewrite ?LX in *; auto.
  - intros ids Hne Hi. unfold cdist_soft_rows, cdist_soft_dtw_generic. rewrite is_zero_false by auto. rewrite EC. cbn [bind].
    destruct (cdist_padded (fun s1 s2 => soft_dtw_generic BNumpy s1 s2 gamma code r s) d L xs true Dr ids Hx) as (M & EM & HT); auto.
    + intros i j Hi' Hj. destruct (soft_lift_generic d _ _ gamma _ r s _ Hg (Hx _ (nth_In _ [] Hi')) (Hx _ (nth_In _ [] Hj)) (HD i j Hi' Hj)) as (code' & EC' & EV). assert (code' = code) by congruence. subst code'. exact EV.
    + refine (eq_trans (f_equal (fun q => bind q _) EM) _). cbn [bind]. rewrite !map_length. f_equal. exact HT.
  - exists ids. rewrite <- (pick_padded d L xs ids) by (apply S). auto.
Qed.
Print Assumptions C148_softdtw.

(** ** C149 *)
(** a positive draw never selects a series at distance zero from a centre, unless all are *)
Lemma selects_positive dd n ids v i : ids <> [] -> 0 < v -> selects dd n ids v i -> 0 < closest_sq dd ids i \/ potential dd n ids = 0.
Proof.
  intros Hne Hv (A & B & C). destruct (Rle_lt_or_eq_dec 0 _ (potential_nonneg dd n ids Hne)) as [P|P]; [left|right; auto].
  assert (Q : 0 < v * potential dd n ids) by (apply Rmult_lt_0_compat; auto). rewrite seq_S, map_app, rsum_app in B. cbn [map Nat.add rsum fold_right] in B.
  destruct i as [|i]; [cbn [seq map rsum fold_right] in B; lra|]. specialize (C i ltac:(lia)). lra.
Qed.
Lemma potential_zero dd n ids j : ids <> [] -> potential dd n ids = 0 -> (j < n)%nat -> exists i, In i ids /\ dd i j = 0.
Proof.
  intros Hne P Hj. assert (Z : closest_sq dd ids j = 0).
  { pose proof (closest_nonneg dd ids j Hne) as Q. unfold potential in P.
    replace (seq 0 n) with (seq 0 j ++ j :: seq (S j) (n - S j)) in P.
    - rewrite map_app, rsum_app in P. cbn [map] in P. change (rsum (closest_sq dd ids j :: ?l)) with (closest_sq dd ids j + rsum l) in P.
      assert (forall l, 0 <= rsum (map (closest_sq dd ids) l)) as G by (intros l; apply rsum_nonneg; intros x I; apply in_map_iff in I; destruct I as (k & <- & _); apply closest_nonneg; auto).
      pose proof (G (seq 0 j)). pose proof (G (seq (S j) (n - S j))). lra.
    - replace n with (j + S (n - S j))%nat at 2 by lia. rewrite seq_app. reflexivity. }
  unfold closest_sq in Z. assert (I : In 0 (map (fun i => dd i j * dd i j) ids)) by (rewrite <- Z; apply rmin_in; destruct ids; [congruence|discriminate]).
  apply in_map_iff in I. destruct I as (i & E & I). exists i. split; auto. apply Rsqr_0_uniq. exact E.
Qed.
Lemma closest_pos dd ids i j : 0 < closest_sq dd ids j -> In i ids -> dd i j <> 0.
Proof.
  intros H I E. assert (closest_sq dd ids j <= dd i j * dd i j) by (apply rmin_le; apply (in_map (fun i => dd i j * dd i j)); auto). rewrite E in *. lra.
Qed.
Lemma seeding_apart dd n trials u first ids c : (forall c t, 0 < u c t < 1) -> seeding dd n trials u first ids -> (0 < c < length ids)%nat ->
  (forall c', (c' < c)%nat -> dd (nth c' ids 0%nat) (nth c ids 0%nat) <> 0) \/
  (forall j, (j < n)%nat -> exists c', (c' < c)%nat /\ dd (nth c' ids 0%nat) j = 0).
Proof.
  intros Hu (_ & _ & H) Hc. destruct (H c Hc) as [(t & Ht & S) _].
  assert (Hne : firstn c ids <> []) by (destruct ids; [simpl in Hc; lia|destruct c; [lia|discriminate]]).
  assert (NF : forall k, (k < c)%nat -> nth k (firstn c ids) 0%nat = nth k ids 0%nat).
  { intros k Hk. rewrite <- (firstn_skipn c ids) at 2. rewrite app_nth1; auto. rewrite firstn_length. lia. }
  destruct (selects_positive dd n _ (u c t) _ Hne (proj1 (Hu c t)) S) as [P|P].
  - left. intros c' Hc'. apply (closest_pos dd (firstn c ids)); auto. rewrite <- NF by auto. apply nth_In. rewrite firstn_length. lia.
  - right. intros j Hj. destruct (potential_zero dd n _ j Hne P Hj) as (i & I & E). apply (In_nth _ _ 0%nat) in I. destruct I as (k & Hk & <-).
    rewrite firstn_length in Hk. exists k. split; [lia|]. rewrite NF in E by lia. auto.
Qed.
(** DTW, positive draws: each centre is a series different from and at a positive distance of
    the earlier ones, unless every series is at distance zero of an earlier centre *)
Theorem C149_distinct d L xs gc r s u K first : (forall x, In x xs -> real_series d x) ->
  (forall n m, exists A, constraint n m (name_or_none gc) r s A) -> not_itakura (name_or_none gc) s -> positive_slope s ->
  (forall c t, 0 < u c t < 1) -> (0 < K)%nat -> (first < length xs)%nat ->
  exists ids, kpp_dtw gc r s (map (pad_to d L) xs) u K first = Ok (map (fun i => pad_to d L (nth i xs [])) ids) /\
    length ids = K /\ (forall i, In i ids -> (i < length xs)%nat) /\
    forall c, (0 < c < K)%nat ->
    (forall c', (c' < c)%nat -> nth c' ids 0%nat <> nth c ids 0%nat /\ exists v, 0 < v /\
       dtw (N:=Xnum) (Raw2 (lift (nth (nth c' ids 0%nat) xs []))) (Raw2 (lift (nth (nth c ids 0%nat) xs []))) (name_or_none gc) r s = Ok (XR v)) \/
    (forall x, In x xs -> exists c', (c' < c)%nat /\
       dtw (N:=Xnum) (Raw2 (lift (nth (nth c' ids 0%nat) xs []))) (Raw2 (lift x)) (name_or_none gc) r s = Ok (XR 0)).
Proof.
  intros Hx HA Hni Hp Hu HK Hf.
  set (D := fun i j => match dtw (N:=Xnum) (Raw2 (lift (nth i xs []))) (Raw2 (lift (nth j xs []))) (name_or_none gc) r s with Ok (XR v) => v | _ => 0 end).
  assert (HD : forall i j, (i < length xs)%nat -> (j < length xs)%nat ->
     dtw (N:=Xnum) (Raw2 (lift (nth i xs []))) (Raw2 (lift (nth j xs []))) (name_or_none gc) r s = Ok (XR (D i j))).
  { intros i j Hi Hj. destruct (HA (length (nth i xs [])) (length (nth j xs []))) as (A & CA).
    destruct (C28_gamma_zero BNumpy d _ _ _ r s A (Hx _ (nth_In _ [] Hi)) (Hx _ (nth_In _ [] Hj)) Hp CA) as (v & E & _).
    unfold D. rewrite E. reflexivity. }
  assert (HS : forall i, (i < length xs)%nat -> D i i = 0).
  { intros i Hi. destruct (HA (length (nth i xs [])) (length (nth i xs []))) as (A & CA).
    pose proof (C03_dtw_self_zero Xnum xnn xfin Xlaws d (lift (nth i xs [])) (name_or_none gc) r s A (lift_finite d _ (Hx _ (nth_In _ [] Hi))) Hni) as Z.
    rewrite lift_length in Z. specialize (Z CA). specialize (HD i i Hi Hi). rewrite Z in HD. injection HD as <-. reflexivity. }
  assert (HP : forall i j, (i < length xs)%nat -> (j < length xs)%nat -> 0 <= D i j).
  { intros i j Hi Hj. destruct (HA (length (nth i xs [])) (length (nth j xs []))) as (A & CA).
    pose proof (C03_dtw_nonnegative Xnum xnn xfin Xlaws d (lift (nth i xs [])) (lift (nth j xs [])) (name_or_none gc) r s A (XR (D i j)) (lift_finite d _ (Hx _ (nth_In _ [] Hi))) (lift_finite d _ (Hx _ (nth_In _ [] Hj)))) as Z.
    rewrite !lift_length in Z. specialize (Z CA (HD i j Hi Hj)). apply Rleb_true in Z. exact Z. }
  destruct (C148_dtw d L xs gc r s u K first D Hx HD ltac:(intros c t; specialize (Hu c t); lra) HK Hf) as (ids & E & LI & S).
  exists ids. split; auto. split; auto. split; [apply S|]. intros c Hc. 
  assert (IN : forall k, (k < K)%nat -> (nth k ids 0 < length xs)%nat) by (intros k Hk; apply S; apply nth_In; lia).
  destruct (seeding_apart D (length xs) _ u first ids c Hu S ltac:(lia)) as [H|H].
  - left. intros c' Hc'. specialize (H c' Hc'). pose proof (IN c ltac:(lia)) as I1. pose proof (IN c' ltac:(lia)) as I2. split.
    + intros Q. rewrite Q in H. rewrite HS in H by auto. congruence.
    + exists (D (nth c' ids 0%nat) (nth c ids 0%nat)). split; [|apply HD; auto]. specialize (HP _ _ I2 I1). lra.
  - right. intros x Ix. apply (In_nth _ _ []) in Ix. destruct Ix as (j & Hj & <-). destruct (H j Hj) as (c' & Hc' & Z). exists c'. split; auto.
    rewrite HD by (auto; apply IN; lia). rewrite Z. reflexivity.
Qed.
Print Assumptions C149_distinct.

(** ** C150: not so for soft-DTW, whose value between a series and itself is not zero *)
Definition rest : rser := [[0]; [0]].
Definition step : rser := [[0]; [1]].
Theorem C150_repeats_refuted : exists u, real_series 1 rest /\ real_series 1 step /\ rest <> step /\ (forall c t, 0 < u c t < 1) /\
  kpp_softdtw 1 None None None [lift rest; lift step] u 2 0 = Ok [lift rest; lift rest].
Proof.
  assert (R1 : real_series 1 rest) by (split; [lia|split; [discriminate|intros x [<-|[<-|[]]]; reflexivity]]).
  assert (R2 : real_series 1 step) by (split; [lia|split; [discriminate|intros x [<-|[<-|[]]]; reflexivity]]).
  assert (HX : forall x, In x [rest; step] -> real_series 1 x) by (intros x [<-|[<-|[]]]; auto).
  set (D := fun i j => match soft_dtw BNumpy (Raw2 (lift (nth i [rest; step] []))) (Raw2 (lift (nth j [rest; step] []))) 1 GcNone None None with Ok (XR v) => v | _ => 0 end).
  assert (HD : forall i j, (i < 2)%nat -> (j < 2)%nat ->
     soft_dtw BNumpy (Raw2 (lift (nth i [rest; step] []))) (Raw2 (lift (nth j [rest; step] []))) 1 GcNone None None = Ok (XR (D i j))).
  { intros i j Hi Hj. unfold D. rewrite (soft_public BNumpy 1 (nth i [rest; step] []) (nth j [rest; step] []) 1 GcNone None None everywhere);
      [reflexivity|lra|apply HX, nth_In; auto|apply HX, nth_In; auto|exact I|reflexivity]. }
  assert (D00 : D 0%nat 0%nat <> 0).
  { unfold D. cbn [nth]. rewrite (soft_public BNumpy 1 rest rest 1 GcNone None None everywhere); [|lra|auto|auto|exact I|reflexivity].
    rewrite total_psum by lra. cbn [length rest Nat.sub].
    assert (E : psum everywhere (fun i j => exp (- (costs rest rest i j / 1))) 1 1 = 3).
    { assert (C0 : forall i j, (i < 2)%nat -> (j < 2)%nat -> exp (- (costs rest rest i j / 1)) = 1).
      { intros i j Hi Hj. replace (- (costs rest rest i j / 1)) with 0; [apply exp_0|].
        destruct i as [|[|]]; try lia; destruct j as [|[|]]; try lia; unfold costs, sqd, rest; simpl; lra. }
      unfold everywhere. repeat (rewrite psum_rec; unfold bsum; cbv iota beta). rewrite !C0 by lia. lra. }
    rewrite E. intros Z. assert (ln 1 < ln 3) by (apply ln_increasing; lra). rewrite ln_1 in *. lra. }
  set (w := D 0%nat 0%nat * D 0%nat 0%nat). set (P := potential D 2 [0%nat]).
  assert (Hw : 0 < w) by (apply Rsqr_pos_lt in D00; exact D00).
  assert (EP : P = w + D 0%nat 1%nat * D 0%nat 1%nat) by (unfold P, potential, closest_sq, w; simpl; lra).
  assert (HP : w <= P) by (rewrite EP; pose proof (Rle_0_sqr (D 0%nat 1%nat)) as Q; unfold Rsqr in Q; lra).
  set (v := w / (2 * P)).
  assert (Hv : 0 < v < 1).
  { unfold v. split; [apply Rdiv_lt_0_compat; lra|]. apply (Rmult_lt_reg_r (2 * P)); [lra|]. unfold Rdiv. rewrite Rmult_assoc, Rinv_l by lra. lra. }
  exists (fun _ _ => v). repeat (split; [auto; try (unfold rest, step; intros Q; injection Q; lra)|]).
  destruct (C148_softdtw 1 2 [rest; step] 1 None None None (fun _ _ => v) 2 0 D ltac:(lra) HX HD ltac:(intros; lra) ltac:(lia) ltac:(simpl; lia)) as (ids & E & LI & F & B & S).
  change (map (pad_to 1 2) [rest; step]) with [lift rest; lift step] in E. rewrite E. destruct ids as [|a [|b [|]]]; try discriminate. injection F as ->.
  destruct (S 1%nat ltac:(simpl; lia)) as [(t & _ & Sl) _]. cbn [firstn nth] in Sl. destruct Sl as (L1 & _ & L3). change (length [rest; step]) with 2%nat in L3. fold P in L3.
  destruct b as [|b]; [reflexivity|]. exfalso. specialize (L3 0%nat ltac:(lia)). 
  assert (EV : v * P = w / 2) by (unfold v; field; lra). rewrite EV in L3. unfold closest_sq in L3. simpl in L3. fold w in L3. lra.
Qed.
Print Assumptions C150_repeats_refuted.

(** ** the hypotheses are met *)
Example C148_instance : (forall x, In x [rest; step] -> real_series 1 x) /\ (forall n m, exists A, constraint n m (name_or_none None) None None A) /\
  not_itakura (name_or_none None) None /\ positive_slope None /\ (forall c t : nat, 0 < (fun _ _ : nat => 1 / 2) c t < 1).
Proof.
  split; [intros x [<-|[<-|[]]]; (split; [lia|split; [discriminate|intros y [<-|[<-|[]]]; reflexivity]])|].
  split; [intros; eexists; reflexivity|]. split; [split; [discriminate|right; reflexivity]|]. split; [exact I|]. intros. lra.
Qed.

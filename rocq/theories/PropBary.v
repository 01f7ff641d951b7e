(** C48-C52: DTW barycenter averaging.  Exact reals; series of unequal length;
    any global constraint; positive weights. *)
From Coq Require Import Bool List Arith Lia ZArith QArith Reals Lra.
From Verif Require Import Num NumLaws Py Series Masks DtwModel Spec SpecDtw DpProofs DtwProofs DtwThms
  LimitedThms MaskThms RList PathSum RealSeries PaaModel PaaThms CdistThms PropCtw PreModel PropScale PropResample
  GakModel SoftModel Dataset BaryModel BaryThms BaryReal.
Import ListNotations.
Local Open Scope R_scope.

(** ** Specification *)
(** cost [v] of a cheapest allowed alignment of [s1] with [s2] *)
Definition least_align (s1 s2 : list (list R)) (A : nat -> nat -> bool) (v : R) : Prop :=
  (exists p, warping_path (length s1) (length s2) A p /\ cost (costs s1 s2) p = v) /\
  forall p, warping_path (length s1) (length s2) A p -> v <= cost (costs s1 s2) p.
(** What DBA minimises: the weighted mean of the squared DTW distances between the
    barycenter and the series.  [A m] are the cells allowed for a series of length [m]. *)
Definition objective (A : nat -> nat -> nat -> bool) (xs : list (list (list R))) (w : list R) (b : list (list R)) (v : R) : Prop :=
  exists vs, Forall2 (fun x c => least_align b x (A (length x)) c) xs vs /\
    v = rsum (map (fun p => fst p * snd p) (combine vs w)) / rsum w.
(** a dataset of [d]-variate series with one positive weight each *)
Definition weighted_dataset (d : nat) (xs : list (list (list R))) (w : list R) : Prop :=
  xs <> [] /\ (forall x, In x xs -> real_series d x) /\ length w = length xs /\ (forall a, In a w -> 0 < a).
(** the dataset as an array padded to [M] time steps *)
Definition padded (d M : nat) (xs : list (list (list R))) : array3 := map (pad_to d M) xs.
Definition fits (M : nat) (xs : list (list (list R))) : Prop := forall x, In x xs -> (length x <= M)%nat.

(** ** lemmas *)
Lemma least_align_unique s1 s2 A v v' : least_align s1 s2 A v -> least_align s1 s2 A v' -> v = v'.
Proof. intros [(p & Hp & Ep) H] [(q & Hq & Eq) H']. pose proof (H q Hq). pose proof (H' p Hp). lra. Qed.
Lemma Forall2_unique {A B} (P : A -> B -> Prop) l l1 l2 : (forall a b b', P a b -> P a b' -> b = b') ->
  Forall2 P l l1 -> Forall2 P l l2 -> l1 = l2.
Proof. intros H F. revert l2. induction F; intros l2 F2; inversion F2; subst; auto. f_equal; eauto. Qed.
Lemma objective_unique A xs w b v v' : objective A xs w b v -> objective A xs w b v' -> v = v'.
Proof.
  intros (vs & F & ->) (vs' & F' & ->). assert (vs = vs') by (apply (Forall2_unique _ _ _ _ (fun x c c' => least_align_unique b x (A (length x)) c c') F F')). congruence.
Qed.
Lemma wcost_le vs vs' w : Forall2 Rle vs vs' -> (forall a, In a w -> 0 < a) -> wcost vs w <= wcost vs' w.
Proof.
  intros F. revert w. unfold wcost. induction F as [|v v' vs vs' H F IH]; intros [|a w] Hw; simpl; try lra.
  specialize (IH w ltac:(intros; apply Hw; simpl; auto)). pose proof (Hw a ltac:(simpl; auto)). nra.
Qed.
Lemma paths_of_best xs b A ps vs : length ps = length vs ->
  Forall2 (fun x pv => best_path b x (A (length x)) (fst pv) (snd pv)) xs (combine ps vs) ->
  Forall2 (fun p x => warping_path (length b) (length x) (A (length x)) p) ps xs.
Proof.
  intros L F. revert ps xs L F. induction vs as [|v vs IH]; intros [|p ps] xs L F; try discriminate; inversion F; subst; constructor.
  - match goal with H : best_path _ _ _ _ _ |- _ => apply H end.
  - apply IH; auto.
Qed.
(** [mean_bary] of the observations on cheapest paths is no worse *)
Lemma mean_improves d xs w b A ps vs : weighted_dataset d xs w -> real_series d b ->
  Forall2 (fun x pv => best_path b x (A (length x)) (fst pv) (snd pv)) xs (combine ps vs) -> length ps = length vs ->
  forall c', objective A xs w (mean_bary (length b) d (entries xs w ps)) c' -> c' <= wcost vs w / rsum w.
Proof.
  intros (Hne & Hx & Hlw & Hw) Hb F Hl c' (vs' & F' & ->). set (b' := mean_bary _ _ _) in *.
  pose proof (w_pos xs w Hne Hlw Hw) as HW. fold (wcost vs' w). apply Rmult_le_compat_r; [left; apply Rinv_0_lt_compat; auto|].
  assert (Lb : length b' = length b) by apply mean_bary_len.
  assert (Lp : length ps = length xs) by (apply Forall2_len in F; rewrite combine_length in F; lia).
  assert (FP : Forall2 (fun p x => warping_path (length b) (length x) (A (length x)) p) ps xs).
  { apply (paths_of_best xs b A ps vs); auto. }
  assert (T : total b' (entries xs w ps) <= total b (entries xs w ps)).
  { apply mean_bary_least.
    - intros t Ht. destruct Hb as (_ & _ & R). apply R. apply nth_In. auto.
    - intros e He. destruct (entries_ok d xs w Hx Hlw Hw (length b) A ps (real_len d b Hb) FP e He) as (A1 & A2 & _). auto.
    - intros t Ht. apply (entries_pos d xs w Hx Hne Hlw Hw (length b) A ps (real_len d b Hb) FP t Ht). }
  rewrite !total_entries in T by auto.
  assert (Ev : map (fun px => cost (costs b (snd px)) (fst px)) (combine ps xs) = vs).
  { clear -F Hl. revert ps xs Hl F. induction vs as [|v vs IH]; intros [|p ps] xs L F; try discriminate; auto.
    inversion F as [|x pv xs' pvs H1 H2]; subst. simpl. f_equal; [apply H1|]. apply IH; auto. }
  rewrite Ev in T. eapply Rle_trans; [|exact T]. apply wcost_le; auto.
  clear T Ev. clearbody b'. clear -F' FP Lb. revert ps FP. induction F' as [|x v xs vs H F IH]; intros ps FP; inversion FP; subst; constructor.
  - apply H. rewrite Lb. auto.
  - apply IH; auto.
Qed.

(** ** C48 *)
Lemma best_of_list d xs mp A b : (forall x, In x xs -> real_series d x) -> real_series d b ->
  (forall x, In x xs -> allows mp (length b) (length x) (A (length x))) ->
  exists ps vs, length ps = length vs /\
    mapM (fun x => njit_dtw_path mp (lift b) (lift x)) xs = Ok (map (fun pv => (fst pv, XR (sqrt (snd pv)))) (combine ps vs)) /\
    Forall2 (fun x pv => best_path b x (A (length x)) (fst pv) (snd pv)) xs (combine ps vs) /\ (forall v, In v vs -> 0 <= v).
Proof.
  intros Hx Hb HA.
  destruct (assign_list xs (fun x => njit_dtw_path mp (lift b) (lift x)) (fun x p v => best_path b x (A (length x)) p v)) as (pvs & E & F).
  { intros x Hi. destruct (njit_best mp d b x _ Hb (Hx x Hi) (HA x Hi)) as (p & v & E & B). exists p, v. split; auto. split; auto.
    destruct B as (_ & <- & _). apply cost_nonneg. intros; apply sqd_nonneg. }
  exists (map fst pvs), (map snd pvs). rewrite !map_length. split; auto.
  assert (C : combine (map fst pvs) (map snd pvs) = pvs) by (clear; induction pvs as [|[] l IH]; simpl; congruence).
  unfold cell in *. rewrite C. split; auto. split.
  - clear -F. induction F as [|x pv xs pvs H F IH]; constructor; auto. apply H.
  - intros v Hv. apply in_map_iff in Hv. destruct Hv as (pv & <- & Hi). clear -F Hi. induction F as [|x q xs pvs H F IH]; [contradiction|].
    destruct Hi as [<-|Hi]; auto. apply H.
Qed.
Lemma map_fst_combine {A B} (l : list A) (l' : list B) : length l = length l' -> map fst (combine l l') = l.
Proof. revert l'. induction l as [|a l IH]; intros [|b l'] H; simpl in *; try discriminate; auto. f_equal. apply IH. lia. Qed.
Lemma map_snd_combine {A B} (l : list A) (l' : list B) : length l = length l' -> map snd (combine l l') = l'.
Proof. revert l'. induction l as [|a l IH]; intros [|b l'] H; simpl in *; try discriminate; auto. f_equal. apply IH. lia. Qed.
Lemma mean_bary_real d n E : (0 < d)%nat -> (0 < n)%nat -> real_series d (mean_bary n d E).
Proof.
  intros Hd Hn. split; auto. split.
  - intros K. apply (f_equal (@length _)) in K. rewrite mean_bary_len in K. simpl in K. lia.
  - intros r Hr. apply in_map_iff in Hr. destruct Hr as (t & <- & _). rewrite map_length, seq_length. reflexivity.
Qed.
Lemma objective_of_best xs w b A ps vs : length ps = length vs ->
  Forall2 (fun x pv => best_path b x (A (length x)) (fst pv) (snd pv)) xs (combine ps vs) -> objective A xs w b (wcost vs w / rsum w).
Proof.
  intros Hl F. exists vs. split; auto. revert ps xs Hl F. induction vs as [|v vs IH]; intros [|p ps] xs L F; try discriminate; inversion F; subst; constructor.
  - match goal with H : best_path _ _ _ _ _ |- _ => destruct H as (B1 & B2 & B3) end. split; eauto.
  - eapply IH; [|eassumption]. simpl in L. lia.
Qed.


Lemma mapM_strip {B} d M (f : series Xnum -> res B) xs : (forall x, In x xs -> real_series d x) ->
  mapM (fun x => f (strip x)) (padded d M xs) = mapM (fun x => f (lift x)) xs.
Proof.
  intros Hx. unfold padded. rewrite mapM_map'. induction xs as [|x l IH]; auto. cbn [mapM].
  rewrite (strip_pad_to d) by (apply Hx; simpl; auto). rewrite IH; auto. intros; apply Hx; simpl; auto.
Qed.
Lemma computed_of_list (f : list (list R) -> res (list cell * xr)) xs (l : list (list cell * R)) :
  mapM f xs = Ok (map (fun pv => (fst pv, XR (sqrt (snd pv)))) l) -> (forall pv, In pv l -> 0 <= snd pv) ->
  Forall2 (fun x pv => f x = Ok (fst pv, XR (sqrt (snd pv))) /\ 0 <= snd pv) xs l.
Proof.
  intros E K. apply mapM_spec in E. remember (map _ l) as l' eqn:El. revert l El K.
  induction E as [|x y xs ys H E IH]; intros [|pv l] El K; try discriminate; constructor.
  - injection El as -> ->. split; auto. apply K. left. auto.
  - injection El as -> ->. apply IH; auto. intros; apply K; right; auto.
Qed.
Lemma mm_run d M xs w mp A b : weighted_dataset d xs w -> real_series d b ->
  (forall x, In x xs -> allows mp (length b) (length x) (A (length x))) ->
  exists ps vs, length ps = length vs /\
    mm_step (padded d M xs) (lift b) (length b) (map XR w) mp =
      Ok (lift (mean_bary (length b) d (entries xs w ps)), XR (wcost vs w / rsum w)) /\
    Forall2 (fun x pv => best_path b x (A (length x)) (fst pv) (snd pv)) xs (combine ps vs) /\
    Forall2 (fun x pv => njit_dtw_path mp (lift b) (lift x) = Ok (fst pv, XR (sqrt (snd pv))) /\ 0 <= snd pv) xs (combine ps vs).
Proof.
  intros HD Hb HA. pose proof HD as (Hne & Hx & Hlw & Hw).
  destruct (best_of_list d xs mp A b Hx Hb HA) as (ps & vs & Hl & E & F & Hv).
  assert (Lp : length ps = length xs) by (apply Forall2_len in F; rewrite combine_length in F; lia).
  exists ps, vs. split; auto. split; [|split; auto].
  2:{ apply (computed_of_list _ _ _ E). intros [p v] Hi. apply in_combine_r in Hi. apply Hv. exact Hi. }
  assert (FP : Forall2 (fun p x => warping_path (length b) (length x) (A (length x)) p) ps xs).
  { apply (paths_of_best xs b A ps vs); auto. }
  unfold mm_step, mm_assignment. rewrite (mapM_strip d M (fun x => njit_dtw_path mp (lift b) x)) by auto. rewrite E. cbn [bind fst snd].
  assert (E2 : map fst (map (fun pv : list (nat * nat) * R => (fst pv, XR (sqrt (snd pv)))) (combine ps vs)) = ps).
  { rewrite map_map. apply map_fst_combine. auto. }
  norm. rewrite E2.
  pose proof (mm_update_real d M xs w Hx Hne Hlw Hw (length b) A ps (real_len d b Hb) FP) as EU. refine (eq_trans (f_equal (fun r => bind r _) EU) _).
  cbn [bind]. f_equal. f_equal. rewrite (weighted_cost_real xs w Hne Hlw Hw); auto.
  - rewrite map_snd_combine by auto. reflexivity.
  - intros pv Hpv. apply Hv. destruct pv. eapply in_combine_r; eauto.
  - rewrite combine_length. lia.
Qed.
Lemma swap_swap p : map swap (map swap p) = p.
Proof. rewrite map_map. rewrite <- (map_id p) at 2. apply map_ext. intros []; reflexivity. Qed.
Lemma cost_swap s1 s2 p : cost (costs s1 s2) (map swap p) = cost (costs s2 s1) p.
Proof. unfold cost. rewrite map_map. f_equal. apply map_ext. intros []. simpl. apply costs_sym. Qed.
Lemma best_swap s1 s2 A p v : best_path s1 s2 A p v -> best_path s2 s1 (fun i j => A j i) (map swap p) v.
Proof.
  intros (H1 & H2 & H3). split; [apply wpath_swap; auto|]. split; [rewrite cost_swap; auto|].
  intros q Hq. rewrite <- (swap_swap q), cost_swap. apply H3. apply wpath_swap in Hq. exact Hq.
Qed.
Lemma pj_run_paths d M xs w mp A b : weighted_dataset d xs w -> real_series d b ->
  (forall x, In x xs -> allows mp (length x) (length b) (fun i j => A (length x) j i)) ->
  exists ps vs, length ps = length vs /\
    petitjean_step (padded d M xs) (lift b) (length b) (map XR w) mp =
      Ok (lift (mean_bary (length b) d (entries xs w ps)), XR (wcost vs w / rsum w)) /\
    Forall2 (fun x pv => best_path b x (A (length x)) (fst pv) (snd pv)) xs (combine ps vs) /\
    Forall2 (fun x pv => njit_dtw_path mp (lift x) (lift b) = Ok (map swap (fst pv), XR (sqrt (snd pv)))) xs (combine ps vs).
Proof.
  intros HD Hb HA. pose proof HD as (Hne & Hx & Hlw & Hw).
  destruct (assign_list xs (fun x => njit_dtw_path mp (lift x) (lift b)) (fun x p v => best_path b x (A (length x)) (map swap p) v /\ njit_dtw_path mp (lift x) (lift b) = Ok (p, XR (sqrt v)))) as (pvs & E & F).
  { intros x Hi. destruct (njit_best mp d x b _ (Hx x Hi) Hb (HA x Hi)) as (p & v & E & B). exists p, v. split; auto. split; auto.
    - destruct B as (_ & <- & _). apply cost_nonneg. intros; apply sqd_nonneg.
    - split; auto. apply best_swap in B. exact B. }
  assert (Lp : length pvs = length xs) by (apply Forall2_len in F; lia).
  exists (map (map swap) (map fst pvs)), (map snd pvs). rewrite !map_length. split; auto.
  assert (FB : Forall2 (fun x pv => best_path b x (A (length x)) (fst pv) (snd pv)) xs (combine (map (map swap) (map fst pvs)) (map snd pvs))).
  { clear -F. induction F as [|x pv xs pvs H F IH]; simpl; constructor; auto. apply H. }
  assert (FP : Forall2 (fun p x => warping_path (length b) (length x) (A (length x)) p) (map (map swap) (map fst pvs)) xs).
  { apply (paths_of_best xs b A _ (map snd pvs)); auto. rewrite !map_length. reflexivity. }
  assert (FN : Forall2 (fun x pv => njit_dtw_path mp (lift x) (lift b) = Ok (map swap (fst pv), XR (sqrt (snd pv)))) xs (combine (map (map swap) (map fst pvs)) (map snd pvs))).
  { clear -F. induction F as [|x pv xs pvs H F IH]; simpl; constructor; auto. cbn [fst snd]. rewrite swap_swap. apply H. }
  split; auto. unfold petitjean_step, petitjean_assignment.
  rewrite (mapM_strip d M (fun x => njit_dtw_path mp x (lift b))) by auto.
  refine (eq_trans (f_equal (fun r => bind (bind r _) _) E) _). cbn [bind fst snd].
  pose proof (pj_update_real d M xs w Hx Hne Hlw Hw (length b) A _ (real_len d b Hb) FP (map fst pvs) eq_refl) as EU.
  match goal with |- bind (petitjean_update _ ?f _ _) _ = _ => assert (EA : f = assigned (map fst pvs)) end.
  { apply FunctionalExtensionality.functional_extensionality. intros t. unfold assigned. rewrite !map_length. f_equal.
    apply nth_ext with (d := []) (d' := []); rewrite mapi_len; rewrite ?map_length, ?seq_length; auto.
    intros i Hi. rewrite (mapi_nth _ _ i ([], XR 0) []) by (rewrite map_length; auto).
    rewrite (map_seq_nth (fun i => map (fun c => (i, fst c)) (filter (fun c : cell => (snd c =? t)%nat) (nth i (map fst pvs) [])))) by lia.
    rewrite (nth_indep _ _ ((fun pv : list cell * R => (fst pv, XR (sqrt (snd pv)))) ([], 0))) by (rewrite map_length; lia).
    rewrite (map_nth (fun pv : list cell * R => (fst pv, XR (sqrt (snd pv))))). cbn [fst snd].
    change (@nil cell) with (fst (@nil cell, 0)) at 2. rewrite (map_nth fst). reflexivity. }
  rewrite EA. refine (eq_trans (f_equal (fun r => bind r _) EU) _).
  cbn [bind]. f_equal. f_equal. rewrite (weighted_cost_real xs w Hne Hlw Hw); auto.
  - intros pv Hpv. clear -F Hpv. induction F as [|x q xs pvs H F IH]; [contradiction|]. destruct Hpv as [<-|Hi]; auto. apply H.
  - lia.
Qed.

Lemma pj_run d M xs w mp A b : weighted_dataset d xs w -> real_series d b ->
  (forall x, In x xs -> allows mp (length x) (length b) (fun i j => A (length x) j i)) ->
  exists ps vs, length ps = length vs /\
    petitjean_step (padded d M xs) (lift b) (length b) (map XR w) mp =
      Ok (lift (mean_bary (length b) d (entries xs w ps)), XR (wcost vs w / rsum w)) /\
    Forall2 (fun x pv => best_path b x (A (length x)) (fst pv) (snd pv)) xs (combine ps vs).
Proof. intros HD Hb HA. destruct (pj_run_paths d M xs w mp A b HD Hb HA) as (ps & vs & H1 & H2 & H3 & _). eauto 6. Qed.

Lemma run_descends d xs w A b ps vs : weighted_dataset d xs w -> real_series d b -> length ps = length vs ->
  Forall2 (fun x pv => best_path b x (A (length x)) (fst pv) (snd pv)) xs (combine ps vs) ->
  let b' := mean_bary (length b) d (entries xs w ps) in
  real_series d b' /\ length b' = length b /\ objective A xs w b (wcost vs w / rsum w) /\
  forall c', objective A xs w b' c' -> c' <= wcost vs w / rsum w.
Proof.
  intros HD Hb Hl F b'. split; [|split; [|split]].
  - apply mean_bary_real; [apply Hb|apply (real_len d b Hb)].
  - apply mean_bary_len.
  - apply (objective_of_best xs w b A ps vs Hl F).
  - apply (mean_improves d); auto.
Qed.

(** One iteration returns the objective of the barycenter it was given and a
    barycenter whose objective is not larger. *)
Theorem C48_mm_step : forall d M xs w mp A b, weighted_dataset d xs w -> fits M xs -> real_series d b ->
  (forall x, In x xs -> allows mp (length b) (length x) (A (length x))) ->
  exists b' c, mm_step (padded d M xs) (lift b) (length b) (map XR w) mp = Ok (lift b', XR c) /\
    real_series d b' /\ length b' = length b /\
    objective A xs w b c /\ forall c', objective A xs w b' c' -> c' <= c.
Proof.
  intros d M xs w mp A b HD HM Hb HA. destruct (mm_run d M xs w mp A b HD Hb HA) as (ps & vs & Hl & E & F & _).
  eexists _, _. split; [exact E|]. apply run_descends; auto.
Qed.
Print Assumptions C48_mm_step.
Theorem C48_petitjean_step : forall d M xs w mp A b, weighted_dataset d xs w -> fits M xs -> real_series d b ->
  (forall x, In x xs -> allows mp (length x) (length b) (fun i j => A (length x) j i)) ->
  exists b' c, petitjean_step (padded d M xs) (lift b) (length b) (map XR w) mp = Ok (lift b', XR c) /\
    real_series d b' /\ length b' = length b /\
    objective A xs w b c /\ forall c', objective A xs w b' c' -> c' <= c.
Proof.
  intros d M xs w mp A b HD HM Hb HA. destruct (pj_run d M xs w mp A b HD Hb HA) as (ps & vs & Hl & E & F).
  eexists _, _. split; [exact E|]. apply run_descends; auto.
Qed.
Print Assumptions C48_petitjean_step.

(** ** The loop *)
Definition descends (d n : nat) (obj : list (list R) -> R -> Prop) (step : series Xnum -> res (series Xnum * xr)) : Prop :=
  forall b, real_series d b -> length b = n ->
  exists b' c, step (lift b) = Ok (lift b', XR c) /\ real_series d b' /\ length b' = n /\
    obj b c /\ forall c', obj b' c' -> c' <= c.
Lemma loop_descends d n (obj : list (list R) -> R -> Prop) step tol : (forall b c c', obj b c -> obj b c' -> c = c') ->
  descends d n obj step -> forall it b cp cost, real_series d b -> length b = n ->
  exists b' c', dba_loop step tol (S it) (lift b) cp cost = Ok (lift b', XR c') /\ real_series d b' /\ length b' = n /\
    (forall c, obj b c -> c' <= c) /\ forall c, obj b' c -> c <= c'.
Proof.
  intros HU HS. induction it as [|it IH]; intros b cp cost Hb Hn; destruct (HS b Hb Hn) as (b1 & c1 & E1 & Hb1 & Hn1 & O1 & L1).
  - exists b1, c1. cbn [dba_loop]. rewrite E1. cbn [bind].
    split; [destruct (xltb _ tol); [reflexivity|]; destruct (xltb cp _); reflexivity|]. repeat split; auto; try apply Hb1.
    intros c Hc. rewrite (HU _ _ _ O1 Hc). lra.
  - change (dba_loop step tol (S (S it)) (lift b) cp cost) with
      (bind (step (lift b)) (fun bc => let (b, cost) := (bc : series Xnum * xr) in
        if xltb (xabs (xsub cp cost)) tol then Ok (b, cost) else if xltb cp cost then Ok (b, cost) else dba_loop step tol (S it) b cost cost)).
    rewrite E1. cbn [bind].
    assert (K : exists b' c', Ok (lift b1, XR c1) = Ok (lift b', XR c') /\ real_series d b' /\ length b' = n /\
       (forall c, obj b c -> c' <= c) /\ forall c, obj b' c -> c <= c').
    { exists b1, c1. repeat split; auto; try apply Hb1. intros c Hc. rewrite (HU _ _ _ O1 Hc). lra. }
    destruct (xltb _ tol); [exact K|]. destruct (xltb cp _); [exact K|].
    destruct (IH b1 (XR c1) (XR c1) Hb1 Hn1) as (b2 & c2 & E2 & Hb2 & Hn2 & O2 & L2).
    exists b2, c2. repeat split; auto; try apply Hb2. intros c Hc. rewrite (HU _ _ _ Hc O1) in *.
    destruct (HS b1 Hb1 Hn1) as (_ & c3 & _ & _ & _ & O3 & _). pose proof (L1 c3 O3). pose proof (O2 c3 O3). lra.
Qed.
Lemma attempts_same one n b c : one = Ok (b, XR c) -> dba_attempts one (S n) XInf None = Ok (Some b).
Proof.
  intros ->. 
  assert (G : forall n, dba_attempts (Ok (b, XR c)) n (XR c) (Some b) = Ok (Some b)).
  { induction n0 as [|m IH]; auto. simpl. destruct (Rltb c c); exact IH. }
  simpl. apply G.
Qed.

(** *** the initial average *)
Lemma padded_shape d M xs : (forall x, In x xs -> real_series d x) -> fits M xs -> shape3 (length xs) M d (padded d M xs).
Proof. intros. apply pad_to_shape; auto. Qed.
Lemma pad_to_nth d M x t k : real_series d x -> (length x <= M)%nat -> (t < M)%nat -> (k < d)%nat ->
  nth k (nth t (pad_to d M x) []) XNaN = if (t <? length x)%nat then XR (nth k (nth t x []) 0) else XNaN.
Proof.
  intros HX HL Ht Hk. unfold pad_to. destruct (Nat.ltb_spec t (length x)).
  - rewrite app_nth1 by (rewrite lift_length; auto). norm. refine (eq_trans (f_equal (fun l => nth k l XNaN) (lift_nth x t)) _).
    destruct HX as (_ & _ & RR). apply nth_XR. rewrite RR; auto. apply nth_In. auto.
  - rewrite app_nth2 by (rewrite lift_length; auto). rewrite lift_length.
    assert (E : nth (t - length x) (repeat (repeat XNaN d) (M - length x)) [] = repeat XNaN d).
    { apply (repeat_spec (M - length x)). apply nth_In. rewrite repeat_length. lia. }
    norm. rewrite E. apply (repeat_spec d). apply nth_In. rewrite repeat_length. auto.
Qed.
Lemma array_nanmean_real d xs : xs <> [] -> (forall x, In x xs -> real_series d x) ->
  let M := list_max (map (@length _) xs) in
  exists av, array_nanmean (padded d M xs) = lift av /\ real_series d av /\ length av = M.
Proof.
  intros Hne Hx M.
  assert (HM : fits M xs) by (intros x Hi; apply list_max_ge; apply in_map; auto).
  assert (H0 : (0 < length xs)%nat) by (destruct xs; [congruence|simpl; lia]).
  assert (Hin : In M (map (@length _) xs)) by (apply list_max_in; intros E; apply map_eq_nil in E; auto).
  apply in_map_iff in Hin. destruct Hin as (xm & Em & Hm).
  assert (HM0 : (0 < M)%nat) by (rewrite <- Em; apply (real_len d); auto).
  pose proof (padded_shape d M xs Hx HM) as HS.
  set (val := fun t k => nanmean (map (fun s => nth k (nth t s []) XNaN) (padded d M xs))).
  assert (HV : forall t k, (t < M)%nat -> (k < d)%nat -> exists v, val t k = XR v).
  { intros t k Ht Hk. unfold val, padded. norm. rewrite map_map. rewrite nanmean_numbers.
    - destruct (numbers _) eqn:EN; [exfalso|eauto].
      pose (v := nth k (nth t xm []) 0). assert (K : In v []); [|contradiction]. rewrite <- EN. apply in_numbers. apply in_map_iff. exists xm. split; auto.
      refine (eq_trans (pad_to_nth d M xm t k (Hx _ Hm) (HM _ Hm) Ht Hk) _). rewrite Em. destruct (Nat.ltb_spec t M); [reflexivity|lia].
    - intros v Hv. apply in_map_iff in Hv. destruct Hv as (x & <- & Hi).
      pose proof (pad_to_nth d M x t k (Hx _ Hi) (HM _ Hi) Ht Hk) as E. norm. rewrite E. destruct (t <? length x)%nat; eauto. }
  exists (map (fun t => map (fun k => match val t k with XR v => v | _ => 0 end) (seq 0 d)) (seq 0 M)).
  assert (Hd : (0 < d)%nat) by (apply (Hx _ Hm)).
  split; [|split].
  - unfold array_nanmean, lift. rewrite (arr_d_shape _ _ _ _ HS H0 HM0), (arr_sz_shape _ _ _ _ HS H0). rewrite map_map.
    apply map_ext_in. intros t Ht. apply in_seq in Ht. rewrite map_map. apply map_ext_in. intros k Hk. apply in_seq in Hk.
    fold (val t k). destruct (HV t k) as (v & E); [lia|lia|]. rewrite E. reflexivity.
  - split; auto. split; [destruct M; [lia|discriminate]|]. intros r Hr. apply in_map_iff in Hr. destruct Hr as (t & <- & _).
    rewrite map_length, seq_length. reflexivity.
  - rewrite map_length, seq_length. reflexivity.
Qed.
Lemma interp1_zero n f : (2 <= n)%nat -> length f = n -> interp1 (linspace01 n) (map XR f) 0 = XR (nth 0 f 0).
Proof.
  intros Hn Hl. pose proof (interp1_linear 2 0 f ltac:(lia) ltac:(lia)) as K. cbv zeta in K.
  replace (INR 0 / INR (2 - 1)) with 0 in K by (simpl; field). rewrite Hl in K. rewrite K by (destruct f; simpl in *; [lia|discriminate]).
  change (0 * (n - 1))%nat with 0%nat. cbn. f_equal. field.
Qed.
Lemma init_avg_real d xs bs : xs <> [] -> (forall x, In x xs -> real_series d x) -> (0 < bs)%nat ->
  let M := list_max (map (@length _) xs) in (2 <= M)%nat \/ bs = 1%nat ->
  exists b, init_avg (padded d M xs) bs = Ok (lift b) /\ real_series d b /\ length b = bs.
Proof.
  intros Hne Hx Hbs M HM2. destruct (array_nanmean_real d xs Hne Hx) as (av & Ea & Hav & La). fold M in Ea, La.
  assert (HM : fits M xs) by (intros x Hi; apply list_max_ge; apply in_map; auto).
  assert (H0 : (0 < length xs)%nat) by (destruct xs; [congruence|simpl; lia]).
  assert (HM0 : (0 < M)%nat) by (rewrite <- La; apply (real_len d); auto).
  pose proof (padded_shape d M xs Hx HM) as HS.
  unfold init_avg. rewrite (arr_sz_shape _ _ _ _ HS H0), (arr_d_shape _ _ _ _ HS H0 HM0), Ea.
  destruct (Nat.eqb_spec M bs) as [->|Hb]; [exists av; auto|].
  destruct (Nat.leb_spec M 1) as [H1|H1].
  { destruct HM2 as [K|K]; [lia|]. assert (M = bs) by lia. congruence. }
  cbn [andb]. destruct (Nat.eq_dec bs 1) as [->|Hb1].
  - exists [map (fun k => nth 0 (feature k av) 0) (seq 0 d)]. split; [|split; auto].
    + rewrite (mapM_ok _ (fun k => [XR (nth 0 (feature k av) 0)])).
      * cbn [bind]. f_equal. unfold of_columns, lift. cbn [seq map]. f_equal. rewrite !map_map. reflexivity.
      * intros k Hk. apply in_seq in Hk. rewrite (column_lift d) by (auto; lia). unfold interp.
        destruct (linspace01 M) as [|a l] eqn:El; [destruct M; [lia|discriminate]|]. rewrite <- El.
        cbn [linspace01 seq map]. f_equal. f_equal. replace (INR 0 / INR (1 - 1)) with 0 by (simpl; unfold Rdiv; ring).
        apply interp1_zero; auto. rewrite feature_len. auto.
    + destruct Hav as (Hd & _). split; auto. split; [discriminate|]. intros r [<-|[]]. rewrite map_length, seq_length. reflexivity.
  - exists (resampled_series bs d av). split; [|split].
    + pose proof (resample_series_ok bs d M av ltac:(lia) Hav) as K. unfold resample_series in K. rewrite firstn_pad_to, La in K. exact K.
    + destruct Hav as (Hd & _). split; auto. split.
      * intros K. apply (f_equal (@length _)) in K. unfold resampled_series in K. rewrite map_length, seq_length in K. simpl in K. lia.
      * intros r Hr. apply in_map_iff in Hr. destruct Hr as (t & <- & _). rewrite map_length, seq_length. reflexivity.
    + unfold resampled_series. rewrite map_length, seq_length. reflexivity.
Qed.

(** ** the public functions *)
Lemma variable_length_padded d M xs : (forall x, In x xs -> real_series d x) ->
  variable_length (padded d M xs) = Ok (padded d (list_max (map (@length _) xs)) xs).
Proof.
  intros H. unfold variable_length, padded. 
  assert (U : uniform (N:=Xnum) d (map Raw2 (map (pad_to d M) xs))).
  { intros x Hx. rewrite map_map in Hx. apply in_map_iff in Hx. destruct Hx as (s & <- & Hs). pose proof (H s Hs) as HS.
    assert (RR : forall r, In r (pad_to d M s) -> length r = d).
    { intros r Hr. unfold pad_to in Hr. apply in_app_iff in Hr. destruct Hr as [Hr|Hr].
      - destruct HS as (_ & _ & RR). apply in_map_iff in Hr. destruct Hr as (r0 & <- & Hr). etransitivity; [apply map_length|]. auto.
      - apply repeat_spec in Hr. subst r. apply repeat_length. }
    split; [|apply Forall_forall; exact RR]. simpl. unfold ncols. destruct (pad_to d M s) eqn:E; [|apply RR; left; auto].
    apply (f_equal (@length _)) in E. unfold pad_to in E. rewrite app_length, lift_length in E. pose proof (real_len d s HS). simpl in E. lia. }
  rewrite (to_dataset_ok Xnum d) by exact U. f_equal.
  assert (EM : max_size (map Raw2 (map (pad_to d M) xs)) = list_max (map (@length _) xs)).
  { unfold max_size. rewrite fold_max_list_max, Nat.max_0_l. f_equal. rewrite !map_map. apply map_ext_in. intros s Hs.
    apply (ts_size_pad_to d M s (H s Hs)). }
  rewrite EM. rewrite !map_map. apply map_ext_in. intros s Hs. pose proof (strip_pad_to d M s (H s Hs)) as E. unfold strip in E. norm. rewrite E.
  unfold pad_to. rewrite lift_length. reflexivity.
Qed.
(** the weights in force: ones when none are given *)
Definition weights_in_force (w : option (list R)) (n : nat) : list R := match w with Some w => w | None => repeat 1 n end.
Lemma set_weights_real w xs : length (weights_in_force w (length xs)) = length xs ->
  forall n, n = length xs -> set_weights (option_map (map XR) w) n = map XR (weights_in_force w (length (xs : list (list (list R))))).
Proof.
  intros H n ->. destruct w as [w|]; simpl in *.
  - rewrite map_length, H, Nat.eqb_refl. reflexivity.
  - clear H. induction (length xs); simpl; congruence.
Qed.
Lemma start_init d M xs w bs b0 : weighted_dataset d xs (weights_in_force w (length xs)) -> real_series d b0 ->
  dba_start (padded d M xs) bs (Some (lift b0)) (option_map (map XR) w) =
  Ok (padded d (list_max (map (@length _) xs)) xs, length b0, map XR (weights_in_force w (length xs)), lift b0).
Proof.
  intros (Hne & Hx & Hlw & Hw) Hb. unfold dba_start. rewrite (variable_length_padded d M xs Hx). cbn [bind].
  rewrite (set_weights_real w xs Hlw) by (unfold padded; apply map_length). rewrite lift_length.
  pose proof (strip_lift d b0 Hb) as E. unfold strip. norm. rewrite E. reflexivity.
Qed.
Lemma start_avg d M xs w bs : weighted_dataset d xs (weights_in_force w (length xs)) ->
  let m := list_max (map (@length _) xs) in let n := or_default bs m in (0 < n)%nat -> (2 <= m)%nat \/ n = 1%nat ->
  exists b0, real_series d b0 /\ length b0 = n /\ 
  dba_start (padded d M xs) bs None (option_map (map XR) w) = Ok (padded d m xs, n, map XR (weights_in_force w (length xs)), lift b0).
Proof.
  intros (Hne & Hx & Hlw & Hw) m n Hn Hm. destruct (init_avg_real d xs n Hne Hx Hn Hm) as (b & E & Hb & Lb). exists b. split; auto. split; auto.
  unfold dba_start. rewrite (variable_length_padded d M xs Hx). cbn [bind]. fold m.
  rewrite (set_weights_real w xs Hlw) by (unfold padded; apply map_length).
  assert (HM : fits m xs) by (intros x Hi; apply list_max_ge; apply in_map; auto).
  assert (H0 : (0 < length xs)%nat) by (destruct xs; [congruence|simpl; lia]).
  rewrite (arr_sz_shape _ _ _ _ (padded_shape d m xs Hx HM) H0). change (match bs with Some n => n | None => m end) with n.
  fold m in E. norm. rewrite E. reflexivity.
Qed.
Lemma mm_descends d M xs w mp A n : weighted_dataset d xs w -> fits M xs ->
  (forall x, In x xs -> allows mp n (length x) (A (length x))) ->
  descends d n (objective A xs w) (fun b => mm_step (padded d M xs) b n (map XR w) mp).
Proof. intros HD HM HA b Hb Lb. subst n. apply C48_mm_step; auto. Qed.
Lemma pj_descends d M xs w mp A n : weighted_dataset d xs w -> fits M xs ->
  (forall x, In x xs -> allows mp (length x) n (fun i j => A (length x) j i)) ->
  descends d n (objective A xs w) (fun b => petitjean_step (padded d M xs) b n (map XR w) mp).
Proof. intros HD HM HA b Hb Lb. subst n. apply C48_petitjean_step; auto. Qed.
Lemma fits_max xs : fits (list_max (map (@length _) xs)) xs.
Proof. intros x Hi. apply list_max_ge. apply in_map; auto. Qed.

(** A whole run from a given initial barycenter: the result has the same size and its
    objective is at most that of the initial barycenter. *)
Theorem C48_dba : forall d M xs w mp A bs b0 max_iter tol n_init,
  weighted_dataset d xs (weights_in_force w (length xs)) -> real_series d b0 ->
  (forall x, In x xs -> allows mp (length b0) (length x) (A (length x))) ->
  exists b, dba (padded d M xs) bs (Some (lift b0)) (S max_iter) tol (option_map (map XR) w) mp (S n_init) = Ok (Some (lift b)) /\
    real_series d b /\ length b = length b0 /\
    exists c c0, objective A xs (weights_in_force w (length xs)) b c /\ objective A xs (weights_in_force w (length xs)) b0 c0 /\ c <= c0.
Proof.
  intros d M xs w mp A bs b0 max_iter tol n_init HD Hb HA.
  pose proof (mm_descends d _ xs _ mp A (length b0) HD (fits_max xs) HA) as HS.
  destruct (loop_descends d (length b0) _ _ tol (fun b c c' => objective_unique A xs _ b c c') HS max_iter b0 XInf XInf Hb eq_refl)
    as (b & c & E & Hb' & Lb & L1 & L2).
  exists b. split; [|split; [|split]]; auto.
  - unfold dba. eapply attempts_same. unfold dba_one_init. rewrite (start_init d M xs w bs b0 HD Hb). cbn [bind]. exact E.
  - destruct (HS b Hb' Lb) as (_ & c1 & _ & _ & _ & O1 & _). destruct (HS b0 Hb eq_refl) as (_ & c0 & _ & _ & _ & O0 & _).
    exists c1, c0. split; auto. split; auto. pose proof (L1 c0 O0). pose proof (L2 c1 O1). lra.
Qed.
Print Assumptions C48_dba.
Theorem C48_petitjean : forall d M xs w mp A bs b0 max_iter tol,
  weighted_dataset d xs (weights_in_force w (length xs)) -> real_series d b0 ->
  (forall x, In x xs -> allows mp (length x) (length b0) (fun i j => A (length x) j i)) ->
  exists b, dba_petitjean (padded d M xs) bs (Some (lift b0)) (S max_iter) tol (option_map (map XR) w) mp = Ok (lift b) /\
    real_series d b /\ length b = length b0 /\
    exists c c0, objective A xs (weights_in_force w (length xs)) b c /\ objective A xs (weights_in_force w (length xs)) b0 c0 /\ c <= c0.
Proof.
  intros d M xs w mp A bs b0 max_iter tol HD Hb HA.
  pose proof (pj_descends d _ xs _ mp A (length b0) HD (fits_max xs) HA) as HS.
  destruct (loop_descends d (length b0) _ _ tol (fun b c c' => objective_unique A xs _ b c c') HS max_iter b0 XInf XInf Hb eq_refl)
    as (b & c & E & Hb' & Lb & L1 & L2).
  exists b. split; [|split; [|split]]; auto.
  - unfold dba_petitjean. rewrite (start_init d M xs w bs b0 HD Hb). cbn [bind].
    refine (eq_trans (f_equal (fun r => bind r _) E) _). reflexivity.
  - destruct (HS b Hb' Lb) as (_ & c1 & _ & _ & _ & O1 & _). destruct (HS b0 Hb eq_refl) as (_ & c0 & _ & _ & _ & O0 & _).
    exists c1, c0. split; auto. split; auto. pose proof (L1 c0 O0). pose proof (L2 c1 O1). lra.
Qed.
Print Assumptions C48_petitjean.

(** ** C51 *)
(** With at least one iteration and one attempt, the default initialisation gives a
    barycenter of real numbers of the requested size (default: the longest series). *)
Theorem C51_returns_size : forall d M xs w mp A bs max_iter tol n_init,
  weighted_dataset d xs (weights_in_force w (length xs)) ->
  let m := list_max (map (@length _) xs) in let n := or_default bs m in
  (0 < n)%nat -> (2 <= m)%nat \/ n = 1%nat ->
  (forall x, In x xs -> allows mp n (length x) (A (length x))) ->
  exists b, dba (padded d M xs) bs None (S max_iter) tol (option_map (map XR) w) mp (S n_init) = Ok (Some (lift b)) /\
    real_series d b /\ length b = n.
Proof.
  intros d M xs w mp A bs max_iter tol n_init HD m n Hn Hm HA.
  destruct (start_avg d M xs w bs HD Hn Hm) as (b0 & Hb & Lb & E0).
  pose proof (mm_descends d _ xs _ mp A n HD (fits_max xs) HA) as HS.
  destruct (loop_descends d n _ _ tol (fun b c c' => objective_unique A xs _ b c c') HS max_iter b0 XInf XInf Hb Lb)
    as (b & c & E & Hb' & Lb' & _).
  exists b. split; [|split]; auto.
  unfold dba. eapply attempts_same. unfold dba_one_init. rewrite E0. cbn [bind]. exact E.
Qed.
Print Assumptions C51_returns_size.
Theorem C51_petitjean_size : forall d M xs w mp A bs max_iter tol,
  weighted_dataset d xs (weights_in_force w (length xs)) ->
  let m := list_max (map (@length _) xs) in let n := or_default bs m in
  (0 < n)%nat -> (2 <= m)%nat \/ n = 1%nat ->
  (forall x, In x xs -> allows mp (length x) n (fun i j => A (length x) j i)) ->
  exists b, dba_petitjean (padded d M xs) bs None max_iter tol (option_map (map XR) w) mp = Ok (lift b) /\
    real_series d b /\ length b = n.
Proof.
  intros d M xs w mp A bs max_iter tol HD m n Hn Hm HA.
  destruct (start_avg d M xs w bs HD Hn Hm) as (b0 & Hb & Lb & E0).
  pose proof (pj_descends d _ xs _ mp A n HD (fits_max xs) HA) as HS. unfold dba_petitjean. rewrite E0. cbn [bind].
  destruct max_iter as [|max_iter]; [exists b0; auto|].
  destruct (loop_descends d n _ _ tol (fun b c c' => objective_unique A xs _ b c c') HS max_iter b0 XInf XInf Hb Lb)
    as (b & c & E & Hb' & Lb' & _).
  exists b. split; [|split]; auto. refine (eq_trans (f_equal (fun r => bind r _) E) _). reflexivity.
Qed.
Print Assumptions C51_petitjean_size.
(** With a budget of no iterations, nothing is returned, whatever the data. *)
Theorem C51_no_iterations_refuted : forall d M xs w mp bs b0 tol n_init,
  weighted_dataset d xs (weights_in_force w (length xs)) -> real_series d b0 ->
  dba (padded d M xs) bs (Some (lift b0)) 0 tol (option_map (map XR) w) mp n_init = Ok None.
Proof.
  intros d M xs w mp bs b0 tol n_init HD Hb. unfold dba, dba_one_init. rewrite (start_init d M xs w bs b0 HD Hb). cbn [bind dba_loop].
  induction n_init as [|k IH]; auto.
Qed.
Print Assumptions C51_no_iterations_refuted.
(** One-point series cannot be averaged at another size: the default
    initialisation raises. *)
Theorem C51_one_point_refuted : forall d M xs w mp bs max_iter tol n_init,
  weighted_dataset d xs (weights_in_force w (length xs)) ->
  (forall x, In x xs -> length x = 1%nat) -> (2 <= bs)%nat ->
  dba (padded d M xs) (Some bs) None max_iter tol (option_map (map XR) w) mp (S n_init) = Err ValueError.
Proof.
  intros d M xs w mp bs max_iter tol n_init (Hne & Hx & Hlw & Hw) H1 Hbs. unfold dba. cbn [dba_attempts]. unfold dba_one_init, dba_start.
  rewrite (variable_length_padded d M xs Hx). cbn [bind].
  assert (H0 : (0 < length xs)%nat) by (destruct xs; [congruence|simpl; lia]).
  assert (EM : list_max (map (@length _) xs) = 1%nat).
  { assert (K : In (list_max (map (@length _) xs)) (map (@length _) xs)) by (apply list_max_in; intros E; apply map_eq_nil in E; auto).
    apply in_map_iff in K. destruct K as (x & E & Hi). rewrite <- E. auto. }
  rewrite EM. assert (HM : fits 1 xs) by (rewrite <- EM; apply fits_max).
  unfold init_avg. rewrite (arr_sz_shape _ _ _ _ (padded_shape d 1 xs Hx HM) H0).
  destruct (Nat.eqb_spec 1 bs); [lia|]. simpl. destruct (Nat.ltb_spec 1 bs); [reflexivity|lia].
Qed.
Print Assumptions C51_one_point_refuted.

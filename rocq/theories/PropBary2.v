(** C49, C50, C52 and the concrete cases of C48-C52. *)
From Coq Require Import Bool List Arith Lia ZArith QArith Reals Lra.
From Verif Require Import Num NumLaws Py Series Masks DtwModel Spec SpecDtw DpProofs DtwProofs DtwThms
  LimitedThms MaskThms RList PathSum RealSeries PaaModel PaaThms CdistThms PropCtw PreModel PropScale PropResample
  GakModel SoftModel Dataset BaryModel BaryThms BaryReal IntSeries PropBary.
Import ListNotations.
Local Open Scope R_scope.

(** ** C49 *)
(** [b'] holds at each time step the weighted mean of the observations that cheapest
    paths [ps] align with it; there is at least one (the total weight is positive) *)
Definition weighted_means (d : nat) (xs : list (list (list R))) (w : list R) (A : nat -> nat -> nat -> bool)
    (b b' : list (list R)) (ps : list (list cell)) : Prop :=
  Forall2 (fun x p => exists v, best_path b x (A (length x)) p v) xs ps /\
  length b' = length b /\
  forall t, (t < length b)%nat ->
    let here := at_step t (entries xs w ps) in
    0 < wsum here /\ length (nth t b' []) = d /\
    forall k, (k < d)%nat -> nth k (nth t b' []) 0 = wxsum k here / wsum here.
Lemma means_of_run d xs w A b ps vs : weighted_dataset d xs w -> real_series d b -> length ps = length vs ->
  Forall2 (fun x pv => best_path b x (A (length x)) (fst pv) (snd pv)) xs (combine ps vs) ->
  weighted_means d xs w A b (mean_bary (length b) d (entries xs w ps)) ps.
Proof.
  intros (Hne & Hx & Hlw & Hw) Hb Hl F.
  assert (FP : Forall2 (fun p x => warping_path (length b) (length x) (A (length x)) p) ps xs) by (apply (paths_of_best xs b A ps vs); auto).
  split; [|split; [apply mean_bary_len|]].
  - clear -F Hl. revert ps xs Hl F. induction vs as [|v vs IH]; intros [|p ps] xs L F; try discriminate; inversion F; subst; constructor; eauto.
  - intros t Ht here. split; [|split].
    + apply (entries_pos d xs w Hx Hne Hlw Hw (length b) A ps (real_len d b Hb) FP t Ht).
    + apply mean_bary_row. auto.
    + intros k Hk. apply nth_mean_bary; auto.
Qed.
Theorem C49_mm_weighted_means : forall d M xs w mp A b, weighted_dataset d xs w -> fits M xs -> real_series d b ->
  (forall x, In x xs -> allows mp (length b) (length x) (A (length x))) ->
  exists b' c ps, mm_step (padded d M xs) (lift b) (length b) (map XR w) mp = Ok (lift b', XR c) /\ weighted_means d xs w A b b' ps.
Proof.
  intros d M xs w mp A b HD HM Hb HA. destruct (mm_run d M xs w mp A b HD Hb HA) as (ps & vs & Hl & E & F & _).
  eexists _, _, ps. split; [exact E|]. eapply means_of_run; eauto.
Qed.
Print Assumptions C49_mm_weighted_means.
Theorem C49_petitjean_weighted_means : forall d M xs w mp A b, weighted_dataset d xs w -> fits M xs -> real_series d b ->
  (forall x, In x xs -> allows mp (length x) (length b) (fun i j => A (length x) j i)) ->
  exists b' c ps, petitjean_step (padded d M xs) (lift b) (length b) (map XR w) mp = Ok (lift b', XR c) /\ weighted_means d xs w A b b' ps.
Proof.
  intros d M xs w mp A b HD HM Hb HA. destruct (pj_run d M xs w mp A b HD Hb HA) as (ps & vs & Hl & E & F).
  eexists _, _, ps. split; [exact E|]. eapply means_of_run; eauto.
Qed.
Print Assumptions C49_petitjean_weighted_means.
(** When every cheapest path is unique, the two implementations agree. *)
Theorem C49_same_when_unique : forall d M xs w mp A b, weighted_dataset d xs w -> fits M xs -> real_series d b ->
  (forall x, In x xs -> allows mp (length b) (length x) (A (length x))) ->
  (forall x, In x xs -> allows mp (length x) (length b) (fun i j => A (length x) j i)) ->
  (forall x p q v, In x xs -> best_path b x (A (length x)) p v -> best_path b x (A (length x)) q v -> p = q) ->
  petitjean_step (padded d M xs) (lift b) (length b) (map XR w) mp = mm_step (padded d M xs) (lift b) (length b) (map XR w) mp.
Proof.
  intros d M xs w mp A b HD HM Hb HA HA' HU.
  destruct (mm_run d M xs w mp A b HD Hb HA) as (ps & vs & Hl & E & F & _).
  destruct (pj_run d M xs w mp A b HD Hb HA') as (ps' & vs' & Hl' & E' & F').
  rewrite E, E'. assert (K : combine ps' vs' = combine ps vs).
  { clear -F F' HU. revert F F' HU. generalize (combine ps vs) (combine ps' vs'). induction xs as [|x xs IH]; intros l l' F F' HU; inversion F; inversion F'; subst; auto.
    f_equal; [|apply IH; auto; intros; eapply HU; simpl; eauto].
    match goal with H1 : best_path b x _ (fst ?u) (snd ?u), H2 : best_path b x _ (fst ?v) (snd ?v) |- _ = _ =>
      assert (EV : snd v = snd u) by (destruct H1 as (W1 & C1 & M1); destruct H2 as (W2 & C2 & M2); pose proof (M1 _ W2); pose proof (M2 _ W1); lra);
      assert (EP : fst v = fst u) by (apply (HU x _ _ (snd u)); simpl; auto; rewrite <- EV; auto); destruct u, v; simpl in *; congruence end. }
  assert (ps' = ps) by (rewrite <- (map_fst_combine ps vs Hl), <- K; symmetry; apply map_fst_combine; auto).
  assert (vs' = vs) by (rewrite <- (map_snd_combine ps vs Hl), <- K; symmetry; apply map_snd_combine; auto).
  subst. reflexivity.
Qed.
Print Assumptions C49_same_when_unique.

(** *** one series, with a known alignment *)
Lemma mm_single d x b p v mp : real_series d x -> real_series d b -> 0 <= v ->
  njit_dtw_path mp (lift b) (lift x) = Ok (p, XR (sqrt v)) -> warping_path (length b) (length x) everywhere p ->
  mm_step [lift x] (lift b) (length b) [XR 1] mp = Ok (lift (mean_bary (length b) d (entries [x] [1] [p])), XR v).
Proof.
  intros Hx Hb Hv E Hp. unfold mm_step, mm_assignment. cbn [mapM]. pose proof (strip_lift d x Hx) as ES. unfold strip. norm. rewrite ES.
  refine (eq_trans (f_equal (fun r => bind (bind (bind r _) _) _) E) _). cbn [bind mapM map fst snd].
  assert (EU : mm_update [lift x] [p] (length b) [XR 1] = Ok (lift (mean_bary (length b) d (entries [x] [1] [p])))).
  { pose proof (mm_update_real d 0 [x] [1] ltac:(intros y [<-|[]]; auto) ltac:(discriminate) eq_refl ltac:(intros a [<-|[]]; lra)
      (length b) (fun _ => everywhere) [p] (real_len d b Hb) ltac:(repeat constructor; auto; apply Hp)) as K.
    simpl map in K. unfold pad_to in K. simpl Nat.sub in K. simpl repeat in K. rewrite app_nil_r in K. exact K. }
  refine (eq_trans (f_equal (fun r => bind r _) EU) _). cbn [bind]. f_equal. f_equal.
  unfold weighted_cost. cbn [combine map fst snd xmul].  rewrite sqrt_sqrt by auto.
  change [XR (v * 1)] with (map XR [v * 1]). change [XR 1] with (map XR [1]). rewrite !xsum_reals, xdiv_real by (simpl; lra). f_equal. simpl. field.
Qed.
Lemma pj_single d x b p v mp : real_series d x -> real_series d b -> 0 <= v ->
  njit_dtw_path mp (lift x) (lift b) = Ok (p, XR (sqrt v)) -> warping_path (length b) (length x) everywhere (map swap p) ->
  petitjean_step [lift x] (lift b) (length b) [XR 1] mp = Ok (lift (mean_bary (length b) d (entries [x] [1] [map swap p])), XR v).
Proof.
  intros Hx Hb Hv E Hp. unfold petitjean_step, petitjean_assignment. cbn [mapM]. pose proof (strip_lift d x Hx) as ES. unfold strip. norm. rewrite ES.
  refine (eq_trans (f_equal (fun r => bind (bind (bind r _) _) _) E) _). cbn [bind mapM map fst snd].
  assert (EU : petitjean_update [lift x] (assigned [p]) (length b) [XR 1] = Ok (lift (mean_bary (length b) d (entries [x] [1] [map swap p])))).
  { pose proof (pj_update_real d 0 [x] [1] ltac:(intros y [<-|[]]; auto) ltac:(discriminate) eq_refl ltac:(intros a [<-|[]]; lra)
      (length b) (fun _ => everywhere) [map swap p] (real_len d b Hb) ltac:(repeat constructor; auto; apply Hp) [p] eq_refl) as K.
    simpl map in K. unfold pad_to in K. simpl Nat.sub in K. simpl repeat in K. rewrite app_nil_r in K. exact K. }
  refine (eq_trans (f_equal (fun r => bind r _) EU) _). cbn [bind]. f_equal. f_equal.
  unfold weighted_cost. cbn [combine map fst snd xmul].  rewrite sqrt_sqrt by auto.
  change [XR (v * 1)] with (map XR [v * 1]). change [XR 1] with (map XR [1]). rewrite !xsum_reals, xdiv_real by (simpl; lra). f_equal. simpl. field.
Qed.
Ltac is_path := repeat split; auto; try reflexivity; unfold move; simpl; try lia; intros i j H; reflexivity.

Lemma start_single d x b : real_series d x -> real_series d b ->
  dba_start [lift x] None (Some (lift b)) None = Ok ([lift x], length b, [XR 1], lift b).
Proof.
  intros Hx Hb. pose proof (start_init d 0 [x] None None b) as K. simpl map in K. simpl repeat in K. unfold padded, pad_to in K. simpl map in K.
  rewrite Nat.max_0_r, Nat.sub_diag in K. simpl repeat in K. rewrite app_nil_r in K. apply K; auto.
  split; [discriminate|]. split; [intros y [<-|[]]; auto|]. split; auto. intros a [<-|[]]. lra.
Qed.
Lemma one_loop step tol b b' c : step b = Ok (b', XR c) -> dba_loop step tol 1 b XInf XInf = Ok (b', XR c).
Proof. intros E. cbn [dba_loop]. rewrite E. cbn [bind]. destruct (xltb _ tol); [reflexivity|]. destruct (xltb XInf (XR c)); reflexivity. Qed.

(** With ties between cheapest paths the public functions return different
    barycenters for the same arguments. *)
Theorem C49_same_barycenter_refuted : exists x b b1 b2, real_series 1 x /\ real_series 1 b /\ forall tol,
  dba [lift x] None (Some (lift b)) 1 tol None no_params 1 = Ok (Some (lift b1)) /\
  dba_petitjean [lift x] None (Some (lift b)) 1 tol None no_params = Ok (lift b2) /\
  nth 0 (nth 0 b1 []) 0 <> nth 0 (nth 0 b2 []) 0.
Proof.
  set (x := [[1];[-2];[1]]%Z). set (b := [[-1];[2];[-1]]%Z).
  exists (zseries x), (zseries b). eexists _, _.
  assert (Hx : real_series 1 (zseries x)) by (split; [lia|]; split; [discriminate|]; intros r [<-|[<-|[<-|[]]]]; reflexivity).
  assert (Hb : real_series 1 (zseries b)) by (split; [lia|]; split; [discriminate|]; intros r [<-|[<-|[<-|[]]]]; reflexivity).
  assert (V : 0 <= IZR 10) by (apply IZR_le; lia).
  pose proof (njit_int no_params b x [(0, 0); (0, 1); (1, 2); (2, 2)]%nat 10 ltac:(lia) eq_refl) as E1.
  pose proof (njit_int no_params x b [(0, 0); (0, 1); (1, 2); (2, 2)]%nat 10 ltac:(lia) eq_refl) as E2.
  split; auto. split; auto. intros tol. split; [|split].
  - unfold dba. eapply attempts_same. unfold dba_one_init. rewrite (start_single 1 _ _ Hx Hb). cbn [bind].
    apply one_loop. apply (mm_single 1 _ _ _ _ _ Hx Hb V E1). is_path.
  - unfold dba_petitjean. rewrite (start_single 1 _ _ Hx Hb). cbn [bind].
    refine (eq_trans (f_equal (fun r => bind r _) (one_loop _ _ _ _ _ (pj_single 1 _ _ _ _ _ Hx Hb V E2 _))) _); [is_path|]. reflexivity.
  - rewrite !nth_mean_bary by (simpl; lia). unfold wxsum, wsum. simpl. lra.
Qed.
Print Assumptions C49_same_barycenter_refuted.

(** ** C50 *)
(** A constraint given by its name has no effect at all, on any input. *)
Lemma name_path g r s s1 s2 : njit_dtw_path {| mp_gc := KeyName g; mp_radius := r; mp_slope := s |} s1 s2 = njit_dtw_path no_params s1 s2.
Proof. unfold njit_dtw_path, elastic_path_generic. simpl. destruct r, s; reflexivity. Qed.
Lemma dba_path_ext mp mp' X bs init it tol w n_init : (forall s1 s2, njit_dtw_path mp s1 s2 = njit_dtw_path mp' s1 s2) ->
  dba X bs init it tol w mp n_init = dba X bs init it tol w mp' n_init /\
  dba_petitjean X bs init it tol w mp = dba_petitjean X bs init it tol w mp'.
Proof.
  intros H.
  assert (E : forall s1 s2, njit_dtw_path mp s1 s2 = njit_dtw_path mp' s1 s2) by auto.
  assert (E1 : njit_dtw_path mp = njit_dtw_path mp').
  { do 2 (apply FunctionalExtensionality.functional_extensionality; intro). auto. }
  unfold dba, dba_one_init, dba_petitjean, mm_step, petitjean_step, mm_assignment, petitjean_assignment. rewrite E1. auto.
Qed.
Theorem C50_name_ignored : forall g r s X bs init it tol w n_init,
  dba X bs init it tol w {| mp_gc := KeyName g; mp_radius := r; mp_slope := s |} n_init = dba X bs init it tol w no_params n_init /\
  dba_petitjean X bs init it tol w {| mp_gc := KeyName g; mp_radius := r; mp_slope := s |} = dba_petitjean X bs init it tol w no_params.
Proof. intros. apply dba_path_ext. intros. apply name_path. Qed.
Print Assumptions C50_name_ignored.
(** Hence the alignment used is not the one of [dtw] with the same arguments. *)
Theorem C50_honours_name_refuted : exists x b p v v', real_series 1 x /\ real_series 1 b /\
  njit_dtw_path {| mp_gc := KeyName GcSakoeChiba; mp_radius := Some 0%Z; mp_slope := None |} (lift b) (lift x) = Ok (p, v) /\
  dtw (N:=Xnum) (Raw2 (lift b)) (Raw2 (lift x)) GcSakoeChiba (Some 0%Z) None = Ok v' /\ v <> v'.
Proof.
  set (x := [[0];[1];[1]]%Z). set (b := [[0];[0];[1]]%Z). exists (zseries x), (zseries b), [(0, 0); (1, 0); (2, 1); (2, 2)]%nat, (XR (sqrt (IZR 0))), (XR (sqrt (IZR 1))).
  assert (Hx : real_series 1 (zseries x)) by (split; [lia|]; split; [discriminate|]; intros r [<-|[<-|[<-|[]]]]; reflexivity).
  assert (Hb : real_series 1 (zseries b)) by (split; [lia|]; split; [discriminate|]; intros r [<-|[<-|[<-|[]]]]; reflexivity).
  split; auto. split; auto. split; [|split].
  - apply njit_int; [lia|reflexivity].
  - pose proof (njit_int {| mp_gc := KeyCode 2; mp_radius := Some 0%Z; mp_slope := None |} b x [(0, 0); (1, 1); (2, 2)]%nat 1 ltac:(lia) eq_refl) as E.
    unfold dtw, elastic. rewrite (validated_finite Xnum xnn xfin Xlaws 1) by (apply lift_finite; auto). cbn [gc_code bind].
    unfold njit_dtw_path, elastic_path_generic in E. unfold elastic_generic. simpl in E |- *.
    injection E as E. f_equal. exact E.
  - intros K. injection K as K. rewrite sqrt_0, sqrt_1 in K. lra.
Qed.
Print Assumptions C50_honours_name_refuted.
(** The integer codes are honoured: the alignment is that of [dtw_path] with the
    constraint of that code. *)
Theorem C50_codes_honoured : forall g c r s d s1 s2, gc_code g = Ok c -> real_series d s1 -> real_series d s2 ->
  njit_dtw_path {| mp_gc := KeyCode c; mp_radius := r; mp_slope := s |} (lift s1) (lift s2) =
  dtw_path (N:=Xnum) (Raw2 (lift s1)) (Raw2 (lift s2)) g r s.
Proof.
  intros g c r s d s1 s2 Hg H1 H2. unfold dtw_path, elastic_path. rewrite (validated_finite Xnum xnn xfin Xlaws d) by (apply lift_finite; auto).
  rewrite Hg. reflexivity.
Qed.
Print Assumptions C50_codes_honoured.

(** ** C52 *)
Lemma sub_step_real d M p a x b eta (A : nat -> nat -> nat -> bool) : real_series d x -> real_series d b -> a <> 0 ->
  warping_path (length b) (length x) (A (length x)) p ->
  subgradient_update d (pad_to d M x) p (XR a) (lift b) (XR eta) =
  Ok (lift (mapi (fun i row => mapi (fun k v =>
     v - 2 * eta * (wsum (at_step i (obs_of p 1 x)) * v - wxsum k (at_step i (obs_of p 1 x)))) row) b)).
Proof.
  intros Hx Hb Ha Hp. assert (Hxs : forall y, In y [x] -> real_series d y) by (intros y [<-|[]]; auto). assert (Hin : In x [x]) by (left; auto). unfold subgradient_update. rewrite (strip_pad_to d) by auto.
  destruct (warped_real d [x] [1] Hxs eq_refl (length b) A (real_len d b Hb) p a x Hin Hp) as (f & Ef & Hf). rewrite Ef. cbn [bind]. apply (f_equal (@Ok (series Xnum))).
  unfold lift. norm. apply nth_ext with (d := []) (d' := []).
  - rewrite mapi_len, !map_length, mapi_len. reflexivity.
  - intros i Hi. rewrite mapi_len, map_length in Hi. rewrite (mapi_nth _ _ i [] []) by (rewrite map_length; auto).
    refine (eq_trans _ (eq_sym (map_nth (map XR) _ [] i))). rewrite (mapi_nth _ _ i [] []) by auto.
    pose proof (lift_nth b i) as EL. unfold lift in EL. norm. rewrite EL.
    assert (Lr : length (nth i b []) = d) by (destruct Hb as (_ & _ & RR); apply RR; apply nth_In; auto).
    apply nth_ext with (d := XNaN) (d' := XNaN).
    + rewrite mapi_len, !map_length, mapi_len. reflexivity.
    + intros k Hk. rewrite mapi_len, map_length in Hk. rewrite (mapi_nth _ _ k XNaN XNaN) by (rewrite map_length; auto).
      rewrite nth_XR by auto. rewrite (nth_XR _ k) by (rewrite mapi_len; auto). rewrite (mapi_nth _ _ k 0 0) by auto.
      rewrite (valence_real d [x] [1] Hxs eq_refl (length b) A (real_len d b Hb) p a x i Hin Hp), Hf by lia.
      cbn [xmul xadd xsub xopp]. rewrite xdiv_real by auto. cbn [xmul xadd xsub xopp]. f_equal.
      assert (S1 : wsum (at_step i (obs_of p a x)) = a * wsum (at_step i (obs_of p 1 x))) by (rewrite !wsum_obs; ring).
      assert (S2 : wxsum k (at_step i (obs_of p a x)) = a * wxsum k (at_step i (obs_of p 1 x))).
      { rewrite !at_step_obs. unfold wxsum, obs_of. rewrite !map_map. cbn [fst snd]. rewrite !rsum_map_scal. ring. }
      rewrite S1, S2. field. auto.
Qed.

Lemma mapi_real d b (f : nat -> nat -> R -> R) : real_series d b ->
  real_series d (mapi (fun i row => mapi (f i) row) b) /\ length (mapi (fun i row => mapi (f i) row) b) = length b.
Proof.
  intros (Hd & Hb & Hr). split; [|apply mapi_len]. split; auto. split.
  - intros K. apply (f_equal (@length _)) in K. rewrite mapi_len in K. destruct b; [congruence|discriminate].
  - intros r Hin. apply (In_nth _ _ []) in Hin. destruct Hin as (i & Hi & <-). rewrite mapi_len in Hi. rewrite (mapi_nth _ _ i [] []) by auto.
    rewrite mapi_len. apply Hr. apply nth_In. auto.
Qed.
Lemma epoch_weights d M xs mp A n first decay : (forall x, In x xs -> real_series d x) -> xs <> [] -> fits M xs ->
  (forall x, In x xs -> allows mp n (length x) (A (length x))) ->
  forall idxs b eta, (forall i, In i idxs -> (i < length xs)%nat) -> real_series d b -> length b = n ->
  exists b' eta', real_series d b' /\ length b' = n /\ forall w cost, length w = length xs -> (forall a, In a w -> 0 < a) ->
  exists c, subgradient_epoch (padded d M xs) (map XR w) mp first (XR decay) idxs (lift b) (XR eta) cost = Ok (lift b', XR eta', c).
Proof.
  intros Hx Hne HM HA. induction idxs as [|i idxs IH]; intros b eta Hi Hb Hn.
  { exists b, eta. split; auto. split; auto. intros. eexists. reflexivity. }
  assert (Li : (i < length xs)%nat) by (apply Hi; left; auto). set (x := nth i xs []).
  assert (Hin : In x xs) by (apply nth_In; auto).
  destruct (njit_best mp d b x (A (length x)) Hb (Hx x Hin)) as (p & v & E & Hp & _); [rewrite Hn; auto|].
  set (b1 := mapi (fun i row => mapi (fun k v => v - 2 * eta * (wsum (at_step i (obs_of p 1 x)) * v - wxsum k (at_step i (obs_of p 1 x)))) row) b).
  destruct (mapi_real d b (fun i k v => v - 2 * eta * (wsum (at_step i (obs_of p 1 x)) * v - wxsum k (at_step i (obs_of p 1 x)))) Hb) as [Hb1 Lb1].
  destruct (IH b1 (if first then eta + - decay else eta)) as (b2 & eta2 & Hb2 & Lb2 & H2).
  { intros; apply Hi; right; auto. } { exact Hb1. } { unfold b1. rewrite Lb1. auto. }
  exists b2, eta2. split; auto. split; auto. intros w cost Lw Hw. destruct (H2 w (weighted_cost [(p, XR (sqrt v))] (map XR w)) Lw Hw) as (c & Ec).
  exists c. cbn [subgradient_epoch].
  assert (EX : nth i (padded d M xs) [] = pad_to d M x).
  { unfold padded. rewrite (nth_indep _ [] (pad_to d M [])) by (rewrite map_length; auto). apply map_nth. }
  assert (ED : arr_d (padded d M xs) = d).
  { apply (arr_d_shape _ _ _ _ (padded_shape d M xs Hx HM)); [lia|]. pose proof (HM x Hin). pose proof (real_len d x (Hx x Hin)). lia. }
  norm. rewrite EX, ED.
  unfold mm_assignment. cbn [mapM]. rewrite (strip_pad_to d) by auto.
  refine (eq_trans (f_equal (fun r => bind (bind (bind r _) _) _) E) _). cbn [bind mapM map fst snd nth].
  rewrite (nth_XR w i) by lia. norm.
  assert (Ha : nth i w 0 <> 0) by (pose proof (Hw (nth i w 0) ltac:(apply nth_In; lia)); lra).
  refine (eq_trans (f_equal (fun r => bind r _) (sub_step_real d M p (nth i w 0) x b eta A (Hx x Hin) Hb Ha Hp)) _). cbn [bind].
  destruct first; exact Ec.
Qed.
(** The weights have no effect at all on an epoch of the subgradient method: every
    choice of positive weights gives the same barycenter. *)
Theorem C52_subgradient_weights_refuted : forall d M xs mp A bs b0 s1 s2 tol perm w w',
  weighted_dataset d xs w -> weighted_dataset d xs w' -> real_series d b0 ->
  (forall x, In x xs -> allows mp (length b0) (length x) (A (length x))) ->
  (forall i, In i (perm 0%nat) -> (i < length xs)%nat) ->
  exists b, real_series d b /\ length b = length b0 /\
   dba_subgradient (padded d M xs) bs (Some (lift b0)) 1 (XR s1) (XR s2) tol perm (Some (map XR w)) mp = Ok (lift b) /\
   dba_subgradient (padded d M xs) bs (Some (lift b0)) 1 (XR s1) (XR s2) tol perm (Some (map XR w')) mp = Ok (lift b).
Proof.
  intros d M xs mp A bs b0 s1 s2 tol perm w w' HD HD' Hb HA Hp. pose proof HD as (Hne & Hx & Lw & Hw).
  assert (H0 : (0 < length xs)%nat) by (destruct xs; [congruence|simpl; lia]).
  destruct (epoch_weights d _ xs mp A (length b0) true ((s1 - s2) / INR (length xs)) Hx Hne (fits_max xs) HA (perm 0%nat) b0 s1 Hp Hb eq_refl)
    as (b & eta & Hb' & Lb & H).
  exists b. split; auto. split; auto.
  assert (G : forall w, weighted_dataset d xs w ->
    dba_subgradient (padded d M xs) bs (Some (lift b0)) 1 (XR s1) (XR s2) tol perm (Some (map XR w)) mp = Ok (lift b)).
  { intros u (_ & _ & Lu & Hu). unfold dba_subgradient.
    pose proof (start_init d M xs (Some u) bs b0 ltac:(split; auto) Hb) as ES. cbn [option_map weights_in_force] in ES. rewrite ES. cbn [bind subgradient_loop Nat.eqb].
    replace (length (padded d (list_max (map (length (A:=list R)) xs)) xs)) with (length xs) by (symmetry; apply map_length).
    cbn [xsub xopp xadd]. rewrite xdiv_real by (apply not_0_INR; lia).
    destruct (H u XInf Lu Hu) as (c & Ec). unfold Rminus in Ec. rewrite Ec. cbn [bind].
    destruct (xltb _ tol); [reflexivity|]. destruct (xltb XInf c); reflexivity. }
  split; apply G; auto.
Qed.
Print Assumptions C52_subgradient_weights_refuted.

(** In the other variants a weight is a multiplicity: two copies of a series with
    weights [a1], [a2] count like one with weight [a1 + a2]. *)
Lemma wsum_app E1 E2 : wsum (E1 ++ E2) = wsum E1 + wsum E2.
Proof. unfold wsum. rewrite map_app, rsum_app. reflexivity. Qed.
Lemma wxsum_app k E1 E2 : wxsum k (E1 ++ E2) = wxsum k E1 + wxsum k E2.
Proof. unfold wxsum. rewrite map_app, rsum_app. reflexivity. Qed.
Lemma at_step_app t E1 E2 : at_step t (E1 ++ E2) = at_step t E1 ++ at_step t E2.
Proof. apply filter_app. Qed.
Lemma wxsum_obs k i p a x : wxsum k (at_step i (obs_of p a x)) = a * wxsum k (at_step i (obs_of p 1 x)).
Proof. rewrite !at_step_obs. unfold wxsum, obs_of. rewrite !map_map. cbn [fst snd]. rewrite !rsum_map_scal. ring. Qed.
Theorem C52_mm_duplicates : forall d M x xs a1 a2 w mp A b, 0 < a1 -> 0 < a2 -> weighted_dataset d (x :: xs) (a1 + a2 :: w) ->
  real_series d b -> (forall y, In y (x :: xs) -> allows mp (length b) (length y) (A (length y))) ->
  mm_step (padded d M (x :: x :: xs)) (lift b) (length b) (map XR (a1 :: a2 :: w)) mp =
  mm_step (padded d M (x :: xs)) (lift b) (length b) (map XR (a1 + a2 :: w)) mp.
Proof.
  intros d M x xs a1 a2 w mp A b H1 H2 HD Hb HA.
  assert (HD2 : weighted_dataset d (x :: x :: xs) (a1 :: a2 :: w)).
  { destruct HD as (Hne & Hx & Lw & Hw). split; [discriminate|]. split; [intros y [<-|Hy]; apply Hx; simpl; auto|]. simpl in *. split; [lia|].
    intros a [<-|[<-|Ha]]; auto. }
  destruct (mm_run d M _ _ mp A b HD Hb HA) as (ps & vs & Hl & E & _ & F).
  destruct (mm_run d M _ _ mp A b HD2 Hb ltac:(intros y [<-|Hy]; apply HA; simpl; auto)) as (ps' & vs' & Hl' & E' & _ & F').
  rewrite E, E'. clear E E'.
  destruct ps as [|p ps], vs as [|v vs]; try discriminate; [inversion F|].
  destruct ps' as [|p1 [|p2 ps']], vs' as [|v1 [|v2 vs']]; try discriminate; try (inversion F'; fail).
  { inversion F'; subst. match goal with H : Forall2 _ (_ :: _) _ |- _ => inversion H end. }
  assert (U : forall x pv pv', njit_dtw_path mp (lift b) (lift x) = Ok (fst pv, XR (sqrt (snd pv))) /\ 0 <= snd pv ->
     njit_dtw_path mp (lift b) (lift x) = Ok (fst pv', XR (sqrt (snd pv'))) /\ 0 <= snd pv' -> pv = pv').
  { intros y [q u] [q' u'] [K1 K2] [K1' K2']. simpl in *. rewrite K1 in K1'. injection K1' as -> K. f_equal. apply sqrt_inj; auto. }
  cbn [combine] in F, F'. inversion F as [|? ? ? ? B1 B2]; subst. inversion F' as [|? ? ? ? B3 B4]; subst. inversion B4 as [|? ? ? ? B5 B6]; subst.
  assert (T1 : (p1, v1) = (p, v)) by (apply (U x); auto). assert (T2 : (p2, v2) = (p, v)) by (apply (U x); auto).
  assert (T3 : combine ps' vs' = combine ps vs).
  { apply (Forall2_unique _ xs _ _ U B6 B2). }
  injection T1 as -> ->. injection T2 as -> ->.
  assert (ps' = ps) by (rewrite <- (map_fst_combine ps vs), <- T3 by (simpl in Hl; lia); symmetry; apply map_fst_combine; simpl in Hl'; lia).
  assert (vs' = vs) by (rewrite <- (map_snd_combine ps vs), <- T3 by (simpl in Hl; lia); symmetry; apply map_snd_combine; simpl in Hl'; lia).
  subst ps' vs'. f_equal. f_equal.
  - f_equal. unfold mean_bary. apply map_ext_in. intros t _. apply map_ext_in. intros k _. unfold entries. cbn [combine map concat fst snd].
    rewrite !at_step_app, !wsum_app, !wxsum_app. rewrite !wsum_obs, (wxsum_obs k t p a1), (wxsum_obs k t p a2), (wxsum_obs k t p (a1 + a2)).
    f_equal; ring.
  - f_equal. unfold wcost. cbn [combine map rsum fst snd]. f_equal; simpl; ring.
Qed.
Print Assumptions C52_mm_duplicates.

(** ** C51: an initial barycenter with trailing NaN rows *)
(** Its rows are counted before the padding is removed, and the missing ones come
    back as NaN. *)
Theorem C51_padded_init_refuted : forall tol, exists b r,
  dba [lift [[0]]] None (Some [[XR 0]; [XNaN]]) 1 tol None no_params 1 = Ok (Some b) /\ In r b /\ r = [XNaN].
Proof.
  intros tol. exists [[XR 0]; [XNaN]], [XNaN]. split; [|split; [right; left; auto|auto]].
  assert (Hx : real_series 1 (zseries [[0%Z]])) by (split; [lia|]; split; [discriminate|]; intros r [<-|[]]; reflexivity).
  unfold dba. eapply attempts_same. unfold dba_one_init, dba_start.
  pose proof (variable_length_padded 1 0 [zseries [[0%Z]]] ltac:(intros y [<-|[]]; auto)) as EV.
  unfold padded, pad_to in EV. simpl map in EV. simpl in EV. simpl lift. norm. rewrite EV. cbn [bind].
  apply one_loop. unfold mm_step, mm_assignment. cbn [mapM].
  pose proof (njit_int no_params [[0%Z]] [[0%Z]] [(0, 0)]%nat 0 ltac:(lia) eq_refl) as E.
  refine (eq_trans (f_equal (fun r => bind (bind (bind r _) _) _) E) _). cbn [bind map fst snd].
  match goal with |- bind ?u _ = _ => assert (EU : u = Ok [[XR 0]; [XNaN]]) end.
  { unfold mm_update, warped, valence, warping, on_path, path_width. simpl. unfold xdiv.
    repeat match goal with |- context [is_zero ?r] => unfold is_zero end.
    repeat match goal with |- context [Req_EM_T ?a ?b] => destruct (Req_EM_T a b); [try (exfalso; lra)|try (exfalso; lra)] end.
    all: repeat match goal with |- context [Rltb ?a ?b] => unfold Rltb; destruct (Rlt_dec a b); [try (exfalso; lra)|try (exfalso; lra)] end.
    assert (Z : xscale_inf (0 + (0 + 0 * 1 * 0)) true = XNaN).
    { unfold xscale_inf, Rltb. destruct (Rlt_dec 0 _); [exfalso; lra|]. destruct (Rlt_dec _ 0); [exfalso; lra|]. reflexivity. }
    simpl. rewrite Z. unfold xsum. simpl. apply f_equal. repeat apply f_equal2; auto; f_equal; field; lra. }
  refine (eq_trans (f_equal (fun r => bind r _) EU) _). cbn [bind]. apply f_equal. apply f_equal2; [reflexivity|].
  exact (weighted_cost_real [zseries [[0%Z]]] [1] ltac:(discriminate) eq_refl ltac:(intros a [<-|[]]; lra) [([(0, 0)]%nat, 0)] ltac:(intros pv [<-|[]]; simpl; lra) eq_refl).
Qed.
Print Assumptions C51_padded_init_refuted.

(** ** C83: the Euclidean barycenter is the weighted least-squares solution *)
(** squared Euclidean distance of two series of the same size *)
Definition euclid2 (b x : list (list R)) : R := rsum (map (fun t => sqd (nth t b []) (nth t x [])) (seq 0 (length x))).
Definition diagonal (n : nat) : list cell := map (fun t => (t, t)) (seq 0 n).
Lemma diagonal_path n : (0 < n)%nat -> warping_path n n everywhere (diagonal n).
Proof.
  intros Hn. unfold warping_path, first_is, last_is, diagonal. rewrite map_length, seq_length, !nth_error_map.
  rewrite !(nth_error_nth' (seq 0 n) 0%nat) by (rewrite seq_length; lia). rewrite !seq_nth by lia. split; [reflexivity|]. split; [reflexivity|]. split.
  - generalize 0%nat. induction n as [|[|n] IH]; intros a; simpl; auto. split; [|apply IH; lia]. unfold move. simpl. lia.
  - intros. reflexivity.
Qed.
Lemma cost_diagonal b x : cost (costs b x) (diagonal (length x)) = euclid2 b x.
Proof. unfold cost, diagonal, euclid2. rewrite map_map. reflexivity. Qed.
Lemma combine_repeat_l {A B} (a : A) (l : list B) n : n = length l -> combine (repeat a n) l = map (fun x => (a, x)) l.
Proof. intros ->. induction l; simpl; congruence. Qed.
Lemma concat_map_sing {A B} (f : A -> B) l : concat (map (fun x => [f x]) l) = map f l.
Proof. induction l; simpl; congruence. Qed.
Lemma filter_diagonal n t : (t < n)%nat -> filter (fun c : cell => (snd c =? t)%nat) (diagonal n) = [(t, t)].
Proof.
  intros H. unfold diagonal. replace n with (t + S (n - t - 1))%nat by lia. rewrite seq_app. cbn [seq]. rewrite map_app. cbn [map]. rewrite filter_app. cbn [filter snd].
  rewrite Nat.add_0_l, Nat.eqb_refl.
  assert (K : forall l, (forall i, In i l -> i <> t) -> filter (fun c : cell => (snd c =? t)%nat) (map (fun t => (t, t)) l) = []).
  { induction l as [|i l IH]; intros Hl; auto. simpl. destruct (Nat.eqb_spec i t); [exfalso; apply (Hl i); simpl; auto|]. apply IH. intros; apply Hl; right; auto. }
  rewrite !K by (intros i Hi; apply in_seq in Hi; lia). reflexivity.
Qed.
Lemma mapM_ext_in' {A B} (f g : A -> res B) l : (forall a, In a l -> f a = g a) -> mapM f l = mapM g l.
Proof. induction l as [|a l IH]; intros H; auto. cbn [mapM]. rewrite H by (left; auto). rewrite IH by (intros; apply H; right; auto). reflexivity. Qed.
Theorem C83_least_squares : forall d n xs w, weighted_dataset d xs (weights_in_force w (length xs)) -> (forall x, In x xs -> length x = n) ->
  exists b, euclidean_barycenter (map lift xs) (option_map (map XR) w) = Ok (lift b) /\ real_series d b /\ length b = n /\
  (forall t k, (t < n)%nat -> (k < d)%nat ->
     nth k (nth t b []) 0 = rsum (map (fun p => snd p * nth k (nth t (fst p) []) 0) (combine xs (weights_in_force w (length xs)))) / rsum (weights_in_force w (length xs))) /\
  forall b', real_series d b' -> length b' = n ->
    rsum (map (fun p => euclid2 b (fst p) * snd p) (combine xs (weights_in_force w (length xs)))) <=
    rsum (map (fun p => euclid2 b' (fst p) * snd p) (combine xs (weights_in_force w (length xs)))).
Proof.
  intros d n xs w HD Hn. set (u := weights_in_force w (length xs)) in *. pose proof HD as (Hne & Hx & Lw & Hw).
  assert (Hn0 : (0 < n)%nat). { destruct xs as [|x l]; [congruence|]. rewrite <- (Hn x (or_introl eq_refl)). apply (real_len d). apply Hx. left; auto. }
  set (qs := repeat (diagonal n) (length xs)).
  assert (SD : map swap (diagonal n) = diagonal n) by (unfold diagonal; rewrite map_map; reflexivity).
  assert (SQ : map (map swap) qs = qs).
  { unfold qs. clear -SD. induction (length xs); simpl; congruence. }
  assert (FP : Forall2 (fun p x => warping_path n (length x) everywhere p) qs xs).
  { unfold qs. clear -Hn Hn0. induction xs as [|x l IH]; simpl; constructor.
    - rewrite (Hn x) by (left; auto). apply diagonal_path; auto.
    - apply IH. intros; apply Hn; right; auto. }
  assert (Lq : length qs = length xs) by apply repeat_length.
  exists (mean_bary n d (entries xs u qs)).
  assert (EM : list_max (map (@length _) xs) = n).
  { assert (K : In (list_max (map (@length _) xs)) (map (@length _) xs)) by (apply list_max_in; intros E; apply map_eq_nil in E; auto).
    apply in_map_iff in K. destruct K as (x & E & Hi). rewrite <- E. auto. }
  assert (HM : fits n xs) by (rewrite <- EM; apply fits_max).
  assert (H0 : (0 < length xs)%nat) by (destruct xs; [congruence|simpl; lia]).
  assert (EA : forall t, (t < n)%nat -> assigned qs t = map (fun i => (i, t)) (seq 0 (length xs))).
  { intros t Ht. unfold assigned. rewrite Lq. rewrite <- (concat_map_sing (fun i => (i, t)) (seq 0 (length xs))). f_equal. apply map_ext_in.
    intros i Hi. apply in_seq in Hi. replace (nth i qs []) with (diagonal n).
    - assert (EF : filter (fun c : cell => (snd c =? t)%nat) (diagonal n) = [(t, t)]) by (apply filter_diagonal; auto). rewrite EF. reflexivity.
    - symmetry. apply (repeat_spec (length xs)). apply nth_In. fold qs. lia. }
  split; [|split; [apply mean_bary_real; auto; apply (Hx (nth 0 xs [])); apply nth_In; auto|split; [apply mean_bary_len|split]]].
  - unfold euclidean_barycenter. pose proof (variable_length_padded d 0 xs Hx) as EV. rewrite EM in EV.
    assert (EP : padded d 0 xs = map lift xs) by (unfold padded, pad_to; apply map_ext; intros; rewrite Nat.sub_0_l; apply app_nil_r).
    rewrite EP in EV. rewrite EV. cbn [bind]. rewrite (set_weights_real w xs Lw) by (unfold padded; apply map_length). fold u.
    rewrite (arr_sz_shape _ _ _ _ (padded_shape d n xs Hx HM) H0).
    pose proof (pj_update_real d n xs u Hx Hne Lw Hw n (fun _ => everywhere) qs Hn0 FP qs (eq_sym SQ)) as K. fold (padded d n xs) in K. rewrite <- K. 
    unfold petitjean_update. apply mapM_ext_in'. intros t Ht. apply in_seq in Ht. rewrite EA by lia. rewrite !map_map. cbn [fst snd]. f_equal.
    + rewrite (list_nth_seq (padded d n xs) []) at 1. unfold padded at 2. rewrite map_length, map_map. reflexivity.
    + rewrite (list_nth_seq (map XR u) XNaN) at 1. rewrite map_length, Lw. reflexivity.
  - intros t k Ht Hk. rewrite nth_mean_bary by auto. pose proof (at_step_assigned xs u Lw n (fun _ => everywhere) qs Hn0 FP qs (eq_sym SQ) t) as K.
    rewrite K, EA by auto. unfold wxsum, wsum. rewrite !map_map. cbn [fst snd]. f_equal.
    + rewrite (map_nth_seq _ (combine xs u) ([], 0)). rewrite combine_length, Lw, Nat.min_id. apply rsum_map_ext. intros i Hi. apply in_seq in Hi.
      rewrite combine_nth by auto. reflexivity.
    + f_equal. rewrite <- Lw. symmetry. apply list_nth_seq.
  - intros b' Hb' Lb'.
    assert (T : total (mean_bary n d (entries xs u qs)) (entries xs u qs) <= total b' (entries xs u qs)).
    { apply mean_bary_least.
      - intros t Ht. destruct Hb' as (_ & _ & R1). apply R1. apply nth_In. lia.
      - intros e He. destruct (entries_ok d xs u Hx Lw Hw n (fun _ => everywhere) qs Hn0 FP e He) as (A1 & A2 & _). auto.
      - intros t Ht. apply (entries_pos d xs u Hx Hne Lw Hw n (fun _ => everywhere) qs Hn0 FP t Ht). }
    rewrite !total_entries in T by auto. unfold wcost in T.
    assert (EC : forall b, map (fun p : R * R => fst p * snd p) (combine (map (fun px => cost (costs b (snd px)) (fst px)) (combine qs xs)) u) =
      map (fun p => euclid2 b (fst p) * snd p) (combine xs u)).
    { intros b. unfold qs. rewrite combine_repeat_l by auto. rewrite map_map. cbn [fst snd]. clearbody u. clear -Hn. revert u. induction xs as [|x l IH]; intros [|a u]; simpl; auto.
      f_equal; [|apply IH; intros; apply Hn; right; auto]. rewrite <- (Hn x) by (left; auto). rewrite cost_diagonal. reflexivity. }
    rewrite !EC in T. exact T.
Qed.
Print Assumptions C83_least_squares.

(** ** Cases that meet the hypotheses *)
Definition ex_xs : list (list (list R)) := [[[0]; [1]; [3]]; [[2]; [4]]].
Definition ex_b : list (list R) := [[0]; [5]].
Lemma ex_dataset : weighted_dataset 1 ex_xs [1; 2].
Proof.
  split; [discriminate|]. split.
  - intros x [<-|[<-|[]]]; (split; [lia|split; [discriminate|]]); intros r Hr; simpl in Hr; intuition; subst; reflexivity.
  - split; [reflexivity|]. intros a [<-|[<-|[]]]; lra.
Qed.
Lemma ex_b_real : real_series 1 ex_b.
Proof. split; [lia|split; [discriminate|]]. intros r Hr; simpl in Hr; intuition; subst; reflexivity. Qed.
Definition ex_mp : metric_params := {| mp_gc := KeyCode 2; mp_radius := Some 1%Z; mp_slope := None |}.
Example C48_case : exists b, dba (padded 1 3 ex_xs) None (Some (lift ex_b)) 5 (XR (1/100)) (Some (map XR [1; 2])) ex_mp 1 = Ok (Some (lift b)) /\ length b = 2%nat.
Proof.
  destruct (C48_dba 1 3 ex_xs (Some [1; 2]) ex_mp (fun m => band 2 m 1) None ex_b 4 (XR (1/100)) 0 ex_dataset ex_b_real) as (b & E & _ & L & _).
  - intros x Hx. split; [|exact I]. split; [simpl; lia|reflexivity].
  - exists b. split; auto.
Qed.
Example C48_petitjean_case : exists b, dba_petitjean (padded 1 3 ex_xs) None (Some (lift ex_b)) 5 (XR (1/100)) (Some (map XR [1; 2])) ex_mp = Ok (lift b) /\ length b = 2%nat.
Proof.
  destruct (C48_petitjean 1 3 ex_xs (Some [1; 2]) ex_mp (fun m i j => band m 2 1 j i) None ex_b 4 (XR (1/100)) ex_dataset ex_b_real) as (b & E & _ & L & _).
  - intros x Hx. split; [|exact I]. split; [simpl; lia|reflexivity].
  - exists b. split; auto.
Qed.
Example C51_case : exists b, dba (padded 1 7 ex_xs) (Some 4%nat) None 3 (XR 0) None no_params 2 = Ok (Some (lift b)) /\ length b = 4%nat.
Proof.
  destruct (C51_returns_size 1 7 ex_xs None no_params (fun _ => everywhere) (Some 4%nat) 2 (XR 0) 1) as (b & E & _ & L).
  - destruct ex_dataset as (A1 & A2 & _). split; auto. split; auto. split; [reflexivity|]. intros a [<-|[<-|[]]]; lra.
  - simpl. lia.
  - left. simpl. lia.
  - intros x _. split; [reflexivity|exact I].
  - exists b. split; auto.
Qed.
(** a series whose cheapest alignment with [b] is unique: of two points against one *)
Example C49_unique_case : petitjean_step (padded 1 2 [[[0]; [1]]]) (lift [[3]]) 1 (map XR [2]) no_params = mm_step (padded 1 2 [[[0]; [1]]]) (lift [[3]]) 1 (map XR [2]) no_params.
Proof.
  assert (HB : forall r, In r [[0]; [1]] -> length r = 1%nat) by (intros r [<-|[<-|[]]]; reflexivity).
  apply (C49_same_when_unique 1 2 [[[0]; [1]]] [2] no_params (fun _ => everywhere) [[3]]).
  - split; [discriminate|]. split; [|split; [reflexivity|intros a [<-|[]]; lra]]. intros x [<-|[]]. split; [lia|]. split; [discriminate|]. auto.
  - intros x [<-|[]]. simpl. lia.
  - split; [lia|]. split; [discriminate|]. intros r [<-|[]]. reflexivity.
  - intros; split; [reflexivity|exact I].
  - intros; split; [reflexivity|exact I].
  - intros x p q v [<-|[]] (Hp & _) (Hq & _).
    assert (U : forall p, warping_path 1 2 everywhere p -> p = [(0, 0); (0, 1)]%nat); [|rewrite (U p Hp), (U q Hq); reflexivity].
    clear. intros p (F & L & K & _). unfold first_is, last_is in *. destruct p as [|c p]; [discriminate|]. injection F as ->.
    destruct p as [|c p]; [discriminate|]. destruct K as [K1 K2]. unfold move in K1. destruct c as [i j]. simpl in K1.
    assert (BND : forall l i j, linked move ((i, j) :: l) -> nth_error ((i, j) :: l) (length ((i, j) :: l) - 1) = Some (0, 1)%nat -> (i <= 0)%nat /\ (j <= 1)%nat).
    { clear. induction l as [|[i' j'] l IH]; intros i j H1 H2.
      - injection H2 as -> ->. lia.
      - destruct H1 as [H1 H3]. simpl in H2. rewrite ?Nat.sub_0_r in H2. destruct (IH i' j' H3) as [B1 B2]; [simpl; rewrite Nat.sub_0_r; exact H2|].
        unfold move in H1. simpl in H1. lia. }
    destruct (BND p i j K2) as [B1 B2]; [simpl in L |- *; rewrite ?Nat.sub_0_r in *; exact L|].
    assert (i = 0%nat /\ j = 1%nat) as [-> ->] by lia. f_equal. f_equal. destruct p as [|[i j] p]; auto. exfalso.
    destruct K2 as [K2 K3]. unfold move in K2. simpl in K2. destruct (BND p i j K3) as [B3 B4]; [simpl in L |- *; rewrite ?Nat.sub_0_r in *; exact L|]. lia.
Qed.
Example C83_case : exists b, euclidean_barycenter (map lift [[[0]; [1]]; [[2]; [4]]]) None = Ok (lift b) /\ length b = 2%nat.
Proof.
  destruct (C83_least_squares 1 2 [[[0]; [1]]; [[2]; [4]]] None) as (b & E & _ & L & _).
  - split; [discriminate|]. split; [|split; [reflexivity|intros a [<-|[<-|[]]]; lra]].
    intros x [<-|[<-|[]]]; (split; [lia|split; [discriminate|]]); intros r Hr; simpl in Hr; intuition; subst; reflexivity.
  - intros x [<-|[<-|[]]]; reflexivity.
  - exists b. auto.
Qed.

(** C163, C164: TimeSeriesKMeans with the soft-DTW metric.  Exact reals; any
    initialisation, any optimiser that does not report a point worse than its start. *)
From Coq Require Import Bool List Arith Lia ZArith QArith Reals Lra Permutation.
From Verif Require Import Num NumLaws Py Series Masks DtwModel Spec SpecDtw RList RealSeries PathSum PaaModel PaaThms PreModel PropScale PropResample PropCtw
  GakModel SoftModel Dataset DpProofs DtwProofs ValidThms CdistThms PropCdist CdistGen BaryModel BaryThms BaryReal PropBary IntSeries PropBary2
  ClusterModel ClusterThms PropCluster PropCluster2 KInitModel PropKInit SoftBaryModel PropSoft PropSoftCdist PropSoftBary PropSoftBary2 SoftKmeansModel SoftKmeansThms.
Import ListNotations.
Local Open Scope R_scope.

(** ** Specification *)
(** the public soft-DTW value between two series *)
Definition soft_value (p : soft_params) (x c : rser) : R :=
  real_of (soft_dtw BNumpy (Raw2 (lift x)) (Raw2 (lift c)) (sk_gamma p) (sk_gc p) (sk_radius p) (sk_slope p)).
(** the optimiser reports nothing worse than its start, every thread's result arrives *)
Definition engine_ok (en : engine) : Prop := descends (en_minimize en) /\ forall n, Permutation (en_order en n) (seq 0 n).
(** [d]-variate series of any lengths, gamma > 0, no constraint or a band *)
Definition soft_setting (d : nat) (p : soft_params) (xs : list rser) : Prop :=
  xs <> [] /\ (forall x, In x xs -> real_series d x) /\ 0 < sk_gamma p /\ positive_slope (sk_slope p) /\
  not_itakura (sk_gc p) (sk_slope p) /\ exists n m A, constraint n m (sk_gc p) (sk_radius p) (sk_slope p) A.
(** [cs] are centres for [p]: as many as clusters, all of length [cz] *)
Definition centres (d cz : nat) (p : soft_params) (cs : list rser) : Prop :=
  length cs = sk_clusters p /\ cs <> [] /\ of_shape cz d cs.
(** every series has the label of its first closest centre *)
Definition labelled (loss : rser -> rser -> R) (xs cs : list rser) (labels : list nat) : Prop :=
  length labels = length xs /\ forall n, (n < length xs)%nat -> closest loss cs (nth n xs []) (nth n labels 0%nat).

(** ** lemmas *)
Lemma soft_value_spec d p xs x c : soft_setting d p xs -> real_series d x -> real_series d c ->
  soft_dtw BNumpy (Raw2 (lift x)) (Raw2 (lift c)) (sk_gamma p) (sk_gc p) (sk_radius p) (sk_slope p) = Ok (XR (soft_value p x c)).
Proof.
  intros (_ & _ & Hg & Hs & Hni & n & m & A & HA) Hx Hc. destruct (constraint_any n m _ _ _ A Hni HA (length x) (length c)) as (B & HB).
  unfold soft_value. rewrite (soft_public BNumpy d _ _ _ _ _ _ B) by auto. reflexivity.
Qed.
Lemma soft_value_sym d p xs x c : soft_setting d p xs -> real_series d x -> real_series d c -> soft_value p c x = soft_value p x c.
Proof.
  intros (_ & _ & Hg & Hs & Hni & n & m & A & HA) Hx Hc. destruct (constraint_any n m _ _ _ A Hni HA (length c) (length x)) as (B & HB).
  unfold soft_value. f_equal. apply (C29_soft_dtw_symmetric BNumpy d) with (allowed := B); auto. lra.
Qed.
Lemma soft_rows d cz p xs cs : soft_setting d p xs -> cs <> [] -> of_shape cz d cs ->
  soft_transform p (map lift cs) (map (pad_to d (lmax xs)) xs) = Ok (map (fun x => map (fun c => XR (soft_value p x c)) cs) xs).
Proof.
  intros HS Nc Hc. pose proof HS as (Hne & Hx & Hg & Hs & Hni & n & m & A & HA). destruct (gc_total _ _ _ _ _ _ HA) as (code & EC).
  unfold soft_transform, cdist_soft_rows, cdist_soft_dtw_generic. rewrite is_zero_false by auto. rewrite EC. cbn [bind].
  set (dist := fun s1 s2 => soft_dtw_generic BNumpy s1 s2 (sk_gamma p) code (sk_radius p) (sk_slope p)).
  assert (V : forall x c, In x xs -> In c cs -> dist (lift x) (lift c) = Ok (XR (soft_value p x c))).
  { intros x c Ix Ic. destruct (Hc c Ic) as [Rc Lc].
    destruct (soft_lift_generic d x c _ _ _ _ _ Hg (Hx x Ix) Rc (soft_value_spec d p xs x c HS (Hx x Ix) Rc)) as (code' & EC' & EV).
    assert (code' = code) by congruence. subst code'. exact EV. }
  assert (U1 : uniform (N:=Xnum) d (map Raw2 (map lift xs))) by (apply uniform_lift; auto).
  assert (U2 : uniform (N:=Xnum) d (map Raw2 (map lift cs))) by (apply uniform_lift; intros c Ic; apply Hc; auto).
  pose proof (variable_length_lift d xs Hx) as D1. pose proof (variable_length_lift d cs (fun c Ic => proj1 (Hc c Ic))) as D2.
  assert (EP : map (pad_to d (list_max (map (@length _) cs))) cs = map lift cs).
  { apply map_ext_in. intros c Ic. apply pad_to_same. rewrite (list_max_same cs cz Nc) by (intros; apply Hc; auto). apply Hc; auto. }
  rewrite EP in D2. fold (lmax xs) in D1. unfold variable_length in D1, D2.
  assert (L1 : length (map Raw2 (map lift xs)) = length xs) by (rewrite !map_length; auto).
  assert (L2 : length (map Raw2 (map lift cs)) = length cs) by (rewrite !map_length; auto).
  assert (VV : forall i k, (i < length xs)%nat -> (k < length cs)%nat ->
     dist (CdistGen.strip (item (map Raw2 (map lift xs)) i)) (CdistGen.strip (item (map Raw2 (map lift cs)) k)) = Ok (XR (soft_value p (nth i xs []) (nth k cs [])))).
  { intros i k Hi Hk. rewrite !item_lift. assert (Ix : In (nth i xs []) xs) by (apply nth_In; auto). assert (Ic : In (nth k cs []) cs) by (apply nth_In; auto).
    rewrite !(strip_raw d) by (auto; apply Hc; auto). apply V; auto. }
  destruct (gen_cross_returns Xnum eq_refl dist d d (map Raw2 (map lift xs)) (map Raw2 (map lift cs)) _ _ true Sequential U1 U2 I D1 D2) as (M & EM).
  { rewrite L1, L2. intros i k Hi Hk. eexists. apply VV; auto. }
  pose proof (gen_cross Xnum eq_refl dist d d (map Raw2 (map lift xs)) (map Raw2 (map lift cs)) _ _ true Sequential M U1 U2 I D1 D2 EM) as HM.
  rewrite L1, L2 in HM. refine (eq_trans (f_equal (fun q => bind q _) EM) _). cbn [bind]. f_equal. unfold table. rewrite !map_length.
  rewrite (map_nth_seq (fun x => map (fun c => XR (soft_value p x c)) cs) xs []). apply map_ext_in. intros i Hi. apply in_seq in Hi.
  rewrite (map_nth_seq (fun c => XR (soft_value p (nth i xs []) c)) cs []). apply map_ext_in. intros k Hk. apply in_seq in Hk.
  unfold rser in *. specialize (HM i k ltac:(lia) ltac:(lia)). rewrite VV in HM by lia. injection HM as <-. reflexivity.
Qed.
Lemma objective_ones gamma g r s xs Z : objective gamma g r s (repeat 1 (length xs)) xs Z =
  rsum (map (fun x => real_of (soft_dtw BNumpy (Raw2 (lift Z)) (Raw2 (lift x)) gamma g r s)) xs).
Proof. unfold objective. induction xs as [|x xs IH]; simpl; auto. simpl in IH. rewrite IH. lra. Qed.
Lemma soft_center_run en d cz p xs labels k c : engine_ok en -> soft_setting d p xs -> cluster xs labels k <> [] ->
  real_series d c /\ length c = cz ->
  exists c', soft_center en p (map (pad_to d (lmax xs)) xs) labels k (lift c) = Ok (lift c') /\ (real_series d c' /\ length c' = cz) /\
    rsum (map (fun x => soft_value p x c') (cluster xs labels k)) <= rsum (map (fun x => soft_value p x c) (cluster xs labels k)).
Proof.
  intros [HD HO] HS Hk [Rc Lc]. pose proof HS as (Hne & Hx & Hg & Hs & Hni & n & m & A & HA). destruct (gc_total _ _ _ _ _ _ HA) as (code & EC).
  set (ys := cluster xs labels k) in *. assert (Hy : forall y, In y ys -> real_series d y) by (intros y Iy; apply Hx; eapply cluster_in; exact Iy).
  unfold soft_center. rewrite members_map. fold ys. rewrite map_length.
  destruct (C118_init (en_minimize en) (en_garbage en) (en_order en (length ys)) d (lmax xs) c ys None (sk_max_bary p) (sk_gamma p) (sk_gc p) (sk_radius p) (sk_slope p) code)
    as (b & E & Rb & Lb & Le); auto.
  - apply repeat_length.
  - intros x Ix. apply (constraint_any n m _ _ _ A); auto.
  - exists b. split; [exact E|]. split; [split; [auto|congruence]|]. cbn [weights_in_force] in Le. rewrite !objective_ones in Le.
    assert (F : forall z, real_series d z -> map (fun x => soft_value p x z) ys = map (fun x => real_of (soft_dtw BNumpy (Raw2 (lift z)) (Raw2 (lift x)) (sk_gamma p) (sk_gc p) (sk_radius p) (sk_slope p))) ys).
    { intros z Hz. apply map_ext_in. intros x Ix. rewrite <- (soft_value_sym d p xs x z) by auto. reflexivity. }
    rewrite (F b Rb), (F c Rc). exact Le.
Qed.
(** the distances that make up [inertia_] *)
Definition inertia_distance (p : soft_params) (x c : rser) : R :=
  if sk_dtw_inertia p then real_of (dtw (N:=Xnum) (Raw2 (lift x)) (Raw2 (lift c)) GcNone None None) else soft_value p x c.
Lemma inertia_rows d cz p xs cs : soft_setting d p xs -> cs <> [] -> of_shape cz d cs ->
  (if sk_dtw_inertia p then cdist_dtw_rows GcNone None None (map (pad_to d (lmax xs)) xs) (map lift cs)
   else Ok (map (fun x => map (fun c => XR (soft_value p x c)) cs) xs)) = Ok (map (fun x => map (fun c => XR (inertia_distance p x c)) cs) xs).
Proof.
  intros HS Nc Hc. unfold inertia_distance. destruct (sk_dtw_inertia p); [|reflexivity]. pose proof HS as (Hne & Hx & _).
  pose (q := {| n_clusters := 0; max_iter := 0; tol := XR 0; n_init := 0; km_met := KmDtw None None None; dtw_inertia := false |}).
  assert (D : dtw_setting d cz (fun _ => everywhere) None None xs) by (split; [auto|split; [auto|split; [exact I|intros; reflexivity]]]).
  pose (loss := fun x c => match elastic_generic (N:=Xnum) comb_dtw (lift x) (lift c) 0 None None with Ok (XR v) => v * v | _ => 0 end).
  assert (HL : squared_dtw d cz (fun _ => everywhere) xs loss).
  { intros x c Ix Rc Lc. destruct (elastic_value d None None x c everywhere (Hx x Ix) Rc) as (v & E & L & P); [reflexivity|exact I|].
    unfold loss. rewrite E. rewrite sqrt_sqrt by auto. exact L. }
  pose proof (transform_dtw q d cz _ None None xs loss cs eq_refl D HL Nc Hc) as T. unfold transform_, q in T. cbn [km_met name_or_none] in T. rewrite T.
  f_equal. apply map_ext_in. intros x Ix. apply map_ext_in. intros c Ic. destruct (Hc c Ic) as [Rc _].
  destruct (elastic_value d None None x c everywhere (Hx x Ix) Rc) as (v & E & L & P); [reflexivity|exact I|].
  unfold loss, dtw, elastic. rewrite (validated_finite Xnum xnn xfin Xlaws d) by (apply lift_finite; auto).
  cbn [gc_code bind]. rewrite E. cbn [real_of]. rewrite sqrt_sqrt by auto. reflexivity.
Qed.
Lemma centres_admissible d cz p cs : centres d cz p cs <-> admissible p (fun c => real_series d c /\ length c = cz) cs.
Proof. reflexivity. Qed.
Lemma nearests_labelled loss xs cs : cs <> [] -> labelled loss xs cs (nearests xs loss cs).
Proof.
  intros NE. split; [apply nearests_len|]. intros n Hn. unfold nearests. rewrite (nth_indep _ 0%nat (nearest loss cs [])) by (rewrite map_length; auto).
  rewrite map_nth. apply nearest_spec. auto.
Qed.

(** ** C163 *)
(** An iteration: either a cluster is empty, or every series is given its first
    closest centre, the update keeps the shape of the centres and does not increase
    the mean soft-DTW value, nor does the next assignment.  [inertia_] is the mean of
    the squared distances. *)
Theorem C163_iteration : forall en d cz p xs cs st, engine_ok en -> soft_setting d p xs -> centres d cz p cs ->
  cluster_centers_ st = Some (map lift cs) ->
  let X := PropBary.padded d (lmax xs) xs in
  (exists s1, soft_assign p X st = (s1, Err EmptyClusterError)) \/
  exists labels s1 s2 cs', soft_assign p X st = (s1, Ok labels) /\ labelled (soft_value p) xs cs labels /\
    inertia_ s1 = XR (mean_loss (squares (inertia_distance p)) xs cs labels) /\
    soft_update en p X (seq 0 (sk_clusters p)) s1 = (s2, Ok tt) /\ cluster_centers_ s2 = Some (map lift cs') /\ centres d cz p cs' /\
    mean_loss (soft_value p) xs cs' labels <= mean_loss (soft_value p) xs cs labels /\
    forall s3 labels3, soft_assign p X s2 = (s3, Ok labels3) ->
      labelled (soft_value p) xs cs' labels3 /\ mean_loss (soft_value p) xs cs' labels3 <= mean_loss (soft_value p) xs cs labels.
Proof.
  intros en d cz p xs cs st HE HS HC Hst. cbn zeta. set (good := fun c : rser => real_series d c /\ length c = cz).
  assert (HT : forall cs, cs <> [] -> (forall c, In c cs -> good c) -> soft_transform p (map lift cs) (map (pad_to d (lmax xs)) xs) = Ok (map (fun x => map (fun c => XR (soft_value p x c)) cs) xs))
    by (intros; apply (soft_rows d cz); auto).
  assert (HI := fun cs => inertia_rows d cz p xs cs HS).
  assert (HU : forall labels k c, length labels = length xs -> cluster xs labels k <> [] -> good c ->
     exists c', soft_center en p (map (pad_to d (lmax xs)) xs) labels k (lift c) = Ok (lift c') /\ good c' /\
     rsum (map (fun x => soft_value p x c') (cluster xs labels k)) <= rsum (map (fun x => soft_value p x c) (cluster xs labels k)))
    by (intros; apply soft_center_run; auto).
  assert (Hxs : xs <> []) by apply HS. unfold PropBary.padded.
  destruct (soft_iteration en p (pad_to d (lmax xs)) xs good (soft_value p) (inertia_distance p) Hxs HT HI HU cs st HC Hst)
    as [[_ EA]|(s1 & s2 & EA & I1 & EU & cs' & V2 & C2 & L2 & F2 & I2 & D2)]; [left; eauto|right].
  exists (nearests xs (soft_value p) cs), s1, s2, cs'. split; [exact EA|]. split; [apply nearests_labelled; apply HC|]. split; [exact I1|].
  split; [exact EU|]. split; [exact C2|]. split; [exact V2|]. split; [exact D2|]. intros s3 labels3 E3.
  pose proof (eq_trans (eq_sym E3) (soft_assign_run en p (pad_to d (lmax xs)) xs good (soft_value p) (inertia_distance p) Hxs HT HI HU cs' s2 V2 C2)) as E4.
  destruct (no_empty_cluster _ _); [|discriminate]. assert (labels3 = nearests xs (soft_value p) cs') as -> by congruence. split; [apply nearests_labelled; apply V2|].
  apply (settled_next en p (pad_to d (lmax xs)) xs good (soft_value p) (inertia_distance p) Hxs HT HI HU cs cs'); auto.
Qed.
Print Assumptions C163_iteration.

(** what the general lemmas need *)
Lemma setting_T d cz p xs : soft_setting d p xs -> forall cs, cs <> [] -> (forall c, In c cs -> real_series d c /\ length c = cz) ->
  soft_transform p (map lift cs) (map (pad_to d (lmax xs)) xs) = Ok (map (fun x => map (fun c => XR (soft_value p x c)) cs) xs).
Proof. intros HS cs NE Hc. apply (soft_rows d cz); auto. Qed.
Lemma setting_I d cz p xs : soft_setting d p xs -> forall cs, cs <> [] -> (forall c, In c cs -> real_series d c /\ length c = cz) ->
  (if sk_dtw_inertia p then cdist_dtw_rows GcNone None None (map (pad_to d (lmax xs)) xs) (map lift cs)
   else Ok (map (fun x => map (fun c => XR (soft_value p x c)) cs) xs)) = Ok (map (fun x => map (fun c => XR (inertia_distance p x c)) cs) xs).
Proof. intros HS cs NE Hc. apply (inertia_rows d cz); auto. Qed.
Lemma setting_U en d cz p xs : engine_ok en -> soft_setting d p xs -> forall labels k c, length labels = length xs -> cluster xs labels k <> [] ->
  real_series d c /\ length c = cz ->
  exists c', soft_center en p (map (pad_to d (lmax xs)) xs) labels k (lift c) = Ok (lift c') /\ (real_series d c' /\ length c' = cz) /\
    rsum (map (fun x => soft_value p x c') (cluster xs labels k)) <= rsum (map (fun x => soft_value p x c) (cluster xs labels k)).
Proof. intros HE HS labels k c _ Hk Hc. apply soft_center_run; auto. Qed.
Lemma soft_input p i d cz M xs : xs <> [] -> (forall x, In x xs -> real_series d x) -> fits M xs ->
  (forall n, exists cs, draws i n = Ok (map lift cs) /\ centres d cz p cs) ->
  fit_input (other_metric p) i (PropBary.padded d M xs) = Ok (PropBary.padded d M xs) /\ check_initial_guess (other_metric p) i = Ok tt.
Proof.
  intros Hne Hx HM Hi. split.
  - apply (padded_input (other_metric p) i d None None); auto; [reflexivity|]. intros C ->. destruct (Hi 0%nat) as (cs & E0 & _ & NE & Hc).
    injection E0 as ->. destruct (arr_shape cz d cs NE Hc). auto.
  - unfold check_initial_guess. destruct i; auto. destruct (Hi 0%nat) as (cs & E0 & L & _). injection E0 as ->. rewrite map_length.
    cbn [other_metric n_clusters]. unfold rser in *. rewrite L, Nat.eqb_refl. auto.
Qed.
Lemma lift_map_inj cs cs' : map lift cs = map lift cs' -> cs = cs'.
Proof. revert cs'. induction cs as [|a l IH]; intros [|b l'] H; simpl in H; try discriminate; auto. injection H as H1 H2. f_equal; auto. apply lift_inj; auto. Qed.
Lemma labelled_lt loss xs cs labels : labelled loss xs cs labels -> forall l, In l labels -> (l < length cs)%nat.
Proof.
  intros [L H] l Hl. apply (In_nth _ _ 0%nat) in Hl. destruct Hl as (n & Hn & <-). apply H. lia.
Qed.

(** The reported clustering: labels of the reported centres, every cluster occupied,
    and a mean soft-DTW value not above that of the initial centres of one attempt,
    whatever the labels given to the latter. *)
Theorem C163_reported : forall en d cz p M xs i s0 s', engine_ok en -> soft_setting d p xs -> fits M xs -> sk_max_iter p <> 0%nat ->
  (forall n, exists cs, draws i n = Ok (map lift cs) /\ centres d cz p cs) ->
  soft_fit en p i (PropBary.padded d M xs) s0 = (s', Ok tt) -> X_fit_ s' <> None ->
  exists cs labels n cs0, centres d cz p cs /\ cluster_centers_ s' = Some (map lift cs) /\
    labels_ s' = Some labels /\ labelled (soft_value p) xs cs labels /\ (forall k, (k < sk_clusters p)%nat -> In k labels) /\
    draws i n = Ok (map lift cs0) /\ centres d cz p cs0 /\
    forall labels0, length labels0 = length xs -> (forall l, In l labels0 -> (l < sk_clusters p)%nat) ->
      mean_loss (soft_value p) xs cs labels <= mean_loss (soft_value p) xs cs0 labels0.
Proof.
  intros en d cz p M xs i s0 s' HE HS HM Hm Hi E Nf. pose proof HS as (Hne & Hx & _). destruct (soft_input p i d cz M xs Hne Hx HM Hi) as [E1 E2].
  pose proof (soft_fit_run en p (pad_to d (lmax xs)) xs (fun c => real_series d c /\ length c = cz) (soft_value p) (inertia_distance p) Hne
    (setting_T d cz p xs HS) (setting_I d cz p xs HS) (setting_U en d cz p xs HE HS) (PropBary.padded d M xs) i E1 (variable_length_padded d M xs Hx) E2 Hm) as F.
  assert (Hi' : forall n, exists C cs, draws i n = Ok C /\ check_full_length C = Ok (map lift cs) /\ admissible p (fun c => real_series d c /\ length c = cz) cs).
  { intros n. destruct (Hi n) as (cs & E0 & HC). exists (map lift cs), cs. split; auto. split; [|exact HC]. apply (check_full_length_shape cz d); apply HC. }
  specialize (F Hi' s0). cbn zeta in F. rewrite E in F. cbn [fst snd] in F. destruct F as [(_ & F)|[(_ & _ & cs & V & Im & C & L & Fu)|(F & _)]]; [congruence| |discriminate].
  destruct Im as (n & C0 & cs0 & D0 & CF & V0 & Le). exists cs, (nearests xs (soft_value p) cs), n, cs0.
  split; [exact V|]. split; [exact C|]. split; [exact L|]. split; [apply nearests_labelled; apply V|]. split; [exact Fu|].
  assert (C0 = map lift cs0).
  { destruct (Hi n) as (cs1 & E0 & HC). rewrite D0 in E0. injection E0 as ->. rewrite (check_full_length_shape cz d) in CF by apply HC. congruence. }
  subst C0. split; [exact D0|]. split; [exact V0|]. intros labels0 Hl Hlt. eapply Rle_trans; [exact Le|].
  apply (near_least en p (pad_to d (lmax xs)) xs (fun c => real_series d c /\ length c = cz) (soft_value p) (inertia_distance p) Hne
    (setting_T d cz p xs HS) (setting_I d cz p xs HS) (setting_U en d cz p xs HE HS)); auto.
Qed.
Print Assumptions C163_reported.

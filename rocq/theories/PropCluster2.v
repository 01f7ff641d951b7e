(** C84: TimeSeriesKMeans with the DTW metric.  Exact reals; any initialisation. *)
From Coq Require Import Bool List Arith Lia ZArith QArith Reals Lra.
From Verif Require Import Num NumLaws Py Series Masks DtwModel Spec SpecDtw RList RealSeries PaaModel PaaThms PreModel PropScale PropResample PropCtw
  GakModel SoftModel Dataset DpProofs DtwProofs ValidThms CdistThms PropCdist CdistGen BaryModel BaryThms BaryReal PropBary IntSeries PropBary2 ClusterModel ClusterThms PropCluster.
Import ListNotations.
Local Open Scope R_scope.

(** ** Specification *)
(** [metric="dtw"] without the key "global_constraint" in [metric_params] *)
Definition dtw_kmeans (p : km_params) (radius : option Z) (slope : option Q) : Prop := km_met p = KmDtw None radius slope.
(** [loss x c] is the squared DTW distance between a series and a centre of length
    [cz]; [A n] are the cells allowed for a series of length [n] *)
Definition squared_dtw (d cz : nat) (A : nat -> nat -> nat -> bool) (xs : list rser) (loss : rser -> rser -> R) : Prop :=
  forall x c, In x xs -> real_series d c -> length c = cz -> least_align x c (A (length x)) (loss x c).
(** a dataset of [d]-variate series of any lengths, centres of length [cz] and the
    cells that the constraint allows between them *)
Definition dtw_setting (d cz : nat) (A : nat -> nat -> nat -> bool) (radius : option Z) (slope : option Q) (xs : list rser) : Prop :=
  xs <> [] /\ (forall x, In x xs -> real_series d x) /\ positive_slope slope /\
  forall x, In x xs -> constraint (length x) cz GcNone radius slope (A (length x)).

(** ** lemmas *)
Definition lmax (xs : list rser) : nat := list_max (map (@length _) xs).
Lemma generic_of_path s1 s2 code r s p v : elastic_path_generic (N:=Xnum) comb_dtw s1 s2 code r s = Ok (p, v) ->
  elastic_generic (N:=Xnum) comb_dtw s1 s2 code r s = Ok v.
Proof.
  unfold elastic_path_generic, elastic_generic. destruct (compute_mask _ _ _ _ _) as [mask|e]; [|discriminate]. cbn [bind].
  destruct (compute_path _ _ _); [|discriminate]. intros E. injection E as _ <-. reflexivity.
Qed.
Lemma best_least s1 s2 A p v : best_path s1 s2 A p v -> least_align s1 s2 A v.
Proof. intros (H1 & H2 & H3). split; eauto. Qed.
Lemma least_swap s1 s2 A v : least_align s1 s2 A v -> least_align s2 s1 (fun i j => A j i) v.
Proof.
  intros [(p & Hp & Ep) H]. apply (best_least _ _ _ (map swap p)). apply best_swap. split; auto.
Qed.
Lemma allows_none r s n m A : constraint n m GcNone r s A -> positive_slope s -> allows (dba_params None r s) n m A.
Proof. intros H Hs. split; auto. Qed.
Lemma elastic_value d r s x c A : real_series d x -> real_series d c -> constraint (length x) (length c) GcNone r s A -> positive_slope s ->
  exists v, elastic_generic (N:=Xnum) comb_dtw (lift x) (lift c) 0 r s = Ok (XR (sqrt v)) /\ least_align x c A v /\ 0 <= v.
Proof.
  intros Hx Hc HA Hs. destruct (njit_best (dba_params None r s) d x c A Hx Hc (allows_none r s _ _ A HA Hs)) as (p & v & E & B).
  exists v. split; [apply (generic_of_path _ _ _ _ _ p); exact E|]. split; [eapply best_least; eauto|].
  destruct B as (_ & <- & _). apply cost_nonneg. intros. apply sqd_nonneg.
Qed.
Lemma strip_raw d x : real_series d x -> CdistGen.strip (N:=Xnum) (Raw2 (lift x)) = lift x.
Proof. intros H. unfold CdistGen.strip. apply (strip_lift d x H). Qed.
Lemma item_lift l i : item (N:=Xnum) (map Raw2 (map lift l)) i = Raw2 (lift (nth i l [])).
Proof.
  unfold item. rewrite map_map. destruct (le_lt_dec (length l) i) as [L|L].
  - rewrite !nth_overflow by (rewrite ?map_length; auto). reflexivity.
  - rewrite (nth_indep _ _ (Raw2 (lift []))) by (rewrite map_length; auto). exact (map_nth (fun x => Raw2 (lift x)) l [] i).
Qed.
Lemma transform_dtw p d cz A r s xs loss cs : dtw_kmeans p r s -> dtw_setting d cz A r s xs -> squared_dtw d cz A xs loss ->
  cs <> [] -> (forall c, In c cs -> real_series d c /\ length c = cz) ->
  transform_ p (map lift cs) (map (pad_to d (lmax xs)) xs) = Ok (map (fun x => map (fun c => XR (sqrt (loss x c))) cs) xs).
Proof.
  intros Hp (Hne & Hx & Hs & HA) HL Nc Hc. unfold transform_. rewrite Hp. cbn [name_or_none]. unfold cdist_dtw_rows. cbn [gc_code bind].
  set (dist := fun s1 s2 => elastic_generic (N:=Xnum) comb_dtw s1 s2 0 r s).
  assert (V : forall x c, In x xs -> In c cs -> dist (lift x) (lift c) = Ok (XR (sqrt (loss x c)))).
  { intros x c Ix Ic. destruct (Hc c Ic) as [Rc Lc]. destruct (elastic_value d r s x c (A (length x)) (Hx x Ix) Rc) as (v & E & L & _); [rewrite Lc; auto|auto|].
    unfold dist. rewrite E. do 3 f_equal. apply (least_align_unique x c (A (length x))); auto. }
  assert (U1 : uniform (N:=Xnum) d (map Raw2 (map lift xs))) by (apply uniform_lift; auto).
  assert (U2 : uniform (N:=Xnum) d (map Raw2 (map lift cs))) by (apply uniform_lift; intros c Ic; apply Hc; auto).
  pose proof (variable_length_lift d xs Hx) as D1. pose proof (variable_length_lift d cs (fun c Ic => proj1 (Hc c Ic))) as D2.
  assert (EP : map (pad_to d (list_max (map (@length _) cs))) cs = map lift cs).
  { apply map_ext_in. intros c Ic. apply pad_to_same. rewrite (list_max_same cs cz Nc) by (intros; apply Hc; auto). apply Hc; auto. }
  rewrite EP in D2. fold (lmax xs) in D1. unfold variable_length in D1, D2.
  assert (L1 : length (map Raw2 (map lift xs)) = length xs) by (rewrite !map_length; auto).
  assert (L2 : length (map Raw2 (map lift cs)) = length cs) by (rewrite !map_length; auto).
  assert (VV : forall i k, (i < length xs)%nat -> (k < length cs)%nat ->
     dist (CdistGen.strip (item (map Raw2 (map lift xs)) i)) (CdistGen.strip (item (map Raw2 (map lift cs)) k)) = Ok (XR (sqrt (loss (nth i xs []) (nth k cs []))))).
  { intros i k Hi Hk. rewrite !item_lift. assert (Ix : In (nth i xs []) xs) by (apply nth_In; auto). assert (Ic : In (nth k cs []) cs) by (apply nth_In; auto).
    rewrite !(strip_raw d) by (auto; apply Hc; auto). apply V; auto. }
  destruct (gen_cross_returns Xnum eq_refl dist d d (map Raw2 (map lift xs)) (map Raw2 (map lift cs)) _ _ false Sequential U1 U2 I D1 D2) as (M & EM).
  { rewrite L1, L2. intros i k Hi Hk. eexists. apply VV; auto. }
  pose proof (gen_cross Xnum eq_refl dist d d (map Raw2 (map lift xs)) (map Raw2 (map lift cs)) _ _ false Sequential M U1 U2 I D1 D2 EM) as HM.
  rewrite L1, L2 in HM. refine (eq_trans (f_equal (fun q => bind q _) EM) _). cbn [bind]. f_equal. unfold table. rewrite !map_length.
  rewrite (map_nth_seq (fun x => map (fun c => XR (sqrt (loss x c))) cs) xs []). apply map_ext_in. intros i Hi. apply in_seq in Hi.
  rewrite (map_nth_seq (fun c => XR (sqrt (loss (nth i xs []) c))) cs []). apply map_ext_in. intros k Hk. apply in_seq in Hk.
  unfold rser in *. specialize (HM i k ltac:(lia) ltac:(lia)). rewrite VV in HM by lia. injection HM as <-. reflexivity.
Qed.
Lemma loss_of_objective d cz A xs loss b v : squared_dtw d cz A xs loss -> real_series d b -> length b = cz -> xs <> [] ->
  objective (fun m i j => A m j i) xs (repeat 1 (length xs)) b v -> v = rsum (map (fun x => loss x b) xs) / INR (length xs).
Proof.
  intros HL Hb Lb Hne (vs & F & ->). assert (E : vs = map (fun x => loss x b) xs).
  { apply (Forall2_unique (fun x c => least_align b x ((fun m i j => A m j i) (length x)) c) xs).
    - intros x c c'. apply least_align_unique.
    - exact F.
    - clear F Hne. assert (G : forall l, (forall x, In x l -> In x xs) -> Forall2 (fun x c => least_align b x (fun i j => A (length x) j i) c) l (map (fun x => loss x b) l)).
      { induction l as [|x l IH]; intros H; simpl; constructor.
        - apply (least_swap x b (A (length x))). apply HL; auto. apply H. simpl; auto.
        - apply IH. intros. apply H. simpl; auto. }
      apply G. auto. }
  subst vs. f_equal.
  - clear. induction xs as [|x l IH]; simpl; auto. rewrite IH. lra.
  - clear. induction (length xs) as [|n IH]; [reflexivity|]. rewrite S_INR. simpl. rewrite IH. lra.
Qed.
Lemma new_center_dtw p d cz A r s xs loss labels k c : dtw_kmeans p r s -> dtw_setting d cz A r s xs -> squared_dtw d cz A xs loss ->
  cluster xs labels k <> [] -> real_series d c /\ length c = cz ->
  exists c', new_center p (map (pad_to d (lmax xs)) xs) labels k (lift c) = Ok (lift c') /\ (real_series d c' /\ length c' = cz) /\ True /\
    rsum (map (fun x => loss x c') (cluster xs labels k)) <= rsum (map (fun x => loss x c) (cluster xs labels k)).
Proof.
  intros Hp (Hne & Hx & Hs & HA) HL Hk [Rc Lc]. set (ys := cluster xs labels k) in *.
  assert (Hy : forall y, In y ys -> In y xs) by (intros y; apply cluster_in).
  unfold new_center. rewrite Hp, members_map. fold ys.
  assert (HD : weighted_dataset d ys (weights_in_force None (length ys))).
  { split; auto. split; [auto|]. cbn [weights_in_force]. split; [apply repeat_length|]. intros a Ha. apply repeat_spec in Ha. subst. lra. }
  destruct (C48_petitjean d (lmax xs) ys None (dba_params None r s) (fun m i j => A m j i) None c 29 (XR (1 / 100000)) HD Rc) as (b & E & Rb & Lb & v & v0 & O & O0 & Le).
  { intros x Ix. apply allows_none; auto. rewrite Lc. apply HA. auto. }
  exists b. split; [exact E|]. split; [split; [auto|congruence]|]. split; [auto|].
  assert (HL' : squared_dtw d cz A ys loss) by (intros x' c' Ix; apply HL; auto).
  cbn [weights_in_force] in O, O0. rewrite (loss_of_objective d cz A ys loss b v HL' Rb) in Le by (auto; congruence).
  rewrite (loss_of_objective d cz A ys loss c v0 HL' Rc Lc Hk O0) in Le.
  assert (Hn : 0 < INR (length ys)) by (apply lt_0_INR; destruct ys; [congruence|simpl; lia]).
  apply (Rmult_le_compat_r (INR (length ys))) in Le; [|lra]. unfold Rdiv in Le. rewrite !Rmult_assoc, Rinv_l, !Rmult_1_r in Le by lra. exact Le.
Qed.
Lemma dtw_sound p d cz A r s xs loss : dtw_kmeans p r s -> dtw_setting d cz A r s xs -> squared_dtw d cz A xs loss ->
  sound p (pad_to d (lmax xs)) xs (fun c => real_series d c /\ length c = cz) loss (fun _ _ _ => True).
Proof.
  intros Hp HS HL. split; [apply HS|]. split; [rewrite Hp; simpl; apply andb_false_r|]. split; [|split].
  - intros x c Ix [Rc Lc]. destruct HS as (Hne & Hx & Hs & HA). destruct (elastic_value d r s x c (A (length x)) (Hx x Ix) Rc) as (v & _ & L & P); [rewrite Lc; auto|auto|].
    rewrite (least_align_unique x c (A (length x)) (loss x c) v); auto.
  - intros cs Nc Hc. apply (transform_dtw p d cz A r s); auto.
  - intros labels k c _ Hk Hc. apply (new_center_dtw p d cz A r s); auto.
Qed.
Lemma squared_dtw_exists d cz A r s xs : dtw_setting d cz A r s xs -> exists loss, squared_dtw d cz A xs loss.
Proof.
  intros (Hne & Hx & Hs & HA).
  exists (fun x c => match elastic_generic (N:=Xnum) comb_dtw (lift x) (lift c) 0 r s with Ok (XR v) => v * v | _ => 0 end).
  intros x c Ix Rc Lc. destruct (elastic_value d r s x c (A (length x)) (Hx x Ix) Rc) as (v & E & L & P); [rewrite Lc; auto|auto|].
  rewrite E. rewrite sqrt_sqrt by auto. exact L.
Qed.
Lemma padded_input p i d r s M xs : dtw_kmeans p r s -> xs <> [] -> (forall x, In x xs -> real_series d x) -> fits M xs ->
  (forall C, i = InitArray C -> arr_d C = d) -> fit_input p i (PropBary.padded d M xs) = Ok (PropBary.padded d M xs).
Proof.
  intros Hp Hne Hx HM Hi. pose proof (padded_shape d M xs Hx HM) as HS. unfold fit_input.
  assert (Hn : (0 < length xs)%nat) by (destruct xs; [congruence|simpl; lia]).
  assert (Hm : (0 < M)%nat). { destruct xs as [|x l]; [congruence|]. pose proof (HM x (or_introl eq_refl)). pose proof (real_len d x (Hx x (or_introl eq_refl))). lia. }
  assert (E0 : check_arr (PropBary.padded d M xs) = Ok (PropBary.padded d M xs)).
  { unfold check_arr. destruct (PropBary.padded d M xs) as [|x0 l] eqn:EP; [apply (f_equal (@length _)) in EP; unfold PropBary.padded in EP; rewrite map_length in EP; simpl in EP; lia|].
    rewrite <- EP in *. rewrite (arr_d_shape _ _ _ _ HS Hn Hm), (arr_sz_shape _ _ _ _ HS Hn).
    assert (W : forallb (fun s0 => (length s0 =? M) && forallb (fun r0 => length r0 =? d) s0) (PropBary.padded d M xs) = true).
    { apply forallb_forall. intros y Hy. destruct (proj2 HS y Hy) as [-> Hr]. rewrite Nat.eqb_refl. apply forallb_forall. intros r0 Hr0. rewrite Hr by auto. apply Nat.eqb_refl. }
    norm. rewrite W. reflexivity. }
  rewrite E0. cbn [bind]. 
  assert (CV : check_values p (PropBary.padded d M xs) = true).
  { unfold check_values. rewrite Hp. cbn [is_dtw]. apply forallb_forall. intros v Hv. apply in_concat in Hv. destruct Hv as (r0 & Hr & Hv). apply in_concat in Hr. destruct Hr as (s0 & Hs' & Hr).
    apply in_map_iff in Hs'. destruct Hs' as (x & <- & _). unfold pad_to in Hr. apply in_app_iff in Hr. destruct Hr as [Hr|Hr].
    - apply in_map_iff in Hr. destruct Hr as (y & <- & _). apply in_map_iff in Hv. destruct Hv as (z & <- & _). reflexivity.
    - apply repeat_spec in Hr. subst r0. apply repeat_spec in Hv. subst v. reflexivity. }
  rewrite CV. destruct i as [C|dr]; auto. rewrite (Hi C eq_refl), (arr_d_shape _ _ _ _ HS Hn Hm), Hp, Nat.eqb_refl. reflexivity.
Qed.

(** ** C84: an iteration: every series is assigned to its first closest centre; the
    update succeeds, keeps the length of the centres, and the next assignment has no
    larger inertia *)
Theorem C84_iteration : forall p d cz A r s xs loss cs st, dtw_kmeans p r s -> dtw_setting d cz A r s xs -> squared_dtw d cz A xs loss ->
  length cs = n_clusters p -> cs <> [] -> of_shape cz d cs -> cluster_centers_ st = Some (map lift cs) ->
  let X := PropBary.padded d (lmax xs) xs in
  (exists s1, assign_ p X st = (s1, Err EmptyClusterError)) \/
  exists labels v s1 s2 cs', assign_ p X st = (s1, Ok labels) /\ length labels = length xs /\
    (forall n, (n < length xs)%nat -> closest loss cs (nth n xs []) (nth n labels 0%nat)) /\
    inertia_ s1 = XR v /\ v = mean_loss loss xs cs labels /\
    update_centroids_ p X (seq 0 (n_clusters p)) s1 = (s2, Ok tt) /\ cluster_centers_ s2 = Some (map lift cs') /\
    (forall k, (k < n_clusters p)%nat -> real_series d (nth k cs' []) /\ length (nth k cs' []) = cz) /\
    forall s3 labels3, assign_ p X s2 = (s3, Ok labels3) -> exists v3, inertia_ s3 = XR v3 /\ v3 <= v.
Proof.
  intros p d cz A r s xs loss cs st Hp HS HL Lc NE Hc HC. cbn zeta.
  destruct (sound_iteration _ _ _ _ _ _ (dtw_sound p d cz A r s xs loss Hp HS HL) cs st Lc NE Hc HC) as [K|(labels & v & s1 & s2 & cs' & K1 & B & C & D & E & F & G & H & I)]; [left; auto|right].
  exists labels, v, s1, s2, cs'. split; [exact K1|]. split; auto. split; auto. split; auto. split; auto. split; [exact F|]. split; auto. split; [intros k Hk; apply H; auto|exact I].
Qed.
Print Assumptions C84_iteration.
Theorem C84_more_iterations : forall p d cz A r s M xs cs m1 m2 s0 s0' t1 t2, dtw_kmeans p r s -> dtw_setting d cz A r s xs -> fits M xs ->
  length cs = n_clusters p -> cs <> [] -> of_shape cz d cs -> (m1 <= m2)%nat ->
  fit (with_max_iter m1 p) (InitArray (map lift cs)) (PropBary.padded d M xs) s0 = (t1, Ok tt) -> X_fit_ t1 <> None ->
  fit (with_max_iter m2 p) (InitArray (map lift cs)) (PropBary.padded d M xs) s0' = (t2, Ok tt) -> X_fit_ t2 <> None ->
  exists v1 v2, inertia_ t1 = XR v1 /\ inertia_ t2 = XR v2 /\ v2 <= v1.
Proof.
  intros p d cz A r s M xs cs m1 m2 s0 s0' t1 t2 Hp HS HM Lc NE Hc Hm. destruct (squared_dtw_exists _ _ _ _ _ _ HS) as (loss & HL).
  eapply (sound_more _ _ _ _ _ _ (dtw_sound p d cz A r s xs loss Hp HS HL)); eauto.
  - intros m. apply (padded_input (with_max_iter m p) _ d r s); auto; try apply HS. intros C EC. injection EC as <-. destruct (arr_shape cz d cs NE Hc). auto.
  - apply variable_length_padded. apply HS.
  - apply (check_full_length_shape cz d); auto.
Qed.
Print Assumptions C84_more_iterations.
(** what [fit] reports: labels of the reported centres, all clusters occupied, an
    inertia that bounds the mean squared DTW distance from above *)
Theorem C84_reported : forall p d cz A r s M xs loss i s0 s', dtw_kmeans p r s -> dtw_setting d cz A r s xs -> squared_dtw d cz A xs loss ->
  fits M xs -> max_iter p <> 0%nat ->
  (forall n, exists cs, draws i n = Ok (map lift cs) /\ length cs = n_clusters p /\ cs <> [] /\ of_shape cz d cs) ->
  fit p i (PropBary.padded d M xs) s0 = (s', Ok tt) -> X_fit_ s' <> None ->
  exists cs labels v, length cs = n_clusters p /\ of_shape cz d cs /\ cluster_centers_ s' = Some (map lift cs) /\
    labels_ s' = Some labels /\ length labels = length xs /\
    (forall n, (n < length xs)%nat -> closest loss cs (nth n xs []) (nth n labels 0%nat)) /\
    (forall k, (k < n_clusters p)%nat -> In k labels) /\
    inertia_ s' = XR v /\ mean_loss loss xs cs labels <= v.
Proof.
  intros p d cz A r s M xs loss i s0 s' Hp HS HL HM Hm Hi E Nf.
  destruct (sound_fit _ _ _ _ _ _ (dtw_sound p d cz A r s xs loss Hp HS HL) (PropBary.padded d M xs) i s0) as [K|[(K & B & CL)|K]]; auto.
  - apply (padded_input p i d r s); auto; try apply HS. intros C ->. destruct (Hi 0%nat) as (cs & E0 & _ & NE & Hc). injection E0 as ->. destruct (arr_shape cz d cs NE Hc). auto.
  - apply variable_length_padded. apply HS.
  - unfold check_initial_guess. destruct i; auto. destruct (Hi 0%nat) as (cs & E0 & L & _). injection E0 as ->. rewrite map_length. unfold rser in *. rewrite L, Nat.eqb_refl. auto.
  - intros n. destruct (Hi n) as (cs & E0 & L & NE & Hc). exists (map lift cs), cs. split; auto. split; auto. apply (check_full_length_shape cz d); auto.
  - rewrite E in K. destruct K as [_ K]. simpl in K. congruence.
  - rewrite E in *. cbn [fst snd] in *. destruct CL as (cs & labels & v & P1 & P2 & P3 & P4 & P5 & P6 & P7 & P8 & P9 & P10). exists cs, labels, v.
    exact (conj P1 (conj P2 (conj P3 (conj P4 (conj P5 (conj P6 (conj P7 (conj P8 P9)))))))).
  - rewrite E in K. discriminate.
Qed.
Print Assumptions C84_reported.
(** the hypotheses hold for series of different lengths *)
Example C84_nontrivial : dtw_setting 1 2 (fun n => band n 2 1) (Some 1%Z) None [[[0]; [1]; [2]]; [[5]; [6]]].
Proof.
  split; [discriminate|]. split.
  - intros x [<-|[<-|[]]]; (split; [lia|split; [discriminate|]]); intros q Hq; repeat (destruct Hq as [<-|Hq]; [reflexivity|]); contradiction.
  - split; [exact I|]. intros x [<-|[<-|[]]]; simpl; split; auto; lia.
Qed.

(** ** with a named constraint the claim is false: the barycenter ignores the name *)
Definition km_named (m : nat) : km_params :=
  {| n_clusters := 1; max_iter := m; tol := XR (1 / 1000000); n_init := 1; km_met := KmDtw (Some GcSakoeChiba) (Some 0%Z) None; dtw_inertia := false |}.
Lemma assign_single m d x c v st : real_series d x -> real_series d c -> 0 <= v ->
  elastic_generic (N:=Xnum) comb_dtw (lift x) (lift c) 2 (Some 0%Z) None = Ok (XR (sqrt v)) -> cluster_centers_ st = Some [lift c] ->
  assign_ (km_named m) [lift x] st = (set_inertia (XR v) (set_labels [0%nat] st), Ok [0%nat]).
Proof.
  intros Hx Hc Hv E HC.
  assert (ET : transform_ (km_named m) [lift c] [lift x] = Ok [[XR (sqrt v)]]).
  { unfold transform_. cbn [km_met km_named name_or_none]. unfold cdist_dtw_rows. cbn [gc_code bind].
    set (dist := fun s1 s2 => elastic_generic (N:=Xnum) comb_dtw s1 s2 2 (Some 0%Z) None).
    assert (EM : cdist_generic dist [lift x] (Some [lift c]) false Sequential = Ok (fun i k => nth (i * 1 + k) [XR (sqrt v)] (nzero (n:=Xnum)))).
    { unfold cdist_generic, cdist_cross. cbn [length run_jobs row_major seq flat_map map app mapM fst snd nth].
      pose proof (strip_lift d x Hx) as S1. pose proof (strip_lift d c Hc) as S2. norm. rewrite S1, S2. unfold dist. norm. rewrite E. reflexivity. }
    refine (eq_trans (f_equal (fun q => bind q _) EM) _). reflexivity. }
  unfold assign_. rewrite HC. rewrite ET. cbn. destruct (Req_EM_T 1 0) as [Z|_]; [lra|]. replace ((0 + sqrt v * sqrt v) * / 1) with v; [reflexivity|]. rewrite sqrt_sqrt by auto. field.
Qed.
Lemma generic_int x c v p : (0 <= v)%Z -> z_path {| mp_gc := KeyCode 2; mp_radius := Some 0%Z; mp_slope := None |} x c = Ok (p, Some v) ->
  elastic_generic (N:=Xnum) comb_dtw (lift (zseries x)) (lift (zseries c)) 2 (Some 0%Z) None = Ok (XR (sqrt (IZR v))).
Proof. intros Hv E. apply (generic_of_path _ _ _ _ _ p). exact (njit_int _ x c p v Hv E). Qed.
Theorem C84_named_refuted : exists x c c' st s1 s2 s3, real_series 1 x /\ real_series 1 c /\ real_series 1 c' /\
  km_met (km_named 2) = KmDtw (Some GcSakoeChiba) (Some 0%Z) None /\
  cluster_centers_ st = Some [lift c] /\
  assign_ (km_named 2) [lift x] st = (s1, Ok [0%nat]) /\ inertia_ s1 = XR 36 /\
  update_centroids_ (km_named 2) [lift x] [0%nat] s1 = (s2, Ok tt) /\ cluster_centers_ s2 = Some [lift c'] /\
  assign_ (km_named 2) [lift x] s2 = (s3, Ok [0%nat]) /\ inertia_ s3 = XR 100.
Proof.
  set (x := [[0];[0];[10]]%Z). set (c := [[0];[6];[10]]%Z). set (c' := [[0];[10];[10]]%Z).
  assert (Hx : real_series 1 (zseries x)) by (split; [lia|]; split; [discriminate|]; intros r [<-|[<-|[<-|[]]]]; reflexivity).
  assert (Hc : real_series 1 (zseries c)) by (split; [lia|]; split; [discriminate|]; intros r [<-|[<-|[<-|[]]]]; reflexivity).
  assert (Hc' : real_series 1 (zseries c')) by (split; [lia|]; split; [discriminate|]; intros r [<-|[<-|[<-|[]]]]; reflexivity).
  pose proof (generic_int x c 36 _ ltac:(lia) eq_refl) as G1. pose proof (generic_int x c' 100 _ ltac:(lia) eq_refl) as G2.
  set (mp := dba_params (Some GcSakoeChiba) (Some 0%Z) None).
  pose proof (njit_int mp x c [(0, 0); (1, 0); (2, 1); (2, 2)]%nat 16 ltac:(lia) eq_refl) as E1.
  pose proof (njit_int mp x c' [(0, 0); (1, 0); (2, 1); (2, 2)]%nat 0 ltac:(lia) eq_refl) as E2.
  assert (M : forall b : list (list Z), length b = 3%nat -> lift (mean_bary (length (zseries b)) 1 (entries [zseries x] [1] [map swap [(0, 0); (1, 0); (2, 1); (2, 2)]%nat])) = lift (zseries c')).
  { intros b Lb. unfold zseries at 1. rewrite map_length, Lb. unfold mean_bary, wxsum, wsum. cbn. repeat (f_equal; try lra). }
  assert (S1 : petitjean_step [lift (zseries x)] (lift (zseries c)) (length (zseries c)) [XR 1] mp = Ok (lift (zseries c'), XR 16)).
  { rewrite <- (M c eq_refl). apply (pj_single 1 _ _ _ _ _ Hx Hc); [lra|exact E1|is_path]. }
  assert (S2 : petitjean_step [lift (zseries x)] (lift (zseries c')) (length (zseries c)) [XR 1] mp = Ok (lift (zseries c'), XR 0)).
  { rewrite <- (M c eq_refl) at 2. apply (pj_single 1 _ _ _ _ _ Hx Hc'); [lra|exact E2|is_path]. }
  assert (ED : dba_petitjean [lift (zseries x)] None (Some (lift (zseries c))) 30 (XR (1 / 100000)) None mp = Ok (lift (zseries c'))).
  { unfold dba_petitjean. rewrite (start_single 1 _ _ Hx Hc). cbn [bind]. 
    assert (L : forall it, dba_loop (fun b => petitjean_step [lift (zseries x)] b (length (zseries c)) [XR 1] mp) (XR (1 / 100000)) (S (S (S it))) (lift (zseries c)) XInf XInf = Ok (lift (zseries c'), XR 0)).
    { intros it. cbn [dba_loop]. rewrite S1. cbn [bind]. rewrite S2. cbn [bind]. cbn [xsub xopp xadd xabs xltb].
      destruct (Rltb _ _) eqn:K; [reflexivity|]. destruct (Rltb 16 0) eqn:K2; [apply Rltb_true in K2; lra|]. rewrite S2. cbn [bind xopp xabs xltb].
      destruct (Rltb (Rabs (0 + - 0)) (1 / 100000)) eqn:K3; [reflexivity|]. apply Rltb_false in K3. exfalso. replace (0 + - 0) with 0 in K3 by lra. rewrite Rabs_R0 in K3. lra. }
    rewrite (L 27%nat). reflexivity. }
  exists (zseries x), (zseries c), (zseries c'), (set_centers [lift (zseries c)] fresh). 
  eexists _, _, _. split; auto. split; auto. split; auto. split; [reflexivity|]. split; [reflexivity|].
  split; [apply (assign_single 2 1 (zseries x) (zseries c) 36); auto; lra|]. split; [reflexivity|].
  split.
  { cbn [update_centroids_ cluster_centers_ set_inertia set_labels set_centers labels_]. unfold new_center. cbn [km_met km_named].
    change (members [lift (zseries x)] [0%nat] 0) with [lift (zseries x)]. cbn [nth]. fold mp. rewrite ED. reflexivity. }
  split; [reflexivity|]. split; [apply (assign_single 2 1 (zseries x) (zseries c') 100); auto; lra|]. reflexivity.
Qed.
Print Assumptions C84_named_refuted.

(** C215: TimeSeriesKMeans with the DTW metric does not depend on the order of the
    series and follows a change of origin or of the sense of the axis; series of any
    lengths. *)
From Coq Require Import Bool List Arith Lia ZArith QArith Reals Lra Permutation.
From Verif Require Import Num NumLaws Py Series Masks DtwModel Spec SpecDtw RList RealSeries PathSum PaaModel PaaThms PreModel PropScale PropResample PropCtw
  GakModel SoftModel Dataset DpProofs DtwProofs BaryModel BaryThms BaryReal PropBary IntSeries PropBary2 ClusterModel ClusterThms PropCluster PropCluster2 PropKmMeta PropBaryMeta.
Import ListNotations.
Local Open Scope R_scope.

(** ** Specification *)
(** two optional sets of centres of length [cz], the second one converted: every value
    [v] of feature [k] becomes [a * v + u k] *)
Definition centres_converted (a : R) (u : list R) (cz d K : nat) (C C' : option array3) : Prop :=
  match C, C' with
  | None, None => True
  | Some C, Some C' => exists cs, length cs = K /\ of_shape cz d cs /\ C = map lift cs /\ C' = map lift (map (converted a u) cs)
  | _, _ => False
  end.
(** the attributes of two estimators, the second one trained on the converted series in the order [o] *)
Definition estimators_converted (o : list nat) (a : R) (u : list R) (cz d K : nat) (xs : list rser) (s s' : km_state) : Prop :=
  labels_ s' = option_map (reordered o 0%nat) (labels_ s) /\
  inertia_ s' = inertia_ s /\
  centres_converted a u cz d K (cluster_centers_ s) (cluster_centers_ s') /\
  iter_ s' = iter_ s /\ n_iter_ s' = n_iter_ s /\
  ((X_fit_ s = None /\ X_fit_ s' = None) \/
   (X_fit_ s = Some (PropBary.padded d (lmax xs) xs) /\ X_fit_ s' = Some (PropBary.padded d (lmax xs) (reordered o [] (map (converted a u) xs))))) /\
  n_features_in_ s' = n_features_in_ s.
(** the initial centres: an array, or what is drawn at each attempt *)
Definition inits_converted (a : R) (u : list R) (cz d K : nat) (i i' : km_init) : Prop :=
  match i, i' with
  | InitArray C, InitArray C' => centres_converted a u cz d K (Some C) (Some C')
  | InitDrawn f, InitDrawn f' => forall n, exists C C', f n = Ok C /\ f' n = Ok C' /\ centres_converted a u cz d K (Some C) (Some C')
  | _, _ => False
  end.

(** ** the squared DTW distance of the model *)
Definition dtw_loss (r : option Z) (s : option Q) (x c : rser) : R :=
  match elastic_generic (N:=Xnum) comb_dtw (lift x) (lift c) 0 r s with Ok (XR v) => v * v | _ => 0 end.
Lemma dtw_loss_ok d cz A r s xs : dtw_setting d cz A r s xs -> squared_dtw d cz A xs (dtw_loss r s).
Proof.
  intros (Hne & Hx & Hs & HA) x c Ix Rc Lc. destruct (elastic_value d r s x c (A (length x)) (Hx x Ix) Rc) as (v & E & L & P); [rewrite Lc; auto|auto|].
  unfold dtw_loss. rewrite E. rewrite sqrt_sqrt by auto. exact L.
Qed.
Lemma least_converted a u d x c A v : a * a = 1 -> length u = d -> real_series d x -> real_series d c ->
  least_align x c A v -> least_align (converted a u x) (converted a u c) A v.
Proof.
  intros Ha Hu Hx Hc [(q & Hq & Eq) H]. split.
  - exists q. rewrite !converted_len. split; auto. rewrite (cost_converted a u d) by auto. rewrite Ha, Rmult_1_l. auto.
  - intros q'. rewrite !converted_len. intros Hq'. rewrite (cost_converted a u d) by auto. rewrite Ha, Rmult_1_l. auto.
Qed.
Lemma converted_shape a u cz d x : length u = d -> real_series d x /\ length x = cz -> real_series d (converted a u x) /\ length (converted a u x) = cz.
Proof. intros Hu [H L]. rewrite converted_len. split; auto. apply converted_real; auto. Qed.
Lemma filter_perm (A : Type) (f : A -> bool) (l l' : list A) : Permutation l l' -> Permutation (filter f l) (filter f l').
Proof.
  intros Q. induction Q as [|x l l' Q IH|x y l|l l1 l2 Q1 IH1 Q2 IH2]; simpl; auto.
  - destruct (f x); auto.
  - destruct (f x), (f y); auto. apply perm_swap.
  - eapply Permutation_trans; eauto.
Qed.

(** ** two runs side by side *)
Section Twin.
Variables (p : km_params) (cz d : nat) (A : nat -> nat -> nat -> bool) (r : option Z) (sl : option Q) (xs : list rser) (o : list nat) (a : R) (u : list R).
Hypothesis Hp : dtw_kmeans p r sl.
Hypothesis HX : dtw_setting d cz A r sl xs.
Hypothesis Ha : a * a = 1.
Hypothesis Hu : length u = d.
Hypothesis Ho : Permutation o (seq 0 (length xs)).
Let xs' : list rser := reordered (A:=rser) o [] (map (converted a u) xs).
Let X := PropBary.padded d (lmax xs) xs.
Let X' := PropBary.padded d (lmax xs) xs'.
Let K := n_clusters p.
Let loss := dtw_loss r sl.
Let follow := estimators_converted o a u cz d K xs.
Lemma a_ne : a <> 0. Proof. intros E. rewrite E in Ha. lra. Qed.
Lemma mx_len : length (map (converted a u) xs) = length xs. Proof. apply map_length. Qed.
Lemma Ho' : Permutation o (seq 0 (length (map (converted a u) xs))). Proof. rewrite map_length. exact Ho. Qed.
Lemma xs'_perm : Permutation xs' (map (converted a u) xs).
Proof. apply reorder_perm. apply Ho'. Qed.
Lemma xs'_in x : In x xs' -> exists y, In y xs /\ x = converted a u y.
Proof. intros H. apply (Permutation_in x xs'_perm) in H. apply in_map_iff in H. destruct H as (y & <- & Hy). eauto. Qed.
Lemma len' : length xs' = length xs.
Proof. etransitivity; [apply (Permutation_length xs'_perm)|]. apply mx_len. Qed.
Lemma Hne : xs <> []. Proof. apply HX. Qed.
Lemma Hne' : xs' <> [].
Proof. intros E. apply (f_equal (@length _)) in E. pose proof len' as L. pose proof Hne as Hn. clear -E L Hn. unfold rser in *. rewrite E in L. destruct xs; [congruence|discriminate]. Qed.
Lemma HX' : dtw_setting d cz A r sl xs'.
Proof.
  destruct HX as (_ & Hx & Hs & HA). split; [apply Hne'|]. split; [|split; [auto|]].
  - intros x H. destruct (xs'_in x H) as (y & Hy & ->). apply converted_real; auto.
  - intros x H. destruct (xs'_in x H) as (y & Hy & ->). rewrite converted_len. auto.
Qed.
Lemma list_max_perm l l' : Permutation l l' -> list_max l = list_max l'.
Proof. intros P. induction P as [|x l l' P IH|x y l|l l1 l2 P1 IH1 P2 IH2]; auto.
  - change (Nat.max x (list_max l) = Nat.max x (list_max l')). rewrite IH. reflexivity.
  - change (Nat.max y (Nat.max x (list_max l)) = Nat.max x (Nat.max y (list_max l))). lia.
  - congruence.
Qed.
Lemma lmax' : lmax xs' = lmax xs.
Proof.
  unfold lmax. rewrite (list_max_perm _ _ (Permutation_map (@length _) xs'_perm)). rewrite map_map. f_equal. apply map_ext. intros. apply converted_len.
Qed.
Lemma loss' x c : In x xs -> real_series d c /\ length c = cz -> loss (converted a u x) (converted a u c) = loss x c.
Proof.
  intros Ix [Rc Lc]. destruct HX as (Hn & Hx & Hs & HA). pose proof (dtw_loss_ok d cz A r sl xs HX x c Ix Rc Lc) as L.
  assert (HY : dtw_setting d cz A r sl [converted a u x]).
  { split; [discriminate|]. split; [intros y [<-|[]]; apply converted_real; auto|]. split; auto. intros y [<-|[]]. rewrite converted_len. auto. }
  assert (L' : least_align (converted a u x) (converted a u c) (A (length x)) (loss (converted a u x) (converted a u c))).
  { pose proof (dtw_loss_ok d cz A r sl _ HY (converted a u x) (converted a u c) (or_introl eq_refl) (converted_real a u d c Hu Rc)) as Q.
    rewrite !converted_len in Q. apply Q. exact Lc. }
  eapply least_align_unique; [exact L'|]. apply (least_converted a u d); auto.
Qed.
Lemma nearests' cs : of_shape cz d cs -> nearests xs' loss (map (converted a u) cs) = reordered o 0%nat (nearests xs loss cs).
Proof.
  intros Hc. unfold nearests, xs', reordered. rewrite map_map. apply map_ext_in. intros i Hi.
  apply (Permutation_in i Ho) in Hi. apply in_seq in Hi. unfold rser in *.
  rewrite (nth_indep _ [] (converted a u [])) by (rewrite map_length; lia). rewrite (map_nth (converted a u)).
  rewrite (nth_indep _ 0%nat (nearest loss cs [])) by (rewrite map_length; lia). rewrite (map_nth (nearest loss cs)).
  unfold nearest. do 2 f_equal. rewrite map_map. apply map_ext_in. intros c Ic. apply loss'; auto. apply nth_In. unfold rser in *. lia.
Qed.
Lemma pairs' labels : length labels = length xs ->
  Permutation (combine xs' (reordered o 0%nat labels)) (map (fun q => (converted a u (fst q), snd q)) (combine xs labels)).
Proof.
  intros L. eapply Permutation_trans; [apply reorder_combine; [rewrite map_length; auto|apply Ho']|].
  assert (E : combine (map (converted a u) xs) labels = map (fun q => (converted a u (fst q), snd q)) (combine xs labels)).
  { clear. revert labels. induction xs as [|x l IH]; intros [|j labels]; simpl; auto. f_equal. apply IH. }
  pose proof (Permutation_refl (combine (map (converted a u) xs) labels)) as Q. rewrite E in Q at 2. exact Q.
Qed.
Lemma cluster' labels k : length labels = length xs -> Permutation (cluster xs' (reordered o 0%nat labels) k) (map (converted a u) (cluster xs labels k)).
Proof.
  intros L. unfold cluster. pose proof (pairs' labels L) as P.
  apply (filter_perm _ (fun q => (snd q =? k)%nat)) in P. apply (Permutation_map fst) in P.
  assert (E : map fst (filter (fun q : rser * nat => (snd q =? k)%nat) (map (fun q => (converted a u (fst q), snd q)) (combine xs labels))) =
     map (converted a u) (map fst (filter (fun q : rser * nat => (snd q =? k)%nat) (combine xs labels)))).
  { clear. induction (combine xs labels) as [|[x j] l IH]; simpl; auto. destruct (j =? k)%nat; simpl; rewrite IH; auto. }
  rewrite <- E. exact P.
Qed.
Lemma mean_loss' cs labels : of_shape cz d cs -> length labels = length xs -> (forall l, In l labels -> (l < length cs)%nat) ->
  mean_loss loss xs' (map (converted a u) cs) (reordered o 0%nat labels) = mean_loss loss xs cs labels.
Proof.
  intros Hc L Hl. unfold mean_loss. rewrite len'. unfold Rdiv. f_equal.
  pose proof (pairs' labels L) as P. apply (Permutation_map (fun q => loss (fst q) (nth (snd q) (map (converted a u) cs) []))) in P.
  etransitivity; [exact (rsum_perm _ _ P)|]. rewrite map_map. apply rsum_map_ext. intros [x j] Hi. cbn [fst snd].
  pose proof (in_combine_l _ _ _ _ Hi) as H1. pose proof (in_combine_r _ _ _ _ Hi) as H2.
  unfold rser in *. rewrite (nth_indep _ [] (converted a u [])) by (rewrite map_length; auto). rewrite (map_nth (converted a u)).
  apply loss'; auto. apply Hc. apply nth_In. auto.
Qed.
Definition shaped (cs : list rser) : Prop := length cs = K /\ of_shape cz d cs.
Lemma converted_cs cs : of_shape cz d cs -> of_shape cz d (map (converted a u) cs).
Proof. intros H c Hc. apply in_map_iff in Hc. destruct Hc as (y & <- & Hy). apply converted_shape; auto. Qed.
Hypothesis HK : (0 < K)%nat.
Lemma shaped_ne cs : shaped cs -> cs <> []. Proof. intros [L _] ->. simpl in L. lia. Qed.
(** outcomes side by side *)
Definition twin {A} (r r' : km_state * res A) : Prop := follow (fst r) (fst r') /\
  match snd r, snd r' with Ok _, Ok _ => True | Err e, Err e' => e = e' | _, _ => False end.
Lemma assign_one ys cs s : dtw_setting d cz A r sl ys -> lmax ys = lmax xs -> shaped cs -> cluster_centers_ s = Some (map lift cs) ->
  assign_ p (PropBary.padded d (lmax xs) ys) s = if no_empty_cluster (nearests ys loss cs) K then
    (set_inertia (XR (mean_loss loss ys cs (nearests ys loss cs))) (set_labels (nearests ys loss cs) s), Ok (nearests ys loss cs))
    else (set_labels (nearests ys loss cs) s, Err EmptyClusterError).
Proof.
  intros Hy Lm [L HS] Hc. destruct (dtw_sound p d cz A r sl ys loss Hp Hy (dtw_loss_ok _ _ _ _ _ _ Hy)) as (A1 & A2 & A3 & A4 & A5).
  rewrite Lm in *. unfold PropBary.padded.
  apply (assign_run p (pad_to d (lmax xs)) ys (fun c => real_series d c /\ length c = cz) loss (fun _ _ _ => True) A1 A2 A3 A4 A5); auto. split; [exact L|]. split; [apply shaped_ne; split; auto|exact HS].
Qed.
Lemma assign_twin cs s s' : shaped cs -> follow s s' -> cluster_centers_ s = Some (map lift cs) -> cluster_centers_ s' = Some (map lift (map (converted a u) cs)) ->
  twin (assign_ p X s) (assign_ p X' s') /\
  (forall l, snd (assign_ p X s) = Ok l -> l = nearests xs loss cs /\ labels_ (fst (assign_ p X s)) = Some l /\
     cluster_centers_ (fst (assign_ p X s)) = Some (map lift cs) /\ cluster_centers_ (fst (assign_ p X' s')) = Some (map lift (map (converted a u) cs)) /\
     (forall k, (k < K)%nat -> In k l)).
Proof.
  intros HS F EC EC'. pose proof HS as [L S0].
  assert (HS' : shaped (map (converted a u) cs)) by (split; [rewrite map_length; auto|apply converted_cs; auto]).
  unfold X, X'. rewrite (assign_one xs cs s HX eq_refl HS EC), (assign_one xs' _ s' HX' lmax' HS' EC').
  rewrite nearests' by auto. assert (LN : length (nearests xs loss cs) = length xs) by apply map_length.
  rewrite (no_empty' p xs o Ho) by auto. fold K.
  assert (NL : forall l, In l (nearests xs loss cs) -> (l < length cs)%nat).
  { intros l Hl. apply in_map_iff in Hl. destruct Hl as (x & <- & _). apply (nearest_spec loss cs x). apply shaped_ne; auto. }
  rewrite mean_loss' by auto. destruct F as (F1 & F2 & F3 & F4 & F5 & F6 & F7).
  destruct (no_empty_cluster (nearests xs loss cs) K) eqn:En.
  - split.
    + split; [|exact I]. unfold follow, estimators_converted. cbn. repeat (split; [auto; fail|]). auto.
    + intros l E. injection E as <-. do 4 (split; [auto; fail|]). apply no_empty_spec. auto.
  - split; [|discriminate]. split; [|reflexivity]. unfold follow, estimators_converted. cbn. repeat (split; [auto; fail|]). auto.
Qed.
Lemma ones_same ys ys' : Permutation ys' (map (converted a u) ys) ->
  same_data a u ys (weights_in_force None (length ys)) ys' (weights_in_force None (length ys')).
Proof.
  intros P. cbn [weights_in_force]. split; [apply repeat_length|]. rewrite (Permutation_length P), map_length.
  assert (E : forall (l : list (list (list R))) n, length l = n -> combine l (repeat 1 n) = map (fun x => (x, 1)) l).
  { clear. induction l as [|x l IH]; intros n <-; simpl; auto. f_equal. apply IH. auto. }
  rewrite !E by (rewrite ?(Permutation_length P), ?map_length; auto). apply Permutation_map. exact P.
Qed.
Lemma centre_twin labels k c : length labels = length xs -> cluster xs labels k <> [] -> real_series d c /\ length c = cz ->
  exists c1, (real_series d c1 /\ length c1 = cz) /\ new_center p X labels k (lift c) = Ok (lift c1) /\
    new_center p X' (reordered o 0%nat labels) k (lift (converted a u c)) = Ok (lift (converted a u c1)).
Proof.
  intros L Hk [Rc Lc]. pose proof (cluster' labels k L) as P. destruct HX as (_ & Hx & Hs & HA).
  assert (Hy : forall y, In y (cluster xs labels k) -> In y xs) by (intros y; apply cluster_in).
  assert (HD : weighted_dataset d (cluster xs labels k) (weights_in_force None (length (cluster xs labels k)))).
  { split; auto. split; [auto|]. cbn [weights_in_force]. split; [apply repeat_length|]. intros v Hv. apply repeat_spec in Hv. subst. lra. }
  destruct (C213_petitjean a u d (lmax xs) (lmax xs) (cluster xs labels k) (cluster xs' (reordered o 0%nat labels) k) None None (dba_params None r sl)
     (fun m i j => A m j i) None (Some c) 29 (XR (1 / 100000)) a_ne Hu HD (ones_same _ _ P) Rc) as (b & Rb & Lb & E & E').
  { intros x Ix. apply allows_none; auto. cbn [bary_size]. rewrite Lc. apply HA. auto. }
  cbn [bary_size] in Lb. exists b. split; [split; [auto|congruence]|]. unfold new_center, X, X', PropBary.padded. rewrite Hp, !members_map.
  rewrite Ha in E'. rewrite rescaled_1 in E'. split; [exact E|exact E'].
Qed.
Lemma update_twin labels : length labels = length xs -> (forall k, (k < K)%nat -> In k labels) ->
  forall ks cs s s', (forall k, In k ks -> (k < K)%nat) -> shaped cs -> follow s s' -> labels_ s = Some labels ->
  cluster_centers_ s = Some (map lift cs) -> cluster_centers_ s' = Some (map lift (map (converted a u) cs)) ->
  exists cs1 s1 s1', update_centroids_ p X ks s = (s1, Ok tt) /\ update_centroids_ p X' ks s' = (s1', Ok tt) /\ shaped cs1 /\ follow s1 s1' /\
    cluster_centers_ s1 = Some (map lift cs1) /\ cluster_centers_ s1' = Some (map lift (map (converted a u) cs1)).
Proof.
  intros L Hin.
  induction ks as [|k ks IH]; intros cs s s' Hk HS F EL EC EC'.
  - exists cs, s, s'. cbn [update_centroids_]. do 5 (split; [auto; fail|]). auto.
  - assert (Kk : (k < K)%nat) by (apply Hk; left; auto).
    assert (NE : cluster xs labels k <> []) by (apply cluster_ne; auto).
    pose proof F as (F1 & F2 & F3 & F4 & F5 & F6 & F7). rewrite EL in F1. cbn [option_map] in F1.
    cbn [update_centroids_]. rewrite EC, EL, EC', F1.
    assert (Gk : real_series d (nth k cs []) /\ length (nth k cs []) = cz) by (destruct HS as [Lc Sc]; apply Sc; apply nth_In; rewrite Lc; auto).
    destruct (centre_twin labels k (nth k cs []) L NE Gk) as (c & Gc & N1 & N2).
    assert (Q1 : nth k (map lift cs) [] = lift (nth k cs [])) by apply (map_nth lift cs []).
    assert (Q2 : nth k (map lift (map (converted a u) cs)) [] = lift (converted a u (nth k cs []))).
    { etransitivity; [apply (map_nth lift (map (converted a u) cs) [])|]. f_equal. apply (map_nth (converted a u) cs []). }
    unfold array3, series in *. rewrite Q1, Q2. rewrite N1, N2.
    assert (R1 : replace_nth k (lift c) (map lift cs) = map lift (replace_nth k c cs)) by apply replace_nth_map.
    assert (R2 : replace_nth k (lift (converted a u c)) (map lift (map (converted a u) cs)) = map lift (map (converted a u) (replace_nth k c cs))).
    { etransitivity; [apply replace_nth_map|]. f_equal. apply replace_nth_map. }
    unfold array3, series in *. rewrite R1. rewrite R2.
    set (cs1 := replace_nth k c cs). fold X X'.
    assert (HS1 : shaped cs1).
    { destruct HS as [Lc Sc]. split; [unfold cs1; rewrite replace_nth_len; auto|]. intros y Hy. apply in_replace_nth in Hy. destruct Hy as [->|Hy]; auto. }
    apply (IH cs1 (set_centers (map lift cs1) s) (set_centers (map lift (map (converted a u) cs1)) s')); auto.
    + intros j Hj. apply Hk. right. auto.
    + unfold follow, estimators_converted. cbn. rewrite EL, F1. repeat (split; [auto; fail|]). split; [|auto]. exists cs1. destruct HS1. auto.
Qed.
Lemma follow_iter n s s' : follow s s' -> follow (set_iter n s) (set_iter n s').
Proof. intros (F1 & F2 & F3 & F4 & F5 & F6 & F7). unfold follow, estimators_converted. cbn. repeat (split; [auto; fail|]). auto. Qed.
Lemma lloyd_twin more : forall it old s s' cs, shaped cs -> follow s s' -> cluster_centers_ s = Some (map lift cs) ->
  cluster_centers_ s' = Some (map lift (map (converted a u) cs)) ->
  twin (lloyd p X it more old s) (lloyd p X' it more old s').
Proof.
  induction more as [|more IH]; intros it old s s' cs HS F EC EC'.
  - cbn [lloyd]. split; [|exact I]. cbn [fst]. apply follow_iter. auto.
  - rewrite !lloyd_step. destruct (assign_twin cs s s' HS F EC EC') as [[T1 T2] T3].
    destruct (assign_ p X s) as [s1 [l|e]] eqn:E1, (assign_ p X' s') as [s1' [l'|e']] eqn:E1'; cbn [fst snd] in *; try contradiction;
      [|split; [exact T1|exact T2]].
    destruct (T3 l eq_refl) as (El & Ll & C1 & C1' & Hall).
    assert (Len : length l = length xs) by (subst l; apply map_length).
    destruct (update_twin l Len Hall (seq 0 K) cs s1 s1') as (cs1 & s2 & s2' & U & U' & HS1 & F2 & C2 & C2'); auto.
    { intros k Hk. apply in_seq in Hk. lia. }
    change (n_clusters p) with K. rewrite U, U'.
    pose proof F2 as (_ & I2 & _). rewrite I2. destruct (xltb _ _).
    + split; [|exact I]. cbn [fst]. apply follow_iter. auto.
    + apply (IH (S it) (inertia_ s2) s2 s2' cs1); auto.
Qed.
Lemma follow_centers C C' s s' : centres_converted a u cz d K (Some C) (Some C') -> follow s s' -> follow (set_centers C s) (set_centers C' s').
Proof. intros H (F1 & F2 & F3 & F4 & F5 & F6 & F7). unfold follow, estimators_converted. cbn [set_centers labels_ inertia_ cluster_centers_ iter_ n_iter_ X_fit_ n_features_in_]. repeat (split; [auto; fail|]). auto. Qed.
Lemma one_init_twin C C' s s' : centres_converted a u cz d K (Some C) (Some C') -> follow s s' ->
  twin (fit_one_init p X (Ok C) s) (fit_one_init p X' (Ok C') s').
Proof.
  intros HC F. pose proof HC as (cs & Lc & Sc & -> & ->). unfold fit_one_init. assert (HS : shaped cs) by (split; auto).
  rewrite (check_full_length_shape cz d cs (shaped_ne cs HS) Sc).
  rewrite (check_full_length_shape cz d (map (converted a u) cs)); [|intros E; apply map_eq_nil in E; apply (shaped_ne cs HS E)|apply converted_cs; auto].
  set (t := set_centers (map lift cs) s). set (t' := set_centers (map lift (map (converted a u) cs)) s').
  assert (Ft : follow (set_centers (map lift cs) t) (set_centers (map lift (map (converted a u) cs)) t')) by (apply follow_centers; auto; apply follow_centers; auto).
  destruct (max_iter p =? 0)%nat; [split; [exact Ft|reflexivity]|].
  apply lloyd_twin with (cs := cs); auto.
Qed.
Definition twin_best (r r' : km_state * res (option array3 * xr)) : Prop := follow (fst r) (fst r') /\
  match snd r, snd r' with
  | Ok (C, v), Ok (C', v') => centres_converted a u cz d K C C' /\ v' = v
  | Err e, Err e' => e = e' | _, _ => False end.
Lemma attempts_twin draw draw' : (forall n, exists C C', draw n = Ok C /\ draw' n = Ok C' /\ centres_converted a u cz d K (Some C) (Some C')) ->
  forall remaining n ns best best' mi s s', centres_converted a u cz d K best best' -> follow s s' ->
  twin_best (attempts p X draw n remaining ns best mi s) (attempts p X' draw' n remaining ns best' mi s').
Proof.
  intros HD. induction remaining as [|rem IH]; intros n ns best best' mi s s' HB F.
  - cbn [attempts]. split; auto. split; auto.
  - cbn [attempts]. destruct (n_init p <=? ns)%nat; [split; auto; split; auto|].
    destruct (HD n) as (C & C' & -> & -> & HC). destruct (one_init_twin C C' s s' HC F) as [T1 T2].
    destruct (fit_one_init p X (Ok C) s) as [s1 [[]|e]], (fit_one_init p X' (Ok C') s') as [s1' [[]|e']]; cbn [fst snd] in *; try contradiction.
    + pose proof T1 as (F1 & F2 & F3 & F4 & F5 & F6 & F7). rewrite F2.
      destruct (xltb _ _); [|apply IH; auto]. apply IH; auto. rewrite F4.
      unfold follow, estimators_converted. cbn [set_n_iter labels_ inertia_ cluster_centers_ iter_ n_iter_ X_fit_ n_features_in_]. repeat (split; [auto; fail|]). auto.
    + subst e'. destruct e; try (split; [exact T1|reflexivity]). apply IH; auto.
Qed.
Lemma arr_d_padded ys : dtw_setting d cz A r sl ys -> lmax ys = lmax xs -> arr_d (PropBary.padded d (lmax xs) ys) = d.
Proof.
  intros (Ny & Hy & _) <-. assert (F : fits (lmax ys) ys).
  { apply fits_max. }
  pose proof (padded_shape d (lmax ys) ys Hy F) as HS. apply (arr_d_shape _ _ _ _ HS).
  - destruct ys; [congruence|simpl; lia].
  - destruct ys as [|y l]; [congruence|]. pose proof (F y (or_introl eq_refl)). pose proof (real_len d y (Hy y (or_introl eq_refl))). lia.
Qed.
Lemma arr_d_twin : arr_d X' = arr_d X.
Proof. unfold X, X'. rewrite (arr_d_padded xs HX eq_refl), (arr_d_padded xs' HX' lmax'). reflexivity. Qed.
Lemma post_twin C C' v s s' : centres_converted a u cz d K C C' -> follow s s' -> twin (post_fit p X C v s) (post_fit p X' C' v s').
Proof.
  intros HC F. unfold post_fit.
  assert (NONE : twin (set_features (arr_d X) (set_X_fit None s), @Ok unit tt) (set_features (arr_d X') (set_X_fit None s'), @Ok unit tt)).
  { destruct F as (F1 & F2 & F3 & F4 & F5 & F6 & F7). split; [|exact I]. unfold follow, estimators_converted.
    cbn [fst set_features set_X_fit labels_ inertia_ cluster_centers_ iter_ n_iter_ X_fit_ n_features_in_]. rewrite arr_d_twin. repeat (split; [auto; fail|]). auto. }
  destruct (xisfinite v); [|exact NONE]. destruct C as [C|], C' as [C'|]; try contradiction; [|exact NONE].
  pose proof HC as (cs & Lc & Sc & -> & ->).
  destruct (assign_twin cs (set_centers (map lift cs) s) (set_centers (map lift (map (converted a u) cs)) s') (conj Lc Sc) (follow_centers _ _ _ _ HC F) eq_refl eq_refl) as [[T1 T2] _].
  destruct (assign_ p X _) as [s1 [l|e]], (assign_ p X' _) as [s1' [l'|e']]; cbn [fst snd] in *; try contradiction; [|split; [exact T1|exact T2]].
  destruct T1 as (F1 & F2 & F3 & F4 & F5 & F6 & F7). split; [|exact I]. unfold follow, estimators_converted.
  cbn [fst set_features set_X_fit set_inertia labels_ inertia_ cluster_centers_ iter_ n_iter_ X_fit_ n_features_in_]. rewrite arr_d_twin.
  do 5 (split; [auto; fail|]). split; [|reflexivity]. right. split; reflexivity.
Qed.
Lemma fit_twin M M' i i' s : fits M xs -> fits M' xs -> inits_converted a u cz d K i i' ->
  twin (fit p i (PropBary.padded d M xs) s) (fit p i' (PropBary.padded d M' xs') s).
Proof.
  intros HM HM' HI. unfold fit.
  assert (IN : forall C C', centres_converted a u cz d K (Some C) (Some C') -> (arr_d C = d /\ arr_sz C = cz) /\ (arr_d C' = d /\ arr_sz C' = cz) /\ length C = K /\ length C' = K).
  { intros C C' (cs & Lc & Sc & -> & ->). assert (NE : cs <> []) by (apply shaped_ne; split; auto).
    destruct (arr_shape cz d cs NE Sc) as [-> ->]. destruct (arr_shape cz d (map (converted a u) cs)) as [-> ->];
      [intros E; apply map_eq_nil in E; auto|apply converted_cs; auto|]. rewrite !map_length. auto. }
  destruct HX as (Hn & Hx & Hs & HA). destruct HX' as (Hn' & Hx' & _ & _).
  assert (HM1 : fits M' xs') by (intros x Ix; destruct (xs'_in x Ix) as (y & Iy & ->); rewrite converted_len; auto).
  assert (E1 : fit_input p i (PropBary.padded d M xs) = Ok (PropBary.padded d M xs)).
  { apply (padded_input p i d r sl); auto. intros C ->. destruct i' as [C'|f']; [|contradiction]. apply (IN C C' HI). }
  assert (E2 : fit_input p i' (PropBary.padded d M' xs') = Ok (PropBary.padded d M' xs')).
  { apply (padded_input p i' d r sl); auto. intros C' ->. destruct i as [C|f]; [|contradiction]. apply (IN C C' HI). }
  rewrite E1, E2. rewrite (variable_length_padded d M xs Hx), (variable_length_padded d M' xs' Hx'). fold (lmax xs) (lmax xs'). rewrite lmax'.
  assert (G1 : check_initial_guess p i = Ok tt /\ check_initial_guess p i' = Ok tt).
  { destruct i as [C|f], i' as [C'|f']; try contradiction; auto. destruct (IN C C' HI) as (_ & _ & L1 & L2). cbn [check_initial_guess].
    change (n_clusters p) with K. rewrite L1, L2, Nat.eqb_refl. auto. }
  destruct G1 as [-> ->]. fold X X'. unfold seqm.
  assert (D : forall n, exists C C', draws i n = Ok C /\ draws i' n = Ok C' /\ centres_converted a u cz d K (Some C) (Some C')).
  { intros n. destruct i as [C|f], i' as [C'|f']; try contradiction; [exists C, C'; auto|apply HI]. }
  assert (F0 : follow (reset s) (reset s)) by (unfold follow, estimators_converted; cbn; repeat (split; [auto; fail|]); auto).
  destruct (attempts_twin (draws i) (draws i') D (Nat.max (n_init p) 10) 0 0 None None XInf (reset s) (reset s) I F0) as [T1 T2].
  destruct (attempts p X _ _ _ _ _ _ _) as [s1 [[C v]|e]], (attempts p X' _ _ _ _ _ _ _) as [s1' [[C' v']|e']]; cbn [fst snd] in *; try contradiction;
    [|split; [exact T1|exact T2]]. destruct T2 as [HC ->]. apply post_twin; auto.
Qed.
End Twin.

Lemma predict_dtw p d cz A r sl ys cs s : dtw_kmeans p r sl -> dtw_setting d cz A r sl ys -> cs <> [] -> of_shape cz d cs -> cluster_centers_ s = Some (map lift cs) ->
  predict p s (PropBary.padded d (lmax ys) ys) = Ok (nearests ys (dtw_loss r sl) cs).
Proof.
  intros Hp HY Nc Hc EC. pose proof HY as (Ny & Hy & Hs & HA). unfold predict.
  assert (EI : fit_input p (InitArray (map lift cs)) (PropBary.padded d (lmax ys) ys) = Ok (PropBary.padded d (lmax ys) ys)).
  { apply (padded_input p _ d r sl); auto; [apply fits_max|]. intros C0 E. injection E as <-. destruct (arr_shape cz d cs Nc Hc). auto. }
  unfold fit_input in EI. destruct (check_arr (PropBary.padded d (lmax ys) ys)) as [X1|e]; [|discriminate]. cbn [bind] in *. destruct (check_values p X1); [|discriminate].
  rewrite EC. destruct (_ && _); [|discriminate]. injection EI as ->.
  refine (eq_trans (f_equal (fun r => bind r _) (transform_dtw p d cz A r sl ys (dtw_loss r sl) cs Hp HY (dtw_loss_ok _ _ _ _ _ _ HY) Nc Hc)) _). cbn [bind].
  f_equal. rewrite map_map. unfold nearests. apply map_ext_in. intros x Hx. apply (nearest_sqrt ys (fun c => real_series d c /\ length c = cz)); auto.
  intros y c Iy Gc. destruct (dtw_sound p d cz A r sl ys _ Hp HY (dtw_loss_ok _ _ _ _ _ _ HY)) as (_ & _ & Q & _). apply Q; auto.
Qed.

(** ** The theorems *)
(** From the same state, the training on the series in another order, in units with
    another origin for each feature and possibly the opposite sign, with the initial
    centres expressed the same way: same exception or none, same inertia and number
    of iterations, labels in the new order, centres converted. *)
Theorem C215_fit p cz d A r sl xs o a u M M' i i' s : dtw_kmeans p r sl -> (0 < n_clusters p)%nat -> dtw_setting d cz A r sl xs ->
  a = 1 \/ a = -1 -> length u = d -> Permutation o (seq 0 (length xs)) -> fits M xs -> fits M' xs ->
  inits_converted a u cz d (n_clusters p) i i' ->
  let q := fit p i (PropBary.padded d M xs) s in
  let q' := fit p i' (PropBary.padded d M' (reordered o [] (map (converted a u) xs))) s in
  estimators_converted o a u cz d (n_clusters p) xs (fst q) (fst q') /\ snd q' = snd q.
Proof.
  intros Hp HK HX Ha Hu Ho HM HM' HI q q'. assert (A1 : a * a = 1) by (destruct Ha; subst; lra).
  pose proof (fit_twin p cz d A r sl xs o a u Hp HX A1 Hu Ho HK M M' i i' s HM HM' HI) as T.
  change (twin p cz d xs o a u q q') in T. destruct T as [T1 T2]. split; [exact T1|]. clear T1.
  clearbody q q'. destruct q as [s1 [[]|e]], q' as [s1' [[]|e']]; cbn [snd] in *; try contradiction; [reflexivity|rewrite T2; reflexivity].
Qed.
Print Assumptions C215_fit.
(** series given in another order: the labels follow, everything else is the same *)
Lemma converted_0 d x : real_series d x -> converted 1 (repeat 0 d) x = x.
Proof.
  intros (_ & _ & Hr). rewrite <- (map_id x) at 2. apply map_ext_in. intros r Hi. rewrite <- (Hr r Hi). clear. unfold convert_row.
  induction r as [|v r IH]; auto. cbn [length repeat combine map fst snd]. rewrite IH. f_equal. ring.
Qed.
Lemma converted_0s d l : (forall x, In x l -> real_series d x) -> map (converted 1 (repeat 0 d)) l = l.
Proof. intros H. rewrite <- (map_id l) at 2. apply map_ext_in. intros x Hx. apply converted_0; auto. Qed.
Theorem C215_order p cz d A r sl xs o M cs0 s : dtw_kmeans p r sl -> (0 < n_clusters p)%nat -> dtw_setting d cz A r sl xs ->
  length cs0 = n_clusters p -> of_shape cz d cs0 -> Permutation o (seq 0 (length xs)) -> fits M xs ->
  let q := fit p (InitArray (map lift cs0)) (PropBary.padded d M xs) s in
  let q' := fit p (InitArray (map lift cs0)) (PropBary.padded d M (reordered o [] xs)) s in
  snd q' = snd q /\ labels_ (fst q') = option_map (reordered o 0%nat) (labels_ (fst q)) /\ inertia_ (fst q') = inertia_ (fst q) /\
  n_iter_ (fst q') = n_iter_ (fst q) /\ cluster_centers_ (fst q') = cluster_centers_ (fst q).
Proof.
  intros Hp HK HX Lc Sc Ho HM q q'. pose proof HX as (_ & Hx & _).
  pose proof (C215_fit p cz d A r sl xs o 1 (repeat 0 d) M M (InitArray (map lift cs0)) (InitArray (map lift cs0)) s Hp HK HX (or_introl eq_refl) (repeat_length _ _) Ho HM HM) as T.
  unfold rser in *. rewrite (converted_0s d xs Hx) in T. destruct T as [(E1 & E2 & E3 & E4 & E5 & _) E6].
  { exists cs0. split; auto. split; auto. split; auto. f_equal. symmetry. apply converted_0s. intros x Ix. apply Sc. auto. }
  split; [exact E6|]. split; [exact E1|]. split; [exact E2|]. split; [exact E5|]. fold q q' in E3.
  destruct (cluster_centers_ (fst q)) as [C|], (cluster_centers_ (fst q')) as [C'|]; try contradiction; auto.
  destruct E3 as (cs & _ & S0 & -> & ->). do 2 f_equal. apply converted_0s. intros x Ix. apply S0. auto.
Qed.
Print Assumptions C215_order.
(** and so do the predictions for new series, in any order *)
Theorem C215_predict p cz d A r sl ys o a u s s' : dtw_kmeans p r sl -> (0 < n_clusters p)%nat -> dtw_setting d cz A r sl ys ->
  a = 1 \/ a = -1 -> length u = d -> Permutation o (seq 0 (length ys)) ->
  centres_converted a u cz d (n_clusters p) (cluster_centers_ s) (cluster_centers_ s') -> cluster_centers_ s <> None ->
  exists labels, predict p s (PropBary.padded d (lmax ys) ys) = Ok labels /\
    predict p s' (PropBary.padded d (lmax ys) (reordered o [] (map (converted a u) ys))) = Ok (reordered o 0%nat labels).
Proof.
  intros Hp HK HY Ha Hu Ho HC NN. assert (A1 : a * a = 1) by (destruct Ha; subst; lra).
  destruct (cluster_centers_ s) as [C|] eqn:EC; [|congruence]. destruct (cluster_centers_ s') as [C'|] eqn:EC'; [|contradiction].
  destruct HC as (cs & Lc & Sc & -> & ->). assert (Nc : cs <> []) by (intros ->; simpl in Lc; lia).
  exists (nearests ys (dtw_loss r sl) cs). split; [apply (predict_dtw p d cz A r sl); auto|].
  pose proof (predict_dtw p d cz A r sl _ (map (converted a u) cs) s' Hp (HX' cz d A r sl ys o a u HY Hu Ho)) as Q.
  rewrite (lmax' p d ys o a u Hu Ho) in Q. unfold rser in *. etransitivity.
  - apply Q; auto; [intros E; apply map_eq_nil in E; auto|apply converted_cs; auto].
  - f_equal. apply (nearests' p cz d A r sl ys o a u HY A1 Hu Ho cs Sc).
Qed.
Print Assumptions C215_predict.
(** the hypotheses hold for series of different lengths read backwards on the axis *)
Example C215_nontrivial : let xs := [[[0]; [1]; [2]]; [[5]; [6]]] in
  dtw_setting 1 2 (fun n => band n 2 1) (Some 1%Z) None xs /\ Permutation [1%nat; 0%nat] (seq 0 (length xs)) /\ fits 3 xs /\
  reordered [1%nat; 0%nat] [] (map (converted (-1) [7]) xs) = [[[2]; [1]]; [[7]; [6]; [5]]] /\
  inits_converted (-1) [7] 2 1 2 (InitArray (map lift [[[0]; [2]]; [[5]; [5]]])) (InitArray (map lift [[[7]; [5]]; [[2]; [2]]])).
Proof.
  cbn zeta. split; [exact C84_nontrivial|]. split; [apply perm_swap|]. split; [intros x [<-|[<-|[]]]; simpl; lia|]. split.
  - unfold reordered, converted, convert_row. cbn. repeat f_equal; ring.
  - exists [[[0]; [2]]; [[5]; [5]]]. split; [reflexivity|]. split; [|split; [reflexivity|unfold converted, convert_row; cbn; repeat f_equal; ring]].
    intros x [<-|[<-|[]]]; (split; [|reflexivity]; split; [lia|split; [discriminate|]]); intros q Hq; repeat (destruct Hq as [<-|Hq]; [reflexivity|]); contradiction.
Qed.

(** ** C216: another unit, with the tolerance converted: not followed, because the
    centres are computed with a tolerance of their own, 1e-5, which cannot be set *)
Definition once (t : xr) : km_params :=
  {| n_clusters := 1; max_iter := 1; tol := t; n_init := 1; km_met := KmDtw None None None; dtw_inertia := false |}.
Definition free : metric_params := dba_params None None None.
Lemma free_setting x d cz : real_series d x -> dtw_setting d cz (fun _ => everywhere) None None [x].
Proof. intros H. split; [discriminate|]. split; [intros y [<-|[]]; auto|]. split; [exact I|]. intros y _. unfold constraint. cbn. auto. Qed.
Lemma lmax_one x : lmax [x] = length x.
Proof. unfold lmax. cbn. lia. Qed.
Lemma padded_single d x : PropBary.padded d (lmax [x]) [x] = [lift x].
Proof. unfold PropBary.padded, pad_to. cbn [map]. rewrite lmax_one, Nat.sub_diag. cbn [repeat]. rewrite app_nil_r. reflexivity. Qed.
(** one series, one centre, one iteration *)
Lemma fit_single t d x c b : real_series d x -> real_series d c ->
  dba_petitjean [lift x] None (Some (lift c)) 30 (XR (1 / 100000)) None free = Ok (lift b) ->
  exists s', fit (once t) (InitArray [lift c]) [lift x] fresh = (s', Ok tt) /\ cluster_centers_ s' = Some [lift b].
Proof.
  intros Hx Hc E. set (cz := length c). set (xs := [x] : list rser).
  set (renews := fun (ys : list rser) (c0 c' : rser) => dba_petitjean (map (pad_to d (lmax xs)) ys) None (Some (lift c0)) 30 (XR (1 / 100000)) None free = Ok (lift c')).
  assert (Hp : dtw_kmeans (once t) None None) by reflexivity. pose proof (free_setting x d cz Hx) as HX.
  pose proof (dtw_loss_ok d cz _ _ _ _ HX) as HL. destruct (dtw_sound (once t) d cz _ None None xs _ Hp HX HL) as (A1 & A2 & A3 & A4 & A5).
  assert (S0 : of_shape cz d [c]) by (intros y [<-|[]]; auto).
  destruct (fit_once (once t) (pad_to d (lmax xs)) xs (fun c => real_series d c /\ length c = cz) (dtw_loss None None) renews A1 A2 A3 A4) with
    (X0 := PropBary.padded d (lmax xs) xs) (i := InitArray (map lift [c])) (cs := [c]) (C := map lift [c]) (s := fresh) as (cs' & s' & V & RN & EC & EL & EF); auto.
  - intros labels k c0 L Hk Gc. destruct (A5 labels k c0 L Hk Gc) as (c' & N & G & _ & D). exists c'. split; auto. split; auto. split; auto.
    unfold renews. rewrite <- members_map. exact N.
  - apply (padded_input (once t) _ d None None); auto; [apply HX|apply fits_max|]. intros C0 E0. injection E0 as <-. destruct (arr_shape cz d [c] ltac:(discriminate) S0). auto.
  - apply variable_length_padded. apply HX.
  - apply (check_full_length_shape cz d); [discriminate|auto].
  - split; [reflexivity|]. split; [discriminate|]. exact S0.
  - intros k Hk. cbn in Hk. replace k with 0%nat by lia. left. reflexivity.
  - destruct V as (Lc & _ & _). cbn [n_clusters once] in Lc. destruct cs' as [|c' [|]]; try discriminate.
    specialize (RN 0%nat ltac:(cbn; lia)). change (cluster xs (nearests xs (dtw_loss None None) [c]) 0) with xs in RN. cbn [nth] in RN.
    assert (EB : lift c' = lift b).
    { unfold renews in RN. pose proof (padded_single d x) as P. pose proof (eq_trans (eq_sym (f_equal (fun X0 => dba_petitjean X0 None (Some (lift c)) 30 (XR (1 / 100000)) None free) P)) RN) as Q.
      cbv beta in Q. rewrite E in Q. congruence. }
    assert (NE : no_empty_cluster (nearests xs (dtw_loss None None) [c']) (n_clusters (once t)) = true) by reflexivity. rewrite NE in EF.
    exists s'. split; [destruct EF as [EF _]; etransitivity; [|exact EF]; apply (f_equal (fun X0 => fit (once t) (InitArray [lift c]) X0 fresh)); symmetry; apply padded_single|]. rewrite EC. cbn [map]. rewrite EB. reflexivity.
Qed.
(** the centre computed from [ex_x], starting from [ex_b] *)
Lemma pj_ex_step u v p cst u' v' : (0 <= cst)%Z -> z_path free [[0];[-6];[3];[3]]%Z [[u];[v]] = Ok (p, Some cst) ->
  warping_path 2 4 everywhere (map swap p) ->
  mean_bary 2 1 (entries [ex_x] [1] [map swap p]) = zseries [[u'];[v']] ->
  petitjean_step [lift ex_x] (lift (zseries [[u];[v]])) 2 [XR 1] free = Ok (lift (zseries [[u'];[v']]), XR (IZR cst)).
Proof.
  intros Hv E Hp Em. pose proof (pj_single 1 ex_x (zseries [[u];[v]]) p (IZR cst) free ex_real_x (two_real u v) ltac:(apply IZR_le; auto)
    (njit_int free _ _ p cst Hv E) Hp) as K. change (length (zseries [[u];[v]])) with 2%nat in K. rewrite Em in K. exact K.
Qed.
Lemma gap_is x y v t : Rabs (x + - y) = v -> xltb (xabs (xsub (XR x) (XR y))) (XR t) = Rltb v t.
Proof. intros <-. reflexivity. Qed.
Lemma pj_ex t : t = 100 \/ t = 25 -> dba_petitjean [lift ex_x] None (Some (lift ex_b)) 30 (XR t) None free =
  Ok (lift (if Rltb 73 t then zseries [[-1];[3]]%Z else zseries [[-3];[3]]%Z)).
Proof.
  intros Ht.
  assert (S1 := pj_ex_step 5 4 [(0, 0); (1, 1); (2, 1); (3, 1)]%nat 127 0 0 ltac:(lia) eq_refl ltac:(is_path) ltac:(unfold mean_bary, wxsum, wsum; cbn; repeat f_equal; field)).
  assert (S2 := pj_ex_step 0 0 [(0, 0); (1, 0); (2, 0); (3, 1)]%nat 54 (-1) 3 ltac:(lia) eq_refl ltac:(is_path) ltac:(unfold mean_bary, wxsum, wsum; cbn; repeat f_equal; field)).
  assert (S3 := pj_ex_step (-1) 3 [(0, 0); (1, 0); (2, 1); (3, 1)]%nat 26 (-3) 3 ltac:(lia) eq_refl ltac:(is_path) ltac:(unfold mean_bary, wxsum, wsum; cbn; repeat f_equal; field)).
  assert (S4 := pj_ex_step (-3) 3 [(0, 0); (1, 0); (2, 1); (3, 1)]%nat 18 (-3) 3 ltac:(lia) eq_refl ltac:(is_path) ltac:(unfold mean_bary, wxsum, wsum; cbn; repeat f_equal; field)).
  assert (L : forall n, exists q, dba_loop (fun b => petitjean_step [lift ex_x] b 2 [XR 1] free) (XR t) (S (S (S (S n)))) (lift ex_b) XInf XInf =
     Ok (lift (if Rltb 73 t then zseries [[-1];[3]]%Z else zseries [[-3];[3]]%Z), XR q)).
  { intros n. cbn [dba_loop]. unfold ex_b. rewrite S1. cbn [bind]. change (xltb (xabs (xsub XInf (XR 127))) (XR t)) with false. change (xltb XInf (XR 127)) with false. cbv iota.
    rewrite S2. cbn [bind]. rewrite (gap_is 127 54 73) by (replace (127 + - (54)) with 73 by ring; apply Rabs_right; lra).
    destruct (Rltb 73 t) eqn:T; [eexists; reflexivity|]. destruct Ht as [->| ->]; [apply Rltb_false in T; lra|].
    replace (xltb (XR 127) (XR 54)) with false by (symmetry; rewrite xltb_R; apply Rltb_false; lra). rewrite S3. cbn [bind].
    rewrite (gap_is 54 26 28) by (replace (54 + - (26)) with 28 by ring; apply Rabs_right; lra).
    replace (Rltb 28 25) with false by (symmetry; apply Rltb_false; lra).
    replace (xltb (XR 54) (XR 26)) with false by (symmetry; rewrite xltb_R; apply Rltb_false; lra). rewrite S4. cbn [bind].
    rewrite (gap_is 26 18 8) by (replace (26 + - (18)) with 8 by ring; apply Rabs_right; lra).
    replace (Rltb 8 25) with true by (symmetry; apply Rltb_true; lra). eexists. reflexivity. }
  destruct (L 26%nat) as (v & E). unfold dba_petitjean. rewrite (start_single 1 ex_x ex_b ex_real_x (two_real 5 4)). cbn [bind].
  change (length ex_b) with 2%nat. rewrite E. reflexivity.
Qed.
Lemma pj_unit k t : 0 < k -> t = 100 \/ t = 25 -> k * k * t = 1 / 100000 ->
  dba_petitjean [lift (converted k [0] ex_x)] None (Some (lift (converted k [0] ex_b))) 30 (XR (1 / 100000)) None free =
  Ok (lift (converted k [0] (if Rltb 73 t then zseries [[-1];[3]]%Z else zseries [[-3];[3]]%Z))).
Proof.
  intros Hk Ht Ek. destruct (C213_petitjean k [0] 1 4 4 [ex_x] [converted k [0] ex_x] None None free (fun _ => everywhere) None (Some ex_b) 29 (XR t)
    ltac:(lra) eq_refl ex_data) as (b & Hb & _ & E & E').
  - split; [reflexivity|]. apply Permutation_refl.
  - apply two_real.
  - intros x _. apply anywhere.
  - pose proof (padded_one ex_x) as P1. change (length ex_x) with 4%nat in P1. pose proof (padded_one (converted k [0] ex_x)) as P2. rewrite converted_len in P2. change (length ex_x) with 4%nat in P2.
    rewrite P1 in E. rewrite P2 in E'. cbn [option_map rescaled] in E, E'. rewrite Ek in E'. etransitivity; [exact E'|].
    pose proof (eq_trans (eq_sym (pj_ex t Ht)) E) as K. apply (f_equal (fun r => match r with Ok v => v | _ => [] end)) in K. cbv beta iota in K. apply lift_inj in K. rewrite K. reflexivity.
Qed.
(** Whatever [tol], doubling every value of the series and of the initial centre and
    multiplying [tol] by four does not double the centre. *)
Theorem C216_unit_refuted : forall t, exists x c b b' s s', real_series 1 x /\ real_series 1 c /\ real_series 1 b /\
  fit (once t) (InitArray [lift c]) [lift x] fresh = (s, Ok tt) /\ cluster_centers_ s = Some [lift b] /\
  fit (with_tol (rescaled 4 t) (once t)) (InitArray [lift (converted 2 [0] c)]) [lift (converted 2 [0] x)] fresh = (s', Ok tt) /\
  cluster_centers_ s' = Some [lift b'] /\ b' <> converted 2 [0] b.
Proof.
  intros t. set (k := sqrt (1 / 10000000)). assert (Hk : 0 < k) by (apply sqrt_lt_R0; lra).
  assert (Ek : k * k = 1 / 10000000) by (apply sqrt_sqrt; lra).
  assert (Rx : real_series 1 (converted k [0] ex_x)) by (apply converted_real; auto; apply ex_real_x).
  assert (Rc : real_series 1 (converted k [0] ex_b)) by (apply converted_real; auto; apply two_real).
  destruct (fit_single t 1 _ _ _ Rx Rc (pj_unit k 100 Hk (or_introl eq_refl) ltac:(rewrite Ek; field))) as (s & F & C).
  assert (Rx2 : real_series 1 (converted (2 * k) [0] ex_x)) by (apply converted_real; auto; apply ex_real_x).
  assert (Rc2 : real_series 1 (converted (2 * k) [0] ex_b)) by (apply converted_real; auto; apply two_real).
  destruct (fit_single (rescaled 4 t) 1 _ _ _ Rx2 Rc2 (pj_unit (2 * k) 25 ltac:(lra) (or_intror eq_refl) ltac:(replace (2 * k * (2 * k)) with (4 * (k * k)) by ring; rewrite Ek; field))) as (s' & F' & C').
  replace (Rltb 73 100) with true in C by (symmetry; apply Rltb_true; lra). replace (Rltb 73 25) with false in C' by (symmetry; apply Rltb_false; lra).
  exists (converted k [0] ex_x), (converted k [0] ex_b), (converted k [0] (zseries [[-1];[3]]%Z)), (converted (2 * k) [0] (zseries [[-3];[3]]%Z)), s, s'.
  split; auto. split; auto. split; [apply converted_real; auto; apply two_real|]. split; auto. split; auto.
  rewrite (converted_twice k ex_x ex_real_x), (converted_twice k ex_b (two_real 5 4)). split; [exact F'|]. split; [exact C'|].
  intros K. apply (f_equal (fun s => nth 0 (nth 0 s []) 0)) in K. unfold converted, convert_row in K. cbn in K. lra.
Qed.
Print Assumptions C216_unit_refuted.

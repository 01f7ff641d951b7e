(** C163: [predict] of k-means with the soft-DTW metric. *)
From Coq Require Import Bool List Arith Lia ZArith QArith Reals Lra Permutation.
From Verif Require Import Num NumLaws Py Series Masks DtwModel Spec SpecDtw RList RealSeries PathSum PaaModel PaaThms PreModel PropScale PropResample PropCtw
  GakModel SoftModel Dataset DpProofs DtwProofs ValidThms CdistThms PropCdist CdistGen BaryModel BaryThms BaryReal PropBary IntSeries PropBary2
  ClusterModel ClusterThms PropCluster PropCluster2 KInitModel PropKInit SoftBaryModel PropSoft PropSoftCdist PropSoftBary PropSoftBary2 SoftKmeansModel SoftKmeansThms PropSoftKmeans.
Import ListNotations.
Local Open Scope R_scope.

Lemma soft_rows_padded d cz M p xs cs : soft_setting d p xs -> cs <> [] -> of_shape cz d cs ->
  soft_transform p (map lift cs) (PropBary.padded d M xs) = Ok (map (fun x => map (fun c => XR (soft_value p x c)) cs) xs).
Proof.
  intros HS Nc Hc. pose proof HS as (Hne & Hx & Hg & Hs & Hni & n & m & A & HA). destruct (gc_total _ _ _ _ _ _ HA) as (code & EC).
  unfold soft_transform, cdist_soft_rows, cdist_soft_dtw_generic. rewrite is_zero_false by auto. rewrite EC. cbn [bind].
  set (dist := fun s1 s2 => soft_dtw_generic BNumpy s1 s2 (sk_gamma p) code (sk_radius p) (sk_slope p)).
  assert (V : forall x c, In x xs -> In c cs -> dist (lift x) (lift c) = Ok (XR (soft_value p x c))).
  { intros x c Ix Ic. destruct (Hc c Ic) as [Rc Lc].
    destruct (soft_lift_generic d x c _ _ _ _ _ Hg (Hx x Ix) Rc (soft_value_spec d p xs x c HS (Hx x Ix) Rc)) as (code' & EC' & EV).
    assert (code' = code) by congruence. subst code'. exact EV. }
  set (dist' := fun a b : series Xnum => dist (to_time_series (N:=Xnum) true (Raw2 a)) (to_time_series (N:=Xnum) true (Raw2 b))).
  assert (L1 : length (PropBary.padded d M xs) = length xs) by apply map_length.
  assert (L2 : length (map lift cs) = length cs) by apply map_length.
  assert (VV : forall i k, (i < length xs)%nat -> (k < length cs)%nat ->
     dist' (nth i (PropBary.padded d M xs) []) (nth k (map lift cs) []) = Ok (XR (soft_value p (nth i xs []) (nth k cs [])))).
  { intros i k Hi Hk. assert (Ix : In (nth i xs []) xs) by (apply nth_In; auto). assert (Ic : In (nth k cs []) cs) by (apply nth_In; auto).
    unfold PropBary.padded. rewrite (nth_indep _ [] (pad_to d M [])) by (rewrite map_length; auto). rewrite map_nth.
    rewrite (nth_indep (map lift cs) [] (lift [])) by (rewrite map_length; auto). rewrite map_nth.
    unfold dist'. pose proof (strip_pad_to d M (nth i xs []) (Hx _ Ix)) as E1. pose proof (strip_lift d (nth k cs []) (proj1 (Hc _ Ic))) as E2.
    refine (eq_trans (f_equal2 dist E1 E2) _). apply V; auto. }
  unfold cdist_generic. 
  destruct (cdist_cross_returns Xnum (series Xnum) dist' [] (PropBary.padded d M xs) (map lift cs) Sequential I) as (T & ET).
  { rewrite L1, L2. intros i k Hi Hk. eexists. apply VV; auto. }
  pose proof (cdist_cross_spec Xnum (series Xnum) dist' [] (PropBary.padded d M xs) (map lift cs) Sequential T I ET) as HT.
  rewrite L1, L2 in HT. refine (eq_trans (f_equal (fun q => bind q _) ET) _). cbn [bind]. f_equal. unfold table. rewrite L1, L2.
  rewrite (map_nth_seq (fun x => map (fun c => XR (soft_value p x c)) cs) xs []). apply map_ext_in. intros i Hi. apply in_seq in Hi.
  rewrite (map_nth_seq (fun c => XR (soft_value p (nth i xs []) c)) cs []). apply map_ext_in. intros k Hk. apply in_seq in Hk.
  unfold rser in *. specialize (HT i k ltac:(lia) ltac:(lia)). rewrite VV in HT by lia. injection HT as <-. reflexivity.
Qed.
Lemma closest_unique loss cs x l l' : closest loss cs x l -> closest loss cs x l' -> l = l'.
Proof.
  intros (H1 & H2) (H1' & H2'). destruct (Nat.lt_trichotomy l l') as [L|[L|L]]; auto.
  - destruct (H2' l H1) as [_ A]. specialize (A L). destruct (H2 l' H1') as [B _]. lra.
  - destruct (H2 l' H1') as [_ A]. specialize (A L). destruct (H2' l H1) as [B _]. lra.
Qed.
Lemma labelled_unique loss xs cs l l' : labelled loss xs cs l -> labelled loss xs cs l' -> l = l'.
Proof.
  intros [L H] [L' H']. apply (nth_ext _ _ 0%nat 0%nat); [congruence|]. intros n Hn. rewrite L in Hn.
  apply (closest_unique loss cs (nth n xs [])); auto.
Qed.

(** predict gives every series of a new dataset its first closest centre; the padding
    does not matter *)
Theorem C163_predict : forall d cz p M ys cs st, soft_setting d p ys -> fits M ys -> centres d cz p cs ->
  cluster_centers_ st = Some (map lift cs) ->
  exists labels, soft_predict p st (PropBary.padded d M ys) = Ok labels /\ labelled (soft_value p) ys cs labels.
Proof.
  intros d cz p M ys cs st HS HM HC Hst. pose proof HS as (Hne & Hx & _). pose proof HC as (_ & Nc & Hc).
  pose proof (padded_input (other_metric p) (InitDrawn (fun _ => Ok [])) d None None M ys eq_refl Hne Hx HM ltac:(intros; discriminate)) as E.
  unfold fit_input in E. destruct (check_arr (PropBary.padded d M ys)) as [X|e] eqn:EA; [|discriminate]. cbn [bind] in E.
  destruct (check_values (other_metric p) X) eqn:EV; [|discriminate]. injection E as ->.
  exists (nearests ys (soft_value p) cs). split; [|apply nearests_labelled; auto].
  unfold soft_predict. rewrite EA. cbn [bind]. rewrite EV, Hst. destruct (arr_shape cz d cs Nc Hc) as [A1 A2].
  pose proof (padded_shape d M ys Hx HM) as SH. assert (Hn : (0 < length ys)%nat) by (destruct ys; [congruence|simpl; lia]).
  assert (Hm : (0 < M)%nat). { destruct ys as [|x l]; [congruence|]. pose proof (HM x (or_introl eq_refl)). pose proof (real_len d x (Hx x (or_introl eq_refl))). lia. }
  rewrite (arr_d_shape _ _ _ _ SH Hn Hm). assert (E1 : arr_d (map lift cs) = d) by auto. rewrite E1, Nat.eqb_refl.
  rewrite (soft_rows_padded d cz M p ys cs HS Nc Hc). cbn [bind]. f_equal. unfold nearests, nearest. rewrite map_map. apply map_ext. intros x. rewrite map_map. reflexivity.
Qed.
Print Assumptions C163_predict.

(** on the training data it gives the reported labels *)
Theorem C163_predict_training : forall en d cz p M xs i s0 s', engine_ok en -> soft_setting d p xs -> fits M xs -> sk_max_iter p <> 0%nat ->
  (forall n, exists cs, draws i n = Ok (map lift cs) /\ centres d cz p cs) ->
  soft_fit en p i (PropBary.padded d M xs) s0 = (s', Ok tt) -> X_fit_ s' <> None ->
  exists labels, labels_ s' = Some labels /\ soft_predict p s' (PropBary.padded d M xs) = Ok labels.
Proof.
  intros en d cz p M xs i s0 s' HE HS HM Hm Hi E Nf.
  destruct (C163_reported en d cz p M xs i s0 s' HE HS HM Hm Hi E Nf) as (cs & labels & n & cs0 & V & C & L & Lab & _).
  exists labels. split; [exact L|]. destruct (C163_predict d cz p M xs cs s' HS HM V C) as (l' & E' & Lab').
  rewrite E'. f_equal. apply (labelled_unique (soft_value p) xs cs); auto.
Qed.
Print Assumptions C163_predict_training.

(** C213, C214: DTW barycenter averaging does not depend on the order of the series
    and follows a change of origin; with a change of unit it follows if the
    tolerance is converted too, and only then. *)
From Coq Require Import Bool List Arith Lia ZArith QArith Reals Lra Permutation.
From Verif Require Import Num NumLaws Py Series Masks DtwModel Spec SpecDtw DpProofs DtwProofs DtwThms
  LimitedThms MaskThms RList PathSum RealSeries PaaModel PaaThms CdistThms PropCtw PreModel PropScale PropResample
  GakModel SoftModel Dataset BaryModel BaryThms BaryReal PropBary PropBary2 PropCluster PropKmMeta IntSeries PropSaxMeta PropPreMeta ClusterThms.
Import ListNotations.
Local Open Scope R_scope.

(** ** Specification *)
(** every value [v] of feature [k] becomes [a * v + nth k c] *)
Definition convert_row (a : R) (c r : list R) : list R := map (fun p => a * fst p + snd p) (combine r c).
Definition converted (a : R) (c : list R) (x : list (list R)) : list (list R) := map (convert_row a c) x.
(** the same series with the same weights after the conversion, in any order *)
Definition same_data (a : R) (c : list R) (xs : list (list (list R))) (w : list R) (xs' : list (list (list R))) (w' : list R) : Prop :=
  length w' = length xs' /\ Permutation (combine xs' w') (combine (map (converted a c) xs) w).

(** ** the alignments *)
Lemma convert_row_len a c r : length c = length r -> length (convert_row a c r) = length r.
Proof. intros H. unfold convert_row. rewrite map_length, combine_length. lia. Qed.
Lemma convert_row_nth a c r k : length c = length r -> (k < length r)%nat -> nth k (convert_row a c r) 0 = a * nth k r 0 + nth k c 0.
Proof.
  revert c k. induction r as [|v r IH]; intros [|u c] k H Hk; simpl in *; try lia. destruct k; auto. apply IH; lia.
Qed.
Lemma converted_len a c x : length (converted a c x) = length x. Proof. apply map_length. Qed.
Lemma converted_nth a c x i : nth i (converted a c x) [] = convert_row a c (nth i x []).
Proof. unfold converted. change [] with (convert_row a c []) at 1. apply map_nth. Qed.
Lemma converted_real a c d x : length c = d -> real_series d x -> real_series d (converted a c x).
Proof.
  intros Hc (Hd & Hn & Hr). split; auto. split; [destruct x; [congruence|discriminate]|].
  intros r Hi. apply in_map_iff in Hi. destruct Hi as (r0 & <- & Hi). rewrite convert_row_len; rewrite (Hr _ Hi); auto.
Qed.
Lemma sqd_converted a c r r' : (length r <= length c)%nat -> (length r' <= length c)%nat ->
  sqd (convert_row a c r) (convert_row a c r') = a * a * sqd r r'.
Proof.
  unfold sqd, convert_row. revert r r'. induction c as [|u c IH]; intros [|v r] [|v' r'] H H'; simpl in *; try lia; try lra.
  rewrite IH by lia. ring.
Qed.
Lemma row_le d x i : real_series d x -> (length (nth i x []) <= d)%nat.
Proof. intros (_ & _ & Hr). destruct (nth_in_or_default i x []) as [H| ->]; [rewrite (Hr _ H); auto|simpl; lia]. Qed.
Lemma costs_converted a c d s1 s2 i j : length c = d -> real_series d s1 -> real_series d s2 ->
  costs (converted a c s1) (converted a c s2) i j = a * a * costs s1 s2 i j.
Proof.
  intros Hc H1 H2. unfold costs. rewrite !converted_nth. apply sqd_converted; rewrite Hc; apply row_le; auto.
Qed.
Lemma cost_converted a c d s1 s2 p : length c = d -> real_series d s1 -> real_series d s2 ->
  cost (costs (converted a c s1) (converted a c s2)) p = a * a * cost (costs s1 s2) p.
Proof.
  intros Hc H1 H2. unfold cost. rewrite <- rsum_map_scal. apply rsum_map_ext. intros. apply (costs_converted a c d); auto.
Qed.

Section Scale.
Variable q : R.
Hypothesis Hq : 0 < q.
Lemma rescaled_add x y : xadd (rescaled q x) (rescaled q y) = rescaled q (xadd x y).
Proof. destruct x, y; try reflexivity. cbn. f_equal. ring. Qed.
Lemma rescaled_min x y : pymin (N:=Xnum) (rescaled q x) (rescaled q y) = rescaled q (pymin (N:=Xnum) x y).
Proof. unfold pymin. change (@nltb Xnum) with xltb. rewrite rescaled_ltb by auto. destruct (xltb y x); reflexivity. Qed.
Lemma rescaled_argmin x y z : argmin3 (N:=Xnum) (rescaled q x) (rescaled q y) (rescaled q z) = argmin3 (N:=Xnum) x y z.
Proof. unfold argmin3. change (@nltb Xnum) with xltb. rewrite !rescaled_ltb by auto. reflexivity. Qed.
Lemma cum_rescaled (D D' : mat Xnum) mask l : (forall i j, D' i j = rescaled q (D i j)) -> forall (m m' : mat Xnum),
  (forall i j, m' i j = rescaled q (m i j)) ->
  forall i j, fold_left (cum_step (N:=Xnum) comb_dtw D' mask) l m' i j = rescaled q (fold_left (cum_step (N:=Xnum) comb_dtw D mask) l m i j).
Proof.
  intros HD. induction l as [|[s t] l IH]; intros m m' Hm i j; [apply Hm|]. cbn [fold_left]. apply IH. clear i j. intros i j.
  unfold cum_step. destruct (mask s t); [|apply Hm]. unfold upd. destruct (_ && _); [|apply Hm].
  unfold comb_dtw, pymin3. change (@nadd Xnum) with xadd. rewrite HD, !Hm, !rescaled_min. apply rescaled_add.
Qed.
Lemma acc_rescaled (D D' : mat Xnum) mask l1 l2 : (forall i j, D' i j = rescaled q (D i j)) ->
  forall i j, acc_matrix (N:=Xnum) comb_dtw l1 l2 D' mask i j = rescaled q (acc_matrix (N:=Xnum) comb_dtw l1 l2 D mask i j).
Proof.
  intros HD i j. unfold acc_matrix, cum_matrix. apply cum_rescaled; auto. clear. intros i j. unfold cum_init.
  destruct (_ && _); [|reflexivity]. cbn. f_equal. ring.
Qed.
Lemma backtrack_rescaled (m m' : mat Xnum) : (forall i j, m' i j = rescaled q (m i j)) ->
  forall f i j p, backtrack (N:=Xnum) f m' i j p = backtrack (N:=Xnum) f m i j p.
Proof.
  intros Hm. induction f as [|f IH]; intros i j p; auto. cbn [backtrack]. destruct i as [|i], j as [|j]; auto.
  rewrite !Hm, rescaled_argmin. destruct (argmin3 _ _ _) as [|[|]]; apply IH.
Qed.
End Scale.

(** path and cost of the alignment of two series *)
Definition path_of (mp : metric_params) (s1 s2 : list (list R)) : list cell :=
  match njit_dtw_path mp (lift s1) (lift s2) with Ok (p, _) => p | Err _ => [] end.
Lemma path_converted mp a c d s1 s2 : a <> 0 -> length c = d -> real_series d s1 -> real_series d s2 ->
  path_of mp (converted a c s1) (converted a c s2) = path_of mp s1 s2.
Proof.
  intros Ha Hc H1 H2. assert (Hq : 0 < a * a) by nra. unfold path_of, njit_dtw_path, elastic_path_generic.
  rewrite !lift_length, !converted_len. destruct (compute_mask _ _ _ _ _) as [mask|e]; [|reflexivity]. cbn [bind].
  assert (EA : forall i j, acc_matrix (N:=Xnum) comb_dtw (length s1) (length s2) (sq_dists (N:=Xnum) (lift (converted a c s1)) (lift (converted a c s2))) mask i j =
     rescaled (a * a) (acc_matrix (N:=Xnum) comb_dtw (length s1) (length s2) (sq_dists (N:=Xnum) (lift s1) (lift s2)) mask i j)).
  { apply acc_rescaled; auto. intros i j. rewrite !sq_dists_lift. cbn [rescaled]. f_equal. apply (costs_converted a c d); auto. }
  unfold compute_path. rewrite (backtrack_rescaled (a * a) Hq _ _ EA). destruct (backtrack _ _ _ _ _); reflexivity.
Qed.

(** ** one iteration *)
Definition cost_of (mp : metric_params) (b x : list (list R)) : R := cost (costs b x) (path_of mp b x).
Definition pj_path (mp : metric_params) (b x : list (list R)) : list cell := map swap (path_of mp x b).
(** what one iteration returns: observations and cost, from the path of each series *)
Definition obs_all (f : list (list R) -> list cell) (l : list (list (list R) * R)) : list obs :=
  concat (map (fun t => obs_of (f (fst t)) (snd t) (fst t)) l).
Definition cost_all (b : list (list R)) (f : list (list R) -> list cell) (l : list (list (list R) * R)) : R :=
  rsum (map (fun t => cost (costs b (fst t)) (f (fst t)) * snd t) l) / rsum (map snd l).
Lemma entries_all f xs w : length w = length xs -> entries xs w (map f xs) = obs_all f (combine xs w).
Proof.
  unfold entries, obs_all. revert w. induction xs as [|x xs IH]; intros [|a w] H; simpl in *; try discriminate; auto. f_equal. apply IH. lia.
Qed.
Lemma wcost_all b f xs w : length w = length xs ->
  wcost (map (fun x => cost (costs b x) (f x)) xs) w / rsum w = cost_all b f (combine xs w).
Proof.
  intros H. unfold cost_all. rewrite map_snd_combine by auto. f_equal. unfold wcost. f_equal. revert w H.
  induction xs as [|x xs IH]; intros [|a w] H; simpl in *; try discriminate; auto. f_equal. apply IH. lia.
Qed.
Lemma paths_list (P : list (list R) -> list cell -> R -> Prop) (f : list (list R) -> list cell) (g : list (list R) -> R) xs ps vs :
  length ps = length vs -> (forall x p v, In x xs -> P x p v -> p = f x /\ v = g x) ->
  Forall2 (fun x pv => P x (fst pv) (snd pv)) xs (combine ps vs) -> ps = map f xs /\ vs = map g xs.
Proof.
  intros L H F. revert ps vs L F. induction xs as [|x xs IH]; intros [|p ps] [|v vs] L F; inversion F; subst; try discriminate; auto.
  destruct (IH ltac:(intros; apply H; simpl; auto) ps vs ltac:(simpl in L; lia)) as [-> ->]; auto.
  destruct (H x p v) as [-> ->]; simpl; auto.
Qed.
Lemma forall2_and {A B} (P Q : A -> B -> Prop) l l' : Forall2 P l l' -> Forall2 Q l l' -> Forall2 (fun a b => P a b /\ Q a b) l l'.
Proof. intros F. induction F; intros G; inversion G; subst; constructor; auto. Qed.
Lemma mm_run_all d M xs w mp A b : weighted_dataset d xs w -> real_series d b ->
  (forall x, In x xs -> allows mp (length b) (length x) (A (length x))) ->
  mm_step (padded d M xs) (lift b) (length b) (map XR w) mp =
    Ok (lift (mean_bary (length b) d (obs_all (path_of mp b) (combine xs w))), XR (cost_all b (path_of mp b) (combine xs w))) /\
  Forall2 (fun p x => warping_path (length b) (length x) (A (length x)) p) (map (path_of mp b) xs) xs.
Proof.
  intros HD Hb HA. destruct (mm_run d M xs w mp A b HD Hb HA) as (ps & vs & Hl & E & F & G).
  destruct (paths_list (fun x p v => best_path b x (A (length x)) p v /\ njit_dtw_path mp (lift b) (lift x) = Ok (p, XR (sqrt v)) /\ 0 <= v)
    (path_of mp b) (cost_of mp b) xs ps vs Hl) as [-> ->].
  - intros x p v _ ((_ & Hc & _) & Ep & _). assert (p = path_of mp b x) by (unfold path_of; norm; rewrite Ep; reflexivity). split; auto.
    unfold cost_of. congruence.
  - apply (forall2_and _ _ _ _ F G).
  - pose proof HD as (_ & _ & Hlw & _). rewrite entries_all in E by auto. unfold cost_of in E. rewrite wcost_all in E by auto. split; auto.
    apply (paths_of_best xs b A _ _ Hl F).
Qed.
Lemma pj_run_all d M xs w mp A b : weighted_dataset d xs w -> real_series d b ->
  (forall x, In x xs -> allows mp (length x) (length b) (fun i j => A (length x) j i)) ->
  petitjean_step (padded d M xs) (lift b) (length b) (map XR w) mp =
    Ok (lift (mean_bary (length b) d (obs_all (pj_path mp b) (combine xs w))), XR (cost_all b (pj_path mp b) (combine xs w))) /\
  Forall2 (fun p x => warping_path (length b) (length x) (A (length x)) p) (map (pj_path mp b) xs) xs.
Proof.
  intros HD Hb HA. destruct (pj_run_paths d M xs w mp A b HD Hb HA) as (ps & vs & Hl & E & F & G).
  destruct (paths_list (fun x p v => best_path b x (A (length x)) p v /\ njit_dtw_path mp (lift x) (lift b) = Ok (map swap p, XR (sqrt v)))
    (pj_path mp b) (fun x => cost (costs b x) (pj_path mp b x)) xs ps vs Hl) as [-> ->].
  - intros x p v _ ((_ & Hc & _) & Ep). assert (p = pj_path mp b x) by (unfold pj_path, path_of; norm; rewrite Ep; symmetry; apply swap_swap). split; auto.
    congruence.
  - apply (forall2_and _ _ _ _ F G).
  - pose proof HD as (_ & _ & Hlw & _). rewrite entries_all in E by auto. rewrite wcost_all in E by auto. split; auto.
    apply (paths_of_best xs b A _ _ Hl F).
Qed.

(** *** the same data *)
Lemma obs_perm f l l' t : Permutation l l' ->
  wsum (at_step t (obs_all f l)) = wsum (at_step t (obs_all f l')) /\ forall k, wxsum k (at_step t (obs_all f l)) = wxsum k (at_step t (obs_all f l')).
Proof.
  intros P. unfold obs_all. split; [|intros k]; rewrite ?wsum_concat, ?wxsum_concat; apply rsum_perm; apply Permutation_map; auto.
Qed.
Lemma mean_bary_ext n d E E' : (forall t k, (t < n)%nat -> (k < d)%nat -> wxsum k (at_step t E) / wsum (at_step t E) = wxsum k (at_step t E') / wsum (at_step t E')) ->
  mean_bary n d E = mean_bary n d E'.
Proof.
  intros H. unfold mean_bary. apply map_ext_in. intros t Ht. apply in_seq in Ht. apply map_ext_in. intros k Hk. apply in_seq in Hk. apply H; lia.
Qed.
Lemma cost_all_perm b f l l' : Permutation l l' -> cost_all b f l = cost_all b f l'.
Proof. intros P. unfold cost_all. rewrite (rsum_perm _ _ (Permutation_map (fun t => cost (costs b (fst t)) (f (fst t)) * snd t) P)), (rsum_perm _ _ (Permutation_map snd P)). reflexivity. Qed.

Definition conv_obs (a : R) (c : list R) (e : obs) : obs := (fst e, (fst (snd e), convert_row a c (snd (snd e)))).
Lemma combine_converted a c xs (w : list R) : combine (map (converted a c) xs) w = map (fun t => (converted a c (fst t), snd t)) (combine xs w).
Proof. rewrite <- (map_id w) at 1. rewrite combine_map. reflexivity. Qed.
Lemma obs_converted a c f f' l : (forall x v, In (x, v) l -> f' (converted a c x) = f x) ->
  obs_all f' (map (fun t => (converted a c (fst t), snd t)) l) = map (conv_obs a c) (obs_all f l).
Proof.
  intros H. unfold obs_all. rewrite concat_map, !map_map. f_equal. apply map_ext_in. intros [x v] Hi. cbn [fst snd]. rewrite (H x v Hi).
  unfold obs_of. rewrite map_map. apply map_ext. intros [i j]. unfold conv_obs. cbn [fst snd]. rewrite converted_nth. reflexivity.
Qed.
Lemma at_step_conv a c t E : at_step t (map (conv_obs a c) E) = map (conv_obs a c) (at_step t E).
Proof. unfold at_step. induction E as [|e E IH]; auto. simpl. destruct (fst e =? t)%nat; simpl; rewrite IH; reflexivity. Qed.
Lemma wsum_conv a c E : wsum (map (conv_obs a c) E) = wsum E.
Proof. unfold wsum. rewrite map_map. reflexivity. Qed.
Lemma wxsum_conv a c k E : (forall e, In e E -> length (snd (snd e)) = length c) -> (k < length c)%nat ->
  wxsum k (map (conv_obs a c) E) = a * wxsum k E + nth k c 0 * wsum E.
Proof.
  intros H Hk. unfold wxsum, wsum. rewrite map_map. induction E as [|e E IH]; [cbn; ring|]. cbn [map]. rewrite !rsum_cons. rewrite IH by (intros; apply H; simpl; auto).
  cbn [conv_obs fst snd]. assert (L : length (snd (snd e)) = length c) by (apply H; simpl; auto). rewrite convert_row_nth by lia. ring.
Qed.
Lemma mean_converted a c n d E : length c = d -> (forall e, In e E -> length (snd (snd e)) = d) -> (forall t, (t < n)%nat -> 0 < wsum (at_step t E)) ->
  mean_bary n d (map (conv_obs a c) E) = converted a c (mean_bary n d E).
Proof.
  intros Hc HE HW. unfold converted, mean_bary. rewrite map_map. apply map_ext_in. intros t Ht. apply in_seq in Ht.
  rewrite at_step_conv, wsum_conv. apply nth_ext with (d := 0) (d' := 0).
  - rewrite convert_row_len; rewrite !map_length; auto. rewrite seq_length. auto.
  - intros k Hk. rewrite map_length, seq_length in Hk. rewrite convert_row_nth; rewrite ?map_length, ?seq_length; auto.
    rewrite !map_seq_nth by auto. rewrite wxsum_conv; [|intros e He; rewrite HE; auto; unfold at_step in He; apply filter_In in He; apply He|lia].
    cbn [Nat.add]. field. pose proof (HW t ltac:(lia)). lra.
Qed.

(** *** one iteration of the two runs *)
Section Runs.
Variables (a : R) (c : list R) (d M M' : nat) (xs xs' : list (list (list R))) (w w' : list R) (mp : metric_params) (A : nat -> nat -> nat -> bool).
Hypothesis Ha : a <> 0.
Hypothesis Hc : length c = d.
Hypothesis HD : weighted_dataset d xs w.
Hypothesis HS : same_data a c xs w xs' w'.
Lemma aa_pos : 0 < a * a. Proof. nra. Qed.
Lemma same_in x v : In (x, v) (combine xs' w') -> exists y, In (y, v) (combine xs w) /\ x = converted a c y.
Proof.
  intros H. destruct HS as [_ P]. apply (Permutation_in _ P) in H. rewrite combine_converted in H. apply in_map_iff in H.
  destruct H as ([y u] & E & H). injection E as <- <-. exists y. auto.
Qed.
Lemma in_xs' x : In x xs' -> exists v, In (x, v) (combine xs' w').
Proof.
  destruct HS as [L _]. clear -L. revert w' L. induction xs' as [|y l IH]; intros [|v u] L Hx; try contradiction; try discriminate.
  destruct Hx as [->|Hx]; [exists v; left; auto|]. destruct (IH u ltac:(simpl in L; lia) Hx) as (v0 & H). exists v0. right. auto.
Qed.
Lemma in_w' v : In v w' -> exists x, In (x, v) (combine xs' w').
Proof.
  destruct HS as [L _]. clear -L. revert w' L. induction xs' as [|y l IH]; intros [|v0 u] L Hx; try contradiction; try discriminate.
  destruct Hx as [->|Hx]; [exists y; left; auto|]. destruct (IH u ltac:(simpl in L; lia) Hx) as (x0 & H). exists x0. right. auto.
Qed.
Lemma same_series x : In x xs' -> exists y, In y xs /\ x = converted a c y.
Proof.
  intros H. destruct (in_xs' x H) as (v & Hv). destruct (same_in x v Hv) as (y & Hy & ->). exists y. split; auto. apply in_combine_l in Hy. auto.
Qed.
Lemma same_weighted : weighted_dataset d xs' w'.
Proof.
  pose proof HD as (Hne & Hx & Hlw & Hw). pose proof HS as [L P]. split; [|split; [|split; auto]].
  - intros ->. simpl in P. apply Permutation_nil in P. apply Hne. destruct xs, w; simpl in *; try discriminate; auto.
  - intros x Hi. destruct (same_series x Hi) as (y & Hy & ->). apply converted_real; auto.
  - intros v Hv. destruct (in_w' v Hv) as (x & Hi). destruct (same_in x v Hi) as (y & Hy & _). apply Hw. apply in_combine_r in Hy. auto.
Qed.
Lemma same_mean (f f' : list (list R) -> list cell) n : (0 < n)%nat -> (forall x, In x xs -> f' (converted a c x) = f x) ->
  Forall2 (fun p x => warping_path n (length x) (A (length x)) p) (map f xs) xs ->
  mean_bary n d (obs_all f' (combine xs' w')) = converted a c (mean_bary n d (obs_all f (combine xs w))).
Proof.
  intros Hn Hf F. pose proof HD as (Hne & Hx & Hlw & Hw). pose proof HS as [L P].
  rewrite <- mean_converted; auto.
  - apply mean_bary_ext. intros t k Ht Hk. destruct (obs_perm f' _ _ t P) as [-> ->]. rewrite combine_converted.
    rewrite (obs_converted a c f f'); auto. intros x v Hi. apply Hf. apply in_combine_l in Hi. auto.
  - intros e He. rewrite <- entries_all in He by auto. apply (entries_ok d xs w Hx Hlw Hw n A (map f xs) Hn F) in He. apply He.
  - intros t Ht. rewrite <- entries_all by auto. apply (entries_pos d xs w Hx Hne Hlw Hw n A (map f xs) Hn F t Ht).
Qed.
Lemma same_cost (f f' : list (list R) -> list cell) b : real_series d b -> (forall x, In x xs -> f' (converted a c x) = f x) ->
  cost_all (converted a c b) f' (combine xs' w') = a * a * cost_all b f (combine xs w).
Proof.
  intros Hb Hf. pose proof HS as [L P]. rewrite (cost_all_perm _ _ _ _ P), combine_converted. pose proof HD as (_ & Hx & _ & _).
  unfold cost_all. rewrite !map_map. cbn [snd fst]. unfold Rdiv. rewrite <- Rmult_assoc, <- rsum_map_scal. f_equal.
  apply rsum_map_ext. intros [x v] Hi. apply in_combine_l in Hi. cbn [fst snd]. rewrite Hf by auto.
  rewrite (cost_converted a c d) by auto. ring.
Qed.
(** two steps: the second one acts on converted series *)
Definition steps_follow (n : nat) (step step' : series Xnum -> res (series Xnum * xr)) : Prop :=
  forall b, real_series d b -> length b = n ->
  exists b1 c1, step (lift b) = Ok (lift b1, XR c1) /\ real_series d b1 /\ length b1 = n /\
    step' (lift (converted a c b)) = Ok (lift (converted a c b1), XR (a * a * c1)).
Lemma mm_follow n : (forall x, In x xs -> allows mp n (length x) (A (length x))) ->
  steps_follow n (fun b => mm_step (padded d M xs) b n (map XR w) mp) (fun b => mm_step (padded d M' xs') b n (map XR w') mp).
Proof.
  intros HA b Hb <-. destruct (mm_run_all d M xs w mp A b HD Hb HA) as [E F].
  eexists _, _. split; [exact E|]. split; [apply mean_bary_real; [apply Hb|apply (real_len d b Hb)]|]. split; [apply mean_bary_len|].
  pose proof HD as (_ & Hx & _ & _).
  assert (HA' : forall x, In x xs' -> allows mp (length (converted a c b)) (length x) (A (length x))).
  { intros x Hi. destruct (same_series x Hi) as (y & Hy & ->). rewrite !converted_len. auto. }
  destruct (mm_run_all d M' xs' w' mp A (converted a c b) same_weighted (converted_real a c d b Hc Hb) HA') as [E' _].
  rewrite converted_len in E'. etransitivity; [exact E'|].
  assert (Hf : forall x, In x xs -> path_of mp (converted a c b) (converted a c x) = path_of mp b x) by (intros x Hi; apply (path_converted mp a c d); auto).
  rewrite (same_mean (path_of mp b)); auto; [|apply (real_len d b Hb)]. rewrite (same_cost (path_of mp b)); auto.
Qed.
Lemma pj_follow n : (forall x, In x xs -> allows mp (length x) n (fun i j => A (length x) j i)) ->
  steps_follow n (fun b => petitjean_step (padded d M xs) b n (map XR w) mp) (fun b => petitjean_step (padded d M' xs') b n (map XR w') mp).
Proof.
  intros HA b Hb <-. destruct (pj_run_all d M xs w mp A b HD Hb HA) as [E F].
  eexists _, _. split; [exact E|]. split; [apply mean_bary_real; [apply Hb|apply (real_len d b Hb)]|]. split; [apply mean_bary_len|].
  pose proof HD as (_ & Hx & _ & _).
  assert (HA' : forall x, In x xs' -> allows mp (length x) (length (converted a c b)) (fun i j => A (length x) j i)).
  { intros x Hi. destruct (same_series x Hi) as (y & Hy & ->). rewrite !converted_len. auto. }
  destruct (pj_run_all d M' xs' w' mp A (converted a c b) same_weighted (converted_real a c d b Hc Hb) HA') as [E' _].
  rewrite converted_len in E'. etransitivity; [exact E'|].
  assert (Hf : forall x, In x xs -> pj_path mp (converted a c b) (converted a c x) = pj_path mp b x).
  { intros x Hi. unfold pj_path. f_equal. apply (path_converted mp a c d); auto. }
  rewrite (same_mean (pj_path mp b)); auto; [|apply (real_len d b Hb)]. rewrite (same_cost (pj_path mp b)); auto.
Qed.
Lemma loop_follow n step step' tol : steps_follow n step step' -> forall it b cp cost cost', real_series d b -> length b = n ->
  exists b1 c1, dba_loop step tol (S it) (lift b) cp cost = Ok (lift b1, XR c1) /\ real_series d b1 /\ length b1 = n /\
    dba_loop step' (rescaled (a * a) tol) (S it) (lift (converted a c b)) (rescaled (a * a) cp) cost' = Ok (lift (converted a c b1), XR (a * a * c1)).
Proof.
  intros HF. induction it as [|it IH]; intros b cp cost cost' Hb Hn; destruct (HF b Hb Hn) as (b1 & c1 & E1 & Hb1 & Hn1 & E1').
  - exists b1, c1. cbn [dba_loop]. rewrite E1. norm. rewrite E1'. cbn [bind]. repeat split; auto; try apply Hb1.
    + destruct (xltb _ tol); [reflexivity|]; destruct (xltb cp _); reflexivity.
    + destruct (xltb _ (rescaled _ tol)); [reflexivity|]; destruct (xltb (rescaled _ cp) _); reflexivity.
  - assert (U : forall st tl b cp cost, dba_loop st tl (S (S it)) b cp cost =
      bind (st b) (fun bc => let (b, cost) := (bc : series Xnum * xr) in
        if xltb (xabs (xsub cp cost)) tl then Ok (b, cost) else if xltb cp cost then Ok (b, cost) else dba_loop st tl (S it) b cost cost)) by reflexivity.
    rewrite !U. rewrite E1. norm. rewrite E1'. cbn [bind].
    change (XR (a * a * c1)) with (rescaled (a * a) (XR c1)). rewrite rescaled_gap, !rescaled_ltb by apply aa_pos.
    destruct (xltb _ tol); [exists b1, c1; repeat split; auto; apply Hb1|].
    destruct (xltb cp _); [exists b1, c1; repeat split; auto; apply Hb1|].
    apply IH; auto.
Qed.

(** *** the initial average *)
Lemma same_padded m : Permutation (padded d m xs') (padded d m (map (converted a c) xs)).
Proof.
  pose proof HS as [L P]. pose proof HD as (_ & _ & Hlw & _). unfold padded. apply Permutation_map.
  rewrite <- (map_fst_combine xs' w') by auto. rewrite <- (map_fst_combine (map (converted a c) xs) w) by (rewrite map_length; auto).
  apply Permutation_map. exact P.
Qed.
Lemma same_longest : list_max (map (@length _) xs') = list_max (map (@length _) xs).
Proof.
  pose proof HS as [L P]. pose proof HD as (Hne & _ & Hlw & _).
  assert (Q : Permutation xs' (map (converted a c) xs)).
  { rewrite <- (map_fst_combine xs' w') by auto. rewrite <- (map_fst_combine (map (converted a c) xs) w) by (rewrite map_length; auto).
    apply Permutation_map. exact P. }
  apply (Permutation_map (@length _)) in Q. rewrite map_map in Q. rewrite (map_ext _ _ (fun x => converted_len a c x)) in Q.
  apply Nat.le_antisymm; apply list_max_le, Forall_forall; intros x Hi; apply list_max_ge.
  - apply (Permutation_in _ Q). auto.
  - apply (Permutation_in _ (Permutation_sym Q)). auto.
Qed.
Lemma same_value m t k : fits m xs -> (t < m)%nat -> (k < d)%nat ->
  nanmean (map (fun s => nth k (nth t s []) XNaN) (padded d m xs')) =
  aff a (nth k c 0) (nanmean (map (fun s => nth k (nth t s []) XNaN) (padded d m xs))).
Proof.
  intros HM Ht Hk. pose proof HD as (_ & Hx & _ & _). set (g := fun s : series Xnum => nth k (nth t s []) XNaN).
  assert (V : forall x, In x xs -> g (pad_to d m x) = if (t <? length x)%nat then XR (nth k (nth t x []) 0) else XNaN).
  { intros x Hi. apply (pad_to_nth d m x t k); auto. }
  assert (V' : forall x, In x xs -> g (pad_to d m (converted a c x)) = aff a (nth k c 0) (g (pad_to d m x))).
  { intros x Hi. rewrite (V x Hi). etransitivity; [apply (pad_to_nth d m (converted a c x) t k); auto; [apply converted_real; auto|rewrite converted_len; auto]|].
    rewrite converted_len. destruct (Nat.ltb_spec t (length x)); auto. cbn [aff]. f_equal. rewrite converted_nth. 
    assert (L : length (nth t x []) = d) by (destruct (Hx x Hi) as (_ & _ & Hr); apply Hr, nth_In; auto).
    apply convert_row_nth; lia. }
  assert (PP : plain (map g (padded d m xs))).
  { intros v Hv. unfold padded in Hv. rewrite map_map in Hv. apply in_map_iff in Hv. destruct Hv as (x & <- & Hi). rewrite (V x Hi).
    destruct (t <? length x)%nat; eauto. }
  assert (E : map g (padded d m (map (converted a c) xs)) = map (aff a (nth k c 0)) (map g (padded d m xs))).
  { unfold padded. rewrite !map_map. apply map_ext_in. auto. }
  assert (P2 : Permutation (map g (padded d m xs')) (map (aff a (nth k c 0)) (map g (padded d m xs)))).
  { rewrite <- E. apply Permutation_map, same_padded. }
  etransitivity; [|apply nanmean_aff; exact PP]. pose proof (plain_aff a (nth k c 0) _ PP) as PA.
  assert (PA' : plain (map g (padded d m xs'))) by (intros v Hv; apply PA; apply (Permutation_in _ P2); auto).
  assert (N : Permutation (numbers (map g (padded d m xs'))) (numbers (map (aff a (nth k c 0)) (map g (padded d m xs))))).
  { unfold numbers. apply Permutation_flat_map. exact P2. }
  etransitivity; [apply (nanmean_numbers _ PA')|]. symmetry. etransitivity; [apply (nanmean_numbers _ PA)|]. symmetry.
  revert N. generalize (numbers (map g (padded d m xs'))) (numbers (map (aff a (nth k c 0)) (map g (padded d m xs)))). intros l l' N.
  destruct l as [|u l]; [apply Permutation_nil in N; subst; reflexivity|].
  destruct l' as [|u' l']; [apply Permutation_sym, Permutation_nil in N; discriminate|].
  f_equal. unfold mean. rewrite (rsum_perm _ _ N), (Permutation_length N). reflexivity.
Qed.
Lemma lift_by_entries n X s : length X = n -> (forall t, (t < n)%nat -> length (nth t X []) = d) -> real_series d s -> length s = n ->
  (forall t k, (t < n)%nat -> (k < d)%nat -> nth k (nth t X []) XNaN = XR (nth k (nth t s []) 0)) -> X = lift s.
Proof.
  intros LX RX Hs Ls H. apply nth_ext with (d := []) (d' := []); [rewrite lift_length; lia|]. intros t Ht. rewrite LX in Ht.
  pose proof (lift_nth s t) as EL. norm. rewrite EL. pose proof Hs as (_ & _ & Hr).
  assert (Lr : length (nth t s []) = d) by (apply Hr, nth_In; lia).
  apply nth_ext with (d := XNaN) (d' := XNaN); [rewrite map_length, (RX t Ht), Lr; reflexivity|]. intros k Hk. rewrite (RX t Ht) in Hk.
  rewrite (H t k Ht Hk). symmetry. apply nth_XR. lia.
Qed.
Lemma entry_lift s t k : real_series d s -> (t < length s)%nat -> (k < d)%nat -> nth k (nth t (lift s) []) XNaN = XR (nth k (nth t s []) 0).
Proof.
  intros (_ & _ & Hr) Ht Hk. pose proof (lift_nth s t) as EL. norm. rewrite EL. apply nth_XR. rewrite Hr; auto. apply nth_In. auto.
Qed.
Lemma entry_converted s t k : real_series d s -> (t < length s)%nat -> (k < d)%nat ->
  nth k (nth t (converted a c s) []) 0 = a * nth k (nth t s []) 0 + nth k c 0.
Proof.
  intros (_ & _ & Hr) Ht Hk. rewrite converted_nth. assert (L : length (nth t s []) = d) by (apply Hr, nth_In; auto). apply convert_row_nth; lia.
Qed.
Lemma same_avg m av : fits m xs -> (0 < m)%nat -> array_nanmean (padded d m xs) = lift av -> real_series d av -> length av = m ->
  array_nanmean (padded d m xs') = lift (converted a c av).
Proof.
  intros HM Hm E Hav La. pose proof same_weighted as (Hne' & Hx' & _ & _). pose proof HD as (Hne & Hx & _ & _).
  assert (HM' : fits m xs') by (intros x Hi; destruct (same_series x Hi) as (y & Hy & ->); rewrite converted_len; auto).
  assert (G : forall ys t k, ys <> [] -> (forall x, In x ys -> real_series d x) -> fits m ys -> 
     length (array_nanmean (padded d m ys)) = m /\ ((t < m)%nat -> length (nth t (array_nanmean (padded d m ys)) []) = d /\
     ((k < d)%nat -> nth k (nth t (array_nanmean (padded d m ys)) []) XNaN = nanmean (map (fun s => nth k (nth t s []) XNaN) (padded d m ys))))).
  { intros ys t k Hn Hy HF. pose proof (padded_shape d m ys Hy HF) as SH. assert (H0 : (0 < length ys)%nat) by (destruct ys; [congruence|simpl; lia]).
    unfold array_nanmean. rewrite (arr_d_shape _ _ _ _ SH H0 Hm), (arr_sz_shape _ _ _ _ SH H0). rewrite map_length, seq_length. split; auto.
    intros Ht. rewrite map_seq_nth by auto. rewrite map_length, seq_length. split; auto. intros Hk. rewrite map_seq_nth by auto. reflexivity. }
  apply (lift_by_entries m).
  - apply (G xs' 0%nat 0%nat); auto.
  - intros t Ht. apply (G xs' t 0%nat); auto.
  - apply converted_real; auto.
  - rewrite converted_len. auto.
  - intros t k Ht Hk. destruct (G xs' t k Hne' Hx' HM') as (_ & G1). destruct (G1 Ht) as (_ & G2). etransitivity; [exact (G2 Hk)|].
    destruct (G xs t k Hne Hx HM) as (_ & G3). destruct (G3 Ht) as (_ & G4). etransitivity; [apply (same_value m t k HM Ht Hk)|].
    assert (EV : nanmean (map (fun s : series Xnum => nth k (nth t s []) XNaN) (padded d m xs)) = XR (nth k (nth t av []) 0)).
    { etransitivity; [symmetry; exact (G4 Hk)|]. norm. rewrite E. apply entry_lift; auto. lia. }
    etransitivity; [apply f_equal; exact EV|]. cbn [aff]. f_equal. symmetry. apply entry_converted; auto. lia.
Qed.
Lemma same_column k av : real_series d av -> (k < d)%nat -> column k (lift (converted a c av)) = map (aff a (nth k c 0)) (column k (lift av)).
Proof.
  intros Hav Hk. rewrite !(column_lift d) by (auto; apply converted_real; auto). rewrite map_map. unfold feature, converted. rewrite !map_map.
  apply map_ext_in. intros r Hr. cbn [aff]. f_equal. destruct Hav as (_ & _ & HL). pose proof (HL r Hr). apply convert_row_nth; lia.
Qed.
Lemma same_init_avg m n b0 : fits m xs -> m = list_max (map (@length _) xs) -> (0 < n)%nat -> (2 <= m)%nat \/ n = 1%nat ->
  init_avg (padded d m xs) n = Ok (lift b0) -> real_series d b0 -> length b0 = n -> init_avg (padded d m xs') n = Ok (lift (converted a c b0)).
Proof.
  intros HM Em Hn Hm2 E Hb Lb. pose proof same_weighted as (Hne' & Hx' & _ & _). pose proof HD as (Hne & Hx & _ & _).
  destruct (array_nanmean_real d xs Hne Hx) as (av & Ea & Hav & La). rewrite <- Em in Ea, La.
  assert (Hm : (0 < m)%nat) by (rewrite <- La; apply (real_len d); auto).
  pose proof (same_avg m av HM Hm Ea Hav La) as Ea'.
  assert (HM' : fits m xs') by (intros x Hi; destruct (same_series x Hi) as (y & Hy & ->); rewrite converted_len; auto).
  assert (H0 : (0 < length xs)%nat) by (destruct xs; [congruence|simpl; lia]). assert (H0' : (0 < length xs')%nat) by (destruct xs'; [congruence|simpl; lia]).
  revert E. unfold init_avg. rewrite (arr_sz_shape _ _ _ _ (padded_shape d m xs Hx HM) H0), (arr_d_shape _ _ _ _ (padded_shape d m xs Hx HM) H0 Hm).
  rewrite (arr_sz_shape _ _ _ _ (padded_shape d m xs' Hx' HM') H0'), (arr_d_shape _ _ _ _ (padded_shape d m xs' Hx' HM') H0' Hm). rewrite Ea, Ea'.
  destruct (m =? n)%nat; [intros E; assert (E2 : lift av = lift b0) by (injection E; auto); apply lift_inj in E2; subst; reflexivity|].
  destruct ((m <=? 1)%nat && _); [discriminate|].
  assert (I : forall ys fp, interp ys (linspace01 m) fp = Ok (map (interp1 (linspace01 m) fp) ys)).
  { intros ys fp. unfold interp. destruct (linspace01 m) eqn:El; [destruct m; [lia|discriminate]|reflexivity]. }
  rewrite !(mapM_ok _ (fun k => map (interp1 (linspace01 m) (column k (lift av))) (linspace01 n))) by (intros; apply I).
  rewrite !(mapM_ok _ (fun k => map (interp1 (linspace01 m) (column k (lift (converted a c av)))) (linspace01 n))) by (intros; apply I).
  cbn [bind]. intros E. apply (f_equal (fun r => match r with Ok v => v | Err _ => [] end)) in E. f_equal.
  assert (LL : length (linspace01 n) = n) by (unfold linspace01; rewrite map_length, seq_length; reflexivity).
  assert (EC : forall (f : nat -> list xr) t k, (t < n)%nat -> (k < d)%nat -> nth k (nth t (of_columns n (map f (seq 0 d))) []) XNaN = nth t (f k) XNaN).
  { intros f t k Ht Hk. unfold of_columns. rewrite map_seq_nth by auto. rewrite map_map, map_seq_nth by auto. reflexivity. }
  apply (lift_by_entries n).
  - unfold of_columns. rewrite map_length, seq_length. reflexivity.
  - intros t Ht. unfold of_columns. rewrite map_seq_nth by auto. rewrite !map_length, seq_length. reflexivity.
  - apply converted_real; auto.
  - rewrite converted_len. auto.
  - intros t k Ht Hk. rewrite EC by auto. rewrite same_column by auto.
    rewrite (map_ext _ (fun x => aff a (nth k c 0) (interp1 (linspace01 m) (column k (lift av)) x))).
    + rewrite <- map_map, nth_aff.
      rewrite <- (EC (fun k => map (interp1 (linspace01 m) (column k (lift av))) (linspace01 n))) by auto. norm. rewrite E.
      etransitivity; [apply f_equal; apply entry_lift; auto; lia|]. cbn [aff]. f_equal. symmetry. apply entry_converted; auto. lia.
    + intros x. apply interp1_aff; [|intros; apply linspace_apart; auto]. rewrite (column_lift d) by auto. intros v Hv. apply in_map_iff in Hv. destruct Hv as (u & <- & _). eauto.
Qed.
End Runs.

(** ** Theorems *)
(** the size of the barycenter *)
Definition bary_size (bs : option nat) (init : option (list (list R))) (xs : list (list (list R))) : nat :=
  match init with Some b0 => length b0 | None => or_default bs (list_max (map (@length _) xs)) end.
(** an initial barycenter is given, or the average of the series can be resampled to the size asked for *)
Definition can_start (d : nat) (bs : option nat) (init : option (list (list R))) (xs : list (list (list R))) : Prop :=
  match init with
  | Some b0 => real_series d b0
  | None => (0 < bary_size bs None xs)%nat /\ ((2 <= list_max (map (@length _) xs))%nat \/ bary_size bs None xs = 1%nat)
  end.
Lemma starts_follow a c d M M' xs xs' w w' bs init : length c = d -> 
  weighted_dataset d xs (weights_in_force w (length xs)) ->
  same_data a c xs (weights_in_force w (length xs)) xs' (weights_in_force w' (length xs')) -> can_start d bs init xs ->
  let m := list_max (map (@length _) xs) in let n := bary_size bs init xs in
  exists b0, real_series d b0 /\ length b0 = n /\
  dba_start (padded d M xs) bs (option_map lift init) (option_map (map XR) w) = Ok (padded d m xs, n, map XR (weights_in_force w (length xs)), lift b0) /\
  dba_start (padded d M' xs') bs (option_map (fun b => lift (converted a c b)) init) (option_map (map XR) w') =
    Ok (padded d m xs', n, map XR (weights_in_force w' (length xs')), lift (converted a c b0)).
Proof.
  intros Hc HD HS Hi m n. pose proof (same_weighted a c d xs xs' _ _ Hc HD HS) as HD'.
  pose proof (same_longest a c d xs xs' _ _ HD HS) as HL. destruct init as [b0|]; unfold can_start, bary_size in Hi, n.
  - exists b0. split; auto. split; auto. split; [apply (start_init d); auto|]. cbn [option_map].
    rewrite (start_init d M' xs' w' bs (converted a c b0) HD' (converted_real a c d b0 Hc Hi)). rewrite HL, converted_len. reflexivity.
  - destruct Hi as [Hn Hm]. pose proof HD as (Hne & Hx & Hlw & Hw). destruct (init_avg_real d xs n Hne Hx Hn Hm) as (b & E & Hb & Lb). exists b. split; auto. split; auto.
    pose proof HD' as (Hne' & Hx' & Hlw' & Hw').
    assert (HM : fits m xs) by apply fits_max. assert (HM' : fits m xs') by (unfold m; rewrite <- HL; apply fits_max).
    assert (H0 : (0 < length xs)%nat) by (destruct xs; [congruence|simpl; lia]). assert (H0' : (0 < length xs')%nat) by (destruct xs'; [congruence|simpl; lia]).
    pose proof (same_init_avg a c d xs xs' _ _ Hc HD HS m n b HM eq_refl Hn Hm E Hb Lb) as E'.
    split; unfold dba_start; cbn [option_map].
    + rewrite (variable_length_padded d M xs Hx). cbn [bind]. fold m.
      rewrite (set_weights_real w xs Hlw) by (unfold padded; apply map_length).
      rewrite (arr_sz_shape _ _ _ _ (padded_shape d m xs Hx HM) H0). change (match bs with Some n => n | None => m end) with n.
      fold m in E. norm. rewrite E. reflexivity.
    + rewrite (variable_length_padded d M' xs' Hx'). cbn [bind]. rewrite HL. fold m.
      rewrite (set_weights_real w' xs' Hlw') by (unfold padded; apply map_length).
      rewrite (arr_sz_shape _ _ _ _ (padded_shape d m xs' Hx' HM') H0'). change (match bs with Some n => n | None => m end) with n.
      norm. rewrite E'. reflexivity.
Qed.

(** The same series with the same weights, in any order, in another unit and with
    another origin per feature, any padding; the initial barycenter, if given, and
    the tolerance are converted too: the barycenter is converted. *)
Theorem C213_dba : forall a c d M M' xs xs' w w' mp A bs init max_iter tol n_init,
  a <> 0 -> length c = d -> weighted_dataset d xs (weights_in_force w (length xs)) ->
  same_data a c xs (weights_in_force w (length xs)) xs' (weights_in_force w' (length xs')) ->
  can_start d bs init xs -> (forall x, In x xs -> allows mp (bary_size bs init xs) (length x) (A (length x))) ->
  exists b, real_series d b /\ length b = bary_size bs init xs /\
    dba (padded d M xs) bs (option_map lift init) (S max_iter) tol (option_map (map XR) w) mp (S n_init) = Ok (Some (lift b)) /\
    dba (padded d M' xs') bs (option_map (fun b => lift (converted a c b)) init) (S max_iter) (rescaled (a * a) tol)
        (option_map (map XR) w') mp (S n_init) = Ok (Some (lift (converted a c b))).
Proof.
  intros a c d M M' xs xs' w w' mp A bs init max_iter tol n_init Ha Hc HD HS Hi HA.
  destruct (starts_follow a c d M M' xs xs' w w' bs init Hc HD HS Hi) as (b0 & Hb0 & Lb0 & E0 & E0').
  set (m := list_max _) in *. set (n := bary_size bs init xs) in *.
  pose proof (mm_follow a c d m m xs xs' _ _ mp A Ha Hc HD HS n HA) as HF.
  destruct (loop_follow a c d Ha n _ _ tol HF max_iter b0 XInf XInf XInf Hb0 Lb0) as (b & cc & E & Hb & Lb & E').
  exists b. split; auto. split; auto. split; unfold dba; eapply attempts_same; unfold dba_one_init; [rewrite E0|rewrite E0']; cbn [bind]; [exact E|exact E'].
Qed.
Print Assumptions C213_dba.
Theorem C213_petitjean : forall a c d M M' xs xs' w w' mp A bs init max_iter tol,
  a <> 0 -> length c = d -> weighted_dataset d xs (weights_in_force w (length xs)) ->
  same_data a c xs (weights_in_force w (length xs)) xs' (weights_in_force w' (length xs')) ->
  can_start d bs init xs -> (forall x, In x xs -> allows mp (length x) (bary_size bs init xs) (fun i j => A (length x) j i)) ->
  exists b, real_series d b /\ length b = bary_size bs init xs /\
    dba_petitjean (padded d M xs) bs (option_map lift init) (S max_iter) tol (option_map (map XR) w) mp = Ok (lift b) /\
    dba_petitjean (padded d M' xs') bs (option_map (fun b => lift (converted a c b)) init) (S max_iter) (rescaled (a * a) tol)
        (option_map (map XR) w') mp = Ok (lift (converted a c b)).
Proof.
  intros a c d M M' xs xs' w w' mp A bs init max_iter tol Ha Hc HD HS Hi HA.
  destruct (starts_follow a c d M M' xs xs' w w' bs init Hc HD HS Hi) as (b0 & Hb0 & Lb0 & E0 & E0').
  set (m := list_max _) in *. set (n := bary_size bs init xs) in *.
  pose proof (pj_follow a c d m m xs xs' _ _ mp A Ha Hc HD HS n HA) as HF.
  destruct (loop_follow a c d Ha n _ _ tol HF max_iter b0 XInf XInf XInf Hb0 Lb0) as (b & cc & E & Hb & Lb & E').
  exists b. split; auto. split; auto. unfold dba_petitjean. split; [rewrite E0|rewrite E0']; cbn [bind];
    [refine (eq_trans (f_equal (fun r => bind r _) E) _)|refine (eq_trans (f_equal (fun r => bind r _) E') _)]; reflexivity.
Qed.
Print Assumptions C213_petitjean.
Lemma rescaled_one t : rescaled (1 * 1) t = t.
Proof. destruct t; auto. cbn. f_equal. ring. Qed.
Lemma converted_same d x : real_series d x -> converted 1 (repeat 0 d) x = x.
Proof.
  intros (_ & _ & Hr). unfold converted. rewrite <- (map_id x) at 2. apply map_ext_in. intros r Hi. rewrite <- (Hr r Hi). clear.
  unfold convert_row. induction r as [|v r IH]; auto. cbn [length repeat combine map fst snd]. rewrite IH. f_equal. ring.
Qed.
(** The order of the series does not matter. *)
Theorem C213_order : forall d M M' xs xs' w w' mp A bs init max_iter tol n_init,
  weighted_dataset d xs (weights_in_force w (length xs)) -> length (weights_in_force w' (length xs')) = length xs' ->
  Permutation (combine xs' (weights_in_force w' (length xs'))) (combine xs (weights_in_force w (length xs))) ->
  can_start d bs init xs -> (forall x, In x xs -> allows mp (bary_size bs init xs) (length x) (A (length x))) ->
  dba (padded d M' xs') bs (option_map lift init) (S max_iter) tol (option_map (map XR) w') mp (S n_init) =
  dba (padded d M xs) bs (option_map lift init) (S max_iter) tol (option_map (map XR) w) mp (S n_init).
Proof.
  intros d M M' xs xs' w w' mp A bs init max_iter tol n_init HD L P Hi HA. pose proof HD as (_ & Hx & _ & _).
  assert (HS : same_data 1 (repeat 0 d) xs (weights_in_force w (length xs)) xs' (weights_in_force w' (length xs'))).
  { split; auto. rewrite (map_ext_in _ (fun x => x)), map_id; auto. intros x H. apply converted_same; auto. }
  destruct (C213_dba 1 (repeat 0 d) d M M' xs xs' w w' mp A bs init max_iter tol n_init ltac:(lra) (repeat_length _ _) HD HS Hi HA) as (b & Hb & _ & E & E').
  rewrite E. rewrite rescaled_one in E'. rewrite (converted_same d b Hb) in E'. rewrite <- E'. f_equal.
  destruct init as [b0|]; auto. cbn [option_map]. rewrite (converted_same d b0 Hi). reflexivity.
Qed.
Print Assumptions C213_order.
(** A change of origin, with the same tolerance. *)
Theorem C213_origin : forall c d M M' xs w mp A bs init max_iter tol n_init,
  length c = d -> weighted_dataset d xs (weights_in_force w (length xs)) ->
  can_start d bs init xs -> (forall x, In x xs -> allows mp (bary_size bs init xs) (length x) (A (length x))) ->
  exists b, real_series d b /\
    dba (padded d M xs) bs (option_map lift init) (S max_iter) tol (option_map (map XR) w) mp (S n_init) = Ok (Some (lift b)) /\
    dba (padded d M' (map (converted 1 c) xs)) bs (option_map (fun b => lift (converted 1 c b)) init) (S max_iter) tol
        (option_map (map XR) w) mp (S n_init) = Ok (Some (lift (converted 1 c b))).
Proof.
  intros c d M M' xs w mp A bs init max_iter tol n_init Hc HD Hi HA. pose proof HD as (_ & _ & Hlw & _).
  destruct (C213_dba 1 c d M M' xs (map (converted 1 c) xs) w w mp A bs init max_iter tol n_init ltac:(lra) Hc HD) as (b & Hb & _ & E & E'); auto.
  - rewrite map_length. split; [rewrite map_length; auto|]. apply Permutation_refl.
  - rewrite rescaled_one in E'. eauto.
Qed.
Print Assumptions C213_origin.

(** ** The tolerance is not converted *)
Definition ex_x : list (list R) := zseries [[0];[-6];[3];[3]]%Z.
Definition ex_b : list (list R) := zseries [[5];[4]]%Z.
Lemma ex_real_x : real_series 1 ex_x. Proof. split; [lia|]. split; [discriminate|]. intros r [<-|[<-|[<-|[<-|[]]]]]; reflexivity. Qed.
Lemma two_real (u v : Z) : real_series 1 (zseries [[u];[v]]). Proof. split; [lia|]. split; [discriminate|]. intros r [<-|[<-|[]]]; reflexivity. Qed.
(** one iteration from [u, v], with its path *)
Lemma ex_step u v p cst u' v' : (0 <= cst)%Z -> z_path no_params [[u];[v]] [[0];[-6];[3];[3]]%Z = Ok (p, Some cst) ->
  warping_path 2 4 everywhere p ->
  mean_bary 2 1 (entries [ex_x] [1] [p]) = zseries [[u'];[v']] ->
  mm_step [lift ex_x] (lift (zseries [[u];[v]])) 2 [XR 1] no_params = Ok (lift (zseries [[u'];[v']]), XR (IZR cst)).
Proof.
  intros Hv E Hp Em. pose proof (mm_single 1 ex_x (zseries [[u];[v]]) p (IZR cst) no_params ex_real_x (two_real u v) ltac:(apply IZR_le; auto)
    (njit_int no_params _ _ p cst Hv E) Hp) as K. change (length (zseries [[u];[v]])) with 2%nat in K. rewrite Em in K. exact K.
Qed.
Lemma ex_run t : dba [lift ex_x] None (Some (lift ex_b)) 3 (XR t) None no_params 1 =
  Ok (Some (lift (if Rltb 73 t then zseries [[-1];[3]]%Z else zseries [[-3];[3]]%Z))).
Proof.
  assert (S1 := ex_step 5 4 [(0, 0); (1, 1); (1, 2); (1, 3)]%nat 127 0 0 ltac:(lia) eq_refl ltac:(is_path) ltac:(unfold mean_bary, wxsum, wsum; cbn; repeat f_equal; field)).
  assert (S2 := ex_step 0 0 [(0, 0); (0, 1); (0, 2); (1, 3)]%nat 54 (-1) 3 ltac:(lia) eq_refl ltac:(is_path) ltac:(unfold mean_bary, wxsum, wsum; cbn; repeat f_equal; field)).
  assert (S3 := ex_step (-1) 3 [(0, 0); (0, 1); (1, 2); (1, 3)]%nat 26 (-3) 3 ltac:(lia) eq_refl ltac:(is_path) ltac:(unfold mean_bary, wxsum, wsum; cbn; repeat f_equal; field)).
  assert (L : exists q, dba_loop (fun b => mm_step [lift ex_x] b 2 [XR 1] no_params) (XR t) 3 (lift ex_b) XInf XInf =
     Ok (lift (if Rltb 73 t then zseries [[-1];[3]]%Z else zseries [[-3];[3]]%Z), XR q)).
  { cbn [dba_loop]. unfold ex_b. rewrite S1. cbn [bind]. change (xltb (xabs (xsub XInf (XR 127))) (XR t)) with false. change (xltb XInf (XR 127)) with false. cbv iota.
    rewrite S2. cbn [bind]. replace (xabs (xsub (XR 127) (XR 54))) with (XR 73) by (cbn; f_equal; replace (127 + - (54)) with 73 by ring; symmetry; apply Rabs_right; lra).
    rewrite xltb_R. destruct (Rltb 73 t); [eexists; reflexivity|].
    replace (xltb (XR 127) (XR 54)) with false by (symmetry; rewrite xltb_R; apply Rltb_false; lra). rewrite S3. cbn [bind].
    exists 26. destruct (xltb (xabs _) (XR t)); [reflexivity|]. destruct (xltb (XR 54) _); reflexivity. }
  destruct L as (v & L). unfold dba. apply (attempts_same _ 0 _ v). unfold dba_one_init. rewrite (start_single 1 ex_x ex_b ex_real_x (two_real 5 4)). cbn [bind]. exact L.
Qed.
Lemma ex_data : weighted_dataset 1 [ex_x] [1].
Proof. split; [discriminate|]. split; [intros x [<-|[]]; apply ex_real_x|]. split; [reflexivity|]. intros v [<-|[]]. lra. Qed.
Lemma anywhere n m : allows no_params n m everywhere.
Proof. split; [|exact I]. unfold constraint. cbn. auto. Qed.
Lemma padded_one x : padded 1 (length x) [x] = [lift x].
Proof. unfold padded, pad_to. cbn [map]. rewrite Nat.sub_diag. cbn [repeat]. rewrite app_nil_r. reflexivity. Qed.
(** the example in another unit *)
Lemma ex_unit k t : 0 < k -> dba [lift (converted k [0] ex_x)] None (Some (lift (converted k [0] ex_b))) 3 (XR (k * k * t)) None no_params 1 =
  Ok (Some (lift (converted k [0] (if Rltb 73 t then zseries [[-1];[3]]%Z else zseries [[-3];[3]]%Z)))).
Proof.
  intros Hk. destruct (C213_dba k [0] 1 4 4 [ex_x] [converted k [0] ex_x] None None no_params (fun _ => everywhere) None (Some ex_b) 2 (XR t) 0
    ltac:(lra) eq_refl ex_data) as (b & Hb & _ & E & E').
  - split; [reflexivity|]. apply Permutation_refl.
  - apply two_real.
  - intros x _. apply anywhere.
  - pose proof (padded_one ex_x) as P1. change (length ex_x) with 4%nat in P1. pose proof (padded_one (converted k [0] ex_x)) as P2. rewrite converted_len in P2. change (length ex_x) with 4%nat in P2.
    rewrite P1 in E. rewrite P2 in E'. cbn [option_map rescaled] in E, E'. etransitivity; [exact E'|].
    pose proof (eq_trans (eq_sym (ex_run t)) E) as K. apply (f_equal (fun r => match r with Ok (Some v) => v | _ => [] end)) in K. cbv beta iota in K. apply lift_inj in K. rewrite K. reflexivity.
Qed.
Lemma converted_twice k x : real_series 1 x -> converted 2 [0] (converted k [0] x) = converted (2 * k) [0] x.
Proof.
  intros (_ & _ & Hr). unfold converted. rewrite map_map. apply map_ext_in. intros r Hi. pose proof (Hr r Hi) as L. destruct r as [|v [|]]; try discriminate.
  unfold convert_row. cbn. f_equal. ring.
Qed.
(** The two runs on concrete data. *)
Theorem C213_nontrivial : dba [lift ex_x] None (Some (lift ex_b)) 3 (XR 100) None no_params 1 = Ok (Some (lift (zseries [[-1];[3]]%Z))) /\
  dba [lift (converted 2 [0] ex_x)] None (Some (lift (converted 2 [0] ex_b))) 3 (XR 400) None no_params 1 = Ok (Some (lift (zseries [[-2];[6]]%Z))) /\
  same_data 2 [1] [zseries [[1];[2]]%Z; ex_x] [1; 3] [zseries [[1];[-11];[7];[7]]%Z; zseries [[3];[5]]%Z] [3; 1].
Proof.
  assert (T : Rltb 73 100 = true) by (apply Rltb_true; lra). split; [|split].
  - rewrite ex_run, T. reflexivity.
  - replace (XR 400) with (XR (2 * 2 * 100)) by (f_equal; ring). rewrite ex_unit by lra. rewrite T. do 3 f_equal. unfold converted, convert_row. cbn. repeat f_equal; ring.
  - split; [reflexivity|]. unfold ex_x, converted, convert_row. cbn [map zseries combine fst snd].
    match goal with |- Permutation [?u; ?v] _ => assert (E : forall p q, p = u -> q = v -> Permutation [u; v] [q; p]) by (intros p q -> ->; apply perm_swap); apply E end;
    repeat f_equal; ring.
Qed.
Print Assumptions C213_nontrivial.
(** Whatever the tolerance, there are series for which doubling every value does not
    double the barycenter. *)
Theorem C214_unit_refuted : forall t, 0 < t -> exists x b0 b b', real_series 1 x /\ real_series 1 b0 /\ real_series 1 b /\
  dba [lift x] None (Some (lift b0)) 3 (XR t) None no_params 1 = Ok (Some (lift b)) /\
  dba [lift (converted 2 [0] x)] None (Some (lift (converted 2 [0] b0))) 3 (XR t) None no_params 1 = Ok (Some (lift b')) /\
  b' <> converted 2 [0] b.
Proof.
  intros t Ht. set (k := sqrt (t / 100)). assert (Hk : 0 < k) by (apply sqrt_lt_R0; lra).
  assert (Ek : k * k = t / 100) by (apply sqrt_sqrt; lra).
  exists (converted k [0] ex_x), (converted k [0] ex_b), (converted k [0] (zseries [[-1];[3]]%Z)), (converted (2 * k) [0] (zseries [[-3];[3]]%Z)).
  split; [apply converted_real; auto; apply ex_real_x|]. split; [apply converted_real; auto; apply two_real|]. split; [apply converted_real; auto; apply two_real|]. split; [|split].
  - replace (XR t) with (XR (k * k * 100)) by (f_equal; rewrite Ek; field). rewrite ex_unit by auto.
    replace (Rltb 73 100) with true by (symmetry; apply Rltb_true; lra). reflexivity.
  - rewrite (converted_twice k ex_x ex_real_x), (converted_twice k ex_b (two_real 5 4)).
    replace (XR t) with (XR (2 * k * (2 * k) * 25)) by (f_equal; replace (2 * k * (2 * k)) with (4 * (k * k)) by ring; rewrite Ek; field). rewrite ex_unit by lra.
    replace (Rltb 73 25) with false by (symmetry; apply Rltb_false; lra). reflexivity.
  - intros K. apply (f_equal (fun s => nth 0 (nth 0 s []) 0)) in K. unfold converted, convert_row in K. cbn in K. lra.
Qed.
Print Assumptions C214_unit_refuted.
(** With the tolerance converted the unit does not matter. *)
Theorem C214_tol_converted : forall a d M xs w mp A bs init max_iter tol n_init,
  a <> 0 -> weighted_dataset d xs (weights_in_force w (length xs)) ->
  can_start d bs init xs -> (forall x, In x xs -> allows mp (bary_size bs init xs) (length x) (A (length x))) ->
  exists b, real_series d b /\
    dba (padded d M xs) bs (option_map lift init) (S max_iter) tol (option_map (map XR) w) mp (S n_init) = Ok (Some (lift b)) /\
    dba (padded d M (map (map (map (Rmult a))) xs)) bs (option_map (fun b => lift (map (map (Rmult a)) b)) init) (S max_iter) (rescaled (a * a) tol)
        (option_map (map XR) w) mp (S n_init) = Ok (Some (lift (map (map (Rmult a)) b))).
Proof.
  intros a d M xs w mp A bs init max_iter tol n_init Ha HD Hi HA. pose proof HD as (_ & Hx & Hlw & _).
  assert (U : forall x, real_series d x -> converted a (repeat 0 d) x = map (map (Rmult a)) x).
  { intros x (_ & _ & Hr). apply map_ext_in. intros r Hin. rewrite <- (Hr r Hin). clear. unfold convert_row. induction r as [|v r IH]; auto.
    cbn [length repeat combine map fst snd]. rewrite IH. f_equal. ring. }
  destruct (C213_dba a (repeat 0 d) d M M xs (map (converted a (repeat 0 d)) xs) w w mp A bs init max_iter tol n_init Ha (repeat_length _ _) HD) as (b & Hb & _ & E & E'); auto.
  - rewrite map_length. split; [rewrite map_length; auto|]. apply Permutation_refl.
  - exists b. split; auto. split; auto. rewrite (U b Hb) in E'. rewrite (map_ext_in _ _ _ (fun x H => U x (Hx x H))) in E'.
    destruct init as [b0|]; cbn [option_map] in *; [rewrite (U b0 Hi) in E'|]; exact E'.
Qed.
Print Assumptions C214_tol_converted.

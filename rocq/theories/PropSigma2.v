(** C96: the value of [sigma_gak]. *)
From Coq Require Import Bool List Arith Lia ZArith QArith Reals Lra Permutation Sorting.Sorted.
From Verif Require Import Num NumLaws Py Series Masks DtwModel Dataset Spec SpecDtw DpProofs DtwProofs DtwThms RList PathSum RealSeries CdistThms CdistGen PropCdist SoftModel SoftThms PropSoft PropSoftCdist PaaModel PreModel KernelModel PropKernel.
Import ListNotations.
Local Open Scope R_scope.

(** ** specification *)
Definition euclid (a b : list R) : R := sqrt (rsum (map (fun k => (nth k a 0 - nth k b 0) * (nth k a 0 - nth k b 0)) (seq 0 (length a)))).
(** the pairs of positions [a < b] below [n] *)
Definition pairs (n : nat) : list (nat * nat) := filter (fun p => fst p <? snd p)%nat (list_prod (seq 0 n) (seq 0 n)).
(** [m] is the median of [l]: in sorted order, its middle element or the mean of its two middle elements *)
Definition is_median (l : list R) (m : R) : Prop :=
  exists l', Permutation l l' /\ StronglySorted Rle l' /\ m = (nth ((length l - 1) / 2) l' 0 + nth (length l / 2) l' 0) / 2.

(** ** lemmas *)
Lemma insert_perm x l : Permutation (x :: l) (insert_r x l).
Proof. induction l as [|y l IH]; simpl; [auto|]. destruct (Rltb y x); [|auto]. eapply perm_trans; [apply perm_swap|]. auto. Qed.
Lemma sort_perm l : Permutation l (sort_r l).
Proof. induction l as [|x l IH]; simpl; [auto|]. eapply perm_trans; [|apply insert_perm]. auto. Qed.
Lemma insert_sorted x l : StronglySorted Rle l -> StronglySorted Rle (insert_r x l).
Proof.
  induction l as [|y l IH]; intros S; simpl; [repeat constructor|]. inversion S; subst. destruct (Rltb y x) eqn:E.
  - apply Rltb_true in E. constructor; [auto|]. apply Forall_forall. intros z Hz. apply insert_in in Hz. rewrite Forall_forall in H2. destruct Hz as [->|Hz]; [lra|auto].
  - apply Rltb_false in E. constructor; [auto|]. constructor; [auto|]. rewrite Forall_forall in *. intros z Hz. specialize (H2 z Hz). lra.
Qed.
Lemma sort_sorted l : StronglySorted Rle (sort_r l).
Proof. induction l as [|x l IH]; simpl; [constructor|]. apply insert_sorted. auto. Qed.
Lemma median_is l : is_median l (median l).
Proof. exists (sort_r l). split; [apply sort_perm|split; [apply sort_sorted|reflexivity]]. Qed.
Lemma sorted_unique l : forall l', StronglySorted Rle l -> StronglySorted Rle l' -> Permutation l l' -> l = l'.
Proof.
  induction l as [|x l IH]; intros l' S S' P; [apply Permutation_nil in P; auto|].
  destruct l' as [|y l']; [apply Permutation_sym, Permutation_nil in P; discriminate|].
  inversion S as [|? ? S1 F1]; subst. inversion S' as [|? ? S2 F2]; subst. rewrite Forall_forall in F1, F2.
  assert (E : x = y).
  { assert (H1 : In x (y :: l')) by (apply (Permutation_in _ P); left; auto). assert (H2 : In y (x :: l)) by (apply (Permutation_in _ (Permutation_sym P)); left; auto).
    destruct H1 as [H1|H1]; [auto|]. destruct H2 as [H2|H2]; [auto|]. specialize (F1 y H2). specialize (F2 x H1). lra. }
  subst y. f_equal. apply IH; auto. apply Permutation_cons_inv in P. auto.
Qed.
(** so there is only one median *)
Lemma median_unique l m m' : is_median l m -> is_median l m' -> m = m'.
Proof.
  intros (a & P & S & ->) (b & P' & S' & ->). assert (a = b) by (apply sorted_unique; auto; eapply perm_trans; [apply Permutation_sym; eauto|auto]). subst. auto.
Qed.
Lemma euclid_pts_spec a b : length a = length b -> euclid_pts a b = euclid a b.
Proof.
  intros L. unfold euclid_pts, euclid. f_equal. f_equal. revert b L. induction a as [|x a IH]; intros [|y b] L; try discriminate; [reflexivity|].
  cbn [length combine seq map nth fst snd]. f_equal. rewrite IH by (simpl in L; lia). rewrite <- seq_shift, map_map. reflexivity.
Qed.
Lemma NoDup_app_intro {A} (l l' : list A) : NoDup l -> NoDup l' -> (forall x, In x l -> ~ In x l') -> NoDup (l ++ l').
Proof. induction 1 as [|a l Na H IH]; intros H' D; simpl; auto. constructor; [|apply IH; auto; intros x Hx; apply D; right; auto]. intros I. apply in_app_or in I. destruct I as [I|I]; [auto|]. apply (D a); [left|]; auto. Qed.
Lemma filter_all {A} (f : A -> bool) l : (forall x, In x l -> f x = true) -> filter f l = l.
Proof. induction l; simpl; intros H; auto. rewrite H by auto. f_equal. apply IHl. auto. Qed.
Lemma filter_none {A} (f : A -> bool) l : (forall x, In x l -> f x = false) -> filter f l = [].
Proof. induction l; simpl; intros H; auto. rewrite H by auto. auto. Qed.
Lemma pairs_S n : Permutation (pairs (S n)) (map (fun k => (0, S k)%nat) (seq 0 n) ++ map (fun p => (S (fst p), S (snd p))) (pairs n)).
Proof.
  assert (NDp : forall n, NoDup (pairs n)).
  { intros m. apply NoDup_filter. assert (G : forall l l' : list nat, NoDup l -> NoDup l' -> NoDup (list_prod l l')).
    { induction l as [|a l IH]; intros l' H H'; simpl; [constructor|]. inversion H; subst. apply NoDup_app_intro.
      - apply FinFun.Injective_map_NoDup; auto. intros u v E. congruence.
      - apply IH; auto.
      - intros u Hu Hu'. apply in_map_iff in Hu. destruct Hu as (v & <- & _). apply in_prod_iff in Hu'. tauto. }
    apply G; apply seq_NoDup. }
  apply NoDup_Permutation.
  - apply NDp.
  - apply NoDup_app_intro.
    + apply FinFun.Injective_map_NoDup; [intros u v E; congruence|apply seq_NoDup].
    + apply FinFun.Injective_map_NoDup; [intros [a b] [c e] E; simpl in E; congruence|apply NDp].
    + intros u Hu Hv. apply in_map_iff in Hu, Hv. destruct Hu as (k & <- & _). destruct Hv as (q & E & _). discriminate.
  - intros [a b]. unfold pairs. rewrite filter_In, in_prod_iff, in_app_iff, !in_map_iff. cbn [fst snd]. rewrite !in_seq, Nat.ltb_lt. split.
    + intros [[Ha Hb] H]. destruct a as [|a].
      * left. exists (b - 1)%nat. split; [f_equal; lia|apply in_seq; lia].
      * right. exists (a, b - 1)%nat. cbn [fst snd]. split; [f_equal; lia|]. apply filter_In. rewrite in_prod_iff, !in_seq. cbn [fst snd]. rewrite Nat.ltb_lt. lia.
    + intros [(k & E & Hk)|([c e] & E & Hk)].
      * injection E as <- <-. apply in_seq in Hk. lia.
      * cbn [fst snd] in E. injection E as <- <-. apply filter_In in Hk. rewrite in_prod_iff, !in_seq in Hk. cbn [fst snd] in Hk. rewrite Nat.ltb_lt in Hk. lia.
Qed.
Lemma pdist_pairs d l : (forall x, In x l -> length x = d) ->
  Permutation (pdist l) (map (fun p => euclid (nth (fst p) l []) (nth (snd p) l [])) (pairs (length l))).
Proof.
  induction l as [|a l IH]; intros H; [reflexivity|]. cbn [pdist length]. eapply perm_trans; [|apply Permutation_map, Permutation_sym, pairs_S].
  rewrite map_app. apply Permutation_app.
  - rewrite map_map. cbn [fst snd nth]. 
    replace (map (euclid_pts a) l) with (map (fun k => euclid a (nth k l [])) (seq 0 (length l))); [reflexivity|].
    apply (nth_ext _ _ 0 0); [rewrite !map_length, seq_length; auto|]. intros k Hk. rewrite map_length, seq_length in Hk.
    rewrite (nth_indep _ 0 ((fun k => euclid a (nth k l [])) 0%nat)) by (rewrite map_length, seq_length; auto). rewrite (map_nth (fun k => euclid a (nth k l []))), seq_nth by auto.
    rewrite (nth_indep _ 0 (euclid_pts a [])) by (rewrite map_length; auto). rewrite map_nth. symmetry. apply euclid_pts_spec.
    rewrite (H a) by (left; auto). symmetry. apply H. right. apply nth_In. auto.
  - rewrite map_map. cbn [fst snd nth]. apply IH. intros x Hx. apply H. right. auto.
Qed.

Lemma finite_row_lift r : finite_row (map XR r) = Some r.
Proof. induction r as [|x r IH]; [reflexivity|]. cbn [map finite_row]. rewrite IH. reflexivity. Qed.
Lemma finite_points_app a b : finite_points (a ++ b) = finite_points a ++ finite_points b.
Proof. unfold finite_points. rewrite concat_app, flat_map_app. reflexivity. Qed.
Lemma finite_points_one d s k : (0 < d)%nat -> finite_points [lift s ++ repeat (repeat XNaN d) k] = s.
Proof.
  intros Hd. unfold finite_points. cbn [concat]. rewrite app_nil_r, flat_map_app.
  replace (flat_map _ (repeat _ k)) with (@nil (list R)).
  - rewrite app_nil_r. induction s as [|r s IH]; [reflexivity|]. cbn [lift map flat_map]. rewrite finite_row_lift. cbn [app]. f_equal. exact IH.
  - induction k as [|k IH]; [reflexivity|]. cbn [repeat flat_map]. rewrite <- IH. destruct d as [|d]; [lia|]. reflexivity.
Qed.
Lemma finite_points_padded d ss D : (forall s, In s ss -> real_series d s) -> to_dataset (N:=Xnum) (reals ss) = Ok D -> finite_points D = concat ss.
Proof.
  intros F E. pose proof (proper_uniform _ _ _ (lift_proper d ss F)) as U. fold (reals ss) in U.
  rewrite (to_dataset_ok Xnum d (reals ss) U) in E. match type of E with Ok ?x = _ => assert (Eo : D = x) by congruence end. subst D. clear E U.
  unfold reals at 2. generalize (max_size (N:=Xnum) (reals ss)). intros msz. induction ss as [|s ss IH]; [reflexivity|]. cbn [map concat].
  change (?a :: ?b) with ([a] ++ b). rewrite finite_points_app. f_equal; [|apply IH; intros; apply F; right; auto].
  assert (Fs : real_series d s) by (apply F; left; auto).
  assert (Es : to_time_series (N:=Xnum) true (Raw2 (lift s)) = lift s) by (apply (to_time_series_finite Xnum xnn xfin Xlaws d); apply lift_finite; auto).
  rewrite Es. apply finite_points_one. apply Fs.
Qed.

(** [sigma_gak] is the median distance between the drawn observations of the dataset, times
    the square root of the length of its longest series *)
Theorem C96_value d ss D idx : ss <> [] -> (forall s, In s ss -> real_series d s) -> to_dataset (N:=Xnum) (reals ss) = Ok D ->
  (forall i, In i idx -> (i < length (concat ss))%nat) ->
  let drawn a := nth (nth a idx 0%nat) (concat ss) [] in
  exists m, sigma_gak D idx = Ok (m * sqrt (INR (longest ss))) /\
    is_median (map (fun p => euclid (drawn (fst p)) (drawn (snd p))) (pairs (length idx))) m.
Proof.
  intros Hne F ED Hi drawn. pose proof (finite_points_padded d ss D F ED) as EF. destruct (first_padded d ss D F Hne ED) as [EL _].
  set (pts := map (fun i => nth i (concat ss) []) idx). exists (median (pdist pts)). split.
  - unfold sigma_gak. rewrite EF. destruct (concat ss) as [|q l] eqn:EC.
    + destruct ss as [|s ss]; [congruence|]. assert (Fs : real_series d s) by (apply F; left; auto). destruct Fs as (_ & N & _). destruct s; [congruence|discriminate].
    + fold pts. do 3 f_equal. rewrite <- EL. destruct D; reflexivity.
  - assert (HP : forall x, In x pts -> length x = d).
    { intros x Hx. apply in_map_iff in Hx. destruct Hx as (i & <- & Hin). assert (In (nth i (concat ss) []) (concat ss)) by (apply nth_In; auto).
      apply in_concat in H. destruct H as (s & Hs & Hr). apply (F s Hs). auto. }
    destruct (median_is (pdist pts)) as (l' & P & S & E). exists l'. pose proof (pdist_pairs d pts HP) as PP.
    assert (EE : map (fun p => euclid (drawn (fst p)) (drawn (snd p))) (pairs (length idx)) = map (fun p => euclid (nth (fst p) pts []) (nth (snd p) pts [])) (pairs (length pts))).
    { unfold pts at 3. rewrite map_length. apply map_ext_in. intros [a b] Hab. unfold pairs in Hab. apply filter_In in Hab. rewrite in_prod_iff, !in_seq in Hab. cbn [fst snd].
      assert (G : forall a, (a < length idx)%nat -> nth a pts [] = drawn a).
      { intros k Hk. unfold pts, drawn. rewrite (nth_indep _ [] ((fun i => nth i (concat ss) []) 0%nat)) by (rewrite map_length; auto). apply (map_nth (fun i => nth i (concat ss) [])). }
      rewrite !G by lia. reflexivity. }
    rewrite EE. split; [|split; [exact S|]].
    + eapply perm_trans; [apply Permutation_sym; exact PP|exact P].
    + rewrite E. rewrite (Permutation_length PP), map_length. reflexivity.
Qed.
Print Assumptions C96_value.
(** the median is the only one *)
Example C96_value_instance : forall m, is_median [1; 3; 2; 8] m <-> m = 5 / 2.
Proof.
  assert (H : is_median [1; 3; 2; 8] (5 / 2)).
  { exists [1; 2; 3; 8]. split; [apply perm_skip, perm_swap|split; [|simpl; lra]]. repeat constructor; lra. }
  intros m. split; [intros H'; apply (median_unique _ _ _ H' H)|intros ->; auto].
Qed.

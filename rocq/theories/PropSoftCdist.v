(** Property C31: cross soft-DTW matrices. *)
From Coq Require Import Bool List Arith Lia ZArith QArith Reals Lra Permutation.
From Verif Require Import Num NumLaws Py Series Masks DtwModel Dataset Spec SpecDtw DpProofs DtwProofs DtwThms
  ValidThms CdistThms PropCdist CdistGen RList PathSum SoftModel SoftThms RealSeries PropDtw PropSoft.
Import ListNotations.
Local Open Scope nat_scope.

Lemma validated_strip {B} (N : num) d (x1 x2 : raw N) (k : series N -> series N -> res B) :
  rect d (reshape x1) -> rect d (reshape x2) -> ~ all_nan x1 -> ~ all_nan x2 ->
  validated x1 x2 k = k (strip x1) (strip x2).
Proof.
  intros R1 R2 H1 H2.
  destruct (validated_cases N x1 x2 k) as [[[H|[H|H]] _]|(_ & _ & _ & ->)]; try contradiction; auto.
  exfalso. apply H. unfold features.
  assert (G : forall x : raw N, rect d (reshape x) -> ~ all_nan x -> length (hd [] (reshape x)) = d).
  { intros x R Hx. destruct (reshape x) as [|a l] eqn:E.
    - exfalso. apply Hx. intros q. rewrite E. intros [].
    - inversion R; auto. }
  rewrite !G by auto. reflexivity.
Qed.
Lemma xnan : nisnan (n:=Xnum) nnan = true. Proof. reflexivity. Qed.
Lemma soft_item be d ds1 ds2 gamma g c r s i k : (0 < gamma)%R -> proper (N:=Xnum) d ds1 -> proper d ds2 -> gc_code g = Ok c ->
  i < length ds1 -> k < length ds2 ->
  soft_dtw be (item ds1 i) (item ds2 k) gamma g r s = soft_dtw_generic be (strip (item ds1 i)) (strip (item ds2 k)) gamma c r s.
Proof.
  intros Hg P1 P2 Hc Hi Hk. unfold soft_dtw.
  destruct (P1 (item ds1 i)) as (_ & R1 & A1); [apply nth_In; auto|].
  destruct (P2 (item ds2 k)) as (_ & R2 & A2); [apply nth_In; auto|].
  rewrite (validated_strip Xnum d) by auto. rewrite Hc. cbn [bind]. rewrite is_zero_false by auto. reflexivity.
Qed.
Lemma dtw_item d ds1 ds2 g c r s i k : proper (N:=Xnum) d ds1 -> proper d ds2 -> gc_code g = Ok c ->
  i < length ds1 -> k < length ds2 ->
  dtw (N:=Xnum) (item ds1 i) (item ds2 k) g r s = elastic_generic (N:=Xnum) comb_dtw (strip (item ds1 i)) (strip (item ds2 k)) c r s.
Proof.
  intros P1 P2 Hc Hi Hk. unfold dtw, elastic.
  destruct (P1 (item ds1 i)) as (_ & R1 & A1); [apply nth_In; auto|].
  destruct (P2 (item ds2 k)) as (_ & R2 & A2); [apply nth_In; auto|].
  rewrite (validated_strip Xnum d) by auto. rewrite Hc. reflexivity.
Qed.
Lemma to_datasets_cross d1 d2 ds1 ds2 : uniform (N:=Xnum) d1 ds1 -> uniform d2 ds2 ->
  exists o1 o2, to_dataset ds1 = Ok o1 /\ to_dataset ds2 = Ok o2 /\ to_datasets ds1 (Some ds2) = Ok (o1, Some o2).
Proof.
  intros U1 U2. unfold to_datasets. rewrite (to_dataset_ok Xnum d1 ds1 U1), (to_dataset_ok Xnum d2 ds2 U2).
  do 2 eexists. split; [reflexivity|split; reflexivity].
Qed.
Lemma to_datasets_self d ds : uniform (N:=Xnum) d ds ->
  exists o, to_dataset ds = Ok o /\ to_datasets ds None = Ok (o, None).
Proof.
  intros U1. unfold to_datasets. rewrite (to_dataset_ok Xnum d ds U1). eexists. split; reflexivity.
Qed.

(** gamma > 0: each entry of the cross matrix is the pairwise value, for both
    backends, every constraint and every schedule of the workers *)
Theorem C31_cdist_soft_dtw_cross : forall be d ds1 ds2 gamma g radius slope j M,
  (0 < gamma)%R -> proper (N:=Xnum) d ds1 -> proper d ds2 -> valid_jobs j (length ds1 * length ds2) ->
  cdist_soft_dtw be ds1 (Some ds2) gamma g radius slope j = Ok M ->
  forall i k, i < length ds1 -> k < length ds2 ->
  soft_dtw be (item ds1 i) (item ds2 k) gamma g radius slope = Ok (M i k).
Proof.
  intros be d ds1 ds2 gamma g r s j M Hg P1 P2 Hj E i k Hi Hk. unfold cdist_soft_dtw in E.
  destruct (to_datasets_cross d d ds1 ds2 (proper_uniform _ _ _ P1) (proper_uniform _ _ _ P2)) as (o1 & o2 & E1 & E2 & E3).
  rewrite E3 in E. cbn [bind fst snd] in E. unfold cdist_soft_dtw_generic in E. rewrite is_zero_false in E by auto.
  destruct (gc_code g) as [c|e] eqn:Ec; [|discriminate]. cbn [bind] in E.
  rewrite (soft_item be d ds1 ds2 gamma g c r s i k) by auto.
  refine (gen_cross Xnum xnan (fun s1 s2 => soft_dtw_generic be s1 s2 gamma c r s) d d ds1 ds2 o1 o2 true j M _ _ Hj E1 E2 E i k Hi Hk);
    apply proper_uniform; auto.
Qed.
Print Assumptions C31_cdist_soft_dtw_cross.
(** it returns whenever the pairwise calls return *)
Theorem C31_cdist_soft_dtw_cross_returns : forall be d ds1 ds2 gamma g radius slope j,
  (0 < gamma)%R -> proper (N:=Xnum) d ds1 -> proper d ds2 -> g <> GcOther -> valid_jobs j (length ds1 * length ds2) ->
  (forall i k, i < length ds1 -> k < length ds2 ->
     exists v, soft_dtw be (item ds1 i) (item ds2 k) gamma g radius slope = Ok v) ->
  exists M, cdist_soft_dtw be ds1 (Some ds2) gamma g radius slope j = Ok M.
Proof.
  intros be d ds1 ds2 gamma g r s j Hg P1 P2 Ho Hj H. unfold cdist_soft_dtw.
  destruct (to_datasets_cross d d ds1 ds2 (proper_uniform _ _ _ P1) (proper_uniform _ _ _ P2)) as (o1 & o2 & E1 & E2 & E3).
  rewrite E3. cbn [bind fst snd]. unfold cdist_soft_dtw_generic. rewrite is_zero_false by auto.
  destruct (gc_code g) as [c|e] eqn:Ec; [|destruct g; try discriminate; congruence]. cbn [bind].
  refine (gen_cross_returns Xnum xnan (fun s1 s2 => soft_dtw_generic be s1 s2 gamma c r s) d d ds1 ds2 o1 o2 true j _ _ Hj E1 E2 _);
    try (apply proper_uniform; auto).
  intros i k Hi Hk. rewrite <- (soft_item be d ds1 ds2 gamma g c r s i k) by auto. auto.
Qed.
Print Assumptions C31_cdist_soft_dtw_cross_returns.
(** self matrix: upper triangle with the diagonal pairwise, lower triangle mirrored *)
Theorem C31_cdist_soft_dtw_self : forall be d ds gamma g radius slope j M,
  (0 < gamma)%R -> proper (N:=Xnum) d ds -> valid_jobs j (length ds * (length ds + 1) / 2) ->
  cdist_soft_dtw be ds None gamma g radius slope j = Ok M ->
  forall i k, i <= k -> k < length ds ->
  soft_dtw be (item ds i) (item ds k) gamma g radius slope = Ok (M i k) /\ M k i = M i k.
Proof.
  intros be d ds gamma g r s j M Hg P Hj E i k Hik Hk. unfold cdist_soft_dtw in E.
  destruct (to_datasets_self d ds (proper_uniform _ _ _ P)) as (o & E1 & E3).
  rewrite E3 in E. cbn [bind fst snd] in E. unfold cdist_soft_dtw_generic in E. rewrite is_zero_false in E by auto.
  destruct (gc_code g) as [c|e] eqn:Ec; [|discriminate]. cbn [bind] in E.
  rewrite (soft_item be d ds ds gamma g c r s i k) by (auto; lia).
  rewrite <- triu_len_diag in Hj.
  destruct (gen_self Xnum xnan (fun s1 s2 => soft_dtw_generic be s1 s2 gamma c r s) d ds o true j M (proper_uniform _ _ _ P) Hj E1 E) as [H1 H2].
  destruct (Nat.eq_dec i k) as [->|Hn]; [split; [exact (H2 k Hk)|reflexivity]|]. apply H1; auto. lia.
Qed.
Print Assumptions C31_cdist_soft_dtw_self.

Lemma lift_proper d ss : (forall s, In s ss -> real_series d s) -> proper (N:=Xnum) d (map (fun s => Raw2 (lift s)) ss).
Proof.
  intros F x Hx. apply in_map_iff in Hx. destruct Hx as (t & <- & Ht). pose proof (lift_finite _ _ (F t Ht)) as (Hd & Hne & Hrow). simpl.
  split; [|split].
  - unfold ncols. destruct (lift t) as [|a u]; [congruence|]. apply Hrow. left; auto.
  - apply Forall_forall. intros q Hq. apply Hrow. auto.
  - intros Ha. simpl in Ha. destruct (lift t) as [|a u]; [congruence|]. specialize (Ha a (or_introl eq_refl)).
    destruct (Hrow a (or_introl eq_refl)) as [Hl Hf]. destruct a as [|v a]; [simpl in Hl; lia|].
    assert (Hv : xisnan v = false) by (exact (fin_notnan _ _ _ Xlaws v (Hf v (or_introl eq_refl)))). simpl in Ha, Hv. rewrite Hv in Ha. discriminate.
Qed.
Lemma lift_item ss i : i < length ss -> item (N:=Xnum) (map (fun s => Raw2 (lift s)) ss) i = Raw2 (lift (nth i ss [])).
Proof. intros Hi. unfold item. exact (map_nth (fun s => @Raw2 Xnum (lift s)) ss [] i). Qed.
Lemma gc_total n m g r s A : constraint n m g r s A -> exists c, gc_code g = Ok c.
Proof. destruct g; simpl; intros H; try contradiction; eauto. Qed.

(** real-valued series, no or Sakoe-Chiba constraint: the self matrix exists and
    every entry is the pairwise value *)
Theorem C31_cdist_soft_dtw_self_pairwise : forall be d ss gamma g radius slope j n m A,
  (0 < gamma)%R -> (forall s, In s ss -> real_series d s) -> not_itakura g slope -> positive_slope slope ->
  constraint n m g radius slope A -> valid_jobs j (length ss * (length ss + 1) / 2) ->
  exists M, cdist_soft_dtw be (map (fun s => Raw2 (lift s)) ss) None gamma g radius slope j = Ok M /\
  forall i k, i < length ss -> k < length ss ->
  soft_dtw be (Raw2 (lift (nth i ss []))) (Raw2 (lift (nth k ss []))) gamma g radius slope = Ok (M i k).
Proof.
  intros be d ss gamma g r s j n m A Hg F Hni Hs HA Hj. pose proof (lift_proper d ss F) as P.
  assert (Hc : forall n m, exists A, constraint n m g r s A) by (intros; eapply constraint_any; eauto).
  assert (Ret : forall i k, i < length ss -> k < length ss -> exists v,
     soft_dtw be (Raw2 (lift (nth i ss []))) (Raw2 (lift (nth k ss []))) gamma g r s = Ok v).
  { intros i k Hi Hk. destruct (Hc (length (nth i ss [])) (length (nth k ss []))) as (B & HB). eexists.
    apply (soft_public be d) with (allowed := B); auto; apply F; apply nth_In; auto. }
  assert (Ex : exists M, cdist_soft_dtw be (map (fun s => Raw2 (lift s)) ss) None gamma g r s j = Ok M).
  { unfold cdist_soft_dtw. destruct (to_datasets_self d _ (proper_uniform _ _ _ P)) as (o & E1 & E3).
    rewrite E3. cbn [bind fst snd]. unfold cdist_soft_dtw_generic. rewrite is_zero_false by auto.
    destruct (gc_total _ _ _ _ _ _ HA) as (c & Ec). rewrite Ec. cbn [bind].
    refine (gen_self_returns Xnum xnan (fun s1 s2 => soft_dtw_generic be s1 s2 gamma c r s) d _ o true j (proper_uniform _ _ _ P) _ E1 _);
      rewrite ?map_length; [rewrite triu_len_diag; exact Hj|].
    intros i k Hi Hk. rewrite <- (soft_item be d _ _ gamma g c r s i k) by (auto; rewrite map_length; auto).
    rewrite !lift_item by auto. auto. }
  destruct Ex as (M & E). exists M. split; auto.
  assert (U : forall i k, i <= k -> k < length ss ->
     soft_dtw be (Raw2 (lift (nth i ss []))) (Raw2 (lift (nth k ss []))) gamma g r s = Ok (M i k) /\ M k i = M i k).
  { intros i k Hik Hk. rewrite <- (lift_item ss i), <- (lift_item ss k) by lia.
    apply (C31_cdist_soft_dtw_self be d _ gamma g r s j M); auto; rewrite map_length; auto. }
  intros i k Hi Hk. destruct (Nat.le_gt_cases i k) as [Hik|Hik]; [apply U; auto|].
  destruct (U k i ltac:(lia) Hi) as [U1 U2]. rewrite U2, <- U1.
  destruct (Hc (length (nth i ss [])) (length (nth k ss []))) as (B & HB).
  apply (C29_soft_dtw_symmetric be d) with (allowed := B); auto; try (apply F; apply nth_In; auto). lra.
Qed.
Print Assumptions C31_cdist_soft_dtw_self_pairwise.

(** gamma = 0: the entry is the DTW distance, not its square *)
Theorem C31_cdist_soft_dtw_gamma_zero : forall be d ds1 ds2 g radius slope j M,
  proper (N:=Xnum) d ds1 -> proper d ds2 -> valid_jobs j (length ds1 * length ds2) ->
  cdist_soft_dtw be ds1 (Some ds2) 0 g radius slope j = Ok M ->
  forall i k, i < length ds1 -> k < length ds2 ->
  dtw (N:=Xnum) (item ds1 i) (item ds2 k) g radius slope = Ok (M i k) /\
  soft_dtw be (item ds1 i) (item ds2 k) 0 g radius slope = Ok (xmul (M i k) (M i k)).
Proof.
  intros be d ds1 ds2 g r s j M P1 P2 Hj E i k Hi Hk. unfold cdist_soft_dtw in E.
  destruct (to_datasets_cross d d ds1 ds2 (proper_uniform _ _ _ P1) (proper_uniform _ _ _ P2)) as (o1 & o2 & E1 & E2 & E3).
  assert (Z : is_zero 0 = true) by (unfold is_zero; destruct (Req_EM_T 0 0); [auto|lra]).
  rewrite E3 in E. cbn [bind fst snd] in E. unfold cdist_soft_dtw_generic in E. rewrite Z in E.
  destruct (gc_code g) as [c|e] eqn:Ec; [|discriminate]. cbn [bind] in E.
  assert (G : elastic_generic (N:=Xnum) comb_dtw (strip (item ds1 i)) (strip (item ds2 k)) c r s = Ok (M i k)).
  { refine (gen_cross Xnum xnan (fun s1 s2 => elastic_generic (N:=Xnum) comb_dtw s1 s2 c r s) d d ds1 ds2 o1 o2 false j M _ _ Hj E1 E2 E i k Hi Hk);
      apply proper_uniform; auto. }
  split; [rewrite (dtw_item d ds1 ds2 g c r s i k) by auto; exact G|].
  unfold soft_dtw.
  destruct (P1 (item ds1 i)) as (_ & R1 & A1); [apply nth_In; auto|].
  destruct (P2 (item ds2 k)) as (_ & R2 & A2); [apply nth_In; auto|].
  rewrite (validated_strip Xnum d) by auto. rewrite Ec. cbn [bind]. rewrite Z, G. reflexivity.
Qed.
Print Assumptions C31_cdist_soft_dtw_gamma_zero.
(** so the property fails at gamma = 0: series (0) and (2), cdist 2, soft_dtw 4 *)
Theorem C31_gamma_zero_refuted : exists ds1 ds2 M v,
  cdist_soft_dtw BNumpy ds1 (Some ds2) 0 GcNone None None Sequential = Ok M /\
  soft_dtw BNumpy (item ds1 0) (item ds2 0) 0 GcNone None None = Ok v /\ M 0 0 <> v.
Proof.
  pose (ss1 := [[[0%R]]]). pose (ss2 := [[[2%R]]]).
  assert (F1 : real_series 1 [[0%R]]) by (repeat split; [lia|discriminate|intros r [<-|[]]; reflexivity]).
  assert (F2 : real_series 1 [[2%R]]) by (repeat split; [lia|discriminate|intros r [<-|[]]; reflexivity]).
  pose (ds1 := map (fun s => @Raw2 Xnum (lift s)) ss1). pose (ds2 := map (fun s => @Raw2 Xnum (lift s)) ss2).
  assert (P1 : proper 1 ds1) by (apply lift_proper; intros s [<-|[]]; auto).
  assert (P2 : proper 1 ds2) by (apply lift_proper; intros s [<-|[]]; auto).
  assert (En : enumerates (warping_path 1 1 everywhere) [[(0, 0)]]) by (exact (all_paths_enum 1 1 everywhere ltac:(lia) ltac:(lia))).
  destruct (dtw_value 1 [[0%R]] [[2%R]] GcNone None None everywhere [[(0, 0)]] F1 F2 I eq_refl En) as (p & [<-|[]] & _ & Ed).
  assert (Ev : sqrt (cost (costs [[0%R]] [[2%R]]) [(0, 0)]) = 2%R).
  { unfold cost, costs, sqd. simpl. replace ((0 - 2) * (0 - 2) + 0 + 0)%R with (2 * 2)%R by ring. apply sqrt_square. lra. }
  rewrite Ev in Ed.
  assert (Ex : exists M, cdist_soft_dtw BNumpy ds1 (Some ds2) 0 GcNone None None Sequential = Ok M).
  { unfold cdist_soft_dtw. destruct (to_datasets_cross 1 1 ds1 ds2 (proper_uniform _ _ _ P1) (proper_uniform _ _ _ P2)) as (o1 & o2 & E1 & E2 & E3).
    rewrite E3. cbn [bind fst snd]. unfold cdist_soft_dtw_generic.
    assert (Z : is_zero 0 = true) by (unfold is_zero; destruct (Req_EM_T 0 0); [auto|lra]). rewrite Z. cbn [bind gc_code].
    refine (gen_cross_returns Xnum xnan _ 1 1 ds1 ds2 o1 o2 false Sequential _ _ I E1 E2 _); try (apply proper_uniform; auto).
    intros i k Hi Hk. rewrite <- (dtw_item 1 ds1 ds2 GcNone 0 None None i k) by auto.
    replace i with 0 by (simpl in Hi; lia). replace k with 0 by (simpl in Hk; lia). eexists. exact Ed. }
  destruct Ex as (M & EM).
  destruct (C31_cdist_soft_dtw_gamma_zero BNumpy 1 ds1 ds2 GcNone None None Sequential M P1 P2 I EM 0 0) as [D1 D2]; [simpl; lia|simpl; lia|].
  exists ds1, ds2, M. eexists. split; [exact EM|split; [exact D2|]].
  assert (M00 : M 0 0 = XR 2) by (change (item ds1 0) with (@Raw2 Xnum (lift [[0%R]])) in D1;
    change (item ds2 0) with (@Raw2 Xnum (lift [[2%R]])) in D1; rewrite Ed in D1; congruence).
  rewrite M00. simpl. intros K. injection K. lra.
Qed.
Print Assumptions C31_gamma_zero_refuted.

(** ** C75 *)
Lemma self_list be d ds o gamma c r s l : proper (N:=Xnum) d ds -> to_dataset ds = Ok o ->
  mapM (fun x : series Xnum => let t := to_time_series (N:=Xnum) true (Raw2 x) in soft_dtw_generic be t t gamma c r s) o = Ok l ->
  length l = length ds /\
  forall i, i < length ds -> soft_dtw_generic be (strip (item ds i)) (strip (item ds i)) gamma c r s = Ok (nth i l XNaN).
Proof.
  intros P E H. apply mapM_spec in H. pose proof (Forall2_len _ _ _ H) as L.
  pose proof (gen_len _ _ _ _ (proper_uniform _ _ _ P) E) as Lo. split; [congruence|].
  intros i Hi. assert (Hi' : i < length l) by congruence.
  pose proof (Forall2_nth_inv _ _ _ i (nth i o []) (nth i l XNaN) H) as G. cbv beta zeta in G.
  destruct (strip_nth Xnum xnan d ds o i (proper_uniform _ _ _ P) E Hi) as [_ Es]. rewrite Es in G.
  apply G; apply nth_error_nth'; auto; congruence.
Qed.
Lemma self_list_total be d ds o gamma c r s : proper (N:=Xnum) d ds -> to_dataset ds = Ok o ->
  (forall i, i < length ds -> exists v, soft_dtw_generic be (strip (item ds i)) (strip (item ds i)) gamma c r s = Ok v) ->
  exists l, mapM (fun x : series Xnum => let t := to_time_series (N:=Xnum) true (Raw2 x) in soft_dtw_generic be t t gamma c r s) o = Ok l.
Proof.
  intros P E H. apply mapM_total. intros x Hx. apply (In_nth _ _ []) in Hx. destruct Hx as (i & Hi & <-).
  assert (Hi2 : i < length ds) by (rewrite <- (gen_len _ _ _ _ (proper_uniform _ _ _ P) E); exact Hi). clear Hi. rename Hi2 into Hi. cbv zeta.
  destruct (strip_nth Xnum xnan d ds o i (proper_uniform _ _ _ P) E Hi) as [_ Es].
  specialize (H i Hi). unfold strip in H. rewrite <- Es in H. exact H.
Qed.
Lemma mapM_app {A B} (f : A -> res B) l l' : mapM f (l ++ l') = (do a <- mapM f l ;; do b <- mapM f l' ;; Ok (a ++ b)).
Proof.
  induction l as [|x l IH]; simpl.
  - destruct (mapM f l'); reflexivity.
  - rewrite IH. destruct (f x); simpl; auto. destruct (mapM f l); simpl; auto. destruct (mapM f l'); reflexivity.
Qed.
(** the second batch of tasks of the parallel branch runs in any order *)
Definition batch_ok (j2 : jobs) (o1 o2 : list (series Xnum)) : Prop :=
  match j2 with Sequential => True | Threads _ => stackable o1 o2 = true /\ valid_jobs j2 (length o1 + length o2) end.
Lemma self_dists_spec be o1 o2 gamma c r s j2 a b : batch_ok j2 o1 o2 ->
  let f := fun x : series Xnum => let t := to_time_series (N:=Xnum) true (Raw2 x) in soft_dtw_generic be t t gamma c r s in
  mapM f o1 = Ok a -> mapM f o2 = Ok b -> self_dists be o1 o2 gamma c r s j2 = Ok (a, b).
Proof.
  intros Hb f Ea Eb. unfold self_dists. fold f. destruct j2 as [|sched].
  - rewrite Ea. cbn [bind]. rewrite Eb. reflexivity.
  - destruct Hb as [-> Hv].
    assert (Ej : run_jobs (Threads sched) f (o1 ++ o2) = Ok (a ++ b)).
    { apply run_jobs_mapM; [rewrite app_length; exact Hv|]. rewrite mapM_app, Ea. cbn [bind]. rewrite Eb. reflexivity. }
    rewrite Ej. cbn [bind].
    assert (L : length o1 = length a) by (apply mapM_spec in Ea; eapply Forall2_len; eauto).
    rewrite L, firstn_app, Nat.sub_diag, firstn_all, firstn_O, app_nil_r, skipn_app, Nat.sub_diag, skipn_all. reflexivity.
Qed.

Definition reals (ss : list (list (list R))) : list (raw Xnum) := map (fun s => Raw2 (lift s)) ss.
(** longest series of a dataset *)
Definition longest (ss : list (list (list R))) : nat := fold_left Nat.max (map (@length (list R)) ss) 0.

Lemma ts_size_lift d s : real_series d s -> ts_size (N:=Xnum) (lift s) = length s.
Proof.
  intros F. rewrite <- (lift_length s). apply ts_size_full. intros r Hr.
  destruct (lift_finite _ _ F) as (Hd & _ & Hrow). destruct (Hrow r Hr) as [Hl Hf].
  destruct r as [|v r]; [simpl in Hl; lia|].
  assert (Hv : xisnan v = false) by (exact (fin_notnan _ _ _ Xlaws v (Hf v (or_introl eq_refl)))). simpl in *. rewrite Hv. reflexivity.
Qed.
Lemma max_size_reals d ss : (forall s, In s ss -> real_series d s) -> max_size (N:=Xnum) (reals ss) = longest ss.
Proof.
  intros F. unfold max_size, longest, reals. rewrite map_map. f_equal. apply map_ext_in. intros s Hs. simpl.
  eapply ts_size_lift; eauto.
Qed.
Lemma longest_ge ss s : In s ss -> length s <= longest ss.
Proof.
  unfold longest. assert (G : forall l a, a <= fold_left Nat.max l a /\ forall x, In x l -> x <= fold_left Nat.max l a).
  { induction l as [|y l IH]; simpl; intros a; [split; [auto|intros x []]|].
    destruct (IH (Nat.max a y)) as [H1 H2]. split; [lia|]. intros x [<-|Hx]; [lia|auto]. }
  intros H. apply G. apply in_map. auto.
Qed.
Lemma first_padded d ss o : (forall s, In s ss -> real_series d s) -> ss <> [] -> to_dataset (reals ss) = Ok o ->
  length (hd [] o) = longest ss /\ ncols (N:=Xnum) (hd [] o) = d.
Proof.
  intros F Hne E. pose proof (proper_uniform _ _ _ (lift_proper d ss F)) as U. fold (reals ss) in U.
  rewrite (to_dataset_ok Xnum d (reals ss) U) in E.
  match type of E with Ok ?x = _ => assert (Eo : o = x) by congruence end. subst o. clear E.
  destruct ss as [|s ss]; [congruence|]. rewrite (max_size_reals d) by auto.
  cbn [reals map hd].
  assert (Es : to_time_series (N:=Xnum) true (Raw2 (lift s)) = lift s)
    by (apply (to_time_series_finite Xnum xnn xfin Xlaws d); apply lift_finite; apply F; left; auto).
  rewrite Es. split.
  - rewrite app_length, repeat_length, lift_length. pose proof (longest_ge (s :: ss) s (or_introl eq_refl)). lia.
  - unfold ncols. assert (Fs : real_series d s) by (apply F; left; auto). pose proof (lift_finite _ _ Fs) as (_ & Hn & Hr).
    destruct (lift s) as [|a l]; [congruence|]. simpl. apply (Hr a). left; auto.
Qed.
Lemma stackable_reals d ss1 ss2 o1 o2 : (forall s, In s ss1 -> real_series d s) -> (forall s, In s ss2 -> real_series d s) ->
  ss1 <> [] -> ss2 <> [] -> to_dataset (reals ss1) = Ok o1 -> to_dataset (reals ss2) = Ok o2 ->
  stackable o1 o2 = (longest ss1 =? longest ss2).
Proof.
  intros F1 F2 N1 N2 E1 E2. destruct (first_padded d ss1 o1 F1 N1 E1) as [A1 B1]. destruct (first_padded d ss2 o2 F2 N2 E2) as [A2 B2].
  unfold stackable. rewrite A1, A2, B1, B2, Nat.eqb_refl, andb_true_r. reflexivity.
Qed.

(** constraint arguments accepted for all the lengths involved *)
Definition accepted (ss : list (list (list R))) (g : gc_name) (r : option Z) (s : option Q) : Prop :=
  forall x y, In x ss -> In y ss -> exists A, constraint (length x) (length y) g r s A.

Lemma norm_cross be d ss1 ss2 o1 o2 gamma g r s j j2 : (0 < gamma)%R ->
  (forall s, In s ss1 -> real_series d s) -> (forall s, In s ss2 -> real_series d s) ->
  positive_slope s -> accepted (ss1 ++ ss2) g r s -> g <> GcOther ->
  valid_jobs j (length ss1 * length ss2) ->
  to_dataset (reals ss1) = Ok o1 -> to_dataset (reals ss2) = Ok o2 -> batch_ok j2 o1 o2 ->
  exists M, cdist_soft_dtw_normalized be (reals ss1) (Some (reals ss2)) gamma g r s j j2 = Ok M /\
  forall i k, i < length ss1 -> k < length ss2 ->
  soft_dtw_normalized be (Raw2 (lift (nth i ss1 []))) (Raw2 (lift (nth k ss2 []))) gamma g r s = Ok (M i k).
Proof.
  intros Hg F1 F2 Hs Hacc Hgo Hj E1 E2 Hb.
  pose proof (lift_proper d ss1 F1) as P1. pose proof (lift_proper d ss2 F2) as P2. fold (reals ss1) in P1. fold (reals ss2) in P2.
  assert (L1 : length (reals ss1) = length ss1) by apply map_length. assert (L2 : length (reals ss2) = length ss2) by apply map_length.
  destruct (gc_code g) as [c|] eqn:Ec; [|destruct g; try discriminate; congruence].
  unfold cdist_soft_dtw_normalized.
  assert (E3 : to_datasets (reals ss1) (Some (reals ss2)) = Ok (o1, Some o2)) by (unfold to_datasets; rewrite E1, E2; reflexivity).
  rewrite E3. cbn [bind fst snd].
  destruct (C31_cdist_soft_dtw_cross_returns be d (reals ss1) (reals ss2) gamma g r s j Hg P1 P2 Hgo) as (M & EM).
  { rewrite L1, L2. exact Hj. }
  { rewrite L1, L2. intros i k Hi Hk. unfold reals. rewrite !lift_item by auto.
    destruct (Hacc (nth i ss1 []) (nth k ss2 [])) as (A & HA); [apply in_or_app; left; apply nth_In; auto|apply in_or_app; right; apply nth_In; auto|].
    eexists. apply (soft_public be d) with (allowed := A); auto; [apply F1|apply F2]; apply nth_In; auto. }
  assert (HM : forall i k, i < length ss1 -> k < length ss2 ->
     soft_dtw be (Raw2 (lift (nth i ss1 []))) (Raw2 (lift (nth k ss2 []))) gamma g r s = Ok (M i k)).
  { intros i k Hi Hk. rewrite <- (lift_item ss1 i), <- (lift_item ss2 k) by auto.
    apply (C31_cdist_soft_dtw_cross be d (reals ss1) (reals ss2) gamma g r s j M); auto; rewrite ?L1, ?L2; auto. }
  unfold cdist_soft_dtw in EM. rewrite E3 in EM. cbn [bind fst snd] in EM. rewrite EM. cbn [bind].
  rewrite is_zero_false by auto. rewrite Ec. cbn [bind].
  assert (Self : forall ss, (forall x, In x ss -> In x (ss1 ++ ss2)) -> (forall x, In x ss -> real_series d x) ->
     forall i, i < length ss -> exists v, soft_dtw be (Raw2 (lift (nth i ss []))) (Raw2 (lift (nth i ss []))) gamma g r s = Ok v /\
     soft_dtw_generic be (strip (item (reals ss) i)) (strip (item (reals ss) i)) gamma c r s = Ok v).
  { intros ss Hin F i Hi. destruct (Hacc (nth i ss []) (nth i ss [])) as (A & HA); [apply Hin, nth_In; auto|apply Hin, nth_In; auto|].
    pose proof (soft_public be d _ _ gamma g r s A Hg (F _ (nth_In _ [] Hi)) (F _ (nth_In _ [] Hi)) Hs HA) as E.
    eexists. split; [exact E|]. rewrite <- E, <- (lift_item ss i) by auto. symmetry. fold (reals ss).
    apply (soft_item be d); auto; try (apply lift_proper; auto); unfold reals; rewrite map_length; auto. }
  assert (S1 := Self ss1 ltac:(intros; apply in_or_app; auto) F1). assert (S2 := Self ss2 ltac:(intros; apply in_or_app; auto) F2).
  destruct (self_list_total be d (reals ss1) o1 gamma c r s P1 E1) as (a & Ea).
  { rewrite L1. intros i Hi. destruct (S1 i Hi) as (v & _ & H). eauto. }
  destruct (self_list_total be d (reals ss2) o2 gamma c r s P2 E2) as (b & Eb).
  { rewrite L2. intros i Hi. destruct (S2 i Hi) as (v & _ & H). eauto. }
  rewrite (self_dists_spec be o1 o2 gamma c r s j2 a b Hb Ea Eb). cbn [bind fst snd].
  eexists. split; [reflexivity|]. intros i k Hi Hk.
  assert (I1 : In (nth i ss1 []) (ss1 ++ ss2)) by (apply in_or_app; left; apply nth_In; auto).
  assert (I2 : In (nth k ss2 []) (ss1 ++ ss2)) by (apply in_or_app; right; apply nth_In; auto).
  destruct (Hacc _ _ I1 I2) as (A12 & C12). destruct (Hacc _ _ I1 I1) as (A11 & C11). destruct (Hacc _ _ I2 I2) as (A22 & C22).
  destruct (normalized_public be d _ _ gamma g r s A12 A11 A22 Hg (F1 _ (nth_In _ [] Hi)) (F2 _ (nth_In _ [] Hk)) Hs C12 C11 C22)
    as (v12 & v11 & v22 & V12 & V11 & V22 & ->).
  rewrite (HM i k Hi Hk) in V12. destruct (S1 i Hi) as (u1 & U1 & U1'). destruct (S2 k Hk) as (u2 & U2 & U2').
  destruct (self_list be d (reals ss1) o1 gamma c r s a P1 E1 Ea) as [_ Na]. destruct (self_list be d (reals ss2) o2 gamma c r s b P2 E2 Eb) as [_ Nb].
  specialize (Na i ltac:(rewrite L1; auto)). specialize (Nb k ltac:(rewrite L2; auto)).
  assert (nth i a XNaN = XR v11) by congruence. assert (nth k b XNaN = XR v22) by congruence.
  assert (M i k = XR v12) by congruence. f_equal. rewrite H, H0, H1. simpl. f_equal. field.
Qed.

(** sequential second batch ([n_jobs] None or 1), any schedule of the first *)
Theorem C75_normalized_cross_sequential : forall be d ss1 ss2 gamma g radius slope j,
  (0 < gamma)%R -> (forall s, In s ss1 -> real_series d s) -> (forall s, In s ss2 -> real_series d s) ->
  positive_slope slope -> accepted (ss1 ++ ss2) g radius slope -> g <> GcOther ->
  valid_jobs j (length ss1 * length ss2) ->
  exists M, cdist_soft_dtw_normalized be (reals ss1) (Some (reals ss2)) gamma g radius slope j Sequential = Ok M /\
  forall i k, i < length ss1 -> k < length ss2 ->
  soft_dtw_normalized be (Raw2 (lift (nth i ss1 []))) (Raw2 (lift (nth k ss2 []))) gamma g radius slope = Ok (M i k).
Proof.
  intros be d ss1 ss2 gamma g r s j Hg F1 F2 Hs Ha Hgo Hj.
  destruct (to_datasets_cross d d (reals ss1) (reals ss2)) as (o1 & o2 & E1 & E2 & _); try (eapply proper_uniform, lift_proper; eauto).
  eapply norm_cross; eauto. exact I.
Qed.
Print Assumptions C75_normalized_cross_sequential.
(** several jobs: the same result if the longest series of both datasets have the
    same length, a ValueError otherwise *)
Theorem C75_normalized_cross_parallel : forall be d ss1 ss2 gamma g radius slope j sched,
  (0 < gamma)%R -> (forall s, In s ss1 -> real_series d s) -> (forall s, In s ss2 -> real_series d s) ->
  ss1 <> [] -> ss2 <> [] ->
  positive_slope slope -> accepted (ss1 ++ ss2) g radius slope -> g <> GcOther ->
  valid_jobs j (length ss1 * length ss2) -> valid_jobs (Threads sched) (length ss1 + length ss2) ->
  if longest ss1 =? longest ss2 then
    exists M, cdist_soft_dtw_normalized be (reals ss1) (Some (reals ss2)) gamma g radius slope j (Threads sched) = Ok M /\
    forall i k, i < length ss1 -> k < length ss2 ->
    soft_dtw_normalized be (Raw2 (lift (nth i ss1 []))) (Raw2 (lift (nth k ss2 []))) gamma g radius slope = Ok (M i k)
  else cdist_soft_dtw_normalized be (reals ss1) (Some (reals ss2)) gamma g radius slope j (Threads sched) = Err ValueError.
Proof.
  intros be d ss1 ss2 gamma g r s j sched Hg F1 F2 N1 N2 Hs Ha Hgo Hj Hj2.
  destruct (to_datasets_cross d d (reals ss1) (reals ss2)) as (o1 & o2 & E1 & E2 & E3); try (eapply proper_uniform, lift_proper; eauto).
  pose proof (stackable_reals d ss1 ss2 o1 o2 F1 F2 N1 N2 E1 E2) as St.
  destruct (longest ss1 =? longest ss2).
  - eapply norm_cross; eauto. split; auto.
    rewrite (gen_len Xnum d (reals ss1) o1), (gen_len Xnum d (reals ss2) o2); auto; try (eapply proper_uniform, lift_proper; eauto).
    unfold reals. rewrite !map_length. exact Hj2.
  - destruct (norm_cross be d ss1 ss2 o1 o2 gamma g r s j Sequential Hg F1 F2 Hs Ha Hgo Hj E1 E2 I) as (M & EM & _).
    unfold cdist_soft_dtw_normalized in *. rewrite E3 in *. cbn [bind fst snd] in *.
    destruct (cdist_soft_dtw_generic _ _ _ _ _ _ _ _) as [M'|e]; [|discriminate]. cbn [bind] in *.
    rewrite is_zero_false in * by auto. destruct (gc_code g); [|discriminate]. cbn [bind] in *.
    unfold self_dists. rewrite St. reflexivity.
Qed.
Print Assumptions C75_normalized_cross_parallel.
(** hence n_jobs changes the outcome: one series of length 2, one of length 1 *)
Theorem C75_jobs_independent_refuted : exists be ds1 ds2 gamma j1 j2,
  (0 < gamma)%R /\ valid_jobs j1 (length ds1 * length ds2) /\ valid_jobs j2 (length ds1 + length ds2) /\
  (exists M, cdist_soft_dtw_normalized be ds1 (Some ds2) gamma GcNone None None Sequential Sequential = Ok M) /\
  cdist_soft_dtw_normalized be ds1 (Some ds2) gamma GcNone None None j1 j2 = Err ValueError.
Proof.
  pose (ss1 := [[[0]; [1]]]%R). pose (ss2 := [[[2]]]%R).
  assert (F1 : forall s, In s ss1 -> real_series 1 s) by (intros s [<-|[]]; repeat split; [lia|discriminate|intros r [<-|[<-|[]]]; reflexivity]).
  assert (F2 : forall s, In s ss2 -> real_series 1 s) by (intros s [<-|[]]; repeat split; [lia|discriminate|intros r [<-|[]]; reflexivity]).
  assert (Ha : accepted (ss1 ++ ss2) GcNone None None) by (intros x y _ _; exists everywhere; reflexivity).
  exists BNumpy, (reals ss1), (reals ss2), 1%R, (Threads [0]), (Threads [1; 0]).
  split; [lra|split; [apply Permutation_refl|split; [apply perm_swap|split]]].
  - destruct (C75_normalized_cross_sequential BNumpy 1 ss1 ss2 1%R GcNone None None Sequential) as (M & EM & _); auto; [lra|exact I|discriminate|exact I|].
    exists M. exact EM.
  - apply (C75_normalized_cross_parallel BNumpy 1 ss1 ss2 1%R GcNone None None (Threads [0]) [1; 0]); auto;
      try discriminate; [lra|exact I|apply Permutation_refl|apply perm_swap].
Qed.
Print Assumptions C75_jobs_independent_refuted.

(** self matrix, no or Sakoe-Chiba constraint *)
Theorem C75_normalized_self : forall be d ss gamma g radius slope j j2 n m A,
  (0 < gamma)%R -> (forall s, In s ss -> real_series d s) -> not_itakura g slope -> positive_slope slope ->
  constraint n m g radius slope A -> valid_jobs j (length ss * (length ss + 1) / 2) ->
  exists M, cdist_soft_dtw_normalized be (reals ss) None gamma g radius slope j j2 = Ok M /\
  forall i k, i < length ss -> k < length ss ->
  soft_dtw_normalized be (Raw2 (lift (nth i ss []))) (Raw2 (lift (nth k ss []))) gamma g radius slope = Ok (M i k).
Proof.
  intros be d ss gamma g r s j j2 n m A Hg F Hni Hs HA Hj.
  destruct (C31_cdist_soft_dtw_self_pairwise be d ss gamma g r s j n m A Hg F Hni Hs HA Hj) as (M & EM & HM).
  fold (reals ss) in EM. unfold cdist_soft_dtw_normalized. unfold cdist_soft_dtw in EM.
  destruct (to_datasets_self d (reals ss) (proper_uniform _ _ _ (lift_proper d ss F))) as (o & E1 & E3).
  rewrite E3 in *. cbn [bind fst snd] in *. rewrite EM. cbn [bind]. rewrite is_zero_false by auto.
  eexists. split; [reflexivity|]. intros i k Hi Hk.
  destruct (constraint_any _ _ _ _ _ _ Hni HA (length (nth i ss [])) (length (nth k ss []))) as (A12 & C12).
  destruct (constraint_any _ _ _ _ _ _ Hni HA (length (nth i ss [])) (length (nth i ss []))) as (A11 & C11).
  destruct (constraint_any _ _ _ _ _ _ Hni HA (length (nth k ss [])) (length (nth k ss []))) as (A22 & C22).
  destruct (normalized_public be d _ _ gamma g r s A12 A11 A22 Hg (F _ (nth_In _ [] Hi)) (F _ (nth_In _ [] Hk)) Hs C12 C11 C22)
    as (v12 & v11 & v22 & V12 & V11 & V22 & ->).
  rewrite HM in V12, V11, V22 by auto.
  assert (H1 : M i k = XR v12) by congruence. assert (H2 : M i i = XR v11) by congruence. assert (H3 : M k k = XR v22) by congruence.
  rewrite H1, H2, H3. simpl. do 2 f_equal. field.
Qed.
Print Assumptions C75_normalized_self.

(** C222, C223: density-based clustering with a larger radius, a smaller density, and in another unit. *)
From Coq Require Import Permutation Bool List Arith Lia ZArith QArith Reals Lra.
From Verif Require Import Num NumLaws Py Series Masks DtwModel Dataset Spec SpecDtw DpProofs DtwProofs DtwThms RList PathSum RealSeries IntSeries CdistThms CdistGen PropCdist PropDtw SoftModel SoftThms PropSoft PropSoftCdist PaaModel PreModel DbscanModel PropDbscan PropMeta.
Import ListNotations.
Local Open Scope nat_scope.

(** ** C222 *)
Section Coarser.
Context (n : nat) (Dr : nat -> nat -> R) (eps eps' : R) (min_ts min_ts' : Z) (He : (eps <= eps')%R) (Hm : (min_ts' <= min_ts)%Z).
Lemma density_grows i : density n Dr eps i <= density n Dr eps' i.
Proof.
  unfold density. induction (seq 0 n) as [|j l IH]; [apply le_n|]. cbn [filter].
  destruct (Rle_dec (Dr i j) eps), (Rle_dec (Dr i j) eps'); cbn [length]; try lia. exfalso. lra.
Qed.
Lemma core_stays i : is_core n Dr eps min_ts i -> is_core n Dr eps' min_ts' i.
Proof. intros (H1 & H2). split; [exact H1|]. pose proof (density_grows i). lia. Qed.
Lemma near_stays i j : near n Dr eps i j -> near n Dr eps' i j.
Proof. intros (H1 & H2 & H3). split; [|split]; auto. lra. Qed.
Lemma linked_stays i j : linked n Dr eps min_ts i j -> linked n Dr eps' min_ts' i j.
Proof. induction 1; [constructor; apply core_stays; auto|econstructor; eauto using near_stays, core_stays]. Qed.
End Coarser.

(** A larger [eps] and a smaller [min_ts] keep every core series, keep core series of one cluster together and make no new noise. *)
Theorem C222_coarser n Dr D eps eps' min_ts min_ts' :
  (forall i j, i < n -> j < n -> D i j = XR (Dr i j) /\ (0 <= Dr i j)%R /\ Dr i j = Dr j i) -> (eps <= eps')%R -> (min_ts' <= min_ts)%Z ->
  exists out out', dbscan_fit n D eps min_ts = Ok out /\ dbscan_fit n D eps' min_ts' = Ok out' /\
    let label i := nth i (ts_labels out) (-2)%Z in
    let label' i := nth i (ts_labels out') (-2)%Z in
    (forall i, In i (core_ts_indices out) -> In i (core_ts_indices out')) /\
    (forall i j, In i (core_ts_indices out) -> In j (core_ts_indices out) -> label i = label j -> label' i = label' j) /\
    (forall i, i < n -> (0 <= label i)%Z -> (0 <= label' i)%Z).
Proof.
  intros HD He Hm. destruct (C125_clusters n Dr D eps min_ts HD) as (out & E & (L1 & C1 & _ & N1 & S1 & O1 & B1 & _)).
  destruct (C125_clusters n Dr D eps' min_ts' HD) as (out' & E' & (L2 & C2 & _ & N2 & S2 & O2 & B2 & _)).
  exists out, out'. split; [exact E|split; [exact E'|]]. cbv zeta in *.
  assert (CS : forall i, is_core n Dr eps min_ts i -> is_core n Dr eps' min_ts' i) by (intros i; apply core_stays; auto).
  split; [|split].
  - intros i Hi. apply C2, CS, C1, Hi.
  - intros i j Hi Hj EL. apply C1 in Hi, Hj. apply S2; auto. apply (linked_stays n Dr eps eps' min_ts min_ts' He Hm). apply S1; auto.
  - intros i Hi HL. destruct (Z_le_dec min_ts' (Z.of_nat (density n Dr eps' i))) as [c|c]; [apply N2; split; auto|].
    assert (NC' : ~ is_core n Dr eps' min_ts' i) by (intros (_ & Q); contradiction). assert (NC : ~ is_core n Dr eps min_ts i) by auto.
    destruct (Z_le_dec 0 (nth i (ts_labels out') (-2)%Z)) as [k|k]; [exact k|]. exfalso.
    assert (W : ~ exists k, is_core n Dr eps min_ts k /\ near n Dr eps k i).
    { intros (q & Q1 & Q2). destruct (B2 q i Hi NC' (CS q Q1) (near_stays n Dr eps eps' He q i Q2)) as (_ & q' & Q3 & _ & Q4). specialize (N2 q' Q3). lia. }
    apply (O1 i Hi NC) in W. lia.
Qed.
Print Assumptions C222_coarser.
(** two stars around the samples 0 and 3 which share the border sample 4 *)
Definition shared : nat -> nat -> bool := edges [(0,1); (0,2); (0,4); (3,4); (3,5); (3,6); (3,7)].
(** ... but a series that is not core may leave its cluster *)
Theorem C222_border_refuted :
  ~ forall n Dr eps eps' min_ts min_ts' out out',
    (forall i j, i < n -> j < n -> (0 <= Dr i j)%R /\ Dr i j = Dr j i) -> (eps <= eps')%R -> (min_ts' <= min_ts)%Z ->
    dbscan_fit n (fun i j => XR (Dr i j)) eps min_ts = Ok out -> dbscan_fit n (fun i j => XR (Dr i j)) eps' min_ts' = Ok out' ->
    forall i j, i < n -> j < n -> (0 <= nth i (ts_labels out) (-2))%Z -> nth i (ts_labels out) (-2)%Z = nth j (ts_labels out) (-2)%Z ->
      nth i (ts_labels out') (-2)%Z = nth j (ts_labels out') (-2)%Z.
Proof.
  intros H. specialize (H 8 (of_graph shared) (1/2)%R (1/2)%R 5%Z 4%Z).
  specialize (H _ _ (fun i j Hi Hj => proj2 (of_graph_sym 8 shared (edges_sym _) i j Hi Hj)) (Rle_refl _) ltac:(lia) (of_graph_fit 8 shared 5) (of_graph_fit 8 shared 4) 3 4 ltac:(lia) ltac:(lia)).
  vm_compute in H. specialize (H ltac:(discriminate) eq_refl). discriminate.
Qed.
Print Assumptions C222_border_refuted.
(** Non-triviality of [C222_coarser]: one cluster becomes two, sample 0 was noise *)
Example C222_instance : exists out out',
  dbscan_fit 8 (fun i j => XR (of_graph shared i j)) (1/2) 5 = Ok out /\ dbscan_fit 8 (fun i j => XR (of_graph shared i j)) (1/2) 4 = Ok out' /\
  ts_labels out = [-1; -1; -1; 0; 0; 0; 0; 0]%Z /\ ts_labels out' = [0; 0; 0; 1; 0; 1; 1; 1]%Z.
Proof. do 2 eexists. split; [apply of_graph_fit|split; [apply of_graph_fit|split; vm_compute; reflexivity]]. Qed.

(** ** C223 *)
Section Ext.
Context (n : nat) (core core' : nat -> bool) (nb nb' : nat -> list nat).
Hypothesis Hc : forall i, i < n -> core' i = core i.
Hypothesis Hn : forall i, i < n -> nb' i = nb i.
Hypothesis Hl : forall i v, i < n -> In v (nb i) -> v < n.
Lemma expand_ext fuel : forall c work lab, (forall i, In i work -> i < n) -> expand fuel core' nb' c work lab = expand fuel core nb c work lab.
Proof.
  induction fuel as [|fuel IH]; intros c work lab HW; [reflexivity|]. destruct work as [|i stack]; [reflexivity|]. cbn [expand].
  assert (Hi : i < n) by (apply HW; left; reflexivity). assert (HT : forall k, In k stack -> k < n) by (intros k Hk; apply HW; right; exact Hk).
  destruct (unlabelled lab i); [|apply IH, HT]. rewrite Hc, Hn by exact Hi. apply IH. intros k Hk. destruct (core i); [|auto].
  apply in_app_or in Hk. destruct Hk as [Hk|Hk]; [|auto]. apply in_rev, filter_In in Hk. apply (Hl i); tauto.
Qed.
Lemma scan_ext fuel samples : (forall i, In i samples -> i < n) -> forall lab k, scan fuel core' nb' samples lab k = scan fuel core nb samples lab k.
Proof.
  induction samples as [|i samples IH]; intros HS lab k; [reflexivity|]. cbn [scan]. assert (Hi : i < n) by (apply HS; left; reflexivity).
  rewrite Hc by exact Hi. destruct (negb (unlabelled lab i) || negb (core i)); [apply IH; intros; apply HS; right; auto|].
  rewrite expand_ext by (intros q [<-|[]]; exact Hi). apply IH. intros; apply HS; right; auto.
Qed.
Lemma inner_ext : dbscan_inner n core' nb' = dbscan_inner n core nb.
Proof.
  unfold dbscan_inner. rewrite scan_ext by (intros i Hi; apply in_seq in Hi; lia). f_equal. unfold iterations. do 2 f_equal.
  apply map_ext_in. intros i Hi. apply in_seq in Hi. rewrite Hn by lia. reflexivity.
Qed.
End Ext.
Lemma forallb_in {A} (f g : A -> bool) l : (forall x, In x l -> f x = g x) -> forallb f l = forallb g l.
Proof. induction l as [|x l IH]; intros H; [reflexivity|]. cbn [forallb]. rewrite H by (left; reflexivity). rewrite IH; [reflexivity|]. intros; apply H; right; auto. Qed.
Lemma filter_in {A} (f g : A -> bool) l : (forall x, In x l -> f x = g x) -> filter f l = filter g l.
Proof. induction l as [|x l IH]; intros H; [reflexivity|]. cbn [filter]. rewrite H by (left; reflexivity). rewrite IH; [reflexivity|]. intros; apply H; right; auto. Qed.

(** distances and [eps] multiplied by the same factor: the same clusters, core series and label numbers *)
Theorem C223_unit n Dr D D' eps min_ts c : (0 < c)%R ->
  (forall i j, i < n -> j < n -> D i j = XR (Dr i j) /\ D' i j = XR (c * Dr i j)) ->
  dbscan_fit n D' (c * eps) min_ts = dbscan_fit n D eps min_ts.
Proof.
  intros Hc HD. unfold dbscan_fit, radius_neighbors.
  assert (EN : forall i j, i < n -> j < n -> nonneg (D' i j) = nonneg (D i j)).
  { intros i j Hi Hj. destruct (HD i j Hi Hj) as (-> & ->). unfold nonneg. destruct (Rle_dec 0 (Dr i j)), (Rle_dec 0 (c * Dr i j)); try reflexivity; exfalso; nra. }
  assert (EA : forall i j, i < n -> j < n -> at_most (c * eps) (D' i j) = at_most eps (D i j)).
  { intros i j Hi Hj. destruct (HD i j Hi Hj) as (-> & ->). unfold at_most. destruct (Rle_dec (Dr i j) eps), (Rle_dec (c * Dr i j) (c * eps)); try reflexivity; exfalso; nra. }
  replace (forallb (fun i => forallb (fun j => nonneg (D' i j)) (seq 0 n)) (seq 0 n)) with (forallb (fun i => forallb (fun j => nonneg (D i j)) (seq 0 n)) (seq 0 n)).
  2:{ apply forallb_in. intros i Hi. apply forallb_in. intros j Hj. apply in_seq in Hi, Hj. symmetry. apply EN; lia. }
  destruct (forallb _ _); [|reflexivity]. cbn [bind].
  assert (NB : forall i, i < n -> filter (fun j => at_most (c * eps) (D' i j)) (seq 0 n) = filter (fun j => at_most eps (D i j)) (seq 0 n)).
  { intros i Hi. apply filter_in. intros j Hj. apply in_seq in Hj. apply EA; lia. }
  rewrite (inner_ext n _ _ _ _ (fun i Hi => f_equal (fun l => (min_ts <=? Z.of_nat (length l))%Z) (NB i Hi)) NB); [|intros i v _ Hv; apply filter_In in Hv; destruct Hv as (Hv & _); apply in_seq in Hv; lia].
  f_equal. f_equal. apply filter_in. intros i Hi. apply in_seq in Hi. rewrite NB by lia. reflexivity.
Qed.
Print Assumptions C223_unit.
(** TimeSeriesDBSCAN with DTW: all series moved by a similarity of factor [c] (a change of unit, of origin, of the order of the features),
    [eps] multiplied by [c] *)
Theorem C223_dtw d d' c f ss eps min_ts g radius slope j :
  (forall s, In s ss -> real_series d s) -> not_itakura g slope -> g <> GcOther -> (0 <= or_default radius 1)%Z -> positive_slope slope ->
  valid_jobs j (length ss * (length ss - 1) / 2) -> 0 < d' -> (0 < c)%R -> similarity d d' c f ->
  dbscan_dtw (map (fun s => Raw2 (lift (map f s))) ss) (c * eps) min_ts g radius slope j = dbscan_dtw (map (fun s => Raw2 (lift s)) ss) eps min_ts g radius slope j.
Proof.
  intros HS Hni Hg Hr Hp Hj Hd Hc Hf.
  assert (HS' : forall s, In s (map (map f) ss) -> real_series d' s).
  { intros s H. apply in_map_iff in H. destruct H as (x & <- & Hx). apply (real_map d); auto. intros y Hy. apply (Hf y y); auto. }
  assert (MX : forall dd tt, (forall s, In s tt -> real_series dd s) -> length tt = length ss ->
     exists M, cdist_dtw (N:=Xnum) (map (fun s => Raw2 (lift s)) tt) None g radius slope j = Ok M /\
       forall i k, i < length ss -> k < length ss -> dtw (N:=Xnum) (Raw2 (lift (nth i tt []))) (Raw2 (lift (nth k tt []))) g radius slope = Ok (M i k)).
  { intros dd tt HT LT. assert (HF : forall s, In s (map lift tt) -> @finite_series Xnum xfin dd s).
    { intros s H. apply in_map_iff in H. destruct H as (x & <- & Hx). apply lift_finite. auto. }
    destruct (C10_cdist_dtw_self_pairwise Xnum xnn xfin Xlaws eq_refl dd (map lift tt) g radius slope j HF Hni Hg Hr) as (M & EM & HM); [rewrite map_length, LT; auto|].
    rewrite map_length, LT in HM. rewrite map_map in EM. exists M. split; [exact EM|]. intros i k Hi Hk. specialize (HM i k Hi Hk).
    change (@nil (list xr)) with (lift []) in HM. rewrite !(map_nth lift tt []) in HM. exact HM. }
  destruct (MX d ss HS eq_refl) as (M & EM & HM). destruct (MX d' (map (map f) ss) HS' (map_length _ _)) as (M' & EM' & HM').
  rewrite map_map in EM'. unfold dbscan_dtw.
  match goal with |- bind ?a _ = bind ?b _ => replace a with (Ok M') by (symmetry; exact EM'); replace b with (Ok M) by (symmetry; exact EM) end. cbn [bind]. rewrite !map_length.
  apply (C223_unit _ (fun i k => match M i k with XR v => v | _ => 0%R end)); [exact Hc|]. intros i k Hi Hk.
  assert (R1 : real_series d (nth i ss [])) by (apply HS, nth_In; auto). assert (R2 : real_series d (nth k ss [])) by (apply HS, nth_In; auto).
  assert (HA : exists A, constraint (length (nth i ss [])) (length (nth k ss [])) g radius slope A).
  { destruct Hni as [N1 N2]. destruct g; simpl in *; try contradiction; try congruence; try (eexists; split; [auto|reflexivity]);
      destruct N2 as [N2|N2]; try discriminate; subst slope; destruct radius; simpl in *; eexists; try split; auto. }
  destruct HA as (A & HA). destruct (C177_similarity d d' c f _ _ g radius slope A R1 R2 Hp HA Hd (Rlt_le _ _ Hc) Hf) as ((v & _ & V1 & V2) & _).
  specialize (HM i k Hi Hk). specialize (HM' i k Hi Hk). change (@nil (list R)) with (map f []) in HM'. rewrite !(map_nth (map f)) in HM'.
  assert (E1 : M i k = XR v). { apply (f_equal (fun r => match r with Ok x => x | Err _ => XNaN end)) in HM. etransitivity; [symmetry; exact HM|]. rewrite V1. reflexivity. }
  assert (E2 : M' i k = XR (c * v)). { apply (f_equal (fun r => match r with Ok x => x | Err _ => XNaN end)) in HM'. etransitivity; [symmetry; exact HM'|]. rewrite V2. reflexivity. }
  rewrite E1, E2. split; reflexivity.
Qed.
Print Assumptions C223_dtw.
(** a case of the hypotheses: three series of different lengths, values [x] replaced by [1 - 2 x] *)
Definition db_move (x : list R) : list R := map (fun v => (1 - 2 * v)%R) x.
Example C223_instance : let ss := [[[0%R]]; [[1%R]; [2%R]]; [[1%R]]] in
  (forall s, In s ss -> real_series 1 s) /\ similarity 1 1 2 db_move /\ valid_jobs (Threads [2; 0; 1]) (length ss * (length ss - 1) / 2) /\
  dbscan_dtw (map (fun s => Raw2 (lift (map db_move s))) ss) (2 * (1/2)) 2 GcSakoeChiba (Some 1%Z) (Some 2%Q) (Threads [2; 0; 1]) =
  dbscan_dtw (map (fun s => Raw2 (lift s)) ss) (1/2) 2 GcSakoeChiba (Some 1%Z) (Some 2%Q) (Threads [2; 0; 1]).
Proof.
  destruct C125_dtw_instance as (H1 & H2 & H3 & H4). cbv zeta in *.
  assert (HS : similarity 1 1 2 db_move). { intros x y Hx Hy. destruct x as [|a [|]]; try discriminate. destruct y as [|b [|]]; try discriminate. split; [reflexivity|]. unfold sqd, db_move. cbn. ring. }
  assert (HJ : valid_jobs (Threads [2; 0; 1]) 3). { cbn. apply perm_trans with [0; 2; 1]; [apply perm_swap|]. constructor. apply perm_swap. }
  split; [exact H1|split; [exact HS|split; [exact HJ|]]].
  apply (C223_dtw 1 1 2 db_move [[[0%R]]; [[1%R]; [2%R]]; [[1%R]]]); auto; try discriminate. lra.
Qed.

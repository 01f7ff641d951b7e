(** C136-C140: the silhouette score. *)
From Coq Require Import Bool List Arith Lia ZArith QArith Reals Lra Permutation.
From Verif Require Import Num NumLaws Py Series Masks DtwModel Dataset Spec SpecDtw DpProofs DtwProofs DtwThms ValidThms CdistThms
  RList PathSum SoftModel SoftThms RealSeries PropDtw PropSoft PropSoftCdist PropCdist GakModel PaaModel PreModel ClusterModel
  DbscanModel RealSeries PaaThms PropScale PropResample PropBary ClusterThms PropCluster PropShapelet2 PropDbscan SilhouetteModel.
Import ListNotations.
Local Open Scope R_scope.

(** ** specification vocabulary *)
(** number of different labels *)
Definition distinct (labels : list Z) (k : nat) : Prop := exists cs, NoDup cs /\ (forall c, In c cs <-> In c labels) /\ length cs = k.
Definition lab (labels : list Z) (i : nat) : Z := nth i labels 0%Z.
(** the series with label [c], and the other series with the label of series [i] *)
Definition group (labels : list Z) (c : Z) : list nat := filter (fun j => Z.eqb (lab labels j) c) (seq 0 (length labels)).
Definition companions (labels : list Z) (i : nat) : list nat :=
  filter (fun j => Z.eqb (lab labels j) (lab labels i) && negb (j =? i)%nat) (seq 0 (length labels)).
Definition mean_dist (Dr : nat -> nat -> R) (i : nat) (js : list nat) : R := rsum (map (Dr i) js) / INR (length js).
(** [b] is the least mean distance from series [i] to another group *)
Definition nearest_group (Dr : nat -> nat -> R) (labels : list Z) (i : nat) (b : R) : Prop :=
  (exists j, (j < length labels)%nat /\ lab labels j <> lab labels i /\ b = mean_dist Dr i (group labels (lab labels j))) /\
  (forall j, (j < length labels)%nat -> lab labels j <> lab labels i -> b <= mean_dist Dr i (group labels (lab labels j))).
(** silhouette coefficient of series [i]: (b - a) / max(a, b), 0 for a group of one series and for 0/0 *)
Definition coefficient (Dr : nat -> nat -> R) (labels : list Z) (i : nat) (s : R) : Prop :=
  (companions labels i = [] -> s = 0) /\
  (companions labels i <> [] -> exists b, nearest_group Dr labels i b /\
     let a := mean_dist Dr i (companions labels i) in
     (Rmax a b = 0 -> s = 0) /\ (Rmax a b <> 0 -> s = (b - a) / Rmax a b)).
(** mean of the coefficients *)
Definition silhouette (Dr : nat -> nat -> R) (labels : list Z) (v : R) : Prop :=
  exists s, (forall i, (i < length labels)%nat -> coefficient Dr labels i (s i)) /\
            v = rsum (map s (seq 0 (length labels))) / INR (length labels).

(** ** lemmas *)
Lemma xsum_real {A} (f : A -> R) l : xsum (map (fun a => XR (f a)) l) = XR (rsum (map f l)).
Proof.
  unfold xsum. assert (G : forall r, fold_left xadd (map (fun a => XR (f a)) l) (XR r) = XR (r + rsum (map f l))).
  { induction l as [|a l IH]; intros r; simpl; [f_equal; lra|]. rewrite IH. f_equal. lra. }
  rewrite G. f_equal. lra.
Qed.
Lemma xdiv_real a b : b <> 0 -> xdiv (XR a) (XR b) = XR (a / b).
Proof. intros H. unfold xdiv. destruct (Req_EM_T b 0); [contradiction|]. reflexivity. Qed.
Lemma xdiv_nan b : xdiv XNaN b = XNaN.
Proof. unfold xdiv. destruct b; auto. destruct (Req_EM_T r 0); auto. Qed.
Lemma count_sum {A} (P : A -> bool) l : INR (length (filter P l)) = rsum (map (fun a => if P a then 1 else 0) l).
Proof.
  induction l as [|a l IH]; simpl; auto. destruct (P a); [|rewrite IH; lra].
  change (length (a :: filter P l)) with (S (length (filter P l))). rewrite S_INR, IH. lra.
Qed.
Lemma rsum_one (f : nat -> R) n i : (i < n)%nat -> rsum (map (fun j => if (j =? i)%nat then f j else 0) (seq 0 n)) = f i.
Proof.
  intros H. rewrite (rsum_map_ext _ (fun j => (if (i =? j)%nat then 1 else 0) * f j)) by (intros j _; rewrite Nat.eqb_sym; destruct (i =? j)%nat; ring).
  assert (G : forall a n, (a <= i < a + n)%nat -> rsum (map (fun j => (if (i =? j)%nat then 1 else 0) * f j) (seq a n)) = f i).
  { clear. intros a n. revert a. induction n as [|n IH]; intros a Ha; [lia|]. cbn [seq map rsum fold_right].
    destruct (Nat.eqb_spec i a) as [->|Ne].
    - rewrite (rsum_map_ext _ (fun _ => 0)); [rewrite rsum_const; unfold rsum; ring|].
      intros j Hj. apply in_seq in Hj. destruct (Nat.eqb_spec a j); [lia|ring].
    - unfold rsum in *. rewrite IH by lia. ring. }
  apply G. lia.
Qed.
Section Value.
Variables (D : mat xr) (Dr : nat -> nat -> R) (labels : list Z).
Let n := length labels.
Hypothesis HD : forall i j, (i < n)%nat -> (j < n)%nat -> D i j = XR (Dr i j) /\ 0 <= Dr i j.
Hypothesis H0 : forall i, (i < n)%nat -> Dr i i = 0.

Lemma clust_real i c : (i < n)%nat -> clust_dist D labels i c = XR (rsum (map (Dr i) (group labels c))).
Proof.
  intros Hi. unfold clust_dist. rewrite <- xsum_real. f_equal. apply map_ext_in. intros j Hj. apply filter_In in Hj.
  destruct Hj as [Hj _]. apply in_seq in Hj. apply HD; auto. unfold n. lia.
Qed.
Lemma group_sum i (f : nat -> R) : (i < n)%nat ->
  rsum (map f (group labels (lab labels i))) = f i + rsum (map f (companions labels i)).
Proof.
  intros Hi. unfold group, companions. rewrite !rsum_filter. fold n. rewrite <- (rsum_one f n i Hi) at 1. rewrite <- rsum_map_plus.
  apply rsum_map_ext. intros j _. destruct (Nat.eqb_spec j i) as [->|Ne]; [rewrite Z.eqb_refl|]; cbn [andb negb]; [ring|].
  rewrite andb_true_r. destruct (Z.eqb (lab labels j) (lab labels i)); ring.
Qed.
Lemma group_size i : (i < n)%nat -> INR (length (group labels (lab labels i))) = 1 + INR (length (companions labels i)).
Proof.
  intros Hi. pose proof (group_sum i (fun _ => 1) Hi) as E. rewrite !rsum_const in E. lra.
Qed.
Lemma intra_nil i : (i < n)%nat -> companions labels i = [] -> intra D labels i = XNaN.
Proof.
  intros Hi E. unfold intra. rewrite clust_real by auto. pose proof (group_sum i (Dr i) Hi) as S. pose proof (group_size i Hi) as L.
  rewrite E in *. simpl in S, L. rewrite H0 in S by auto. unfold freq, members, label_at in *. unfold group, lab in *. rewrite L, S.
  unfold xdiv. destruct (Req_EM_T (1 + 0 - 1) 0); [|lra]. unfold Rltb. repeat destruct Rlt_dec; auto; lra.
Qed.
Lemma intra_real i : (i < n)%nat -> companions labels i <> [] -> intra D labels i = XR (mean_dist Dr i (companions labels i)).
Proof.
  intros Hi E. unfold intra. rewrite clust_real by auto. pose proof (group_sum i (Dr i) Hi) as S. pose proof (group_size i Hi) as L.
  rewrite H0 in S by auto. unfold freq, members, label_at in *. unfold group, lab in *. rewrite L, S.
  assert (0 < INR (length (companions labels i))). { apply lt_0_INR. destruct (companions labels i); [congruence|simpl; lia]. }
  rewrite xdiv_real by lra. unfold mean_dist. f_equal. f_equal; ring.
Qed.
Lemma group_pos c : In c labels -> 0 < INR (length (group labels c)).
Proof.
  intros H. apply lt_0_INR. destruct (In_nth _ _ 0%Z H) as (j & Hj & E). assert (K : In j (group labels c)).
  { apply filter_In. split; [apply in_seq; lia|]. unfold lab. rewrite E. apply Z.eqb_refl. }
  destruct (group labels c); [contradiction|simpl; lia].
Qed.
Lemma inter_fold i cs : (i < n)%nat -> (forall c, In c cs -> In c labels) ->
  let v := fold_right (fun c m => if Z.eqb c (label_at labels i) then m
                         else let v := xdiv (clust_dist D labels i c) (XR (INR (freq labels c))) in
                              if xisnan v then v else if xltb v m then v else m) XInf cs in
  (v = XInf /\ forall c, In c cs -> c = lab labels i) \/
  exists b, v = XR b /\ (exists c, In c cs /\ c <> lab labels i /\ b = mean_dist Dr i (group labels c)) /\
    forall c, In c cs -> c <> lab labels i -> b <= mean_dist Dr i (group labels c).
Proof.
  intros Hi. induction cs as [|c cs IH]; intros Hc; cbn [fold_right]; [left; split; [auto|contradiction]|].
  specialize (IH (fun x Hx => Hc x (or_intror Hx))). cbv zeta in IH |- *. set (m := fold_right _ XInf cs) in *.
  destruct (Z.eqb_spec c (label_at labels i)) as [->|Ne].
  - destruct IH as [[E H]|(b & E & (c' & H1 & H2 & H3) & H4)].
    + left. split; auto. intros c [<-|Hi']; auto.
    + right. exists b. split; [auto|split; [exists c'; split; [right|]; auto|]]. intros c [<-|Hi'] N; auto. contradiction.
  - rewrite clust_real by auto. assert (P : 0 < INR (length (group labels c))) by (apply group_pos, Hc; left; auto).
    assert (EV : xdiv (XR (rsum (map (Dr i) (group labels c)))) (XR (INR (freq labels c))) = XR (mean_dist Dr i (group labels c))).
    { unfold freq, members. apply xdiv_real. unfold group, lab in P. unfold label_at. lra. }
    rewrite EV. cbn [xisnan]. right. destruct IH as [[E H]|(b & E & (c' & H1 & H2 & H3) & H4)].
    + rewrite E. cbn [xltb]. exists (mean_dist Dr i (group labels c)). split; [auto|split; [exists c; split; [left; auto|auto]|]].
      intros c' [<-|Hi'] N; [lra|]. exfalso. apply N, H, Hi'.
    + rewrite E. cbn [xltb]. unfold Rltb. destruct (Rlt_dec (mean_dist Dr i (group labels c)) b) as [L|L].
      * exists (mean_dist Dr i (group labels c)). split; [auto|split; [exists c; split; [left; auto|auto]|]].
        intros c'' [<-|Hi'] N; [lra|]. specialize (H4 c'' Hi' N). lra.
      * exists b. split; [auto|split; [exists c'; split; [right; auto|auto]|]]. intros c'' [<-|Hi'] N; [lra|]. apply H4; auto.
Qed.
Hypothesis HC : (1 < length (classes labels))%nat.
Lemma inter_real i : (i < n)%nat -> exists b, inter D labels i = XR b /\ nearest_group Dr labels i b.
Proof.
  intros Hi. unfold inter. assert (HS : forall c, In c (classes labels) -> In c labels) by (intros c; apply nodup_In).
  destruct (inter_fold i (classes labels) Hi HS) as [[_ H]|(b & E & (c & H1 & H2 & H3) & H4)].
  - exfalso. pose proof (NoDup_nodup Z.eq_dec labels) as ND. fold (classes labels) in ND.
    destruct (classes labels) as [|c1 [|c2 cs]]; simpl in HC; try lia. inversion ND as [|? ? N _]; subst. apply N.
    rewrite (H c1) by (left; auto). rewrite (H c2) by (right; left; auto). left; auto.
  - exists b. split; [exact E|split].
    + apply HS in H1. destruct (In_nth _ _ 0%Z H1) as (j & Hj & Ej). exists j. unfold lab at 1 3. rewrite Ej. auto.
    + intros j Hj N. apply H4; auto. apply nodup_In, nth_In; auto.
Qed.
Lemma mean_nonneg i js : (i < n)%nat -> (forall j, In j js -> (j < n)%nat) -> 0 <= mean_dist Dr i js.
Proof.
  intros Hi Hj. unfold mean_dist. destruct js as [|j js]; [simpl; unfold Rdiv; rewrite Rmult_0_l; lra|].
  apply Rmult_le_pos; [|left; apply Rinv_0_lt_compat, lt_0_INR; simpl; lia].
  apply rsum_nonneg. intros x Hx. apply in_map_iff in Hx. destruct Hx as (k & <- & Hk). apply HD; auto.
Qed.
Lemma sample_real i : (i < n)%nat -> exists s, sil_sample D labels i = XR s /\ coefficient Dr labels i s.
Proof.
  intros Hi. destruct (inter_real i Hi) as (b & Eb & Hb). unfold sil_sample. rewrite Eb. cbv zeta.
  destruct (companions labels i) as [|j js] eqn:EC.
  - rewrite intra_nil by auto. exists 0. split; [|split; [auto|congruence]]. cbn [xsub xadd xopp xisnan]. rewrite xdiv_nan. reflexivity.
  - rewrite intra_real by (auto; congruence). rewrite EC. set (a := mean_dist Dr i (j :: js)). cbn [xisnan].
    assert (EM : pymax (N:=Xnum) (XR a) (XR b) = XR (Rmax a b)).
    { unfold pymax. simpl. unfold Rltb, Rmax. destruct Rlt_dec, Rle_dec; auto; f_equal; lra. }
    rewrite EM. change (xsub (XR b) (XR a)) with (XR (b - a)).
    assert (Ha : 0 <= a). { apply mean_nonneg; auto. intros k Hk. rewrite <- EC in Hk. apply filter_In in Hk. destruct Hk as [Hk _]. apply in_seq in Hk. unfold n. lia. }
    assert (Hb0 : 0 <= b). { destruct Hb as [(k & Hk & _ & ->) _]. apply mean_nonneg; auto. intros k' Hk'. apply filter_In in Hk'. destruct Hk' as [Hk' _]. apply in_seq in Hk'. unfold n. lia. }
    destruct (Req_EM_T (Rmax a b) 0) as [E|E].
    + exists 0. split.
      * assert (a = 0 /\ b = 0) as [Ea0 Eb0] by (pose proof (Rmax_l a b); pose proof (Rmax_r a b); lra).
        unfold xdiv. destruct (Req_EM_T (Rmax a b) 0); [|contradiction]. rewrite Ea0, Eb0. unfold Rltb. repeat destruct Rlt_dec; auto; lra.
      * split; [congruence|]. intros _. exists b. rewrite EC. fold a. split; auto. split; auto. contradiction.
    + exists ((b - a) / Rmax a b). split; [rewrite xdiv_real by auto; reflexivity|]. split; [congruence|]. intros _. exists b. rewrite EC. fold a.
      split; auto. split; auto. contradiction.
Qed.
Lemma mean_real : (0 < n)%nat -> exists v, sil_mean D labels = XR v /\ silhouette Dr labels v.
Proof.
  intros Hn. pose (s := fun i => match sil_sample D labels i with XR r => r | _ => 0 end).
  assert (HS : forall i, (i < n)%nat -> sil_sample D labels i = XR (s i) /\ coefficient Dr labels i (s i)).
  { intros i Hi. destruct (sample_real i Hi) as (x & E & H). unfold s. rewrite E. auto. }
  unfold sil_mean. fold n. rewrite (map_ext_in _ (fun i => XR (s i))) by (intros i Hi; apply in_seq in Hi; apply HS; lia).
  rewrite xsum_real. rewrite xdiv_real by (apply not_0_INR; lia). eexists. split; [reflexivity|]. exists s. split; auto. intros i Hi. apply HS; auto.
Qed.
End Value.

Lemma distinct_classes labels k : distinct labels k -> length (classes labels) = k.
Proof.
  intros (cs & ND & H & <-). apply Permutation_length, NoDup_Permutation; [apply NoDup_nodup|exact ND|].
  intros c. unfold classes. rewrite nodup_In, H. reflexivity.
Qed.
Lemma classes_distinct labels : distinct labels (length (classes labels)).
Proof. exists (classes labels). split; [apply NoDup_nodup|split; auto]. intros c. apply nodup_In. Qed.
Lemma nearest_unique Dr labels i b b' : nearest_group Dr labels i b -> nearest_group Dr labels i b' -> b = b'.
Proof.
  intros [(j & Hj & Nj & E) L] [(j' & Hj' & Nj' & E') L']. specialize (L j' Hj' Nj'). specialize (L' j Hj Nj). lra.
Qed.
Lemma coefficient_unique Dr labels i s s' : coefficient Dr labels i s -> coefficient Dr labels i s' -> s = s'.
Proof.
  intros [H1 H2] [H1' H2']. destruct (companions labels i) as [|j js] eqn:E; [rewrite H1, H1'; auto|].
  destruct H2 as (b & Hb & P1 & P2); [discriminate|]. destruct H2' as (b' & Hb' & P1' & P2'); [discriminate|].
  pose proof (nearest_unique _ _ _ _ _ Hb Hb'). subst b'. cbv zeta in *.
  destruct (Req_EM_T (Rmax (mean_dist Dr i (j :: js)) b) 0) as [Z|Z]; [rewrite P1, P1'; auto|rewrite P2, P2'; auto].
Qed.
(** the specification determines the score *)
Lemma silhouette_unique Dr labels v v' : silhouette Dr labels v -> silhouette Dr labels v' -> v = v'.
Proof.
  intros (s & Hs & ->) (s' & Hs' & ->). f_equal. apply rsum_map_ext. intros i Hi. apply in_seq in Hi.
  eapply coefficient_unique; [apply Hs|apply Hs']; lia.
Qed.
Lemma mean_dist_nonneg Dr (labels : list Z) i js : (forall a b, (a < length labels)%nat -> (b < length labels)%nat -> 0 <= Dr a b) -> (i < length labels)%nat ->
  (forall j, In j js -> (j < length labels)%nat) -> 0 <= mean_dist Dr i js.
Proof.
  intros HD Hi Hj. unfold mean_dist. destruct js as [|j js]; [simpl; unfold Rdiv; rewrite Rmult_0_l; lra|].
  apply Rmult_le_pos; [|left; apply Rinv_0_lt_compat, lt_0_INR; simpl; lia].
  apply rsum_nonneg. intros x Hx. apply in_map_iff in Hx. destruct Hx as (k & <- & Hk). apply HD; auto.
Qed.
Lemma coefficient_range Dr labels i s : (forall a b, (a < length labels)%nat -> (b < length labels)%nat -> 0 <= Dr a b) -> (i < length labels)%nat ->
  coefficient Dr labels i s -> -1 <= s <= 1.
Proof.
  intros HD Hi [H1 H2]. destruct (companions labels i) as [|j js] eqn:E; [rewrite H1 by auto; lra|].
  destruct H2 as (b & Hb & P1 & P2); [discriminate|]. cbv zeta in *. rewrite <- E in *.
  assert (Ha : 0 <= mean_dist Dr i (companions labels i)).
  { eapply mean_dist_nonneg; eauto. intros k Hk. apply filter_In in Hk. destruct Hk as [Hk _]. apply in_seq in Hk. lia. }
  assert (Hb0 : 0 <= b).
  { destruct Hb as [(k & Hk & _ & ->) _]. eapply mean_dist_nonneg; eauto. intros k' Hk'. apply filter_In in Hk'. destruct Hk' as [Hk' _]. apply in_seq in Hk'. lia. }
  set (a := mean_dist Dr i (companions labels i)) in *.
  destruct (Req_EM_T (Rmax a b) 0) as [Z|Z]; [rewrite P1; auto; lra|]. rewrite P2 by auto.
  pose proof (Rmax_l a b). pose proof (Rmax_r a b). set (m := Rmax a b) in *. assert (0 < m) by lra.
  split; [apply (Rmult_le_reg_r m)|apply (Rmult_le_reg_r m)]; auto; unfold Rdiv; rewrite Rmult_assoc, Rinv_l by lra; lra.
Qed.
Lemma silhouette_range Dr labels v : labels <> [] -> (forall a b, (a < length labels)%nat -> (b < length labels)%nat -> 0 <= Dr a b) ->
  silhouette Dr labels v -> -1 <= v <= 1.
Proof.
  intros Hne HD (s & Hs & ->). set (n := length labels) in *.
  assert (Hn : 0 < INR n) by (apply lt_0_INR; unfold n; destruct labels; [congruence|simpl; lia]).
  assert (B : forall i, In i (seq 0 n) -> -1 <= s i <= 1) by (intros i Hi; apply in_seq in Hi; apply (coefficient_range Dr labels i (s i) HD); [unfold n in Hi; lia|apply Hs; lia]).
  assert (G : forall l, (forall i, In i l -> -1 <= s i <= 1) -> - INR (length l) <= rsum (map s l) <= INR (length l)).
  { clear. intros l B. induction l as [|a l IH]; [simpl; lra|].
    specialize (IH (fun i Hi => B i (or_intror Hi))). pose proof (B a (or_introl eq_refl)). cbn [map length]. rewrite S_INR.
    change (rsum (s a :: map s l)) with (s a + rsum (map s l)). lra. }
  specialize (G _ B). rewrite seq_length in G.
  split; apply (Rmult_le_reg_r (INR n)); auto; unfold Rdiv; rewrite Rmult_assoc, Rinv_l by lra; lra.
Qed.

(** ** precomputed distances *)
(** an [n] x [n] matrix of distances: non-negative numbers with a zero diagonal *)
Definition distances (n : nat) (X : list (list xr)) (Dr : nat -> nat -> R) : Prop :=
  length X = n /\ (forall r, In r X -> length r = n) /\
  (forall i j, (i < n)%nat -> (j < n)%nat -> nth j (nth i X []) XNaN = XR (Dr i j) /\ 0 <= Dr i j) /\
  forall i, (i < n)%nat -> Dr i i = 0.
Lemma diag_tol_pos : 0 < diag_tol.
Proof. unfold diag_tol. apply Rmult_lt_0_compat; [lra|]. apply Rinv_0_lt_compat, pow_lt. lra. Qed.
Lemma sil_pre_eval n X Dr labels : (0 < n)%nat -> distances n X Dr -> length labels = n ->
  sil_precomputed X labels = if label_count_ok labels then Ok (sil_mean (entry_of X) labels) else Err ValueError.
Proof.
  intros Hn (L1 & L2 & HD & H0) HL. unfold sil_precomputed.
  assert (HdX : length (hd [] X) = n) by (destruct X; [simpl in *; lia|apply L2; left; auto]).
  assert (HE : forall r, In r X -> forall x, In x r -> exists v, x = XR v /\ 0 <= v).
  { intros r Hr x Hx. destruct (In_nth _ _ [] Hr) as (i & Hi & Ei). destruct (In_nth _ _ XNaN Hx) as (j & Hj & Ej).
    rewrite L2 in Hj by auto. rewrite L1 in Hi. destruct (HD i j Hi Hj) as [E P]. rewrite Ei, Ej in E. eauto. }
  assert (C : check_X_y X labels = true).
  { unfold check_X_y. rewrite HdX, L1, HL, Nat.eqb_refl. destruct (Nat.eqb_spec n 0); [lia|]. cbn [negb andb]. rewrite andb_true_r.
    apply forallb_forall. intros r Hr. apply forallb_forall. intros x Hx. destruct (HE r Hr x Hx) as (v & -> & _). reflexivity. }
  rewrite C, HdX, L1, Nat.min_id. cbn [negb].
  assert (G : forallb (fun i => small (entry_of X i i)) (seq 0 n) = true).
  { apply forallb_forall. intros i Hi. apply in_seq in Hi. unfold entry_of. destruct (HD i i) as [-> _]; try lia. rewrite H0 by lia. simpl.
    rewrite Rabs_R0. destruct (Rle_dec 0 diag_tol); auto. pose proof diag_tol_pos. lra. }
  rewrite G. cbn [negb]. destruct (label_count_ok labels); auto. cbn [negb]. rewrite Nat.eqb_refl. cbn [negb].
  assert (P : forallb (forallb nonneg) X = true).
  { apply forallb_forall. intros r Hr. apply forallb_forall. intros x Hx. destruct (HE r Hr x Hx) as (v & -> & Hv). simpl. destruct (Rle_dec 0 v); auto. }
  rewrite P. reflexivity.
Qed.
Lemma label_count_true labels k : distinct labels k -> label_count_ok labels = ((1 <? k) && (k <? length labels))%nat.
Proof. intros H. unfold label_count_ok. rewrite (distinct_classes _ _ H). reflexivity. Qed.

(** the score of a matrix of distances: the mean of the coefficients, in [-1, 1] *)
Theorem C136_precomputed n X Dr labels k : distances n X Dr -> length labels = n -> distinct labels k -> (2 <= k < n)%nat ->
  exists v, silhouette_precomputed X labels None = Ok (XR v) /\ silhouette Dr labels v /\ -1 <= v <= 1.
Proof.
  intros HX HL HK Hk. cbn [silhouette_precomputed]. rewrite (sil_pre_eval n X Dr) by (auto; lia). rewrite (label_count_true _ k), HL by auto.
  assert ((1 <? k) && (k <? n) = true)%nat as -> by (apply andb_true_iff; split; apply Nat.ltb_lt; lia).
  destruct HX as (L1 & L2 & HD & H0). destruct (mean_real (entry_of X) Dr labels) as (v & E & S).
  - intros i j Hi Hj. apply HD; lia.
  - intros i Hi. apply H0. lia.
  - rewrite (distinct_classes _ k) by auto. lia.
  - lia.
  - exists v. rewrite E. split; [auto|split; [exact S|]]. eapply silhouette_range; [| |exact S]; [intros ->; simpl in *; lia|]. intros a b Ha Hb. apply HD; lia.
Qed.
Print Assumptions C136_precomputed.
(** with [sample_size]: the score of the sampled series *)
Theorem C136_sample n X Dr labels idx k : distances n X Dr -> length labels = n -> (forall i, In i idx -> (i < n)%nat) ->
  distinct (map (lab labels) idx) k -> (2 <= k < length idx)%nat ->
  exists v, silhouette_precomputed X labels (Some idx) = Ok (XR v) /\
    silhouette (fun a b => Dr (nth a idx 0%nat) (nth b idx 0%nat)) (map (lab labels) idx) v /\ -1 <= v <= 1.
Proof.
  intros HX HL HI HK Hk. assert (Hn : (0 < n)%nat) by (destruct idx as [|i idx]; [simpl in Hk; lia|specialize (HI i (or_introl eq_refl)); lia]).
  pose proof HX as (L1 & L2 & HD & H0). pose proof (sil_pre_eval n X Dr labels Hn HX HL) as EV.
  assert (C : check_X_y X labels = true).
  { unfold sil_precomputed in EV. destruct (check_X_y X labels) eqn:C; auto. exfalso. cbn [negb] in EV.
    unfold check_X_y in C. assert (HdX : length (hd [] X) = n) by (destruct X; [simpl in *; lia|apply L2; left; auto]).
    rewrite HdX, L1, HL, Nat.eqb_refl in C. destruct (Nat.eqb_spec n 0); [lia|]. cbn [negb andb] in C. rewrite andb_true_r in C.
    rewrite <- not_true_iff_false in C. apply C. apply forallb_forall. intros r Hr. apply forallb_forall. intros x Hx.
    destruct (In_nth _ _ [] Hr) as (i & Hi & Ei). destruct (In_nth _ _ XNaN Hx) as (j & Hj & Ej). rewrite L2 in Hj by auto. rewrite L1 in Hi.
    destruct (HD i j Hi Hj) as [E _]. rewrite Ei, Ej in E. rewrite E. reflexivity. }
  cbn [silhouette_precomputed]. rewrite C. cbn [negb].
  assert (HdX : length (hd [] X) = n) by (destruct X; [simpl in *; lia|apply L2; left; auto]). rewrite HdX.
  assert (F : forallb (fun i => i <? n)%nat idx = true) by (apply forallb_forall; intros i Hi; apply Nat.ltb_lt; auto). rewrite F. cbn [negb].
  destruct (C136_precomputed (length idx) (map (fun i => map (fun j => entry_of X i j) idx) idx)
     (fun a b => Dr (nth a idx 0%nat) (nth b idx 0%nat)) (map (lab labels) idx) k) as (v & E & S); auto.
  - split; [apply map_length|split; [|split]].
    + intros r Hr. apply in_map_iff in Hr. destruct Hr as (i & <- & _). apply map_length.
    + intros i j Hi Hj. rewrite (nth_indep _ [] (map (fun j => entry_of X 0%nat j) idx)) by (rewrite map_length; auto).
      rewrite (map_nth (fun i => map (fun j => entry_of X i j) idx)). rewrite (nth_indep _ XNaN (entry_of X (nth i idx 0%nat) 0%nat)) by (rewrite map_length; auto).
      rewrite (map_nth (fun j => entry_of X (nth i idx 0%nat) j)). apply HD; apply HI, nth_In; auto.
    + intros i Hi. apply H0, HI, nth_In; auto.
  - apply map_length.
  - exists v. split; auto.
Qed.
Print Assumptions C136_sample.
(** number of labels: a ValueError unless there are between 2 and n - 1 different labels *)
Theorem C138_label_count n X Dr labels k : distances n X Dr -> (0 < n)%nat -> length labels = n -> distinct labels k ->
  if ((2 <=? k) && (k <? n))%nat then exists v, silhouette_precomputed X labels None = Ok (XR v)
  else silhouette_precomputed X labels None = Err ValueError.
Proof.
  intros HX Hn HL HK. destruct ((2 <=? k) && (k <? n))%nat eqn:E.
  - apply andb_true_iff in E. destruct E as [E1 E2]. apply Nat.leb_le in E1. apply Nat.ltb_lt in E2.
    destruct (C136_precomputed n X Dr labels k) as (v & Ev & _); auto. eauto.
  - cbn [silhouette_precomputed]. rewrite (sil_pre_eval n X Dr) by auto. rewrite (label_count_true _ k), HL by auto.
    change (1 <? k)%nat with (2 <=? k)%nat. rewrite E. reflexivity.
Qed.
Print Assumptions C138_label_count.
(** matrices that are not distances: a ValueError for a NaN or an infinity, for a non-zero diagonal, for a negative number *)
Theorem C138_bad_matrix n X labels i j : (i < n)%nat -> (j < n)%nat -> length X = n -> (forall r, In r X -> length r = n) ->
  (match nth j (nth i X []) XNaN with XR v => v < 0 \/ i = j /\ 100 * / 2 ^ 52 < v | _ => True end) ->
  silhouette_precomputed X labels None = Err ValueError.
Proof.
  intros Hi Hj L1 L2 H. cbn [silhouette_precomputed]. unfold sil_precomputed.
  destruct (check_X_y X labels) eqn:C; auto. cbn [negb].
  destruct (forallb (fun i => small (entry_of X i i)) (seq 0 (Nat.min (length X) (length (hd [] X))))) eqn:G; auto. cbn [negb].
  destruct (label_count_ok labels); auto. cbn [negb]. assert (HdX : length (hd [] X) = n) by (destruct X; [simpl in *; lia|apply L2; left; auto]).
  destruct (Nat.eqb (length (hd [] X)) (length X)); auto. cbn [negb].
  destruct (forallb (forallb nonneg) X) eqn:P; auto. exfalso.
  assert (IX : In (nth i X []) X) by (apply nth_In; lia). assert (IR : In (nth j (nth i X []) XNaN) (nth i X [])) by (apply nth_In; rewrite L2; auto; lia).
  rewrite forallb_forall in P. specialize (P _ IX). rewrite forallb_forall in P. specialize (P _ IR).
  destruct (nth j (nth i X []) XNaN) as [v| | |] eqn:E; simpl in P; try discriminate. destruct (Rle_dec 0 v); [|discriminate].
  destruct H as [H|[-> H]]; [lra|]. rewrite HdX, L1, Nat.min_id in G. rewrite forallb_forall in G. specialize (G j). rewrite in_seq in G. specialize (G ltac:(lia)).
  unfold entry_of in G. rewrite E in G. simpl in G. destruct (Rle_dec (Rabs v) diag_tol) as [K|]; [|discriminate]. rewrite Rabs_right in K by lra. unfold diag_tol in K. lra.
Qed.
Print Assumptions C138_bad_matrix.

(** ** metrics of series *)
Lemma table_distances n D Dr : (forall i j, (i < n)%nat -> (j < n)%nat -> D i j = XR (Dr i j) /\ 0 <= Dr i j) -> (forall i, (i < n)%nat -> Dr i i = 0) ->
  distances n (table n n D) Dr.
Proof.
  intros HD H0. unfold table. split; [rewrite map_length, seq_length; auto|split; [|split; auto]].
  - intros r Hr. apply in_map_iff in Hr. destruct Hr as (i & <- & _). rewrite map_length, seq_length. auto.
  - intros i j Hi Hj. rewrite (map_seq_nth (fun i => map (D i) (seq 0 n))) by auto. rewrite map_seq_nth by auto. auto.
Qed.
Theorem C136_dtw d ss labels g radius slope j k :
  (forall s, In s ss -> real_series d s) -> not_itakura g slope -> g <> GcOther -> (0 <= or_default radius 1)%Z -> positive_slope slope ->
  valid_jobs j (length ss * (length ss - 1) / 2) -> length labels = length ss -> distinct labels k -> (2 <= k < length ss)%nat ->
  exists Dr v, silhouette_dtw (reals ss) labels g radius slope j None = Ok (XR v) /\
    (forall i i', (i < length ss)%nat -> (i' < length ss)%nat ->
       dtw (N:=Xnum) (Raw2 (lift (nth i ss []))) (Raw2 (lift (nth i' ss []))) g radius slope = Ok (XR (Dr i i'))) /\
    silhouette Dr labels v /\ -1 <= v <= 1.
Proof.
  intros HS Hni Hg Hr Hp Hj HL HK Hk.
  assert (HF : forall s, In s (map lift ss) -> @finite_series Xnum xfin d s).
  { intros s H. apply in_map_iff in H. destruct H as (x & <- & Hx). apply lift_finite. auto. }
  destruct (C10_cdist_dtw_self_pairwise Xnum xnn xfin Xlaws eq_refl d (map lift ss) g radius slope j HF Hni Hg Hr) as (M & EM & HM); [rewrite map_length; auto|].
  rewrite map_length in HM. rewrite map_map in EM.
  assert (EN : forall i, nth i (map lift ss) [] = lift (nth i ss [])) by (intros i; apply (map_nth lift ss [])).
  assert (HA : forall i i', exists A, constraint (length (nth i ss [])) (length (nth i' ss [])) g radius slope A).
  { intros i i'. destruct Hni as [N1 N2]. destruct g; simpl in *; try contradiction; try congruence; try (eexists; split; [auto|reflexivity]);
      destruct N2 as [N2|N2]; try discriminate; subst slope; destruct radius; simpl in *; eexists; try split; auto. }
  assert (HC : forall i i', (i < length ss)%nat -> (i' < length ss)%nat -> exists v, (0 <= v)%R /\ M i i' = XR v).
  { intros i i' Hi Hi'. specialize (HM i i' Hi Hi'). rewrite !EN in HM.
    assert (R1 : real_series d (nth i ss [])) by (apply HS, nth_In; auto). assert (R2 : real_series d (nth i' ss [])) by (apply HS, nth_In; auto).
    destruct (HA i i') as (A & HA').
    destruct (dtw_value d _ _ g radius slope A _ R1 R2 Hp HA' (all_paths_enum _ _ A (real_len _ _ R1) (real_len _ _ R2))) as (p & _ & _ & E).
    exists (sqrt (cost (costs (nth i ss []) (nth i' ss [])) p)). split; [apply sqrt_pos|]. rewrite HM in E. injection E as E. exact E. }
  set (Dr := fun i k => match M i k with XR v => v | _ => 0%R end).
  assert (HD : forall i i', (i < length ss)%nat -> (i' < length ss)%nat -> M i i' = XR (Dr i i') /\ (0 <= Dr i i')%R).
  { intros i i' Hi Hi'. destruct (HC i i' Hi Hi') as (v & Hv & E). unfold Dr. rewrite E. auto. }
  assert (H0 : forall i, (i < length ss)%nat -> Dr i i = 0).
  { intros i Hi. specialize (HM i i Hi Hi). rewrite !EN in HM. destruct (HA i i) as (A & HA').
    assert (HZ : dtw (N:=Xnum) (Raw2 (lift (nth i ss []))) (Raw2 (lift (nth i ss []))) g radius slope = Ok (XR 0)).
    { refine (C03_dtw_self_zero Xnum xnn xfin Xlaws d _ g radius slope A _ Hni _).
      - apply lift_finite, HS, nth_In; auto.
      - rewrite !lift_length. exact HA'. }
    rewrite HZ in HM. unfold Dr. injection HM as HM. rewrite <- HM. reflexivity. }
  destruct (C136_precomputed (length ss) (table (length ss) (length ss) M) Dr labels k) as (v & Ev & S & B); auto.
  { apply table_distances; auto. }
  exists Dr, v. split; [|split; [|split; auto]].
  - unfold silhouette_dtw, reals. rewrite map_length. match goal with |- bind ?a _ = _ => replace a with (Ok M) by (symmetry; exact EM) end. cbn [bind]. exact Ev.
  - intros i i' Hi Hi'. specialize (HM i i' Hi Hi'). rewrite !EN in HM. etransitivity; [exact HM|]. f_equal. apply HD; auto.
Qed.
Print Assumptions C136_dtw.
(** "softdtw": the normalised soft-DTW; its values are handed to scikit-learn as distances, a negative value is a ValueError *)
Theorem C136_softdtw d ss labels gamma g radius slope A k : (0 < gamma)%R ->
  (forall s, In s ss -> real_series d s) -> not_itakura g slope -> positive_slope slope -> constraint 1 1 g radius slope A ->
  length labels = length ss -> distinct labels k -> (2 <= k < length ss)%nat ->
  exists Dr, (forall i i', (i < length ss)%nat -> (i' < length ss)%nat ->
       soft_dtw_normalized BNumpy (Raw2 (lift (nth i ss []))) (Raw2 (lift (nth i' ss []))) gamma g radius slope = Ok (XR (Dr i i'))) /\
    ((forall i i', (i < length ss)%nat -> (i' < length ss)%nat -> 0 <= Dr i i') ->
       exists v, silhouette_softdtw (reals ss) labels gamma g radius slope None = Ok (XR v) /\ silhouette Dr labels v /\ -1 <= v <= 1) /\
    (forall i i', (i < length ss)%nat -> (i' < length ss)%nat -> Dr i i' < 0 ->
       silhouette_softdtw (reals ss) labels gamma g radius slope None = Err ValueError).
Proof.
  intros Hg HS Hni Hp HA HL HK Hk.
  destruct (C75_normalized_self BNumpy d ss gamma g radius slope Sequential Sequential 1%nat 1%nat A Hg HS Hni Hp HA I) as (M & EM & HM).
  assert (HC : forall i i', (i < length ss)%nat -> (i' < length ss)%nat -> exists v, M i i' = XR v).
  { intros i i' Hi Hi'. specialize (HM i i' Hi Hi').
    destruct (constraint_any _ _ _ _ _ _ Hni HA (length (nth i ss [])) (length (nth i' ss []))) as (A12 & C12).
    destruct (constraint_any _ _ _ _ _ _ Hni HA (length (nth i ss [])) (length (nth i ss []))) as (A11 & C11).
    destruct (constraint_any _ _ _ _ _ _ Hni HA (length (nth i' ss [])) (length (nth i' ss []))) as (A22 & C22).
    destruct (normalized_public BNumpy d (nth i ss []) (nth i' ss []) gamma g radius slope A12 A11 A22 Hg) as (v & v' & v'' & _ & _ & _ & E); auto; try (apply HS, nth_In; auto).
    rewrite HM in E. injection E as E. eauto. }
  set (Dr := fun i k => match M i k with XR v => v | _ => 0%R end). exists Dr.
  assert (HD : forall i i', (i < length ss)%nat -> (i' < length ss)%nat -> M i i' = XR (Dr i i')).
  { intros i i' Hi Hi'. destruct (HC i i' Hi Hi') as (v & E). unfold Dr. rewrite E. auto. }
  assert (H0 : forall i, (i < length ss)%nat -> Dr i i = 0).
  { intros i Hi. specialize (HM i i Hi Hi). destruct (constraint_any _ _ _ _ _ _ Hni HA (length (nth i ss [])) (length (nth i ss []))) as (A11 & C11).
    rewrite (C29_normalized_self_zero BNumpy d (nth i ss []) gamma g radius slope A11) in HM; auto; [|apply HS, nth_In; auto]. injection HM as HM. unfold Dr. rewrite <- HM. reflexivity. }
  assert (EQ : silhouette_softdtw (reals ss) labels gamma g radius slope None = silhouette_precomputed (table (length ss) (length ss) M) labels None).
  { unfold silhouette_softdtw. match goal with |- bind ?a _ = _ => replace a with (Ok M) by (symmetry; exact EM) end. cbn [bind]. unfold reals. rewrite map_length. reflexivity. }
  split; [|split].
  - intros i i' Hi Hi'. etransitivity; [exact (HM i i' Hi Hi')|]. f_equal. apply HD; auto.
  - intros HN. rewrite EQ. apply (C136_precomputed (length ss) _ Dr labels k); auto. apply table_distances; auto.
  - intros i i' Hi Hi' Hneg. rewrite EQ. apply (C138_bad_matrix (length ss) _ labels i i'); auto.
    + unfold table. rewrite map_length, seq_length. auto.
    + intros r Hr. unfold table in Hr. apply in_map_iff in Hr. destruct Hr as (a & <- & _). rewrite map_length, seq_length. auto.
    + unfold table. rewrite (map_seq_nth (fun i => map (M i) (seq 0 (length ss)))) by auto. rewrite map_seq_nth by auto. rewrite HD by auto. auto.
Qed.
Print Assumptions C136_softdtw.
Lemma dataset_one_shape sz d ss : of_shape sz d ss -> to_dataset (N:=Xnum) (reals ss) = Ok (map lift ss).
Proof.
  intros H. rewrite (dataset_reals d) by (intros ts Hts; apply (H ts Hts)). f_equal. apply map_ext_in. intros ts Hts.
  assert (longest ss <= sz)%nat by (apply longest_le; intros x Hx; destruct (H x Hx); lia). unfold padding. replace (longest ss - length ts)%nat with 0%nat by (destruct (H ts Hts); lia).
  simpl. apply app_nil_r.
Qed.
Lemma sq_distance_self sz d x : sq_distance sz d x x = 0.
Proof.
  unfold sq_distance. rewrite (rsum_map_ext _ (fun _ => 0)); [rewrite rsum_const; ring|]. intros t _.
  rewrite (rsum_map_ext _ (fun _ => 0)); [rewrite rsum_const; ring|]. intros k _. ring.
Qed.
(** "euclidean", series of one length *)
Theorem C136_euclidean sz d ss labels k : of_shape sz d ss -> length labels = length ss -> distinct labels k -> (2 <= k < length ss)%nat ->
  exists v, silhouette_euclidean (reals ss) labels None = Ok (XR v) /\
    silhouette (fun i i' => sqrt (sq_distance sz d (nth i ss []) (nth i' ss []))) labels v /\ -1 <= v <= 1.
Proof.
  intros HS HL HK Hk. unfold silhouette_euclidean. rewrite (dataset_one_shape sz d) by auto. cbn [bind].
  pose (pe := {| n_clusters := 1; max_iter := 1; tol := XR 0; n_init := 1; km_met := KmEuclidean; dtw_inertia := false |}).
  pose proof (transform_euclid pe sz d ss ss eq_refl HS HS) as E. unfold transform_ in E. cbn [km_met pe] in E. rewrite E. cbn [bind].
  apply (C136_precomputed (length ss) _ _ labels k); auto. split; [apply map_length|split; [|split]].
  - intros r Hr. apply in_map_iff in Hr. destruct Hr as (x & <- & _). apply map_length.
  - intros i j Hi Hj. split; [|apply sqrt_pos].
    rewrite (nth_indep _ [] (map (fun c => XR (sqrt (sq_distance sz d [] c))) ss)) by (rewrite map_length; auto).
    rewrite (map_nth (fun x => map (fun c => XR (sqrt (sq_distance sz d x c))) ss)).
    rewrite (nth_indep _ XNaN (XR (sqrt (sq_distance sz d (nth i ss []) [])))) by (rewrite map_length; auto).
    apply (map_nth (fun c => XR (sqrt (sq_distance sz d (nth i ss []) c)))).
  - intros i _. rewrite sq_distance_self. apply sqrt_0.
Qed.
Print Assumptions C136_euclidean.

(** ** series of different lengths *)
Lemma nan_sum l : In XNaN l -> xsum l = XNaN.
Proof.
  unfold xsum. generalize (XR 0). induction l as [|x l IH]; intros a H; [contradiction|]. destruct H as [->|H]; [|apply IH; auto].
  cbn [fold_left]. replace (xadd a XNaN) with XNaN by (destruct a; auto). clear. induction l as [|x l IH]; auto.
Qed.
Lemma short_nan d sz ts : (0 < d)%nat -> (length ts < sz)%nat -> In XNaN (@List.concat xr (padding d sz ts)).
Proof.
  intros Hd H. apply in_concat. exists (repeat XNaN d). split.
  - unfold padding. apply in_or_app. right. destruct (sz - length ts)%nat eqn:E; [lia|]. left; auto.
  - destruct d; [lia|]. left; auto.
Qed.
Lemma nan_euclid a : In XNaN (@List.concat xr a) -> euclid a a = XNaN.
Proof.
  intros H. unfold euclid. rewrite nan_sum; auto. unfold sq_diffs. apply in_map_iff. exists (XNaN, XNaN). split; auto.
  change (carrier Xnum) with xr in *. destruct (In_nth _ _ XNaN H) as (i & Hi & E).
  replace (XNaN, XNaN) with (nth i (combine (@List.concat xr a) (@List.concat xr a)) (XNaN, XNaN)); [apply nth_In; rewrite combine_length, Nat.min_id; exact Hi|].
  rewrite combine_nth by auto. f_equal; exact E.
Qed.
(** "euclidean", different lengths: the padding makes distances NaN, which scikit-learn rejects *)
Theorem C136_euclidean_lengths d ss labels s s' : (forall s, In s ss -> real_series d s) -> In s ss -> In s' ss -> (length s < length s')%nat ->
  silhouette_euclidean (reals ss) labels None = Err ValueError.
Proof.
  intros HS Hs Hs' Hl. unfold silhouette_euclidean. rewrite (dataset_reals d) by auto. cbn [bind].
  assert (HM : (length s < longest ss)%nat) by (pose proof (longest_ge ss s' Hs'); lia).
  unfold cdist_euclid. destruct (forallb _ _); auto. cbn [bind]. set (X := map (padding d (longest ss)) ss).
  destruct (In_nth _ _ [] Hs) as (i & Hi & E). assert (HX : length X = length ss) by apply map_length.
  apply (C138_bad_matrix (length ss) _ labels i i); auto.
  - rewrite map_length. auto.
  - intros r Hr. apply in_map_iff in Hr. destruct Hr as (x & <- & _). rewrite map_length. auto.
  - rewrite (nth_indep _ [] (map (euclid []) X)) by (rewrite map_length; exact (eq_ind_r (fun z => (i < z)%nat) Hi HX)). rewrite (map_nth (fun x => map (euclid x) X) X []).
    rewrite (nth_indep _ XNaN (euclid (nth i X []) [])) by (rewrite map_length; exact (eq_ind_r (fun z => (i < z)%nat) Hi HX)). rewrite (map_nth (euclid (nth i X [])) X []).
    rewrite nan_euclid; auto. unfold X. rewrite (nth_indep _ [] (padding d (longest ss) [])) by (rewrite map_length; auto). rewrite map_nth, E.
    apply short_nan; auto. apply (HS s Hs).
Qed.
Print Assumptions C136_euclidean_lengths.

(** ** callable metrics *)
(** series of one length: the score of the values of the metric *)
Theorem C140_one_length_partial {A} sz d ss labels (metric : option A -> series Xnum -> series Xnum -> xr) metric_params Dr k :
  of_shape sz d ss -> length labels = length ss -> distinct labels k -> (2 <= k < length ss)%nat ->
  (forall i i', (i < length ss)%nat -> (i' < length ss)%nat ->
     metric None (lift (nth i ss [])) (lift (nth i' ss [])) = XR (Dr i i') /\ 0 <= Dr i i' /\ Dr i i' = Dr i' i) ->
  (forall i, (i < length ss)%nat -> Dr i i = 0) ->
  exists v, silhouette_callable (reals ss) labels metric metric_params None = Ok (XR v) /\ silhouette Dr labels v /\ -1 <= v <= 1.
Proof.
  intros HS HL HK Hk HD H0. unfold silhouette_callable. rewrite (dataset_one_shape sz d) by auto. cbn [bind].
  assert (Hne : ss <> []) by (intros ->; simpl in *; lia). destruct (shape_pos sz d ss Hne HS) as [Hsz Hd].
  assert (C : check_X_y (map (fun s : series Xnum => @List.concat xr s) (map lift ss)) labels = true).
  { unfold check_X_y. rewrite map_map, map_length, HL, Nat.eqb_refl, andb_true_r. apply andb_true_iff.
    assert (Hh : length (hd [] (map (fun x => @List.concat xr (lift x)) ss)) = (sz * d)%nat).
    { destruct ss as [|s ss']; [congruence|]. cbn [map hd]. exact (concat_len sz d s (HS s (or_introl eq_refl))). }
    rewrite Hh. split; [apply andb_true_iff; split; apply negb_true_iff, Nat.eqb_neq; [intros Z; apply Hne; destruct ss; [reflexivity|discriminate Z]|nia]|].
    apply forallb_forall. intros r Hr. apply in_map_iff in Hr. destruct Hr as (x & <- & Hx).
    apply forallb_forall. intros v Hv. apply in_concat in Hv. destruct Hv as (row & H1 & H2). unfold lift in H1. apply in_map_iff in H1. destruct H1 as (q & <- & _).
    apply in_map_iff in H2. destruct H2 as (y & <- & _). reflexivity. }
  rewrite C. cbn [negb]. rewrite (label_count_true _ k), HL by auto.
  assert ((1 <? k) && (k <? length ss) = true)%nat as -> by (apply andb_true_iff; split; apply Nat.ltb_lt; lia). cbn [negb].
  assert (ET : forall i, (i < length ss)%nat -> to_time_series (N:=Xnum) true (Raw2 (nth i (map lift ss) [])) = lift (nth i ss [])).
  { intros i Hi. rewrite (map_nth lift ss []). apply (strip_lift d). apply (HS (nth i ss [])). apply nth_In; auto. }
  destruct (mean_real (fun i j => metric None (to_time_series (N:=Xnum) true (Raw2 (nth (Nat.min i j) (map lift ss) [])))
      (to_time_series (N:=Xnum) true (Raw2 (nth (Nat.max i j) (map lift ss) [])))) Dr labels) as (v & E & S).
  - intros i j Hi Hj. rewrite HL in *. rewrite !ET by lia. destruct (Nat.le_ge_cases i j) as [L|L].
    + rewrite Nat.min_l, Nat.max_r by auto. destruct (HD i j Hi Hj) as (-> & P & _). auto.
    + rewrite Nat.min_r, Nat.max_l by auto. destruct (HD j i Hj Hi) as (-> & P & ->). destruct (HD i j Hi Hj) as (_ & P' & _). auto.
  - intros i Hi. apply H0. lia.
  - rewrite (distinct_classes _ k) by auto. lia.
  - lia.
  - exists v. split; [f_equal; exact E|split; [exact S|]]. eapply silhouette_range; [| |exact S]; [intros ->; simpl in *; lia|]. intros a b Ha Hb. apply HD; lia.
Qed.
Print Assumptions C140_one_length_partial.
(** series of different lengths: always a ValueError, although the metric would be called with the padding removed (l.202-208) *)
Theorem C140_lengths {A} d ss labels (metric : option A -> series Xnum -> series Xnum -> xr) metric_params kwds s s' :
  (forall s, In s ss -> real_series d s) -> In s ss -> In s' ss -> (length s < length s')%nat ->
  silhouette_callable (reals ss) labels metric metric_params kwds = Err ValueError.
Proof.
  intros HS Hs Hs' Hl. unfold silhouette_callable. rewrite (dataset_reals d) by auto. cbn [bind].
  assert (HM : (length s < longest ss)%nat) by (pose proof (longest_ge ss s' Hs'); lia).
  match goal with |- context [check_X_y ?a ?b] => destruct (check_X_y a b) eqn:C end; auto. exfalso.
  unfold check_X_y in C. apply andb_true_iff in C. destruct C as [C _]. apply andb_true_iff in C. destruct C as [_ C]. rewrite forallb_forall in C.
  specialize (C (@List.concat xr (padding d (longest ss) s))). rewrite map_map in C.
  specialize (C ltac:(apply in_map_iff; exists s; auto)). rewrite forallb_forall in C.
  specialize (C XNaN (short_nan _ _ _ ltac:(apply (HS s Hs)) HM)). discriminate.
Qed.
Print Assumptions C140_lengths.
Definition one_two : list (list (list R)) := [[[0]]; [[1]]; [[1]; [2]]].
Lemma one_two_real s : In s one_two -> real_series 1 s.
Proof. intros [<-|[<-|[<-|[]]]]; (split; [lia|split; [discriminate|intros r H; simpl in H; intuition (subst; reflexivity)]]). Qed.
Lemma two_labels : distinct [0; 0; 1]%Z 2.
Proof.
  exists [0; 1]%Z. split; [|split; auto].
  - constructor; [intros [H|[]]; discriminate|constructor; [intros []|constructor]].
  - intros c. simpl. intuition.
Qed.
(** FALSE: a callable metric can be used with series of different lengths *)
Theorem C140_refuted :
  ~ forall (A : Type) d ss labels (metric : option A -> series Xnum -> series Xnum -> xr) Dr k,
    (forall s, In s ss -> real_series d s) -> length labels = length ss -> distinct labels k -> (2 <= k < length ss)%nat ->
    (forall i i', (i < length ss)%nat -> (i' < length ss)%nat ->
       metric None (lift (nth i ss [])) (lift (nth i' ss [])) = XR (Dr i i') /\ 0 <= Dr i i' /\ Dr i i' = Dr i' i) ->
    (forall i, (i < length ss)%nat -> Dr i i = 0) ->
    exists v, silhouette_callable (reals ss) labels metric None None = Ok (XR v) /\ silhouette Dr labels v.
Proof.
  intros H. destruct (H unit 1%nat one_two [0; 0; 1]%Z (fun _ _ _ => XR 0) (fun _ _ => 0) 2%nat one_two_real eq_refl two_labels) as (v & E & _); try (simpl; lia).
  - intros i i' _ _. split; [auto|split; [lra|auto]].
  - auto.
  - rewrite (C140_lengths 1 one_two _ _ _ _ [[0]] [[1]; [2]] one_two_real) in E; [discriminate|left; auto|right; right; left; auto|simpl; lia].
Qed.
Print Assumptions C140_refuted.

(** [metric_params] and callable metrics *)
Definition three : list (list (list R)) := [[[0]]; [[0]]; [[1]]].
Lemma three_shape : of_shape 1 1 three.
Proof. intros s [<-|[<-|[<-|[]]]]; (split; [split; [lia|split; [discriminate|intros r H; simpl in H; intuition (subst; reflexivity)]]|reflexivity]). Qed.
(** a metric with a scale, 0 unless given *)
Definition first_value (s : series Xnum) : R := match hd XNaN (hd [] s) with XR r => r | _ => 0 end.
Definition scaled (scale : option R) (s s' : series Xnum) : xr := XR (match scale with Some c => c | None => 0 end * Rabs (first_value s - first_value s')).
Lemma zero_silhouette labels v : silhouette (fun _ _ => 0) labels v -> v = 0.
Proof.
  assert (Z : forall i js, mean_dist (fun _ _ => 0) i js = 0) by (intros i js; unfold mean_dist; rewrite rsum_const; unfold Rdiv; ring).
  intros (s & Hs & ->). rewrite (rsum_map_ext s (fun _ => 0)); [rewrite rsum_const; unfold Rdiv; ring|]. intros i Hi. apply in_seq in Hi.
  destruct (Hs i ltac:(lia)) as [H1 H2]. destruct (companions labels i); [auto|]. destruct H2 as (b & [(j & _ & _ & Eb) _] & P & _); [discriminate|].
  apply P. rewrite Z in *. subst b. apply Rmax_left. lra.
Qed.
Definition apart (i j : nat) : R := match i, j with 2%nat, 2%nat => 0 | 2%nat, _ => 1 | _, 2%nat => 1 | _, _ => 0 end.
Lemma apart_score : silhouette apart [0; 0; 1]%Z (2 / 3).
Proof.
  assert (N : forall i, (i < 2)%nat -> nearest_group apart [0; 0; 1]%Z i 1).
  { intros i Hi. split.
    - exists 2%nat. split; [simpl; lia|]. destruct i as [|[|i]]; [| |lia]; (split; [discriminate|]); unfold mean_dist; simpl; field.
    - intros j Hj Nj. simpl in Hj. destruct i as [|[|i]]; [| |lia]; (destruct j as [|[|[|j]]]; [| | |lia]; try (exfalso; apply Nj; reflexivity)); unfold mean_dist; simpl; lra. }
  exists (fun i => if (i <? 2)%nat then 1 else 0). split; [|simpl; field].
  intros i Hi. simpl in Hi. destruct (Nat.ltb_spec i 2) as [L|L].
  - split; [destruct i as [|[|i]]; [discriminate|discriminate|lia]|]. intros _. exists 1. split; [apply N; auto|]. cbv zeta.
    assert (E : mean_dist apart i (companions [0; 0; 1]%Z i) = 0) by (destruct i as [|[|i]]; [| |lia]; unfold mean_dist; simpl; field).
    rewrite E, Rmax_right by lra. split; intros; [lra|field].
  - replace i with 2%nat by lia. split; [auto|]. intros C. exfalso. apply C. reflexivity.
Qed.
(** FALSE: [metric_params] are handed to a callable metric *)
Theorem C139_refuted :
  ~ forall (A : Type) sz d ss labels (metric : option A -> series Xnum -> series Xnum -> xr) (params : A) Dr k,
    of_shape sz d ss -> length labels = length ss -> distinct labels k -> (2 <= k < length ss)%nat ->
    (forall i i', (i < length ss)%nat -> (i' < length ss)%nat ->
       metric (Some params) (lift (nth i ss [])) (lift (nth i' ss [])) = XR (Dr i i') /\ 0 <= Dr i i' /\ Dr i i' = Dr i' i) ->
    (forall i, (i < length ss)%nat -> Dr i i = 0) ->
    exists v, silhouette_callable (reals ss) labels metric (Some params) None = Ok (XR v) /\ silhouette Dr labels v.
Proof.
  intros H. destruct (H R 1%nat 1%nat three [0; 0; 1]%Z scaled 1 apart 2%nat three_shape eq_refl two_labels) as (v & E & S); try (simpl; lia).
  - intros i i' Hi Hi'. simpl in Hi, Hi'. destruct i as [|[|[|i]]]; try lia; (destruct i' as [|[|[|i']]]; try lia);
      (split; [unfold scaled, first_value; simpl; f_equal; unfold Rabs; destruct Rcase_abs; lra|split; simpl; lra]).
  - intros i Hi. simpl in Hi. destruct i as [|[|[|i]]]; try lia; reflexivity.
  - pose proof (silhouette_unique _ _ _ _ S apart_score). subst v.
    destruct (C140_one_length_partial 1 1 three [0; 0; 1]%Z scaled (Some 1) (fun _ _ => 0) 2%nat three_shape eq_refl two_labels) as (v & E' & S' & _); try (simpl; lia); auto.
    + intros i i' _ _. split; [unfold scaled; f_equal; ring|split; [lra|auto]].
    + apply zero_silhouette in S'. subst v. rewrite E in E'. injection E' as E'. lra.
Qed.
Print Assumptions C139_refuted.
(** keyword arguments for a callable metric: a TypeError, except where the data is rejected first *)
Theorem C139_keywords {A} sz d ss labels (metric : option A -> series Xnum -> series Xnum -> xr) metric_params (kw : A) k :
  of_shape sz d ss -> length labels = length ss -> distinct labels k -> (2 <= k < length ss)%nat ->
  silhouette_callable (reals ss) labels metric metric_params (Some kw) = Err TypeError.
Proof.
  intros HS HL HK Hk. destruct (C140_one_length_partial sz d ss labels (fun _ _ _ => XR 0) metric_params (fun _ _ => 0) k) as (v & E & _); auto.
  { intros i i' _ _. split; [auto|split; [lra|auto]]. }
  revert E. unfold silhouette_callable. rewrite (dataset_one_shape sz d) by auto. cbn [bind].
  match goal with |- context [check_X_y ?a ?b] => destruct (check_X_y a b) end; [|discriminate]. cbn [negb]. destruct (label_count_ok labels); [|discriminate]. reflexivity.
Qed.
Print Assumptions C139_keywords.

(** ** the names of the labels do not matter *)
Section Rename.
Variables (f : Z -> Z) (labels : list Z).
Hypothesis Hf : forall a b, In a labels -> In b labels -> f a = f b -> a = b.
Lemma classes_rename : classes (map f labels) = map f (classes labels).
Proof.
  unfold classes. revert Hf. induction labels as [|a l IH]; intros H; auto. cbn [map nodup].
  specialize (IH (fun x y Hx Hy => H x y (or_intror Hx) (or_intror Hy))).
  destruct (in_dec Z.eq_dec (f a) (map f l)) as [I|I]; destruct (in_dec Z.eq_dec a l) as [J|J]; auto.
  - exfalso. apply J. apply in_map_iff in I. destruct I as (b & E & Hb). rewrite (H a b); auto; [left|right]; auto.
  - exfalso. apply I, in_map; auto.
  - cbn [map]. rewrite IH. reflexivity.
Qed.
Lemma label_at_rename i : (i < length labels)%nat -> label_at (map f labels) i = f (label_at labels i).
Proof. intros H. unfold label_at. rewrite (nth_indep _ 0%Z (f 0%Z)) by (rewrite map_length; auto). apply map_nth. Qed.
Lemma eqb_rename a b : In a labels -> In b labels -> Z.eqb (f a) (f b) = Z.eqb a b.
Proof. intros Ha Hb. destruct (Z.eqb_spec a b) as [->|N]; [apply Z.eqb_refl|]. apply Z.eqb_neq. intros E. apply N, Hf; auto. Qed.
Lemma members_rename c : In c labels -> SilhouetteModel.members (map f labels) (f c) = SilhouetteModel.members labels c.
Proof.
  intros Hc. unfold SilhouetteModel.members. rewrite map_length. apply filter_ext_in. intros j Hj. apply in_seq in Hj.
  rewrite label_at_rename by lia. apply eqb_rename; auto. apply nth_In. lia.
Qed.
Lemma sample_rename D i : (i < length labels)%nat -> sil_sample D (map f labels) i = sil_sample D labels i.
Proof.
  intros Hi. assert (HI : In (label_at labels i) labels) by (apply nth_In; auto). unfold sil_sample.
  assert (E1 : intra D (map f labels) i = intra D labels i).
  { unfold intra, clust_dist, freq. rewrite label_at_rename by auto. rewrite members_rename by auto. reflexivity. }
  assert (E2 : inter D (map f labels) i = inter D labels i).
  { unfold inter. rewrite classes_rename. rewrite label_at_rename by auto.
    assert (HS : forall c, In c (classes labels) -> In c labels) by (intros c; apply nodup_In). revert HS.
    induction (classes labels) as [|c cs IH]; intros HS; auto. cbn [map fold_right]. rewrite IH by (intros; apply HS; right; auto).
    assert (Hc : In c labels) by (apply HS; left; auto). rewrite eqb_rename by auto. unfold clust_dist, freq. rewrite members_rename by auto. reflexivity. }
  rewrite E1, E2. reflexivity.
Qed.
Lemma mean_rename D : sil_mean D (map f labels) = sil_mean D labels.
Proof. unfold sil_mean. rewrite map_length. f_equal. f_equal. apply map_ext_in. intros i Hi. apply in_seq in Hi. apply sample_rename. lia. Qed.
Lemma count_rename : label_count_ok (map f labels) = label_count_ok labels.
Proof. unfold label_count_ok. rewrite classes_rename, !map_length. reflexivity. Qed.
Lemma pre_rename X : sil_precomputed X (map f labels) = sil_precomputed X labels.
Proof. unfold sil_precomputed, check_X_y. rewrite count_rename, mean_rename, map_length. reflexivity. Qed.
End Rename.
Theorem C137_relabel f labels X sample : (forall a b, In a labels -> In b labels -> f a = f b -> a = b) ->
  (forall idx, sample = Some idx -> forall i, In i idx -> (i < length labels)%nat) ->
  silhouette_precomputed X (map f labels) sample = silhouette_precomputed X labels sample.
Proof.
  intros Hf Hi. unfold silhouette_precomputed. destruct sample as [idx|]; [|apply pre_rename; auto]. unfold check_X_y. rewrite map_length.
  match goal with |- (if ?a then _ else _) = _ => destruct a end; auto. match goal with |- (if ?a then _ else _) = _ => destruct a end; auto.
  rewrite (map_ext_in _ (fun i => f (label_at labels i)) idx) by (intros i Hx; apply label_at_rename; eapply Hi; eauto).
  rewrite <- (map_map (label_at labels) f). apply pre_rename. intros a b Ha Hb. apply in_map_iff in Ha, Hb. destruct Ha as (i & <- & Ii), Hb as (j & <- & Ij).
  apply Hf; apply nth_In; eapply Hi; eauto.
Qed.
Print Assumptions C137_relabel.
(** the same for the other metrics *)
Theorem C137_relabel_metrics {A} f labels ds g radius slope j gamma (metric : option A -> series Xnum -> series Xnum -> xr) mp kw :
  (forall a b, In a labels -> In b labels -> f a = f b -> a = b) ->
  silhouette_dtw ds (map f labels) g radius slope j None = silhouette_dtw ds labels g radius slope j None /\
  silhouette_softdtw ds (map f labels) gamma g radius slope None = silhouette_softdtw ds labels gamma g radius slope None /\
  silhouette_euclidean ds (map f labels) None = silhouette_euclidean ds labels None /\
  silhouette_callable ds (map f labels) metric mp kw = silhouette_callable ds labels metric mp kw.
Proof.
  intros Hf. assert (P : forall X, silhouette_precomputed X (map f labels) None = silhouette_precomputed X labels None) by (intros X; apply C137_relabel; [auto|discriminate]).
  split; [|split; [|split]].
  - unfold silhouette_dtw. match goal with |- bind ?a _ = _ => destruct a end; cbn [bind]; auto.
  - unfold silhouette_softdtw. match goal with |- bind ?a _ = _ => destruct a end; cbn [bind]; auto.
  - unfold silhouette_euclidean. destruct (to_dataset ds) as [X|]; cbn [bind]; auto. destruct (cdist_euclid X X); cbn [bind]; auto.
  - unfold silhouette_callable. destruct (to_dataset ds) as [X|]; cbn [bind]; auto. unfold check_X_y. rewrite (map_length f labels), count_rename, mean_rename by auto. reflexivity.
Qed.
Print Assumptions C137_relabel_metrics.
Example C137_instance : forall a b, In a [0; 0; 1]%Z -> In b [0; 0; 1]%Z -> (fun z => if Z.eqb z 0 then 7 else 3)%Z a = (fun z => if Z.eqb z 0 then 7 else 3)%Z b -> a = b.
Proof. intros a b [<-|[<-|[<-|[]]]] [<-|[<-|[<-|[]]]]; simpl; auto; discriminate. Qed.

(** ** the order of the series does not matter *)
Lemma perm_filter {A} (P : A -> bool) l l' : Permutation l l' -> Permutation (filter P l) (filter P l').
Proof.
  induction 1; simpl; auto; [destruct (P x); auto| |eapply perm_trans; eauto].
  destruct (P x), (P y); auto using perm_swap.
Qed.
Lemma filter_map_eq {A B} (P : B -> bool) (h : A -> B) l : filter P (map h l) = map h (filter (fun a => P (h a)) l).
Proof. induction l as [|a l IH]; auto. simpl. destruct (P (h a)); simpl; rewrite IH; auto. Qed.
Lemma reorder_surj n p j : reordering n p -> (j < n)%nat -> exists i, (i < n)%nat /\ p i = j.
Proof.
  intros H Hj. assert (I : In j (map p (seq 0 n))) by (apply (Permutation_in _ (Permutation_sym H)), in_seq; lia).
  apply in_map_iff in I. destruct I as (i & E & Hi). apply in_seq in Hi. exists i. split; auto. lia.
Qed.
Lemma reorder_inj n p i j : reordering n p -> (i < n)%nat -> (j < n)%nat -> p i = p j -> i = j.
Proof.
  intros H Hi Hj E. assert (ND : NoDup (map p (seq 0 n))) by (apply (Permutation_NoDup (Permutation_sym H)), seq_NoDup).
  apply (proj1 (NoDup_nth (map p (seq 0 n)) (p 0%nat)) ND i j); try (rewrite map_length, seq_length; auto).
  rewrite !map_nth, !seq_nth by auto. exact E.
Qed.
Lemma silhouette_reorder n p Dr labels v : reordering n p -> length labels = n -> silhouette Dr labels v ->
  silhouette (fun i j => Dr (p i) (p j)) (map (fun i => lab labels (p i)) (seq 0 n)) v.
Proof.
  intros Hp HL (s & Hs & ->). set (labels' := map (fun i => lab labels (p i)) (seq 0 n)).
  assert (L' : length labels' = n) by (unfold labels'; rewrite map_length, seq_length; auto).
  assert (LB : forall i, (i < n)%nat -> lab labels' i = lab labels (p i)).
  { intros i Hi. unfold lab at 1, labels'. rewrite (map_seq_nth (fun i => lab labels (p i))) by auto. reflexivity. }
  assert (PG : forall Q Q', (forall j, (j < n)%nat -> Q' j = Q (p j)) -> Permutation (map p (filter Q' (seq 0 n))) (filter Q (seq 0 n))).
  { intros Q Q' E. rewrite (filter_ext_in Q' (fun j => Q (p j))) by (intros j Hj; apply in_seq in Hj; apply E; lia).
    rewrite <- filter_map_eq. apply perm_filter. exact Hp. }
  assert (MD : forall Q Q' i, (forall j, (j < n)%nat -> Q' j = Q (p j)) ->
    mean_dist (fun i j => Dr (p i) (p j)) i (filter Q' (seq 0 n)) = mean_dist Dr (p i) (filter Q (seq 0 n))).
  { intros Q Q' i E. unfold mean_dist. specialize (PG Q Q' E). rewrite <- (Permutation_length PG), map_length. f_equal.
    rewrite <- (map_map p (Dr (p i))). apply rsum_perm, Permutation_map, PG. }
  assert (MG : forall i c, mean_dist (fun i j => Dr (p i) (p j)) i (group labels' c) = mean_dist Dr (p i) (group labels c)).
  { intros i c. unfold group. rewrite HL, L'. apply MD. intros j Hj. rewrite LB by auto. reflexivity. }
  assert (MC : forall i, (i < n)%nat -> forall j, (j < n)%nat -> (Z.eqb (lab labels' j) (lab labels' i) && negb (j =? i)%nat) = (Z.eqb (lab labels (p j)) (lab labels (p i)) && negb (p j =? p i)%nat)).
  { intros i Hi j Hj. rewrite !LB by auto. f_equal. f_equal. destruct (Nat.eqb_spec j i) as [->|N]; [symmetry; apply Nat.eqb_refl|].
    symmetry. apply Nat.eqb_neq. intros E. apply N. apply (reorder_inj n p); auto. }
  exists (fun i => s (p i)). rewrite L', HL. split.
  - intros i Hi. assert (Hpi : (p i < n)%nat) by (apply (reordering_lt n p); auto). destruct (Hs (p i)) as [H1 H2]; [lia|].
    assert (EC : companions labels' i = [] <-> companions labels (p i) = []).
    { unfold companions. rewrite HL, L'. pose proof (PG (fun j => Z.eqb (lab labels j) (lab labels (p i)) && negb (j =? p i)%nat) _ (MC i Hi)) as P. split; intros E.
      - rewrite E in P. apply Permutation_nil in P. exact P.
      - rewrite E in P. apply Permutation_sym, Permutation_nil in P. apply map_eq_nil in P. exact P. }
    split; [intros E; apply H1, EC, E|]. intros E. destruct H2 as (b & [(j & Hj & Nj & Eb) Lb] & P); [intros E'; apply E, EC, E'|].
    exists b. split; [split|].
    + destruct (reorder_surj n p j Hp) as (j' & Hj' & <-); [lia|]. exists j'. rewrite L'. split; auto. rewrite !LB by auto. split; auto. rewrite MG. auto.
    + intros j' Hj' N. rewrite L' in Hj'. rewrite !LB in * by auto. rewrite MG. apply Lb; auto. rewrite HL. apply (reordering_lt n p); auto.
    + assert (EM : mean_dist (fun i j => Dr (p i) (p j)) i (companions labels' i) = mean_dist Dr (p i) (companions labels (p i))).
      { unfold companions. rewrite HL, L'. apply (MD (fun j => Z.eqb (lab labels j) (lab labels (p i)) && negb (j =? p i)%nat)). apply MC. auto. }
      cbv zeta in *. rewrite EM. exact P.
  - f_equal. rewrite <- (map_map p s). apply rsum_perm, Permutation_map, Permutation_sym, Hp.
Qed.
Theorem C141_order n p X Dr labels k : reordering n p -> distances n X Dr -> length labels = n -> distinct labels k -> (2 <= k < n)%nat ->
  silhouette_precomputed (map (fun i => map (fun j => nth (p j) (nth (p i) X []) XNaN) (seq 0 n)) (seq 0 n)) (map (fun i => nth (p i) labels 0%Z) (seq 0 n)) None =
  silhouette_precomputed X labels None.
Proof.
  intros Hp HX HL HK Hk. destruct (C136_precomputed n X Dr labels k HX HL HK Hk) as (v & E & S & _). rewrite E.
  pose proof HX as (L1 & L2 & HD & H0).
  destruct (C136_precomputed n (table n n (fun i j => nth (p j) (nth (p i) X []) XNaN)) (fun i j => Dr (p i) (p j)) (map (fun i => lab labels (p i)) (seq 0 n)) k) as (v' & E' & S' & _); auto.
  - apply table_distances; [intros i j Hi Hj; apply HD|intros i Hi; apply H0]; apply (reordering_lt n p); auto.
  - rewrite map_length, seq_length; auto.
  - destruct HK as (cs & ND & HC & EL). exists cs. split; auto. split; auto. intros c. rewrite HC. split; intros I.
    + destruct (In_nth _ _ 0%Z I) as (j & Hj & Ej). destruct (reorder_surj n p j Hp) as (i & Hi & <-); [lia|]. apply in_map_iff. exists i. split; [exact Ej|apply in_seq; lia].
    + apply in_map_iff in I. destruct I as (i & <- & Hi). apply in_seq in Hi. apply nth_In. rewrite HL. apply (reordering_lt n p); auto; lia.
  - etransitivity; [exact E'|]. do 2 f_equal. eapply silhouette_unique; [exact S'|]. apply silhouette_reorder; auto.
Qed.
Print Assumptions C141_order.

(** ** the hypotheses can be met *)
Lemma apart_distances : distances 3 (table 3 3 (fun i j => XR (apart i j))) apart.
Proof.
  apply table_distances.
  - intros i j Hi Hj. split; auto. destruct i as [|[|[|i]]]; try lia; (destruct j as [|[|[|j]]]; try lia); simpl; lra.
  - intros i Hi. destruct i as [|[|[|i]]]; try lia; reflexivity.
Qed.
Example C136_instance : silhouette_precomputed (table 3 3 (fun i j => XR (apart i j))) [0; 0; 1]%Z None = Ok (XR (2 / 3)).
Proof.
  destruct (C136_precomputed 3 _ apart [0; 0; 1]%Z 2 apart_distances eq_refl two_labels) as (v & E & S & _); [lia|].
  rewrite E. do 2 f_equal. eapply silhouette_unique; [exact S|apply apart_score].
Qed.
Example C138_instance : silhouette_precomputed (table 3 3 (fun i j => XR (apart i j))) [5; 5; 5]%Z None = Err ValueError.
Proof.
  apply (C138_label_count 3 _ apart [5; 5; 5]%Z 1 apart_distances); [lia|auto|]. exists [5]%Z. split; [constructor; [intros []|constructor]|split; auto]. intros c. simpl. intuition.
Qed.
Example C136_dtw_instance : (forall s, In s one_two -> real_series 1 s) /\ not_itakura GcSakoeChiba None /\ (0 <= or_default (Some 1) 1)%Z /\ positive_slope None.
Proof. split; [apply one_two_real|split; [split; [discriminate|left; reflexivity]|split; [simpl; lia|exact I]]]. Qed.
Example C141_instance : reordering 3 (fun i => match i with 0%nat => 2 | 1%nat => 0 | _ => 1 end)%nat.
Proof. unfold reordering. simpl. eapply perm_trans; [apply perm_swap|]. apply perm_skip, perm_swap. Qed.

(** The k-means model on series of reals, for any metric whose squared distances
    are given by a loss function. *)
From Coq Require Import Bool List Arith Lia ZArith QArith Reals Lra.
From Verif Require Import Num NumLaws Py Series Masks DtwModel RList RealSeries PaaModel PaaThms PreModel PropScale
  GakModel SoftModel Dataset BaryModel BaryThms BaryReal ClusterModel.
Import ListNotations.
Local Open Scope R_scope.

(** ** argmin *)
Lemma xltb_R a b : xltb (XR a) (XR b) = Rltb a b. Proof. reflexivity. Qed.
Lemma argmin_from_spec (f : nat -> R) : forall l i best, (best < i)%nat ->
  (forall j, (j < length l)%nat -> nth j l XNaN = XR (f (i + j)%nat)) ->
  let r := argmin_from l i best (XR (f best)) in
  (r = best \/ (i <= r < i + length l)%nat) /\ f r <= f best /\ (r <> best -> f r < f best) /\
  forall j, (j < length l)%nat -> f r <= f (i + j)%nat /\ ((i + j < r)%nat -> f r < f (i + j)%nat).
Proof.
  induction l as [|x l IH]; intros i best Hb Hl; cbn zeta.
  - simpl. split; [auto|]. split; [lra|]. split; [congruence|]. intros j Hj. inversion Hj.
  - assert (Ex : x = XR (f i)). { pose proof (Hl 0%nat ltac:(simpl; lia)) as E. simpl in E. rewrite Nat.add_0_r in E. exact E. }
    assert (Hl' : forall j, (j < length l)%nat -> nth j l XNaN = XR (f (S i + j)%nat)).
    { intros j Hj. pose proof (Hl (S j) ltac:(simpl; lia)) as E. simpl in E. rewrite E. do 2 f_equal. lia. }
    subst x. cbn [argmin_from xisnan negb andb orb]. rewrite xltb_R. destruct (Rltb (f i) (f best)) eqn:E.
    + apply Rltb_true in E. destruct (IH (S i) i ltac:(lia) Hl') as (A & B & B' & C). cbn zeta in *. set (r := argmin_from l (S i) i (XR (f i))) in *.
      split; [right; simpl; lia|]. split; [lra|]. split; [intros _; lra|]. intros j Hj. destruct j as [|j].
      * rewrite Nat.add_0_r. split; [lra|]. intros Hr. apply B'. lia.
      * simpl in Hj. replace (i + S j)%nat with (S i + j)%nat by lia. apply C. lia.
    + apply Rltb_false in E. destruct (IH (S i) best ltac:(lia) Hl') as (A & B & B' & C). cbn zeta in *. set (r := argmin_from l (S i) best (XR (f best))) in *.
      split; [destruct A; [left; auto|right; simpl; lia]|]. split; auto. split; auto. intros j Hj. destruct j as [|j].
      * rewrite Nat.add_0_r. split; [lra|]. intros Hr. assert (r <> best) by lia. specialize (B' H). lra.
      * simpl in Hj. replace (i + S j)%nat with (S i + j)%nat by lia. apply C. lia.
Qed.
Lemma argmin_spec l : l <> [] -> let r := argmin (map XR l) in
  (r < length l)%nat /\ forall j, (j < length l)%nat -> nth r l 0 <= nth j l 0 /\ ((j < r)%nat -> nth r l 0 < nth j l 0).
Proof.
  destruct l as [|x l]; [congruence|]. intros _. cbn [argmin map]. 
  pose proof (argmin_from_spec (fun j => nth j (x :: l) 0) (map XR l) 1 0 ltac:(lia)) as H. cbn zeta in *.
  cbv beta in H. change (nth 0 (x :: l) 0) with x in H. destruct H as (A & B & B' & C).
  - intros j Hj. rewrite map_length in Hj. change (nth (1 + j) (x :: l) 0) with (nth j l 0).
    rewrite (nth_indep _ XNaN (XR 0)) by (rewrite map_length; auto). apply map_nth.
  - assert (EL : length (map XR l) = length l) by apply map_length. rewrite EL in *. clear EL. set (r := argmin_from (map XR l) 1 0 (XR x)) in *. split; [simpl; lia|]. intros j Hj. destruct j as [|j].
    + split; auto. intros Hr. apply B'. lia.
    + simpl in Hj. apply (C j). lia.
Qed.
Lemma first_least_unique l a b : (a < length l)%nat -> (b < length l)%nat ->
  (forall j, (j < length l)%nat -> nth a l 0 <= nth j l 0 /\ ((j < a)%nat -> nth a l 0 < nth j l 0)) ->
  (forall j, (j < length l)%nat -> nth b l 0 <= nth j l 0 /\ ((j < b)%nat -> nth b l 0 < nth j l 0)) -> a = b.
Proof.
  intros Ha Hb A B. destruct (lt_eq_lt_dec a b) as [[H|H]|H]; auto; exfalso.
  - destruct (B a Ha) as [_ K]. specialize (K H). destruct (A b Hb). lra.
  - destruct (A b Hb) as [_ K]. specialize (K H). destruct (B a Ha). lra.
Qed.
Lemma argmin_mono (g : R -> R) l : (forall x y, In x l -> In y l -> x < y -> g x < g y) -> argmin (map XR (map g l)) = argmin (map XR l).
Proof.
  intros Hg. destruct l as [|x0 l0]; auto. set (l := x0 :: l0) in *. assert (NE : l <> []) by discriminate.
  destruct (argmin_spec l NE) as (A & B). assert (NE' : map g l <> []) by discriminate. destruct (argmin_spec (map g l) NE') as (A' & B').
  rewrite map_length in *. set (a := argmin (map XR l)) in *. set (b := argmin (map XR (map g l))) in *.
  assert (N : forall j, (j < length l)%nat -> nth j (map g l) 0 = g (nth j l 0)).
  { intros j Hj. rewrite (nth_indep _ 0 (g 0)) by (rewrite map_length; auto). apply map_nth. }
  assert (I : forall j, (j < length l)%nat -> In (nth j l 0) l) by (intros; apply nth_In; auto).
  assert (W : forall x y, In x l -> In y l -> g x < g y -> x < y).
  { intros x y Hx Hy H. destruct (Rtotal_order x y) as [K|[K|K]]; auto; exfalso; [subst; lra|]. pose proof (Hg y x Hy Hx K). lra. }
  apply (first_least_unique l); auto. intros j Hj. destruct (B' j Hj) as [P Q]. rewrite !N in P, Q by auto. split.
  - destruct (Rle_lt_dec (nth b l 0) (nth j l 0)) as [K|K]; auto. pose proof (Hg _ _ (I j Hj) (I b A') K). lra.
  - intros H. apply W; auto.
Qed.

(** ** Specification: clustering by a loss *)
Definition rser : Type := list (list R).
Section Spec.
Variable loss : rser -> rser -> R.
(** [k] is the first centre closest to [x] *)
Definition closest (cs : list rser) (x : rser) (k : nat) : Prop :=
  (k < length cs)%nat /\ forall j, (j < length cs)%nat ->
    loss x (nth k cs []) <= loss x (nth j cs []) /\ ((j < k)%nat -> loss x (nth k cs []) < loss x (nth j cs [])).
(** mean loss of the series to the centres they are assigned to *)
Definition mean_loss (xs : list rser) (cs : list rser) (labels : list nat) : R :=
  rsum (map (fun p => loss (fst p) (nth (snd p) cs [])) (combine xs labels)) / INR (length xs).
End Spec.
(** the series with label [k] *)
Definition cluster (xs : list rser) (labels : list nat) (k : nat) : list rser := map fst (filter (fun p => (snd p =? k)%nat) (combine xs labels)).

Lemma combine_self {A B} (f : A -> B) l : combine l (map f l) = map (fun x => (x, f x)) l.
Proof. induction l as [|a l IH]; simpl; auto. rewrite IH. reflexivity. Qed.
Lemma xmul_sqrt v : 0 <= v -> xmul (XR (sqrt v)) (XR (sqrt v)) = XR v.
Proof. intros H. simpl. rewrite sqrt_sqrt by auto. reflexivity. Qed.
Lemma members_map inj xs labels k : members (map inj xs) labels k = map inj (cluster xs labels k).
Proof.
  unfold members, cluster. revert labels. induction xs as [|x xs IH]; intros [|l labels]; simpl; auto.
  destruct (l =? k)%nat; simpl; rewrite IH; reflexivity.
Qed.
Lemma cluster_in xs labels k x : In x (cluster xs labels k) -> In x xs.
Proof. unfold cluster. intros H. apply in_map_iff in H. destruct H as ([y l] & <- & H). apply filter_In in H. eapply in_combine_l. apply H. Qed.
Lemma no_empty_spec labels K : no_empty_cluster labels K = true <-> forall k, (k < K)%nat -> In k labels.
Proof.
  unfold no_empty_cluster. rewrite forallb_forall. split; intros H k Hk.
  - assert (E : existsb (Nat.eqb k) labels = true) by (apply H; apply in_seq; lia). apply existsb_exists in E. destruct E as (j & Hj & E). apply Nat.eqb_eq in E. subst. auto.
  - apply in_seq in Hk. apply existsb_exists. exists k. split; [apply H; lia|apply Nat.eqb_refl].
Qed.
Lemma cluster_ne xs labels k : length labels = length xs -> In k labels -> cluster xs labels k <> [].
Proof.
  unfold cluster. revert labels. induction xs as [|x xs IH]; intros [|l labels] Hl Hi; simpl in *; try discriminate; try contradiction.
  destruct Hi as [->|Hi].
  - rewrite Nat.eqb_refl. discriminate.
  - destruct (l =? k)%nat; [discriminate|]. apply IH; auto.
Qed.
Lemma replace_nth_len {A} k (v : A) l : length (replace_nth k v l) = length l.
Proof. apply mapi_len. Qed.
Lemma replace_nth_nth {A} k (v : A) l j z : (j < length l)%nat -> nth j (replace_nth k v l) z = if (j =? k)%nat then v else nth j l z.
Proof. intros H. unfold replace_nth. rewrite (mapi_nth _ l j z z) by auto. reflexivity. Qed.
Lemma replace_nth_map {A B} (f : A -> B) k v l : replace_nth k (f v) (map f l) = map f (replace_nth k v l).
Proof.
  unfold replace_nth, mapi. rewrite map_length, map_map. generalize (seq 0 (length l)) as q.
  induction l as [|a l IH]; intros [|i q]; simpl; auto. f_equal; [destruct (i =? k)%nat; reflexivity|]. apply IH.
Qed.
Lemma in_replace_nth {A} k (v : A) l x : In x (replace_nth k v l) -> x = v \/ In x l.
Proof.
  unfold replace_nth, mapi. intros H. apply in_map_iff in H. destruct H as ([i y] & E & H). simpl in E. apply in_combine_r in H.
  destruct (i =? k)%nat; subst; auto.
Qed.

Lemma lloyd_step p X it more old s : lloyd p X it (S more) old s =
  match assign_ p X s with
  | (s1, Ok _) => match update_centroids_ p X (seq 0 (n_clusters p)) s1 with
                  | (s2, Ok _) => if xltb (xabs (xsub old (inertia_ s2))) (tol p) then (set_iter (S it) s2, Ok tt) else lloyd p X (S it) more (inertia_ s2) s2
                  | (s2, Err e) => (s2, Err e) end
  | (s1, Err e) => (s1, Err e) end.
Proof. reflexivity. Qed.

Section Lloyd.
Variables (p : km_params) (inj : rser -> series Xnum) (xs : list rser) (good : rser -> Prop) (loss : rser -> rser -> R)
  (renews : list rser -> rser -> rser -> Prop).
Hypothesis Hxs : xs <> [].
Hypothesis Hin : dtw_inertia p && negb (is_dtw (km_met p)) = false.
Hypothesis Hpos : forall x c, In x xs -> good c -> 0 <= loss x c.
Hypothesis HT : forall cs, cs <> [] -> (forall c, In c cs -> good c) ->
  transform_ p (map lift cs) (map inj xs) = Ok (map (fun x => map (fun c => XR (sqrt (loss x c))) cs) xs).
Hypothesis HU : forall labels k c, length labels = length xs -> cluster xs labels k <> [] -> good c ->
  exists c', new_center p (map inj xs) labels k (lift c) = Ok (lift c') /\ good c' /\ renews (cluster xs labels k) c c' /\
    rsum (map (fun x => loss x c') (cluster xs labels k)) <= rsum (map (fun x => loss x c) (cluster xs labels k)).
Let X := map inj xs.
Let K := n_clusters p.
Definition valid (cs : list rser) : Prop := length cs = K /\ cs <> [] /\ forall c, In c cs -> good c.
Definition nearest (cs : list rser) (x : rser) : nat := argmin (map XR (map (loss x) cs)).
Definition nearests (cs : list rser) : list nat := map (nearest cs) xs.

Lemma n_pos : 0 < INR (length xs).
Proof. apply lt_0_INR. destruct xs; [congruence|simpl; lia]. Qed.
Lemma nearest_spec cs x : cs <> [] -> closest loss cs x (nearest cs x).
Proof.
  clear -p. intros NE. unfold nearest, closest. assert (NE' : map (loss x) cs <> []) by (destruct cs; [congruence|discriminate]).
  destruct (argmin_spec _ NE') as (A & B). rewrite map_length in *. split; auto. intros j Hj. specialize (B j Hj).
  assert (N : forall j, (j < length cs)%nat -> nth j (map (loss x) cs) 0 = loss x (nth j cs [])).
  { intros i Hi. rewrite (nth_indep _ 0 (loss x [])) by (rewrite map_length; auto). apply map_nth. }
  rewrite !N in B by auto. exact B.
Qed.
Lemma nearest_sqrt cs x : In x xs -> (forall c, In c cs -> good c) -> argmin (map (fun c => XR (sqrt (loss x c))) cs) = nearest cs x.
Proof.
  intros Hx Hg. unfold nearest. rewrite <- (argmin_mono sqrt).
  - rewrite !map_map. reflexivity.
  - intros a b Ha Hb H. apply in_map_iff in Ha, Hb. destruct Ha as (c & <- & Hc). destruct Hb as (c' & <- & Hc'). apply sqrt_lt_1; auto.
Qed.
Lemma assign_run cs s : valid cs -> cluster_centers_ s = Some (map lift cs) ->
  let labels := nearests cs in
  assign_ p X s =
    if no_empty_cluster labels K then (set_inertia (XR (mean_loss loss xs cs labels)) (set_labels labels s), Ok labels)
    else (set_labels labels s, Err EmptyClusterError).
Proof.
  intros (Hl & NE & Hg) Hc. cbn zeta. unfold assign_. rewrite Hc. unfold X. rewrite (HT cs NE Hg). rewrite map_map.
  assert (EL : map (fun x => argmin (map (fun c => XR (sqrt (loss x c))) cs)) xs = nearests cs).
  { apply map_ext_in. intros x Hx. apply nearest_sqrt; auto. }
  rewrite EL. fold K. destruct (no_empty_cluster (nearests cs) K); [|reflexivity]. rewrite Hin. do 2 f_equal.
  unfold compute_inertia. rewrite map_length. unfold nearests at 1. rewrite combine_map_same, map_map. cbn [fst snd].
  rewrite (map_ext_in _ (fun x => XR (loss x (nth (nearest cs x) cs [])))).
  - rewrite <- (map_map (fun x => loss x (nth (nearest cs x) cs [])) XR), xsum_reals, xdiv_real by (pose proof n_pos; lra).
    unfold mean_loss, nearests. rewrite combine_self, map_map. reflexivity.
  - intros x Hx. destruct (nearest_spec cs x NE) as (A & _). set (k := nearest cs x) in *.
    assert (E : nth k (map (fun c => XR (sqrt (loss x c))) cs) XNaN = XR (sqrt (loss x (nth k cs [])))).
    { rewrite (nth_indep _ XNaN (XR (sqrt (loss x [])))) by (rewrite map_length; auto). apply (map_nth (fun c => XR (sqrt (loss x c)))). }
    cbn zeta. rewrite E. apply xmul_sqrt. apply Hpos; auto. apply Hg. apply nth_In. auto.
Qed.

(** replacing one centre *)
Lemma replace_loss cs labels k c' : (k < length cs)%nat -> (forall l, In l labels -> (l < length cs)%nat) ->
  rsum (map (fun x => loss x c') (cluster xs labels k)) <= rsum (map (fun x => loss x (nth k cs [])) (cluster xs labels k)) ->
  rsum (map (fun q => loss (fst q) (nth (snd q) (replace_nth k c' cs) [])) (combine xs labels)) <=
  rsum (map (fun q => loss (fst q) (nth (snd q) cs [])) (combine xs labels)).
Proof.
  clear. unfold cluster. intros Hk Hl. revert labels Hl.
  assert (G : forall l : list (rser * nat), (forall q, In q l -> (snd q < length cs)%nat) ->
    rsum (map (fun q => loss (fst q) (nth (snd q) (replace_nth k c' cs) [])) l) - rsum (map (fun q => loss (fst q) (nth (snd q) cs [])) l) =
    rsum (map (fun x => loss x c') (map fst (filter (fun q => (snd q =? k)%nat) l))) -
    rsum (map (fun x => loss x (nth k cs [])) (map fst (filter (fun q => (snd q =? k)%nat) l)))).
  { unfold rser in *. induction l as [|[x j] l IH]; intros H; simpl; [lra|]. specialize (IH ltac:(intros; apply H; simpl; auto)).
    pose proof (H (x, j) ltac:(simpl; auto)) as Hj. simpl in Hj. rewrite replace_nth_nth by auto.
    destruct (j =? k)%nat eqn:E; simpl; [apply Nat.eqb_eq in E; subst j|]; lra. }
  intros labels Hl H. specialize (G (combine xs labels)). assert (P : forall q, In q (combine xs labels) -> (snd q < length cs)%nat).
  { intros [x j] Hq. apply in_combine_r in Hq. simpl. auto. }
  specialize (G P). lra.
Qed.
Lemma update_run labels : length labels = length xs -> (forall k, (k < K)%nat -> In k labels) -> (forall l, In l labels -> (l < K)%nat) ->
  forall ks cs s, NoDup ks -> (forall k, In k ks -> (k < K)%nat) -> valid cs -> cluster_centers_ s = Some (map lift cs) -> labels_ s = Some labels ->
  exists cs', update_centroids_ p X ks s = (set_centers (map lift cs') s, Ok tt) /\ valid cs' /\
    mean_loss loss xs cs' labels <= mean_loss loss xs cs labels /\
    (forall k, In k ks -> renews (cluster xs labels k) (nth k cs []) (nth k cs' [])) /\
    (forall k, (k < K)%nat -> ~ In k ks -> nth k cs' [] = nth k cs []).
Proof.
  intros Hl Hfull Hlt. induction ks as [|k ks IH]; intros cs s ND Hks Hv Hc Hlab.
  - exists cs. simpl. split; [|split; [auto|split; [lra|split; [contradiction|auto]]]].
    f_equal. destruct s; simpl in *. rewrite Hc. reflexivity.
  - cbn [update_centroids_]. rewrite Hc, Hlab. assert (Hk : (k < K)%nat) by (apply Hks; left; auto). destruct Hv as (Lc & NE & Hg).
    assert (E : nth k (map lift cs) [] = lift (nth k cs [])) by (exact (map_nth lift cs [] k)). rewrite E.
    assert (Gk : good (nth k cs [])) by (apply Hg; apply nth_In; lia).
    destruct (HU labels k (nth k cs []) Hl (cluster_ne xs labels k Hl (Hfull k Hk)) Gk) as (c' & E' & G' & R' & L').
    unfold X. rewrite E'. fold X. assert (ER : replace_nth k (lift c') (map lift cs) = map lift (replace_nth k c' cs)) by apply replace_nth_map.
    set (cs1 := replace_nth k c' cs) in *.
    assert (L1 : length cs1 = K) by (unfold cs1; rewrite replace_nth_len; auto).
    assert (V1 : valid cs1).
    { split; auto. split; [intros Z; rewrite Z in L1; simpl in L1; lia|]. intros c Hc'. apply in_replace_nth in Hc'. destruct Hc'; subst; auto. }
    inversion ND as [|? ? ND1 ND2]; subst.
    destruct (IH cs1 (set_centers (replace_nth k (lift c') (map lift cs)) s) ND2 ltac:(intros; apply Hks; simpl; auto) V1) as (cs2 & E2 & V2 & D2 & R2 & S2).
    { simpl. f_equal. exact ER. }
    { exact Hlab. }
    exists cs2. split; [rewrite E2; destruct s; reflexivity|]. split; auto. split; [|split].
    + eapply Rle_trans; [exact D2|]. unfold mean_loss. apply Rmult_le_compat_r; [left; apply Rinv_0_lt_compat; apply n_pos|].
      apply replace_loss; [unfold rser in *; rewrite Lc; exact Hk|intros l Hi; unfold rser in *; rewrite Lc; auto|exact L'].
    + intros j [<-|Hj].
      * rewrite (S2 k Hk ND1). unfold cs1. rewrite replace_nth_nth, Nat.eqb_refl by (unfold rser in *; lia). exact R'.
      * specialize (R2 j Hj). unfold cs1 in R2. rewrite replace_nth_nth in R2 by (rewrite Lc; apply Hks; simpl; auto).
        destruct (j =? k)%nat eqn:Ejk; [apply Nat.eqb_eq in Ejk; subst; contradiction|exact R2].
    + intros j Hj Nj. rewrite S2 by (auto; simpl in Nj; tauto). unfold cs1. rewrite replace_nth_nth by (unfold rser in *; lia).
      destruct (j =? k)%nat eqn:Ejk; auto. apply Nat.eqb_eq in Ejk. subst. simpl in Nj. tauto.
Qed.

Lemma nearests_len cs : length (nearests cs) = length xs. Proof. apply map_length. Qed.
Lemma nearests_lt cs : valid cs -> forall l, In l (nearests cs) -> (l < K)%nat.
Proof.
  intros (Lc & NE & _) l Hl. apply in_map_iff in Hl. destruct Hl as (x & <- & _). destruct (nearest_spec cs x NE) as (A & _). lia.
Qed.
Lemma nearests_least cs labels : valid cs -> length labels = length xs -> (forall l, In l labels -> (l < K)%nat) ->
  mean_loss loss xs cs (nearests cs) <= mean_loss loss xs cs labels.
Proof.
  intros (Lc & NE & _) Hl Hlt. unfold mean_loss. apply Rmult_le_compat_r; [left; apply Rinv_0_lt_compat; apply n_pos|].
  unfold nearests. clear -Hl Hlt NE Lc. revert labels Hl Hlt. induction xs as [|x l IH]; intros [|j labels] Hl Hlt; simpl in *; try discriminate; try lra.
  apply Rplus_le_compat; [|apply IH; auto].
  destruct (nearest_spec cs x NE) as (_ & B). apply B. rewrite Lc. auto.
Qed.

(** what one iteration from the centres [cs] leaves behind *)
Definition settled_from (cs : list rser) (s : km_state) (v : R) : Prop :=
  exists cs', valid cs /\ valid cs' /\ cluster_centers_ s = Some (map lift cs') /\
    labels_ s = Some (nearests cs) /\ (forall k, (k < K)%nat -> In k (nearests cs)) /\
    inertia_ s = XR v /\ v = mean_loss loss xs cs (nearests cs) /\
    (forall k, (k < K)%nat -> renews (cluster xs (nearests cs) k) (nth k cs []) (nth k cs' [])) /\
    mean_loss loss xs cs' (nearests cs) <= v.
Definition settled (s : km_state) (v : R) : Prop := exists cs, settled_from cs s v.
Lemma iteration cs s : valid cs -> cluster_centers_ s = Some (map lift cs) ->
  (no_empty_cluster (nearests cs) K = false /\ assign_ p X s = (set_labels (nearests cs) s, Err EmptyClusterError)) \/
  exists s1 s2, assign_ p X s = (s1, Ok (nearests cs)) /\ update_centroids_ p X (seq 0 (n_clusters p)) s1 = (s2, Ok tt) /\
    settled_from cs s2 (mean_loss loss xs cs (nearests cs)).
Proof.
  intros Hv Hc. pose proof (assign_run cs s Hv Hc) as EA. cbn zeta in EA. destruct (no_empty_cluster (nearests cs) K) eqn:En; [right|left; auto].
  pose proof (proj1 (no_empty_spec _ _) En) as Hfull.
  set (s1 := set_inertia (XR (mean_loss loss xs cs (nearests cs))) (set_labels (nearests cs) s)) in *.
  destruct (update_run (nearests cs) (nearests_len cs) Hfull (nearests_lt cs Hv) (seq 0 K) cs s1 (seq_NoDup _ _)) as (cs' & EU & V' & D' & R' & _).
  - intros k Hk. apply in_seq in Hk. lia.
  - exact Hv.
  - exact Hc.
  - reflexivity.
  - exists s1, (set_centers (map lift cs') s1). split; [exact EA|]. split; [exact EU|]. exists cs'.
    split; [auto|split; [auto|split; [reflexivity|split; [reflexivity|split; [auto|split; [reflexivity|split; [reflexivity|split; [|auto]]]]]]]].
    intros k Hk. apply R'. apply in_seq. lia.
Qed.
Lemma settled_iter cs s v n : settled_from cs s v -> settled_from cs (set_iter n s) v.
Proof. intros H. exact H. Qed.

(** the loop either raises EmptyClusterError or settles, at no more than the loss of
    the centres it starts from *)
Lemma lloyd_run more : forall it old s cs, valid cs -> cluster_centers_ s = Some (map lift cs) ->
  let r := lloyd p X it (S more) old s in
  (exists cs', valid cs' /\ cluster_centers_ (fst r) = Some (map lift cs')) /\
  (snd r = Err EmptyClusterError \/ snd r = Ok tt /\ exists v, settled (fst r) v /\ v <= mean_loss loss xs cs (nearests cs)).
Proof.
  induction more as [|more IH]; intros it old s cs Hv Hc; cbn zeta; rewrite lloyd_step;
  (destruct (iteration cs s Hv Hc) as [[_ EA]|(s1 & s2 & EA & EU & SE)]; rewrite EA; [simpl; split; [exists cs; auto|left; auto]|]; rewrite EU).
  - destruct (xltb _ _); [|cbn [lloyd]]; (split; [destruct SE as (c2 & _ & V2 & C2 & _); exists c2; split; auto|]; right; split; [reflexivity|];
      eexists; split; [exists cs; apply settled_iter; exact SE|lra]).
  - destruct (xltb _ _).
    + split; [destruct SE as (c2 & _ & V2 & C2 & _); exists c2; split; auto|]. right. split; [reflexivity|]. eexists. split; [exists cs; apply settled_iter; exact SE|lra].
    + destruct SE as (cs' & V1 & V2 & C2 & L2 & F2 & I2 & Ev & R2 & D2).
      destruct (IH (S it) (inertia_ s2) s2 cs' V2 C2) as (A & B). split; auto. destruct B as [B|(B & v & SV & LV)]; auto. right. split; auto. exists v. split; auto.
      eapply Rle_trans; [exact LV|]. eapply Rle_trans; [|exact D2].
      apply nearests_least; auto; [apply nearests_len|apply nearests_lt; auto].
Qed.
(** more iterations never settle at a larger inertia *)
Lemma lloyd_mono m : forall j it old s cs, valid cs -> cluster_centers_ s = Some (map lift cs) ->
  forall s1 s2, lloyd p X it (S m) old s = (s1, Ok tt) -> lloyd p X it (S (m + j)) old s = (s2, Ok tt) ->
  exists v1 v2, inertia_ s1 = XR v1 /\ inertia_ s2 = XR v2 /\ v2 <= v1.
Proof.
  induction m as [|m IH]; intros j it old s cs Hv Hc s1 s2 E1 E2; rewrite lloyd_step in E1, E2;
  (destruct (iteration cs s Hv Hc) as [[_ EA]|(t1 & t2 & EA & EU & SE)]; rewrite EA in E1, E2; [discriminate|]; rewrite EU in E1, E2).
  - destruct SE as (cs' & V1 & V2 & C2 & L2 & F2 & I2 & Ev & R2 & D2). set (v := mean_loss loss xs cs (nearests cs)) in *.
    assert (J1 : inertia_ s1 = XR v).
    { destruct (xltb _ _); [|cbn [lloyd] in E1]; injection E1 as <-; exact I2. }
    destruct (xltb _ _).
    + exists v, v. split; auto. split; [|lra]. injection E2 as <-. exact I2.
    + destruct j as [|j]; [cbn [lloyd] in E2; injection E2 as <-; exists v, v; split; auto; split; [exact I2|lra]|].
      destruct (lloyd_run j (S it) (inertia_ t2) t2 cs' V2 C2) as (_ & B). cbn zeta in B. change (0 + S j)%nat with (S j) in E2. rewrite E2 in B.
      destruct B as [B|(_ & v2 & SV & LV)]; [discriminate|]. exists v, v2. split; auto. destruct SV as (c0 & c1 & _ & _ & _ & _ & _ & I3 & _).
      split; [exact I3|]. eapply Rle_trans; [exact LV|]. eapply Rle_trans; [|exact D2].
      apply nearests_least; auto; [apply nearests_len|apply nearests_lt; auto].
  - destruct (xltb _ _).
    + injection E1 as <-. injection E2 as <-. destruct SE as (cs' & V1 & V2 & C2 & L2 & F2 & I2 & _).
      eexists _, _. split; [exact I2|]. split; [exact I2|]. lra.
    + destruct SE as (cs' & V1 & V2 & C2 & _). eapply (IH j (S it) _ t2 cs'); eauto.
Qed.

(** ** fit *)
Variables (X0 : array3) (i : km_init).
Hypothesis HX : fit_input p i X0 = Ok X0.
Hypothesis HV : variable_length X0 = Ok X.
Hypothesis HG : check_initial_guess p i = Ok tt.
Hypothesis Hit : max_iter p <> 0%nat.
Hypothesis Hinit : forall n, exists C cs, draws i n = Ok C /\ check_full_length C = Ok (map lift cs) /\ valid cs.

Lemma one_init_run n s : exists s', (fit_one_init p X (draws i n) s = (s', Err EmptyClusterError)) \/
  (fit_one_init p X (draws i n) s = (s', Ok tt) /\ exists v, settled s' v).
Proof.
  destruct (Hinit n) as (C & cs & ED & EC & Hv). unfold fit_one_init. rewrite ED, EC.
  destruct (max_iter p =? 0)%nat eqn:E0; [apply Nat.eqb_eq in E0; congruence|]. apply Nat.eqb_neq in E0.
  destruct (max_iter p) as [|m]; [congruence|].
  destruct (lloyd_run m 0 XInf (set_centers (map lift cs) (set_centers C s)) cs Hv eq_refl) as (_ & B). cbn zeta in B.
  destruct (lloyd p X 0 (S m) XInf _) as [s' r]. simpl in B. exists s'. destruct B as [->|(-> & v & SV & _)]; [left; auto|right; split; auto; exists v; auto].
Qed.
Definition best_of (best : option array3) (mi : xr) : Prop :=
  (best = None /\ mi = XInf) \/ exists s v, settled s v /\ best = cluster_centers_ s /\ mi = XR v.
Lemma attempts_run remaining : forall n ns best mi s, best_of best mi ->
  exists s' best' mi', attempts p X (draws i) n remaining ns best mi s = (s', Ok (best', mi')) /\ best_of best' mi'.
Proof.
  induction remaining as [|r IH]; intros n ns best mi s HB; cbn [attempts].
  - exists s, best, mi. auto.
  - destruct (n_init p <=? ns)%nat; [exists s, best, mi; auto|].
    destruct (one_init_run n s) as (s' & [E|(E & v & SV)]); rewrite E; [apply IH; auto|].
    destruct (xltb _ _); [|apply IH; auto]. apply IH. right. exists s', v. split; auto. split; auto.
    destruct SV as (c0 & c1 & _ & _ & _ & _ & _ & I & _). exact I.
Qed.
(** the outcome of [fit] *)
Definition clustering (s : km_state) : Prop :=
  exists cs cs' v, valid cs /\ valid cs' /\
    cluster_centers_ s = Some (map lift cs') /\ labels_ s = Some (nearests cs') /\ (forall k, (k < K)%nat -> In k (nearests cs')) /\
    inertia_ s = XR v /\ v = mean_loss loss xs cs (nearests cs) /\
    (forall k, (k < K)%nat -> cluster xs (nearests cs) k <> [] /\ renews (cluster xs (nearests cs) k) (nth k cs []) (nth k cs' [])) /\
    mean_loss loss xs cs' (nearests cs') <= v.
Lemma settled_final cs s v cs' : settled_from cs s v -> cluster_centers_ s = Some (map lift cs') -> 
  (forall a b, lift a = lift b -> a = b) -> valid cs' /\ mean_loss loss xs cs' (nearests cs') <= v /\
  (forall k, (k < K)%nat -> cluster xs (nearests cs) k <> [] /\ renews (cluster xs (nearests cs) k) (nth k cs []) (nth k cs' [])).
Proof.
  intros (c1 & V1 & V2 & C2 & L2 & F2 & I2 & Ev & R2 & D2) HC HI. rewrite C2 in HC. injection HC as HC.
  assert (c1 = cs') as <-.
  { clear -HC HI. revert cs' HC. induction c1 as [|a l IH]; intros [|b l'] H; simpl in H; try discriminate; auto. injection H as H1 H2. f_equal; auto. }
  split; auto. split.
  - eapply Rle_trans; [|exact D2]. apply nearests_least; auto; [apply nearests_len|apply nearests_lt; auto].
  - intros k Hk. split; auto. apply cluster_ne; [apply nearests_len|auto].
Qed.
Lemma lift_inj a b : lift a = lift b -> a = b.
Proof.
  assert (M : forall l l', map XR l = map XR l' -> l = l').
  { induction l as [|x l IH]; intros [|y l'] H; simpl in H; try discriminate; auto. injection H as -> H. f_equal; auto. }
  revert b. induction a as [|x a IH]; intros [|y b] H; simpl in H; try discriminate; auto. injection H as H1 H2. f_equal; auto.
Qed.
Lemma fit_run s : let r := fit p i X0 s in
  (snd r = Ok tt /\ X_fit_ (fst r) = None) \/
  (snd r = Ok tt /\ X_fit_ (fst r) = Some X /\ clustering (fst r)) \/
  (snd r = Err EmptyClusterError /\ exists cs', valid cs' /\ cluster_centers_ (fst r) = Some (map lift cs') /\ labels_ (fst r) = Some (nearests cs') /\
     no_empty_cluster (nearests cs') K = false).
Proof.
  cbn zeta. unfold fit. rewrite HX, HV, HG. unfold seqm.
  destruct (attempts_run (Nat.max (n_init p) 10) 0 0 None XInf (reset s)) as (s1 & best & mi & E & HB); [left; auto|]. rewrite E. cbn [fst snd].
  destruct HB as [(-> & ->)|(s2 & v & (cs & SV) & -> & ->)].
  - left. unfold post_fit. cbn [xisfinite]. split; reflexivity.
  - pose proof SV as (cs' & V1 & V2 & C2 & L2 & F2 & I2 & Ev & R2 & D2).
    destruct (settled_final cs s2 v cs' SV C2 lift_inj) as (_ & Lv & Rk).
    unfold post_fit. cbn [xisfinite]. rewrite C2. pose proof (assign_run cs' (set_centers (map lift cs') s1) V2 eq_refl) as EA. cbn zeta in EA. rewrite EA.
    destruct (no_empty_cluster (nearests cs') K) eqn:En.
    + right. left. cbn [fst snd]. split; [reflexivity|]. split; [reflexivity|]. exists cs, cs', v.
      pose proof (proj1 (no_empty_spec _ _) En) as Hfull. repeat split; auto; try apply V1; try apply V2; try (apply Rk; auto; fail).
    + right. right. cbn [fst snd]. split; [reflexivity|]. exists cs'. auto.
Qed.
Lemma attempts_S q Y draw n r ns b m s : attempts q Y draw n (S r) ns b m s =
    if n_init q <=? ns then (s, Ok (b, m))
    else
      match fit_one_init q Y (draw n) s with
      | (s, Ok _) =>
        if xltb (inertia_ s) m
        then attempts q Y draw (S n) r (S ns) (cluster_centers_ s) (inertia_ s) (set_n_iter (iter_ s) s)
        else attempts q Y draw (S n) r (S ns) b m s
      | (s, Err EmptyClusterError) => attempts q Y draw (S n) r ns b m s
      | (s, Err e) => (s, Err e)
      end.
Proof. reflexivity. Qed.
Lemma attempts_done q Y draw n r ns b m s : (n_init q <=? ns) = true -> attempts q Y draw n r ns b m s = (s, Ok (b, m)).
Proof. intros E. destruct r as [|r]; [reflexivity|]. rewrite attempts_S, E. reflexivity. Qed.
(** one iteration from a given array of centres *)
Lemma fit_once cs C s : i = InitArray C -> max_iter p = 1%nat -> n_init p = 1%nat -> check_full_length C = Ok (map lift cs) -> valid cs ->
  (forall k, (k < K)%nat -> In k (nearests cs)) ->
  exists cs' s', valid cs' /\ (forall k, (k < K)%nat -> renews (cluster xs (nearests cs) k) (nth k cs []) (nth k cs' [])) /\
    cluster_centers_ s' = Some (map lift cs') /\ labels_ s' = Some (nearests cs') /\
    if no_empty_cluster (nearests cs') K
    then fit p i X0 s = (s', Ok tt) /\ inertia_ s' = XR (mean_loss loss xs cs (nearests cs)) /\ X_fit_ s' = Some X
    else fit p i X0 s = (s', Err EmptyClusterError).
Proof.
  intros Ei E1 En EC Hv Hf. unfold fit. rewrite HX, HV, HG. unfold seqm. rewrite En. change (Nat.max 1 10) with 10%nat. rewrite attempts_S.
  rewrite En. cbn [Nat.leb]. rewrite Ei. cbn [draws]. unfold fit_one_init. rewrite EC, E1. cbn [Nat.eqb]. rewrite lloyd_step.
  set (s0 := set_centers (map lift cs) _).
  destruct (iteration cs s0 Hv eq_refl) as [[Z _]|(s1 & s2 & EA & EU & SE)].
  { rewrite (proj2 (no_empty_spec _ _) Hf) in Z. discriminate. }
  rewrite EA, EU. pose proof SE as (cs' & V1 & V2 & C2 & L2 & F2 & I2 & Ev & R2 & D2).
  assert (EL : (if xltb (xabs (xsub XInf (inertia_ s2))) (tol p) then (set_iter 1 s2, Ok tt) else lloyd p X 1 0 (inertia_ s2) s2) = (set_iter 1 s2, Ok tt)).
  { destruct (xltb _ _); reflexivity. }
  rewrite EL. cbn [fst snd inertia_ set_iter]. rewrite I2. cbn [xltb]. rewrite attempts_done by (rewrite En; reflexivity). cbn [fst snd cluster_centers_ set_n_iter set_iter]. rewrite C2.
  unfold post_fit. cbn [xisfinite].
  match goal with |- context [assign_ p X ?st] => pose proof (assign_run cs' st V2 eq_refl) as EA2 end. cbn zeta in EA2. rewrite EA2. exists cs'.
  destruct (no_empty_cluster (nearests cs') K) eqn:Z; eexists; (split; [exact V2|]; split; [exact R2|]; split; [|split; [|first [split; [reflexivity|split; reflexivity]|reflexivity]]]; reflexivity).
Qed.
(** a given array of centres that leaves a cluster empty at once *)
Lemma attempts_never cs C : i = InitArray C -> check_full_length C = Ok (map lift cs) -> valid cs -> no_empty_cluster (nearests cs) K = false -> n_init p <> 0%nat ->
  forall remaining n s, exists s', attempts p X (draws i) n (S remaining) 0 None XInf s = (s', Ok (None, XInf)) /\
    cluster_centers_ s' = Some (map lift cs) /\ labels_ s' = Some (nearests cs).
Proof.
  intros Ei EC Hv He Hn. assert (A : forall n s, exists s', fit_one_init p X (draws i n) s = (s', Err EmptyClusterError) /\
    cluster_centers_ s' = Some (map lift cs) /\ labels_ s' = Some (nearests cs)).
  { intros n s. rewrite Ei. cbn [draws]. unfold fit_one_init. rewrite EC. destruct (max_iter p) as [|m] eqn:Em; [congruence|]. cbn [Nat.eqb]. rewrite lloyd_step.
    set (s0 := set_centers (map lift cs) _). pose proof (assign_run cs s0 Hv eq_refl) as EA. cbn zeta in EA. rewrite He in EA. rewrite EA. eexists. split; [reflexivity|]. split; reflexivity. }
  assert (Z : (n_init p <=? 0)%nat = false) by (apply Nat.leb_gt; lia).
  induction remaining as [|r IH]; intros n s; cbn [attempts]; rewrite Z; destruct (A n s) as (s' & E & P); rewrite E.
  - cbn [attempts]. exists s'. auto.
  - destruct (IH (S n) s') as (t & T). cbn [attempts] in T. rewrite Z in T. exists t. exact T.
Qed.
Lemma fit_never cs C s : i = InitArray C -> check_full_length C = Ok (map lift cs) -> valid cs -> no_empty_cluster (nearests cs) K = false -> n_init p <> 0%nat ->
  exists s', fit p i X0 s = (s', Ok tt) /\ X_fit_ s' = None /\ cluster_centers_ s' = Some (map lift cs) /\ labels_ s' = Some (nearests cs).
Proof.
  intros Ei EC Hv He Hn. unfold fit. rewrite HX, HV, HG. unfold seqm.
  destruct (Nat.max (n_init p) 10) as [|r] eqn:Em; [lia|].
  destruct (attempts_never cs C Ei EC Hv He Hn r 0%nat (reset s)) as (s1 & E & C1 & L1). rewrite E. cbn [fst snd]. unfold post_fit. cbn [xisfinite].
  eexists. split; [reflexivity|]. split; [reflexivity|]. split; auto.
Qed.
End Lloyd.

(** ** facts that hold for any metric and any data *)
Lemma attempts_no_empty p X draw remaining : forall n ns best mi s, snd (attempts p X draw n remaining ns best mi s) <> Err EmptyClusterError.
Proof.
  induction remaining as [|r IH]; intros n ns best mi s; cbn [attempts]; [discriminate|].
  destruct (n_init p <=? ns)%nat; [discriminate|]. destruct (fit_one_init p X (draw n) s) as [s' [u|e]].
  - destruct (xltb _ _); apply IH.
  - destruct e; try apply IH; simpl; discriminate.
Qed.
Lemma assign_nonempty p X s s' l : assign_ p X s = (s', Ok l) -> labels_ s' = Some l /\ no_empty_cluster l (n_clusters p) = true.
Proof.
  unfold assign_. destruct (cluster_centers_ s); [|discriminate]. destruct (transform_ p a X); [|discriminate].
  destruct (no_empty_cluster (map argmin a0) (n_clusters p)) eqn:E; [|discriminate]. destruct (if dtw_inertia p && _ then _ else _) as [D|e]; [|discriminate].
  intros H. injection H as <- <-. auto.
Qed.
(** a successful [fit] reports what one of its attempts left behind *)
Lemma assign_centers p X s s' l : assign_ p X s = (s', Ok l) -> cluster_centers_ s' = cluster_centers_ s.
Proof.
  unfold assign_. destruct (cluster_centers_ s) as [C|] eqn:EC; [|discriminate]. destruct (transform_ p C X); [|discriminate].
  destruct (no_empty_cluster _ (n_clusters p)); [|discriminate]. destruct (if dtw_inertia p && _ then _ else _) as [D|e]; [|discriminate].
  intros H. injection H as <- <-. exact EC.
Qed.
Lemma attempts_origin p X (draw : nat -> res array3) remaining : forall n ns best mi s s' best' mi',
  attempts p X draw n remaining ns best mi s = (s', Ok (best', mi')) ->
  (best' = best /\ mi' = mi) \/
  exists j st s1, fit_one_init p X (draw j) st = (s1, Ok tt) /\ best' = cluster_centers_ s1 /\ mi' = inertia_ s1.
Proof.
  induction remaining as [|r IH]; intros n ns best mi s s' best' mi'; cbn [attempts]; [intros E; injection E as <- <- <-; auto|].
  destruct (n_init p <=? ns)%nat; [intros E; injection E as <- <- <-; auto|].
  destruct (fit_one_init p X (draw n) s) as [s1 [[]|e]] eqn:E1.
  - destruct (xltb _ _); intros E; apply IH in E; auto. destruct E as [[-> ->]|E]; auto. right. exists n, s, s1. auto.
  - destruct e; try discriminate. intros E. apply IH in E. auto.
Qed.
Lemma fit_origin p i X0 s s' : fit p i X0 s = (s', Ok tt) -> X_fit_ s' <> None ->
  exists X1 X j st s1, fit_input p i X0 = Ok X1 /\ variable_length X1 = Ok X /\ fit_one_init p X (draws i j) st = (s1, Ok tt) /\
    inertia_ s' = inertia_ s1 /\ cluster_centers_ s' = cluster_centers_ s1 /\
    exists st' st'' l, assign_ p X st' = (st'', Ok l) /\ labels_ s' = Some l /\ cluster_centers_ st' = cluster_centers_ s'.
Proof.
  unfold fit. destruct (fit_input p i X0) as [X1|e]; [|discriminate]. destruct (variable_length X1) as [X|e] eqn:EV; [|discriminate].
  destruct (check_initial_guess p i); [|discriminate]. unfold seqm.
  destruct (attempts p X (draws i) 0 (Nat.max (n_init p) 10) 0 None XInf (reset s)) as [s1 [[best mi]|e]] eqn:EA; [|discriminate]. cbn [fst snd].
  unfold post_fit. destruct (xisfinite mi) eqn:Ef; [|intros H; injection H as <-; simpl; congruence].
  destruct best as [C|]; [|intros H; injection H as <-; simpl; congruence].
  destruct (assign_ p X (set_centers C s1)) as [s2 [l|e]] eqn:E2; [|discriminate]. intros H _. injection H as <-.
  apply attempts_origin in EA. destruct EA as [[? ?]|(j & st & s3 & E3 & HC & Hi)]; [discriminate|].
  exists X1, X, j, st, s3. split; auto. split; auto. split; auto. split; auto.
  pose proof (assign_centers _ _ _ _ _ E2) as E4. pose proof (assign_nonempty _ _ _ _ _ E2) as [E5 _]. cbn [cluster_centers_ set_features set_inertia set_X_fit labels_] in *.
  split; [rewrite E4; exact HC|]. exists (set_centers C s1), s2, l. split; [exact E2|]. split; [exact E5|]. symmetry. exact E4.
Qed.

(** [fit_one_init] does not depend on the state it starts from *)
Definition same (s s' : km_state) : Prop := labels_ s = labels_ s' /\ inertia_ s = inertia_ s' /\ cluster_centers_ s = cluster_centers_ s'.
Lemma assign_same p X s s' t l : cluster_centers_ s = cluster_centers_ s' -> assign_ p X s = (t, Ok l) ->
  exists t', assign_ p X s' = (t', Ok l) /\ same t t'.
Proof.
  unfold assign_. intros H. rewrite <- H. destruct (cluster_centers_ s) as [C|] eqn:EC; [|discriminate]. destruct (transform_ p C X) as [D|e]; [|discriminate].
  destruct (no_empty_cluster (map argmin D) (n_clusters p)); [|discriminate].
  destruct (if dtw_inertia p && _ then _ else _) as [D'|e]; [|discriminate]. intros E. injection E as <- <-. eexists. split; [reflexivity|].
  split; [reflexivity|]. split; [reflexivity|]. cbn. congruence.
Qed.
Lemma update_same p X ks : forall s s' t, same s s' -> update_centroids_ p X ks s = (t, Ok tt) ->
  exists t', update_centroids_ p X ks s' = (t', Ok tt) /\ same t t'.
Proof.
  induction ks as [|k ks IH]; intros s s' t HS; cbn [update_centroids_].
  - intros E. injection E as <-. eexists. split; [reflexivity|exact HS].
  - pose proof HS as (HL & HI & HC). rewrite <- HL, <- HC. destruct (cluster_centers_ s) as [C|]; [|discriminate]. destruct (labels_ s) as [l|] eqn:El; [|discriminate].
    destruct (new_center p X l k (nth k C [])) as [c|e]; [|discriminate]. apply IH. split; [cbn; congruence|]. split; [exact HI|reflexivity].
Qed.
Lemma lloyd_same p X more : forall it old s s' t, cluster_centers_ s = cluster_centers_ s' -> lloyd p X it (S more) old s = (t, Ok tt) ->
  exists t', lloyd p X it (S more) old s' = (t', Ok tt) /\ same t t'.
Proof.
  induction more as [|more IH]; intros it old s s' t HC E; rewrite lloyd_step in E |- *;
  (destruct (assign_ p X s) as [s1 [l|e]] eqn:EA; [|discriminate];
   destruct (assign_same p X s s' s1 l HC EA) as (s1' & EA' & S1); rewrite EA';
   destruct (update_centroids_ p X (seq 0 (n_clusters p)) s1) as [s2 [[]|e]] eqn:EU; [|discriminate];
   destruct (update_same p X _ s1 s1' s2 S1 EU) as (s2' & EU' & S2); rewrite EU'; pose proof S2 as (_ & HI & HC2); rewrite <- HI).
  - destruct (xltb _ _); [|cbn [lloyd] in *]; (injection E as <-; eexists; split; [reflexivity|exact S2]).
  - destruct (xltb _ _); [injection E as <-; eexists; split; [reflexivity|exact S2]|]. apply (IH _ _ s2 s2'); auto.
Qed.
Lemma one_init_same p X init s s' t : fit_one_init p X init s = (t, Ok tt) -> exists t', fit_one_init p X init s' = (t', Ok tt) /\ same t t'.
Proof.
  unfold fit_one_init. destruct init as [C0|e]; [|discriminate]. destruct (check_full_length C0) as [C|e]; [|discriminate].
  destruct (max_iter p) as [|m]; [discriminate|]. cbn [Nat.eqb]. apply lloyd_same. reflexivity.
Qed.
Definition with_max_iter (m : nat) (p : km_params) : km_params :=
  {| n_clusters := n_clusters p; max_iter := m; tol := tol p; n_init := n_init p; km_met := km_met p; dtw_inertia := dtw_inertia p |}.
Lemma update_max_iter p m X ks : forall s, update_centroids_ (with_max_iter m p) X ks s = update_centroids_ p X ks s.
Proof.
  induction ks as [|k ks IH]; intros s; auto. cbn [update_centroids_]. destruct (cluster_centers_ s) as [C|]; auto. destruct (labels_ s) as [l|]; auto.
  change (new_center (with_max_iter m p)) with (new_center p). destruct (new_center p X l k (nth k C [])); auto.
Qed.
Lemma lloyd_max_iter p m X more : forall it old s, lloyd (with_max_iter m p) X it more old s = lloyd p X it more old s.
Proof.
  induction more as [|more IH]; intros it old s; auto. rewrite !lloyd_step. change (assign_ (with_max_iter m p) X s) with (assign_ p X s).
  destruct (assign_ p X s) as [s1 [l|e]]; auto. rewrite update_max_iter. cbn [n_clusters tol with_max_iter].
  destruct (update_centroids_ p X (seq 0 (n_clusters p)) s1) as [s2 [[]|e]]; auto. destruct (xltb _ _); auto.
Qed.

(** ** the same results for an instance packed in one predicate *)
Definition sound (p : km_params) (inj : rser -> series Xnum) (xs : list rser) (good : rser -> Prop) (loss : rser -> rser -> R)
    (renews : list rser -> rser -> rser -> Prop) : Prop :=
  xs <> [] /\ dtw_inertia p && negb (is_dtw (km_met p)) = false /\ (forall x c, In x xs -> good c -> 0 <= loss x c) /\
  (forall cs, cs <> [] -> (forall c, In c cs -> good c) ->
    transform_ p (map lift cs) (map inj xs) = Ok (map (fun x => map (fun c => XR (sqrt (loss x c))) cs) xs)) /\
  (forall labels k c, length labels = length xs -> cluster xs labels k <> [] -> good c ->
    exists c', new_center p (map inj xs) labels k (lift c) = Ok (lift c') /\ good c' /\ renews (cluster xs labels k) c c' /\
      rsum (map (fun x => loss x c') (cluster xs labels k)) <= rsum (map (fun x => loss x c) (cluster xs labels k))).
Lemma nearests_nth xs loss cs n : cs <> [] -> (n < length xs)%nat -> closest loss cs (nth n xs []) (nth n (nearests xs loss cs) 0%nat).
Proof.
  intros NE Hn. unfold nearests. rewrite (nth_indep _ 0%nat (nearest loss cs [])) by (rewrite map_length; auto). rewrite map_nth. apply nearest_spec. auto.
Qed.
Lemma nearest_is loss cs x k : closest loss cs x k -> nearest loss cs x = k.
Proof.
  intros H. assert (NE : cs <> []) by (destruct H as [H _]; destruct cs; [simpl in H; lia|discriminate]).
  destruct (nearest_spec loss cs x NE) as [A B]. destruct H as [A' B']. destruct (Nat.lt_trichotomy (nearest loss cs x) k) as [L|[L|L]]; auto.
  - destruct (B' _ A) as [_ Z]. specialize (Z L). destruct (B k A') as [Y _]. lra.
  - destruct (B _ A') as [_ Z]. specialize (Z L). destruct (B' _ A) as [Y _]. lra.
Qed.
Lemma sound_iteration p inj xs good loss renews : sound p inj xs good loss renews -> forall cs s,
  length cs = n_clusters p -> cs <> [] -> (forall c, In c cs -> good c) -> cluster_centers_ s = Some (map lift cs) ->
  (exists s1, assign_ p (map inj xs) s = (s1, Err EmptyClusterError)) \/
  exists labels v s1 s2 cs', assign_ p (map inj xs) s = (s1, Ok labels) /\ length labels = length xs /\
    (forall n, (n < length xs)%nat -> closest loss cs (nth n xs []) (nth n labels 0%nat)) /\
    inertia_ s1 = XR v /\ v = mean_loss loss xs cs labels /\
    update_centroids_ p (map inj xs) (seq 0 (n_clusters p)) s1 = (s2, Ok tt) /\ cluster_centers_ s2 = Some (map lift cs') /\
    (forall k, (k < n_clusters p)%nat -> good (nth k cs' []) /\ renews (cluster xs labels k) (nth k cs []) (nth k cs' [])) /\
    forall s3 labels3, assign_ p (map inj xs) s2 = (s3, Ok labels3) -> exists v3, inertia_ s3 = XR v3 /\ v3 <= v.
Proof.
  intros (Hxs & Hin & Hpos & HT & HU) cs s Lc NE Hg Hc. assert (Hv : valid p good cs) by (split; auto).
  destruct (iteration p inj xs good loss renews Hxs Hin Hpos HT HU cs s Hv Hc) as [[_ E]|(s1 & s2 & EA & EU & SE)]; [left; eauto|right].
  pose proof SE as (cs' & V1 & V2 & C2 & L2 & F2 & I2 & Ev & R2 & D2).
  exists (nearests xs loss cs), (mean_loss loss xs cs (nearests xs loss cs)), s1, s2, cs'. split; auto. split; [apply nearests_len|]. split; [intros; apply nearests_nth; auto|].
  split.
  { pose proof (assign_run p inj xs good loss renews Hxs Hin Hpos HT HU cs s Hv Hc) as EA'. cbn zeta in EA'. rewrite EA in EA'. destruct (no_empty_cluster _ _); [|discriminate].
    injection EA' as ->. reflexivity. }
  split; auto. split; auto. split; auto. split; [intros k Hk; split; [apply V2; apply nth_In; destruct V2 as (Lz & _); unfold rser in *; lia|auto]|].
  intros s3 l3 E3. pose proof (assign_run p inj xs good loss renews Hxs Hin Hpos HT HU cs' s2 V2 C2) as E3'. cbn zeta in E3'. rewrite E3 in E3'. destruct (no_empty_cluster _ _); [|discriminate].
  injection E3' as -> _. eexists. split; [reflexivity|]. eapply Rle_trans; [|exact D2].
  eapply nearests_least; eauto; [apply nearests_len|eapply nearests_lt; eauto].
Qed.
Lemma sound_max_iter p inj xs good loss renews m : sound p inj xs good loss renews -> sound (with_max_iter m p) inj xs good loss renews.
Proof. intros H. exact H. Qed.
Lemma sound_more p inj xs good loss renews : sound p inj xs good loss renews -> forall X0 C cs m1 m2 s s' t1 t2,
  (forall m, fit_input (with_max_iter m p) (InitArray C) X0 = Ok X0) -> variable_length X0 = Ok (map inj xs) ->
  check_full_length C = Ok (map lift cs) -> length cs = n_clusters p -> cs <> [] -> (forall c, In c cs -> good c) -> (m1 <= m2)%nat ->
  fit (with_max_iter m1 p) (InitArray C) X0 s = (t1, Ok tt) -> X_fit_ t1 <> None ->
  fit (with_max_iter m2 p) (InitArray C) X0 s' = (t2, Ok tt) -> X_fit_ t2 <> None ->
  exists v1 v2, inertia_ t1 = XR v1 /\ inertia_ t2 = XR v2 /\ v2 <= v1.
Proof.
  intros SD X0 C cs m1 m2 s s' t1 t2 HX HV EC Lc NE Hg Hm F1 N1 F2 N2.
  destruct (fit_origin _ _ _ _ _ F1 N1) as (X1 & Xa & j1 & st1 & u1 & A1 & B1 & O1 & I1 & _).
  destruct (fit_origin _ _ _ _ _ F2 N2) as (X2 & Xb & j2 & st2 & u2 & A2 & B2 & O2 & I2 & _).
  rewrite HX in A1, A2. injection A1 as <-. injection A2 as <-. rewrite HV in B1, B2. injection B1 as <-. injection B2 as <-. cbn [draws] in O1, O2.
  destruct (one_init_same _ _ _ st2 st1 _ O2) as (u2' & O2' & (_ & S2 & _)). rewrite I1, I2, S2. clear O2.
  unfold fit_one_init in O1, O2'. rewrite EC in O1, O2'. cbn [max_iter with_max_iter] in *.
  destruct m1 as [|m1]; [discriminate|]. destruct m2 as [|m2]; [lia|]. cbn [Nat.eqb] in *. rewrite lloyd_max_iter in O1, O2'.
  destruct SD as (Hxs & Hin & Hpos & HT & HU). replace m2 with (m1 + (m2 - m1))%nat in O2' by lia.
  eapply (lloyd_mono p inj xs good loss renews Hxs Hin Hpos HT HU m1 (m2 - m1)%nat 0%nat XInf (set_centers (map lift cs) (set_centers C st1)) cs); [|reflexivity|exact O1|exact O2']. split; auto.
Qed.
(** the outcome of [fit] *)
Lemma sound_fit p inj xs good loss renews : sound p inj xs good loss renews -> forall X0 i s,
  fit_input p i X0 = Ok X0 -> variable_length X0 = Ok (map inj xs) -> check_initial_guess p i = Ok tt -> max_iter p <> 0%nat ->
  (forall n, exists C cs, draws i n = Ok C /\ check_full_length C = Ok (map lift cs) /\ length cs = n_clusters p /\ cs <> [] /\ forall c, In c cs -> good c) ->
  let r := fit p i X0 s in
  (snd r = Ok tt /\ X_fit_ (fst r) = None) \/
  (snd r = Ok tt /\ X_fit_ (fst r) = Some (map inj xs) /\ 
   exists cs labels v, length cs = n_clusters p /\ (forall c, In c cs -> good c) /\ cluster_centers_ (fst r) = Some (map lift cs) /\
     labels_ (fst r) = Some labels /\ length labels = length xs /\
     (forall n, (n < length xs)%nat -> closest loss cs (nth n xs []) (nth n labels 0%nat)) /\
     (forall k, (k < n_clusters p)%nat -> In k labels) /\
     inertia_ (fst r) = XR v /\ mean_loss loss xs cs labels <= v /\
     exists before labels', length labels' = length xs /\ (forall n, (n < length xs)%nat -> closest loss before (nth n xs []) (nth n labels' 0%nat)) /\
       v = mean_loss loss xs before labels' /\
       forall k, (k < n_clusters p)%nat -> cluster xs labels' k <> [] /\ renews (cluster xs labels' k) (nth k before []) (nth k cs [])) \/
  snd r = Err EmptyClusterError.
Proof.
  intros (Hxs & Hin & Hpos & HT & HU) X0 i s HX HV HG Hit Hinit. cbn zeta.
  destruct (fit_run p inj xs good loss renews Hxs Hin Hpos HT HU X0 i HX HV HG Hit ltac:(intros n; destruct (Hinit n) as (C & cs & ? & ? & ? & ? & ?); exists C, cs; repeat split; auto) s)
    as [A|[(A & B & CL)|(A & _)]]; [left; auto|right; left|right; right; auto].
  split; auto. split; auto. destruct CL as (cs & cs' & v & V1 & V2 & C2 & L2 & F2 & I2 & Ev & R2 & D2).
  exists cs', (nearests xs loss cs'), v. destruct V1 as (La & Na & Ga). destruct V2 as (Lb & Nb & Gb).
  split; auto. split; auto. split; auto. split; auto. split; [apply nearests_len|]. split; [intros; apply nearests_nth; auto|]. split; auto. split; auto. split; auto.
  exists cs, (nearests xs loss cs). split; [apply nearests_len|]. split; [intros; apply nearests_nth; auto|]. split; auto.
Qed.

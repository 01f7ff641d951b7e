(** C96: what [sigma_gak] computes. *)
From Coq Require Import Bool List Arith Lia ZArith Reals Lra Permutation Sorted.
From Verif Require Import Num NumLaws Py RList PreModel KernelModel PropKernel.
Import ListNotations.
Local Open Scope R_scope.

(** ** Specification *)
Definition all_le (l : list R) (v : R) : Prop := forall x, In x l -> x <= v.
Definition all_ge (l : list R) (v : R) : Prop := forall x, In x l -> v <= x.
(** as many entries below as above; for an even number of entries, half way between the two middle ones *)
Definition is_median (l : list R) (v : R) : Prop :=
  (exists l1 l2, Permutation l (l1 ++ v :: l2) /\ length l1 = length l2 /\ all_le l1 v /\ all_ge l2 v) \/
  (exists l1 a b l2, Permutation l (l1 ++ a :: b :: l2) /\ length l1 = length l2 /\ all_le l1 a /\ a <= b /\ all_ge l2 b /\ v = (a + b) / 2).
(** the Euclidean distances of all pairs of positions i < j *)
Definition pair_dists (p : list (list R)) : list R :=
  flat_map (fun j => map (fun i => euclid_pts (nth i p []) (nth j p [])) (seq 0 j)) (seq 0 (length p)).

(** ** The sorting function sorts *)
Lemma insert_perm x l : Permutation (insert_r x l) (x :: l).
Proof. induction l as [|y l IH]; cbn; auto. destruct (Rltb y x); auto. rewrite IH. apply perm_swap. Qed.
Lemma sort_perm l : Permutation (sort_r l) l.
Proof. induction l as [|x l IH]; cbn; auto. rewrite insert_perm, IH. auto. Qed.
Lemma insert_sorted x l : StronglySorted Rle l -> StronglySorted Rle (insert_r x l).
Proof.
  induction l as [|y l IH]; intros H; cbn; [repeat constructor|]. inversion H; subst. unfold Rltb. destruct (Rlt_dec y x) as [L|L].
  - constructor; [apply IH; auto|]. apply Forall_forall. intros z Hz. apply insert_in in Hz. destruct Hz as [->|Hz]; [lra|]. rewrite Forall_forall in H3. auto.
  - constructor; auto. apply Forall_forall. intros z [->|Hz]; [lra|]. rewrite Forall_forall in H3. specialize (H3 z Hz). lra.
Qed.
Lemma sort_sorted l : StronglySorted Rle (sort_r l).
Proof. induction l; cbn; [constructor|apply insert_sorted; auto]. Qed.
Lemma sorted_split l1 v l2 : StronglySorted Rle (l1 ++ v :: l2) -> all_le l1 v /\ all_ge l2 v /\ StronglySorted Rle (v :: l2).
Proof.
  induction l1 as [|x l1 IH]; cbn; intros H.
  - split; [intros x []|]. split; auto. inversion H; subst. rewrite Forall_forall in H3. intros x Hx. auto.
  - inversion H; subst. destruct (IH H2) as (A & B & C). split; [|auto]. intros y [<-|Hy]; auto. rewrite Forall_forall in H3. apply H3. apply in_or_app. right. left. auto.
Qed.
Lemma split_at {A} (l : list A) k d : (k < length l)%nat -> l = firstn k l ++ nth k l d :: skipn (S k) l.
Proof. revert k. induction l as [|x l IH]; intros k H; cbn in H; [lia|]. destruct k; cbn; [auto|]. f_equal. apply IH. lia. Qed.
Lemma median_ok l : l <> [] -> is_median l (median l).
Proof.
  intros H. assert (L : (0 < length l)%nat) by (destruct l; [congruence|cbn; lia]). pose proof (sort_perm l) as P. pose proof (sort_sorted l) as SO. pose proof (sort_length l) as SL.
  unfold median. set (s := sort_r l) in *. set (n := length l) in *. destruct (Nat.Even_or_Odd n) as [[k E]|[k E]].
  - right. assert (K1 : ((n - 1) / 2 = k - 1)%nat) by (symmetry; apply Nat.div_unique with 1%nat; lia).
    assert (K2 : (n / 2 = k)%nat) by (symmetry; apply Nat.div_unique with 0%nat; lia). rewrite K1, K2.
    pose proof (split_at s (k - 1) 0 ltac:(lia)) as D. pose proof (split_at (skipn (S (k - 1)) s) 0 0 ltac:(rewrite skipn_length; lia)) as D2. cbn [firstn app] in D2.
    assert (N : nth 0 (skipn (S (k - 1)) s) 0 = nth k s 0).
    { rewrite D at 2. rewrite app_nth2; rewrite firstn_length; [|lia]. replace (k - Nat.min (k - 1) (length s))%nat with 1%nat by lia. reflexivity. }
    rewrite N in D2. rewrite D2 in D. rewrite D in SO. apply sorted_split in SO. destruct SO as (A & B & C).
    apply (sorted_split [nth (k - 1) s 0]) in C. destruct C as (C1 & C2 & _).
    eexists (firstn (k - 1) s), (nth (k - 1) s 0), (nth k s 0), (skipn 1 (skipn (S (k - 1)) s)). split; [rewrite <- P, D at 1; auto|].
    split; [rewrite firstn_length, !skipn_length; lia|]. split; auto. split; [apply C1; left; auto|]. auto.
  - left. assert (K1 : ((n - 1) / 2 = k)%nat) by (symmetry; apply Nat.div_unique with 0%nat; lia).
    assert (K2 : (n / 2 = k)%nat) by (symmetry; apply Nat.div_unique with 1%nat; lia). rewrite K1, K2.
    replace ((nth k s 0 + nth k s 0) / 2) with (nth k s 0) by field. pose proof (split_at s k 0 ltac:(lia)) as D. rewrite D in SO. apply sorted_split in SO. destruct SO as (A & B & _).
    exists (firstn k s), (skipn (S k) s). split; [rewrite <- P, D at 1; auto|]. split; [rewrite firstn_length, skipn_length; lia|]. auto.
Qed.
Lemma pair_dists_cons a p : Permutation (pair_dists (a :: p)) (map (euclid_pts a) p ++ pair_dists p).
Proof.
  unfold pair_dists. cbn [length seq flat_map map app]. rewrite <- seq_shift, flat_map_concat_map, map_map, <- flat_map_concat_map.
  transitivity (flat_map (fun j => [euclid_pts a (nth j p [])] ++ map (fun i => euclid_pts (nth i p []) (nth j p [])) (seq 0 j)) (seq 0 (length p))).
  - apply Permutation_refl'. apply flat_map_ext. intros j. cbn [seq map nth app]. f_equal. rewrite <- seq_shift, map_map. reflexivity.
  - transitivity (map (fun j => euclid_pts a (nth j p [])) (seq 0 (length p)) ++ flat_map (fun j => map (fun i => euclid_pts (nth i p []) (nth j p [])) (seq 0 j)) (seq 0 (length p))).
    + generalize (seq 0 (length p)). intros q. induction q as [|j q IH]; cbn [flat_map map app]; auto. apply perm_skip. rewrite IH, !app_assoc. apply Permutation_app_tail, Permutation_app_comm.
    + apply Permutation_app_tail, Permutation_refl'. rewrite <- (map_map (fun j => nth j p []) (euclid_pts a)).
      assert (G : map (fun j => nth j p []) (seq 0 (length p)) = p); [|rewrite G; auto].
      clear. induction p as [|x p IH]; cbn [length seq map nth]; auto. f_equal. rewrite <- seq_shift, map_map. exact IH.
Qed.
Lemma pdist_pairs p : Permutation (pdist p) (pair_dists p).
Proof. induction p as [|a p IH]; [auto|]. rewrite pair_dists_cons. cbn [pdist]. rewrite IH. auto. Qed.
Lemma is_median_perm l l' v : Permutation l l' -> is_median l v -> is_median l' v.
Proof. intros P [(l1 & l2 & H & R1)|(l1 & a & b & l2 & H & R1)]; [left; exists l1, l2|right; exists l1, a, b, l2]; (split; [rewrite <- P; auto|auto]). Qed.

(** ** C96 *)
Theorem C96_bandwidth ds idx s : sigma_gak ds idx = Ok s -> (2 <= length idx)%nat ->
  exists v, is_median (pair_dists (map (fun i => nth i (finite_points ds) []) idx)) v /\ s = v * sqrt (INR (length (hd [] ds))).
Proof.
  intros H Hi. unfold sigma_gak in H. destruct (finite_points ds) as [|p0 pts] eqn:E; [discriminate|]. injection H as <-.
  set (q := map _ idx). exists (median (pdist q)). split.
  - apply (is_median_perm (pdist q)); [apply pdist_pairs|]. apply median_ok. unfold q. destruct idx as [|i [|j idx]]; cbn in Hi; try lia. discriminate.
  - destruct ds; reflexivity.
Qed.
Print Assumptions C96_bandwidth.
(** the hypotheses on one series of three points, all of them drawn: distances 1, 2 and 3, median 2 *)
Example C96_nontrivial : exists s, sigma_gak [[[XR 0]; [XR 1]; [XR 3]]] [0; 1; 2]%nat = Ok s /\ s = 2 * sqrt 3 /\ is_median [1; 3; 2] 2.
Proof.
  eexists. split; [reflexivity|]. split.
  - cbn [concat app finite_points flat_map finite_row map nth pdist length].
    assert (EU : forall a b, euclid_pts [a] [b] = Rabs (a - b)). { intros a b. unfold euclid_pts. cbn. rewrite Rplus_0_r. apply sqrt_Rsqr_abs. }
    rewrite !EU. replace (Rabs (0 - 1)) with 1 by (unfold Rabs; destruct Rcase_abs; lra). replace (Rabs (0 - 3)) with 3 by (unfold Rabs; destruct Rcase_abs; lra).
    replace (Rabs (1 - 3)) with 2 by (unfold Rabs; destruct Rcase_abs; lra). f_equal; [|f_equal; cbn; lra].
    unfold median. cbn [app sort_r insert_r]. unfold Rltb.
    repeat (match goal with |- context [Rlt_dec ?a ?b] => destruct (Rlt_dec a b); [try (exfalso; lra)|try (exfalso; lra)] end; cbn [insert_r]).
    cbn. unfold Rltb. destruct (Rlt_dec 2 1); [exfalso; lra|]. cbn. lra.
  - left. exists [1], [3]. split; [apply perm_skip, perm_swap|]. split; auto. split; intros x [<-|[]]; lra.
Qed.

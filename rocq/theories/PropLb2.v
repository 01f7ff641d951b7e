(** C198: LB_Keogh is the Euclidean distance to the series inside the envelope. Exact reals. *)
From Coq Require Import Bool List Arith ZArith QArith Lia Reals Lra Permutation.
From Verif Require Import Num NumLaws Py RList PathSum LbModel PropLb.
Import ListNotations.
Local Open Scope R_scope.

(** ** Specification *)
(** Euclidean distance between two series of the same length *)
Definition euclid (q e : list R) : R := sqrt (rsum (map (fun i => (nth i q 0 - nth i e 0) * (nth i q 0 - nth i e 0)) (seq 0 (length q)))).
(** every value of [e] lies between two values that [c] takes at most [r] time steps away *)
Definition near (r i k : nat) : Prop := (k <= i + r /\ i <= k + r)%nat.
Definition inside (c : list R) (r : nat) (e : list R) : Prop := length e = length c /\ forall i, (i < length c)%nat ->
  exists k k', (k < length c)%nat /\ (k' < length c)%nat /\ near r i k /\ near r i k' /\ nth k c 0 <= nth i e 0 <= nth k' c 0.

(** ** lemmas *)
Lemma euclid_le q e e' : (forall i, (i < length q)%nat -> (nth i q 0 - nth i e 0) * (nth i q 0 - nth i e 0) <= (nth i q 0 - nth i e' 0) * (nth i q 0 - nth i e' 0)) -> euclid q e <= euclid q e'.
Proof. intros H. apply sqrt_le_1_alt. apply rsum_map_le. intros i Hi. apply in_seq in Hi. apply H. lia. Qed.
Lemma rsum_zero (f : nat -> R) l : (forall i, In i l -> 0 <= f i) -> rsum (map f l) = 0 -> forall i, In i l -> f i = 0.
Proof.
  induction l as [|x l IH]; intros Hf H i Hi; [contradiction|]. change (rsum (map f (x :: l))) with (f x + rsum (map f l)) in H.
  pose proof (Hf x (or_introl eq_refl)). assert (0 <= rsum (map f l)).
  { apply rsum_nonneg. intros y Hy. apply in_map_iff in Hy. destruct Hy as (k & <- & Hk). apply Hf. right. auto. }
  destruct Hi as [<-|Hi]; [lra|]. apply IH; auto; [|lra]. intros k Hk. apply Hf. right. auto.
Qed.
Lemma euclid_zero q e : length q = length e -> euclid q e = 0 -> q = e.
Proof.
  intros L H. unfold euclid in H. apply sqrt_eq_0 in H.
  - apply (nth_ext _ _ 0 0 L). intros i Hi.
    assert (E : (fun i => (nth i q 0 - nth i e 0) * (nth i q 0 - nth i e 0)) i = 0).
    { apply (rsum_zero (fun i => (nth i q 0 - nth i e 0) * (nth i q 0 - nth i e 0)) (seq 0 (length q))); auto; [intros; apply Rle_0_sqr|]. apply in_seq. lia. }
    cbn in E. nra.
  - apply rsum_nonneg. intros x Hx. apply in_map_iff in Hx. destruct Hx as (i & <- & _). apply Rle_0_sqr.
Qed.
Lemma euclid_self q : euclid q q = 0.
Proof.
  unfold euclid. replace (rsum _) with 0; [apply sqrt_0|]. symmetry. transitivity (rsum (map (fun _ : nat => 0) (seq 0 (length q)))).
  - apply rsum_map_ext. intros. ring.
  - rewrite rsum_const. ring.
Qed.
Lemma euclid_nonneg q e : 0 <= euclid q e. Proof. apply sqrt_pos. Qed.
Lemma nearest x lo hi : lo <= hi -> exists y, lo <= y <= hi /\
  (x - y) * (x - y) = (if Rltb hi x then (x - hi) * (x - hi) else 0) + (if Rltb x lo then (x - lo) * (x - lo) else 0) /\
  forall z, lo <= z <= hi -> (x - y) * (x - y) <= (x - z) * (x - z).
Proof.
  intros H. destruct (Rltb hi x) eqn:E1; destruct (Rltb x lo) eqn:E2; try apply Rltb_true in E1; try apply Rltb_false in E1; try apply Rltb_true in E2; try apply Rltb_false in E2.
  - lra.
  - exists hi. split; [lra|]. split; [ring|]. intros z Hz. nra.
  - exists lo. split; [lra|]. split; [ring|]. intros z Hz. nra.
  - exists x. split; [lra|]. split; [ring|]. intros z Hz. replace ((x - x) * (x - x)) with 0 by ring. apply Rle_0_sqr.
Qed.
Lemma choose_list {A} (P : nat -> A -> Prop) (d : A) n : (forall i, (i < n)%nat -> exists y, P i y) -> exists l, length l = n /\ forall i, (i < n)%nat -> P i (nth i l d).
Proof.
  induction n as [|n IH]; intros H.
  - exists []. split; auto. intros i Hi. lia.
  - destruct IH as (l & L & Hl). { intros i Hi. apply H. lia. } destruct (H n ltac:(lia)) as (y & Hy).
    exists (l ++ [y]). split; [rewrite app_length; simpl; lia|]. intros i Hi. destruct (Nat.eq_dec i n) as [->|Hn].
    + rewrite app_nth2, L, Nat.sub_diag by lia. exact Hy.
    + rewrite app_nth1 by lia. apply Hl. lia.
Qed.

(** ** C198 *)
(** the value is the distance to the nearest series inside the envelope *)
Theorem C198_distance q c r : length q = length c ->
  exists v, lb_keogh q c r = Ok v /\ (exists e, inside c r e /\ euclid q e = v) /\ forall e, inside c r e -> v <= euclid q e.
Proof.
  intros L. pose proof (lb_keogh_contrib q c r L) as E. pose proof (fun i (Hi : (i < length c)%nat) => C22_envelope_is_window_extremum c r i Hi) as W.
  pose proof (fun i (Hi : (i < length c)%nat) => C22_envelope_encloses c r i Hi) as En.
  destruct (lb_envelope c r) as [down up]. rewrite E.
  destruct (choose_list (fun i y => nth i down 0 <= y <= nth i up 0 /\ (nth i q 0 - y) * (nth i q 0 - y) = contrib q down up i /\
     forall z, nth i down 0 <= z <= nth i up 0 -> (nth i q 0 - y) * (nth i q 0 - y) <= (nth i q 0 - z) * (nth i q 0 - z)) 0 (length c)) as (e & Le & He).
  { intros i Hi. apply nearest. specialize (En i Hi). lra. }
  assert (V : sqrt (rsum (map (contrib q down up) (seq 0 (length q)))) = euclid q e).
  { unfold euclid. f_equal. apply rsum_map_ext. intros i Hi. apply in_seq in Hi. symmetry. apply He. lia. }
  exists (euclid q e). rewrite V. split; [reflexivity|]. split.
  - exists e. split; [|reflexivity]. split; auto. intros i Hi. destruct (W i Hi) as (_ & _ & [(k & K1 & K2 & K3 & K4) _] & [(k' & K1' & K2' & K3' & K4') _]).
    exists k, k'. unfold near. repeat (split; [auto; lia|]). rewrite K4, K4'. apply He. auto.
  - intros e' [Le' He']. apply euclid_le. intros i Hi. rewrite L in Hi. apply He; auto. destruct (W i Hi) as (_ & _ & [_ Dn] & [_ Up]).
    destruct (He' i Hi) as (k & k' & K1 & K2 & [K3 K4] & [K5 K6] & B). specialize (Dn k K1 K3 K4). specialize (Up k' K2 K5 K6). lra.
Qed.
Print Assumptions C198_distance.
(** two calls with the same distances give the same number *)
Lemma lb_le q c r q' c' r' : length q = length c -> length q' = length c' -> (forall e, inside c r e -> exists e', inside c' r' e' /\ euclid q' e' <= euclid q e) ->
  exists v v', lb_keogh q c r = Ok v /\ lb_keogh q' c' r' = Ok v' /\ v' <= v.
Proof.
  intros L L' H. destruct (C198_distance q c r L) as (v & E & (e & He & <-) & _). destruct (C198_distance q' c' r' L') as (v' & E' & _ & M').
  exists (euclid q e), v'. split; auto. split; auto. destruct (H e He) as (e' & He' & Hle). specialize (M' e' He'). lra.
Qed.
(** a larger radius never gives a larger bound *)
Theorem C198_radius q c r r' : length q = length c -> (r <= r')%nat ->
  exists v v', lb_keogh q c r = Ok v /\ lb_keogh q c r' = Ok v' /\ v' <= v.
Proof.
  intros L Hr. apply lb_le; auto. intros e [Le He]. exists e. split; [|lra]. split; auto. intros i Hi. destruct (He i Hi) as (k & k' & K1 & K2 & [K3 K4] & [K5 K6] & B).
  exists k, k'. unfold near. repeat (split; [auto; lia|]). exact B.
Qed.
Print Assumptions C198_radius.
(** radius 0: the Euclidean distance *)
Theorem C198_radius_zero q c : length q = length c -> lb_keogh q c 0 = Ok (euclid q c).
Proof.
  intros L. destruct (C198_distance q c 0 L) as (v & E & (e & [Le He] & <-) & _). rewrite E. do 2 f_equal. apply (nth_ext _ _ 0 0 Le).
  intros i Hi. rewrite Le in Hi. destruct (He i Hi) as (k & k' & K1 & K2 & [K3 K4] & [K5 K6] & B). replace k with i in B by lia. replace k' with i in B by lia. lra.
Qed.
Print Assumptions C198_radius_zero.
(** 0 exactly for the series inside the envelope *)
Theorem C198_zero q c r : length q = length c -> (lb_keogh q c r = Ok 0 <-> inside c r q).
Proof.
  intros L. destruct (C198_distance q c r L) as (v & E & (e & He & Ev) & M). rewrite E. split.
  - intros H. injection H as ->. apply euclid_zero in Ev; [subst; auto|]. destruct He as [Le _]. congruence.
  - intros H. specialize (M q H). rewrite euclid_self in M. pose proof (euclid_nonneg q e). f_equal. lra.
Qed.
Print Assumptions C198_zero.
(** adding a number to both series, or multiplying both *)
Definition affine_map (a b : R) (l : list R) : list R := map (fun x => a * x + b) l.
Lemma nth_affine a b l i : (i < length l)%nat -> nth i (affine_map a b l) 0 = a * nth i l 0 + b.
Proof. intros Hi. unfold affine_map. rewrite (nth_indep _ 0 (a * 0 + b)) by (rewrite map_length; auto). exact (map_nth (fun x => a * x + b) l 0 i). Qed.
Lemma inside_affine a b c r e : inside c r e -> inside (affine_map a b c) r (affine_map a b e).
Proof.
  intros [Le He]. unfold inside. unfold affine_map at 1 2 3. rewrite !map_length. split; auto. intros i Hi. destruct (He i Hi) as (k & k' & K1 & K2 & K3 & K4 & B).
  destruct (Rle_or_lt 0 a).
  - exists k, k'. unfold affine_map at 1 2. rewrite map_length. rewrite !nth_affine by lia. do 4 (split; [auto|]). split; nra.
  - exists k', k. unfold affine_map at 1 2. rewrite map_length. rewrite !nth_affine by lia. do 4 (split; [auto|]). split; nra.
Qed.
Lemma euclid_affine a b q e : length q = length e -> euclid (affine_map a b q) (affine_map a b e) = Rabs a * euclid q e.
Proof.
  intros L. unfold euclid. unfold affine_map at 5. rewrite map_length.
  replace (rsum (map (fun i => (nth i (affine_map a b q) 0 - nth i (affine_map a b e) 0) * (nth i (affine_map a b q) 0 - nth i (affine_map a b e) 0)) (seq 0 (length q))))
    with (a * a * rsum (map (fun i => (nth i q 0 - nth i e 0) * (nth i q 0 - nth i e 0)) (seq 0 (length q)))).
  - rewrite sqrt_mult_alt by apply Rle_0_sqr. f_equal. rewrite <- sqrt_Rsqr_abs. reflexivity.
  - rewrite <- rsum_map_scal. apply rsum_map_ext. intros i Hi. apply in_seq in Hi. rewrite !nth_affine by lia. ring.
Qed.
Theorem C198_affine a b q c r v : length q = length c -> lb_keogh q c r = Ok v -> lb_keogh (affine_map a b q) (affine_map a b c) r = Ok (Rabs a * v).
Proof.
  intros L Hv. assert (L' : length (affine_map a b q) = length (affine_map a b c)) by (unfold affine_map; rewrite !map_length; auto).
  destruct (C198_distance q c r L) as (w & E & (e & He & Ew) & M). rewrite Hv in E. injection E as <-.
  destruct (C198_distance _ _ r L') as (w' & E' & (e' & He' & Ew') & M'). rewrite E'. f_equal. apply Rle_antisym.
  - rewrite <- Ew. rewrite <- (euclid_affine a b) by (rewrite L; symmetry; apply He). apply M', inside_affine, He.
  - destruct (Req_dec a 0) as [->|Ha]. { rewrite Rabs_R0, Rmult_0_l, <- Ew'. apply euclid_nonneg. }
    set (back := affine_map (/ a) (- b * / a)).
    assert (BK : forall l, back (affine_map a b l) = l).
    { intros l. unfold back, affine_map. rewrite map_map. rewrite <- (map_id l) at 2. apply map_ext. intros x. field. auto. }
    assert (I : inside c r (back e')). { rewrite <- (BK c). apply inside_affine. exact He'. }
    pose proof (M _ I) as K. rewrite <- Ew'. rewrite <- (BK q) in K. unfold back in K. rewrite euclid_affine in K by (rewrite L'; symmetry; apply He').
    rewrite Rabs_inv in K. apply (Rmult_le_compat_l (Rabs a)) in K; [|apply Rabs_pos]. rewrite <- Rmult_assoc, Rinv_r, Rmult_1_l in K by (apply Rabs_no_R0; auto). exact K.
Qed.
Print Assumptions C198_affine.
(** reversing both series *)
Lemma inside_rev c r e : inside c r e -> inside (rev c) r (rev e).
Proof.
  intros [Le He]. unfold inside. rewrite !rev_length. split; auto. intros i Hi. destruct (He (length c - S i)%nat ltac:(lia)) as (k & k' & K1 & K2 & [K3 K4] & [K5 K6] & B).
  exists (length c - S k)%nat, (length c - S k')%nat. unfold near. repeat (split; [lia|]). rewrite !rev_nth by lia. rewrite Le.
  replace (length c - S (length c - S k))%nat with k by lia. replace (length c - S (length c - S k'))%nat with k' by lia. exact B.
Qed.
Lemma euclid_rev q e : length q = length e -> euclid (rev q) (rev e) = euclid q e.
Proof.
  intros L. unfold euclid. f_equal. rewrite rev_length.
  transitivity (rsum (map (fun i => (fun k => (nth k q 0 - nth k e 0) * (nth k q 0 - nth k e 0)) (length q - S i)%nat) (seq 0 (length q)))).
  - apply rsum_map_ext. intros i Hi. apply in_seq in Hi. rewrite !rev_nth by lia. rewrite L. reflexivity.
  - rewrite <- (map_map (fun i => (length q - S i)%nat) (fun k => (nth k q 0 - nth k e 0) * (nth k q 0 - nth k e 0))). apply rsum_perm, Permutation_map. clear L.
    apply NoDup_Permutation; [| apply seq_NoDup|].
    + apply nodup_map_inj; [|apply seq_NoDup]. intros x y Hx Hy. apply in_seq in Hx, Hy. lia.
    + intros x. rewrite in_map_iff, in_seq. split.
      * intros (y & <- & Hy). apply in_seq in Hy. lia.
      * intros Hx. exists (length q - S x)%nat. rewrite in_seq. lia.
Qed.
Theorem C198_reverse q c r : length q = length c -> lb_keogh (rev q) (rev c) r = lb_keogh q c r.
Proof.
  intros L. assert (L' : length (rev q) = length (rev c)) by (rewrite !rev_length; auto).
  destruct (C198_distance q c r L) as (w & E & (e & He & Ew) & M). destruct (C198_distance _ _ r L') as (w' & E' & (e' & He' & Ew') & M').
  rewrite E, E'. f_equal. apply Rle_antisym.
  - rewrite <- Ew, <- (euclid_rev q e) by (rewrite L; symmetry; apply He). apply M', inside_rev, He.
  - apply inside_rev in He'. rewrite rev_involutive in He'. specialize (M _ He').
    rewrite <- Ew', <- (euclid_rev (rev q) e'). rewrite rev_involutive. exact M. { rewrite L'. destruct He' as [Q _]. rewrite rev_length in Q |- *. symmetry. exact Q. }
Qed.
Print Assumptions C198_reverse.
(** series of three values, radius 1: one value outside the envelope *)
Example C198_nontrivial : lb_keogh [1; 9; 2] [1; 5; 2] 1 = Ok 4 /\ inside [1; 5; 2] 1 [4; 5; 3] /\ ~ inside [1; 5; 2] 0 [4; 5; 3].
Proof.
  split; [|split].
  - destruct (C198_distance [1; 9; 2] [1; 5; 2] 1 eq_refl) as (v & E & (e & He & Ev) & M). rewrite E. f_equal.
    assert (I : inside [1; 5; 2] 1 [1; 5; 2]).
    { split; [reflexivity|]. intros i Hi. exists i, i. unfold near. repeat (split; [auto; lia|]). lra. }
    specialize (M _ I). assert (E4 : euclid [1; 9; 2] [1; 5; 2] = 4).
    { unfold euclid. cbn. replace ((1 - 1) * (1 - 1) + ((9 - 5) * (9 - 5) + ((2 - 2) * (2 - 2) + 0))) with (4 * 4) by ring. apply sqrt_square. lra. }
    rewrite E4 in M. apply Rle_antisym; auto. rewrite <- Ev. destruct He as [Le He]. destruct e as [|e0 [|e1 [|e2 [|]]]]; try discriminate.
    destruct (He 1%nat ltac:(cbn; lia)) as (k & k' & K1 & K2 & _ & _ & B). cbn in B. assert (e1 <= 5) by (destruct k' as [|[|[|]]]; cbn in *; try lia; lra).
    unfold euclid. rewrite <- (sqrt_square 4) by lra. apply sqrt_le_1_alt. cbn. assert (0 <= (1 - e0) * (1 - e0)) by apply Rle_0_sqr. assert (0 <= (2 - e2) * (2 - e2)) by apply Rle_0_sqr. nra.
  - split; [reflexivity|]. intros [|[|[|i]]] Hi; cbn in Hi; try lia; cbn.
    + exists 0%nat, 1%nat. unfold near. cbn. repeat (split; [lia|]). lra.
    + exists 0%nat, 1%nat. unfold near. cbn. repeat (split; [lia|]). lra.
    + exists 2%nat, 1%nat. unfold near. cbn. repeat (split; [lia|]). lra.
  - intros [_ H]. destruct (H 0%nat ltac:(cbn; lia)) as (k & k' & _ & _ & K & K' & B). unfold near in *. assert (k = 0%nat) by lia. assert (k' = 0%nat) by lia. subst. cbn in B. lra.
Qed.

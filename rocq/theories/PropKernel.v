(** C56, C85-C88: KernelKMeans and sigma_gak. *)
From Coq Require Import Bool List Arith Lia ZArith Reals Lra.
From Verif Require Import Num NumLaws Py RList PreModel KernelModel.
Import ListNotations.
Local Open Scope R_scope.

(** ** C56: hyper-parameters across calls *)
(** an estimator just built with kernel="gak" and [kernel_params] whose entry "sigma" is [e] *)
Definition new_gak (d : option (option sigma_value)) : kk_object := {| kk_gak := true; kk_dict := d; kk_sigma := None |}.
Definition only_fits (l : list kk_call) : Prop := forall c, In c l -> exists a, c = CallFit a.
(** sigma as documented: the entry of the dictionary, 1 if missing *)
Definition configured (d : option (option sigma_value)) (x : R) : Prop :=
  d = Some (Some (SigmaNum x)) \/ (x = 1 /\ (d = None \/ d = Some None)).

Lemma refit_invariant d x l : configured d x -> only_fits l ->
  let o := run_calls (new_gak d) l in
  kk_gak o = true /\ (kk_sigma o = None /\ kk_dict o = d \/
    kk_sigma o = Some (SigmaNum x) /\ (kk_dict o = None /\ d = None \/ kk_dict o = Some (Some (SigmaNum x)) /\ d <> None)).
Proof.
  intros Hd. revert l. apply (rev_ind (fun l => only_fits l -> let o := run_calls (new_gak d) l in
    kk_gak o = true /\ (kk_sigma o = None /\ kk_dict o = d \/
    kk_sigma o = Some (SigmaNum x) /\ (kk_dict o = None /\ d = None \/ kk_dict o = Some (Some (SigmaNum x)) /\ d <> None)))).
  - intros _. simpl. auto.
  - intros c l IH Hl. cbn zeta in *. unfold run_calls in *. rewrite fold_left_app. cbn [fold_left].
    destruct (Hl c) as [a ->]; [apply in_or_app; right; simpl; auto|].
    destruct (IH ltac:(intros c Hc; apply Hl, in_or_app; auto)) as [G H]. set (o := fold_left run_call l (new_gak d)) in *.
    destruct o as [g dd s]. cbn in G, H |- *. subst g.
    destruct H as [[-> ->]|[-> [[-> ->]|[-> N]]]].
    + destruct Hd as [->|[-> [->| ->]]]; cbn; auto 6. split; auto. right. split; auto. right. split; auto. discriminate.
      split; auto. right. split; auto. right. split; auto. discriminate.
    + cbn. auto 6.
    + cbn. auto 6.
Qed.
(** With a numeric sigma, or none, the value used by a later [fit] is the configured
    one whatever was fitted before. *)
Theorem C56_refit_partial d x l auto : configured d x -> only_fits l ->
  snd (fit_sigma auto (run_calls (new_gak d) l)) = Ok (Some (SigmaNum x)) /\
  snd (fit_sigma auto (new_gak d)) = Ok (Some (SigmaNum x)) /\
  (d = Some (Some (SigmaNum x)) -> kk_dict (run_calls (new_gak d) l) = d).
Proof.
  intros Hd Hl. destruct (refit_invariant d x l Hd Hl) as [G H]. cbn zeta in *. set (o := run_calls (new_gak d) l) in *.
  destruct o as [g dd s]. cbn in G, H |- *. subst g.
  split; [|split].
  - destruct H as [[-> ->]|[-> H]]; [destruct Hd as [->|[-> [->| ->]]]; reflexivity|].
    destruct H as [[-> _]|[-> _]]; reflexivity.
  - destruct Hd as [->|[-> [->| ->]]]; reflexivity.
  - intros ->. destruct H as [[_ ->]|[_ [[_ H]|[-> _]]]]; congruence.
Qed.
Print Assumptions C56_refit_partial.

(** ** sigma_gak *)
(** the same dataset with every value [x] replaced by [c * x + b] (NaN padding kept) *)
Definition affine (c b : R) (ds : list (list (list xr))) : list (list (list xr)) :=
  map (map (map (fun v => match v with XR x => XR (c * x + b) | v => v end))) ds.
Lemma finite_row_affine c b r :
  finite_row (map (fun v => match v with XR x => XR (c * x + b) | v => v end) r) =
  match finite_row r with Some v => Some (map (fun x => c * x + b) v) | None => None end.
Proof. induction r as [|x r IH]; auto. destruct x; simpl; auto. rewrite IH. destruct (finite_row r); auto. Qed.
Lemma finite_points_affine c b ds : finite_points (affine c b ds) = map (map (fun x => c * x + b)) (finite_points ds).
Proof.
  unfold finite_points, affine. rewrite <- concat_map. generalize (concat ds). intros l. induction l as [|r l IH]; auto.
  cbn [map flat_map]. rewrite finite_row_affine, map_app, IH. f_equal. destruct (finite_row r); auto.
Qed.
Lemma euclid_pts_affine c b p q : euclid_pts (map (fun x => c * x + b) p) (map (fun x => c * x + b) q) = Rabs c * euclid_pts p q.
Proof.
  unfold euclid_pts. rewrite <- sqrt_Rsqr_abs, <- sqrt_mult_alt by apply Rle_0_sqr. f_equal.
  revert q. induction p as [|x p IH]; intros [|y q]; simpl; try (unfold rsum; simpl; lra).
  unfold rsum in *. simpl. rewrite IH. unfold Rsqr. ring.
Qed.
Lemma pdist_affine c b l : pdist (map (map (fun x => c * x + b)) l) = map (Rmult (Rabs c)) (pdist l).
Proof.
  induction l as [|a l IH]; auto. cbn [map pdist]. rewrite map_app, IH. f_equal. rewrite !map_map. apply map_ext. intros q. apply euclid_pts_affine.
Qed.
Lemma insert_scale a x l : 0 < a -> insert_r (a * x) (map (Rmult a) l) = map (Rmult a) (insert_r x l).
Proof.
  intros Ha. induction l as [|y l IH]; auto. cbn [map insert_r].
  assert (E : Rltb (a * y) (a * x) = Rltb y x).
  { destruct (Rltb y x) eqn:E. - apply Rltb_true in E. apply Rltb_true. apply Rmult_lt_compat_l; auto.
    - apply Rltb_false in E. apply Rltb_false. apply Rmult_le_compat_l; lra. }
  rewrite E. destruct (Rltb y x); cbn [map]; auto. rewrite IH. auto.
Qed.
Lemma sort_scale a l : 0 < a -> sort_r (map (Rmult a) l) = map (Rmult a) (sort_r l).
Proof. intros Ha. induction l as [|x l IH]; auto. cbn [map sort_r]. rewrite IH. apply insert_scale. auto. Qed.
Lemma nth_scale a l k : nth k (map (Rmult a) l) 0 = a * nth k l 0.
Proof. rewrite <- (map_nth (Rmult a)). rewrite Rmult_0_r. reflexivity. Qed.
Lemma median_scale a l : 0 < a -> median (map (Rmult a) l) = a * median l.
Proof. intros Ha. unfold median. rewrite sort_scale, map_length, !nth_scale by auto. lra. Qed.

(** [sigma_gak] follows the scale of the data and ignores its offset. *)
Theorem C88_affine ds idx s c b : sigma_gak ds idx = Ok s -> c <> 0 ->
  (forall i, In i idx -> (i < length (finite_points ds))%nat) ->
  sigma_gak (affine c b ds) idx = Ok (Rabs c * s).
Proof.
  intros H Hc Hi. unfold sigma_gak in *. rewrite finite_points_affine.
  assert (SZ : match affine c b ds with s :: _ => length s | [] => 0%nat end = match ds with s :: _ => length s | [] => 0%nat end).
  { destruct ds; auto. unfold affine. cbn [map]. apply map_length. }
  rewrite SZ. destruct (finite_points ds) as [|p0 pts] eqn:E; [discriminate|]. cbn [map]. injection H as <-. f_equal.
  set (l := p0 :: pts) in *. change (map (fun x => c * x + b) p0 :: map (map (fun y => c * y + b)) pts) with (map (map (fun x => c * x + b)) l).
  replace (map (fun i => nth i (map (map (fun x => c * x + b)) l) []) idx) with (map (map (fun x => c * x + b)) (map (fun i => nth i l []) idx)).
  - rewrite pdist_affine, median_scale by (apply Rabs_pos_lt; auto). rewrite Rmult_assoc. reflexivity.
  - rewrite map_map. apply map_ext. intros i. exact (eq_sym (map_nth (map (fun x => c * x + b)) l [] i)).
Qed.
Print Assumptions C88_affine.

Lemma insert_in x y l : In y (insert_r x l) <-> y = x \/ In y l.
Proof. induction l as [|z l IH]; simpl; [intuition auto|]. destruct (Rltb z x); simpl; rewrite ?IH; intuition auto. Qed.
Lemma insert_length x l : length (insert_r x l) = S (length l).
Proof. induction l as [|z l IH]; simpl; auto. destruct (Rltb z x); simpl; auto. Qed.
Lemma sort_in y l : In y (sort_r l) <-> In y l.
Proof. induction l as [|x l IH]; simpl; [tauto|]. rewrite insert_in, IH. intuition auto. Qed.
Lemma sort_length l : length (sort_r l) = length l.
Proof. induction l as [|x l IH]; simpl; auto. rewrite insert_length, IH. auto. Qed.
Lemma median_pos l : l <> [] -> (forall x, In x l -> 0 < x) -> 0 < median l.
Proof.
  intros Hl H. assert (L : (0 < length l)%nat) by (destruct l; [congruence|simpl; lia]).
  assert (P : forall k, (k < length l)%nat -> 0 < nth k (sort_r l) 0).
  { intros k Hk. apply H, sort_in, nth_In. rewrite sort_length. auto. }
  unfold median. pose proof (P ((length l - 1) / 2)%nat ltac:(apply Nat.div_lt_upper_bound; lia)). 
  pose proof (P (length l / 2)%nat ltac:(apply Nat.div_lt_upper_bound; lia)). lra.
Qed.
(** [sigma_gak] is
    positive when the drawn points are pairwise different. *)
Theorem C88_positive ds idx s : sigma_gak ds idx = Ok s -> (2 <= length idx)%nat ->
  (match ds with x :: _ => (0 < length x)%nat | [] => False end) ->
  (forall i j, (i < j < length idx)%nat ->
     exists k, nth k (nth (nth i idx 0%nat) (finite_points ds) []) 0 <> nth k (nth (nth j idx 0%nat) (finite_points ds) []) 0 /\
       (k < length (nth (nth i idx 0%nat) (finite_points ds) []))%nat /\ (k < length (nth (nth j idx 0%nat) (finite_points ds) []))%nat) ->
  0 < s.
Proof.
  intros H Hi Hds Hd. unfold sigma_gak in H. destruct (finite_points ds) as [|p0 pts] eqn:E; [discriminate|]. set (l := p0 :: pts) in *.
  assert (S0 : 0 < sqrt (INR (match ds with s :: _ => length s | [] => 0%nat end))).
  { apply sqrt_lt_R0, lt_0_INR. destruct ds; [contradiction|auto]. }
  injection H as <-. apply Rmult_lt_0_compat; auto. clear S0 Hds E.
  assert (P : forall idx, (forall i j, (i < j < length idx)%nat ->
     exists k, nth k (nth (nth i idx 0%nat) l []) 0 <> nth k (nth (nth j idx 0%nat) l []) 0 /\
       (k < length (nth (nth i idx 0%nat) l []))%nat /\ (k < length (nth (nth j idx 0%nat) l []))%nat) ->
     forall x, In x (pdist (map (fun i => nth i l []) idx)) -> 0 < x).
  { clear. induction idx as [|i idx IH]; intros Hd x Hx; [destruct Hx|]. cbn [map pdist] in Hx. apply in_app_or in Hx. destruct Hx as [Hx|Hx].
    - rewrite map_map in Hx. apply in_map_iff in Hx. destruct Hx as (j & <- & Hj). apply (In_nth _ _ 0%nat) in Hj. destruct Hj as (m & Hm & Em).
      destruct (Hd 0%nat (S m) ltac:(simpl; lia)) as (k & Hk & Hk1 & Hk2). cbn [nth] in Hk, Hk1, Hk2. rewrite Em in *. clear -Hk Hk1 Hk2.
      revert Hk Hk1 Hk2. generalize (nth i l []) as p, (nth j l []) as q. intros p q Hk Hk1 Hk2. unfold euclid_pts. apply sqrt_lt_R0.
      revert q k Hk Hk1 Hk2. induction p as [|x p IH]; intros q k Hk Hk1 Hk2; [simpl in Hk1; lia|]. destruct q as [|y q]; [simpl in Hk2; lia|].
      assert (Q : forall p q, 0 <= rsum (map (fun p : R * R => (fst p - snd p) * (fst p - snd p)) (combine p q))).
      { intros. apply rsum_nonneg. intros z Hz. apply in_map_iff in Hz. destruct Hz as (pr & <- & _). apply Rle_0_sqr. }
      cbn [combine map].
      match goal with |- 0 < rsum (?a :: ?m) => change (0 < a + rsum m) end. cbn [fst snd].
      destruct k as [|k].
      + cbn [nth] in Hk. assert (0 < (x - y) * (x - y)) by (apply Rsqr_pos_lt; lra). pose proof (Q p q). lra.
      + cbn [nth length] in *. pose proof (IH q k Hk ltac:(lia) ltac:(lia)). pose proof (Rle_0_sqr (x - y)). unfold Rsqr in *. lra.
    - apply IH in Hx; auto. intros a b Hab. apply (Hd (S a) (S b)). simpl. lia. }
  apply median_pos; [|apply P; auto].
  destruct idx as [|i [|j idx]]; [simpl in Hi; lia|simpl in Hi; lia|]. discriminate.
Qed.
Print Assumptions C88_positive.

(** a training set of one series of 100 different values, all of them drawn *)
Definition ramp : list (list (list xr)) := [map (fun k => [XR (INR k)]) (seq 0 100)].
Lemma ramp_points : finite_points ramp = map (fun k => [INR k]) (seq 0 100).
Proof.
  unfold finite_points, ramp. cbn [concat]. rewrite app_nil_r. generalize (seq 0 100). intros l. induction l as [|k l IH]; auto.
  cbn [map flat_map finite_row]. rewrite IH. reflexivity.
Qed.
Lemma ramp_sigma : exists s, sigma_gak ramp (seq 0 100) = Ok s /\ 0 < s.
Proof.
  destruct (sigma_gak ramp (seq 0 100)) as [s|e] eqn:E.
  - exists s. split; auto. apply (C88_positive ramp (seq 0 100) s E); [rewrite seq_length; lia|unfold ramp; rewrite map_length, seq_length; lia|].
    rewrite seq_length. intros i j Hij. exists 0%nat. rewrite ramp_points, !seq_nth by lia.
    assert (N : forall m, (m < 100)%nat -> nth (0 + m) (map (fun k => [INR k]) (seq 0 100)) [] = [INR m]).
    { intros m Hm. rewrite (nth_indep _ [] [INR 0]) by (rewrite map_length, seq_length; lia). 
      rewrite (map_nth (fun k => [INR k])), seq_nth by lia. reflexivity. }
    rewrite !N by lia. cbn [nth length]. split; [|lia]. intros H. apply INR_eq in H. lia.
  - exfalso. unfold sigma_gak in E. rewrite ramp_points in E. discriminate.
Qed.
(** Fitting with sigma="auto" on a training set, then on the same one scaled by 2: the second fit should use
    twice the sigma, it uses that of the first; and the user's dictionary no longer says "auto". *)
Theorem C56_auto_refuted : exists X1 X2 idx s, 0 < s /\
  sigma_gak X1 idx = Ok s /\ sigma_gak X2 idx = Ok (2 * s) /\
  let fresh := new_gak (Some (Some SigmaAuto)) in
  let once := fst (fit_sigma (sigma_gak X1 idx) fresh) in
  snd (fit_sigma (sigma_gak X2 idx) fresh) = Ok (Some (SigmaNum (2 * s))) /\
  snd (fit_sigma (sigma_gak X2 idx) once) = Ok (Some (SigmaNum s)) /\
  kk_dict fresh = Some (Some SigmaAuto) /\ kk_dict once = Some (Some (SigmaNum s)).
Proof.
  destruct ramp_sigma as (s & E & Hs). exists ramp, (affine 2 0 ramp), (seq 0 100), s. split; auto.
  assert (E2 : sigma_gak (affine 2 0 ramp) (seq 0 100) = Ok (2 * s)).
  { replace (2 * s) with (Rabs 2 * s) by (rewrite Rabs_pos_eq; lra). apply C88_affine; [exact E|lra|].
    intros i Hi. apply in_seq in Hi. rewrite ramp_points, map_length, seq_length. lia. }
  rewrite E, E2. repeat split.
Qed.
Print Assumptions C56_auto_refuted.
(** A dictionary without "sigma" is given one by [fit]. *)
Theorem C56_dict_refuted auto : let o := new_gak (Some None) in
  snd (fit_sigma auto o) = Ok (Some (SigmaNum 1)) /\ kk_dict (fst (fit_sigma auto o)) = Some (Some (SigmaNum 1)).
Proof. split; reflexivity. Qed.
Print Assumptions C56_dict_refuted.
(** After a fit with another kernel, switching to "gak" loses the configured sigma: None is used instead. *)
Theorem C56_kernel_refuted x auto1 auto2 :
  let o := {| kk_gak := false; kk_dict := Some (Some (SigmaNum x)); kk_sigma := None |} in
  snd (fit_sigma auto2 (run_calls o [CallKernel true])) = Ok (Some (SigmaNum x)) /\
  snd (fit_sigma auto2 (run_calls o [CallFit auto1; CallKernel true])) = Ok (Some SigmaNone).
Proof. split; reflexivity. Qed.
Print Assumptions C56_kernel_refuted.

(** C120-C123: forecasting errors. *)
From Coq Require Import Bool List Arith Lia ZArith QArith Reals Lra.
From Verif Require Import Num NumLaws Py Series Masks DtwModel Dataset Spec SpecDtw DpProofs DtwProofs DtwThms
  LimitedThms MaskThms RList PathSum RealSeries PaaModel PaaThms CdistThms PropCtw PreModel PropScale PropResample
  GakModel SoftModel BaryModel BaryThms BaryReal PropBary CastModel SoftBaryModel PropSoft PropSoftBary PropSoftBary2 PerfModel.
Import ListNotations.
Local Open Scope R_scope.

(** ** specification vocabulary *)
(** a dataset of [n] series of [sz] steps with [d] features *)
Definition shaped (n sz d : nat) (xs : list (list (list R))) : Prop :=
  length xs = n /\ forall x, In x xs -> length x = sz /\ forall r, In r x -> length r = d.
Definition at_ (xs : list (list (list R))) (i t k : nat) : R := entry (nth i xs []) t k.
Definition given (xs : list (list (list R))) : list (raw Xnum) := map (fun x => Raw2 (lift x)) xs.
(** weights, if given, are one per item and do not sum to 0 *)
Definition fine_weights (n : nat) (w : option (list R)) : Prop :=
  match w with Some w => length w = n /\ rsum w <> 0 | None => True end.
(** weighted mean, over series and time steps, of the errors of feature [k] *)
Definition feature_error (e : R -> R -> R) (n sz : nat) (W V : list R) (T P : list (list (list R))) (k : nat) : R :=
  rsum (map (fun i => rsum (map (fun t => nth i W 0 * nth t V 0 * e (at_ T i t k) (at_ P i t k)) (seq 0 sz))) (seq 0 n))
  / (rsum W * rsum V).

(** ** lemmas *)
Lemma to_dataset_given n sz d xs : (0 < sz)%nat -> (0 < d)%nat -> shaped n sz d xs -> xs <> [] -> to_dataset (given xs) = Ok (map lift xs).
Proof.
  intros Hs Hd (Ln & Hx) Hne.
  assert (HR : forall x, In x xs -> real_series d x).
  { intros x Hi. destruct (Hx x Hi) as [L H]. split; [auto|split; [|exact H]]. intros ->. simpl in L. lia. }
  assert (EL : forall M, (M <= sz)%nat -> map lift xs = padded d M xs).
  { intros M HM. unfold padded. apply map_ext_in. intros x Hi. unfold pad_to. destruct (Hx x Hi) as [-> _].
    replace (M - sz)%nat with 0%nat by lia. simpl. symmetry. apply app_nil_r. }
  pose proof (variable_length_padded d 0 xs HR) as EV. unfold variable_length in EV. unfold given.
  assert (ER : map (fun x => Raw2 (lift x)) xs = map (Raw2 (N:=Xnum)) (padded d 0 xs)) by (rewrite <- EL by lia; rewrite map_map; reflexivity).
  rewrite ER, EV. f_equal. symmetry. apply EL.
  clear - Hx. induction xs as [|x xs IH]; simpl; [lia|]. destruct (Hx x (or_introl eq_refl)) as [-> _].
  specialize (IH (fun y H => Hx y (or_intror H))). lia.
Qed.
Lemma shaped_tab n sz d xs x : shaped n sz d xs -> In x xs -> x = tab sz d (entry x).
Proof.
  intros (_ & H) Hi. destruct (H x Hi) as [L Hr]. clear H Hi. subst sz. unfold tab.
  apply nth_ext with (d := []) (d' := []); [rewrite map_length, seq_length; auto|]. intros i Hi. rewrite nth_map_seq by auto.
  assert (Lr : length (nth i x []) = d) by (apply Hr, nth_In; auto).
  apply nth_ext with (d := 0) (d' := 0); [rewrite map_length, seq_length; auto|]. intros k Hk. rewrite nth_map_seq by lia. reflexivity.
Qed.
Lemma tab_S sz d f : tab (S sz) d f = tab sz d f ++ [map (fun k => f sz k) (seq 0 d)].
Proof. unfold tab. rewrite seq_S, map_app. reflexivity. Qed.
Lemma flat_tab sz d h : (0 < d)%nat -> map (fun c => h (c / d)%nat (c mod d)%nat) (seq 0 (sz * d)) = concat (tab sz d h).
Proof.
  intros Hd. induction sz as [|sz IH]; [reflexivity|].
  rewrite tab_S, concat_app, <- IH. replace (S sz * d)%nat with (sz * d + d)%nat by lia. rewrite seq_app, map_app. f_equal.
  simpl. rewrite app_nil_r. clear IH.
  transitivity (map (fun c => h (c / d)%nat (c mod d)%nat) (map (fun k => (sz * d + k)%nat) (seq 0 d))).
  - f_equal. clear. generalize (sz * d)%nat. intros a. replace (seq a d) with (seq (a + 0) d) by (f_equal; lia).
    generalize 0%nat. induction d as [|d IH]; intros b; simpl; auto. f_equal. replace (S (a + b)) with (a + S b)%nat by lia. apply IH.
  - rewrite map_map. apply map_ext_in. intros k Hk. apply in_seq in Hk. f_equal.
    + rewrite Nat.div_add_l by lia. rewrite Nat.div_small by lia. lia.
    + rewrite Nat.add_comm, Nat.mod_add by lia. apply Nat.mod_small. lia.
Qed.
Lemma tab_flat_length sz d h : (0 < d)%nat -> length (concat (tab sz d h)) = (sz * d)%nat.
Proof. intros Hd. rewrite <- flat_tab by auto. rewrite map_length, seq_length. reflexivity. Qed.
Lemma tab_flat_nth sz d h c x : (0 < d)%nat -> (c < sz * d)%nat -> nth c (concat (tab sz d h)) x = h (c / d)%nat (c mod d)%nat.
Proof. intros Hd Hc. rewrite <- flat_tab by auto. rewrite nth_map_seq; auto. Qed.
Lemma combine_flat (e : xr -> xr -> xr) (e' : R -> R -> R) sz d f g : (0 < d)%nat -> (forall a b, e (XR a) (XR b) = XR (e' a b)) ->
  map (fun q => e (fst q) (snd q)) (combine (concat (lift (tab sz d f))) (concat (lift (tab sz d g)))) =
  concat (lift (tab sz d (fun t k => e' (f t k) (g t k)))).
Proof.
  intros Hd He. rewrite !concat_lift, <- !flat_tab by auto. rewrite !map_map, combine_map_seq. rewrite <- map_map with (g := XR).
  rewrite map_map. apply map_ext. intros c. apply He.
Qed.
Lemma chunks_flat {A} n m (rows : A -> list xr) l : (0 < m)%nat -> length l = n -> (forall x, In x l -> length (rows x) = m) ->
  length (concat (map rows l)) = (n * m)%nat /\ chunks n m (concat (map rows l)) = map rows l.
Proof.
  intros Hm Hn Hr. assert (Hr' : forall r, In r (map rows l) -> length r = m).
  { intros r H. apply in_map_iff in H. destruct H as (x & <- & Hx). auto. }
  split; [rewrite (concat_len m) by auto; rewrite map_length; lia|].
  apply chunks_concat; auto. rewrite map_length. lia.
Qed.
Lemma finite_lift xs : forallb (forallb finite) (map (fun x => concat (lift x)) xs) = true.
Proof.
  apply forallb_forall. intros r H. apply in_map_iff in H. destruct H as (x & <- & _). apply forallb_forall. intros v Hv.
  rewrite concat_lift in Hv. apply in_map_iff in Hv. destruct Hv as (y & <- & _). reflexivity.
Qed.
Lemma reshape_given n sz d xs : (0 < sz)%nat -> (0 < d)%nat -> shaped n sz d xs ->
  reshape2 n (sz * d) (map lift xs) = Ok (map (fun x => concat (lift x)) xs).
Proof.
  intros Hs Hd HS. unfold reshape2.
  assert (HL : forall x, In x xs -> length (concat (lift x)) = (sz * d)%nat).
  { intros x Hi. rewrite concat_lift, map_length, (shaped_tab n sz d xs x HS Hi), tab_flat_length; auto. }
  destruct (chunks_flat n (sz * d) (fun x => concat (lift x)) xs ltac:(lia) (proj1 HS) HL) as [E1 E2].
  assert (EM : map (@concat xr) (map lift xs) = map (fun x => concat (lift x)) xs) by apply map_map.
  cbv zeta. change (carrier Xnum) with xr in *. rewrite EM, E1, Nat.eqb_refl, E2. reflexivity.
Qed.
Lemma combine_seq {A B} (l : list A) (m : list B) a b : length l = length m ->
  combine l m = map (fun i => (nth i l a, nth i m b)) (seq 0 (length l)).
Proof.
  revert m. induction l as [|x l IH]; intros [|y m] H; simpl in *; try discriminate; auto. injection H as H. f_equal.
  rewrite <- seq_shift, map_map. apply IH. auto.
Qed.
Lemma list_seq {A} (l : list A) a : l = map (fun i => nth i l a) (seq 0 (length l)).
Proof.
  induction l as [|x l IH]; simpl; auto. f_equal. rewrite <- seq_shift, map_map. exact IH.
Qed.
Lemma rsum_ones n : rsum (repeat 1 n) = INR n.
Proof. induction n as [|n IH]; [reflexivity|]. cbn [repeat]. rewrite S_INR. simpl rsum. rewrite IH. lra. Qed.
Lemma nth_ones n i : (i < n)%nat -> nth i (repeat 1 n) 0 = 1.
Proof. revert i. induction n; intros [|i] H; simpl; try lia; auto. apply IHn. lia. Qed.
Lemma fine_sum n w : (0 < n)%nat -> fine_weights n w -> length (weights_in_force w n) = n /\ rsum (weights_in_force w n) <> 0.
Proof.
  intros Hn H. destruct w as [w|]; simpl in *; auto. rewrite repeat_length, rsum_ones. split; auto. apply not_0_INR. lia.
Qed.
(** np.average with or without weights *)
Lemma average_tab n sz d (F : nat -> nat -> nat -> R) w : (0 < n)%nat -> (0 < d)%nat -> fine_weights n w ->
  average (sz * d) (map (fun i => concat (lift (tab sz d (F i)))) (seq 0 n)) (option_map (map XR) w) =
  Ok (concat (lift (tab sz d (fun t k => rsum (map (fun i => nth i (weights_in_force w n) 0 * F i t k) (seq 0 n)) / rsum (weights_in_force w n))))).
Proof.
  intros Hn Hd Hw.
  assert (EN : forall c, (c < sz * d)%nat -> forall i, nth c (concat (lift (tab sz d (F i)))) XNaN = XR (F i (c / d)%nat (c mod d)%nat)).
  { intros c Hc i. rewrite concat_lift. rewrite (nth_indep _ XNaN (XR 0)) by (rewrite map_length, tab_flat_length; auto).
    rewrite (map_nth XR). rewrite tab_flat_nth by auto. reflexivity. }
  rewrite concat_lift, <- flat_tab by auto. rewrite map_map. unfold average. destruct w as [w|].
  - destruct Hw as [Lw Sw]. cbn [option_map weights_in_force]. rewrite !map_length, seq_length, Lw, Nat.eqb_refl. cbn [negb].
    rewrite xsum_reals. unfold is_xzero, is_zero. destruct (Req_EM_T (rsum w) 0); [contradiction|].
    cbn [orb]. apply (f_equal (@Ok (list xr))). apply map_ext_in. intros c Hc. apply in_seq in Hc.
    rewrite (list_seq w 0), Lw at 1. rewrite map_map, combine_map_seq. cbn [fst snd].
    rewrite (map_ext_in _ (fun i => XR (nth i w 0 * F i (c / d)%nat (c mod d)%nat))).
    + rewrite <- map_map, xsum_reals. apply xdiv_real. auto.
    + intros i _. rewrite EN by lia. simpl. f_equal. ring.
  - cbn [option_map weights_in_force]. apply (f_equal (@Ok (list xr))). apply map_ext_in. intros c Hc. apply in_seq in Hc. rewrite map_map.
    rewrite (map_ext_in _ (fun i => XR (F i (c / d)%nat (c mod d)%nat))) by (intros; apply EN; lia).
    rewrite <- map_map, xmean_reals by (destruct n; [lia|discriminate]). rewrite map_length, seq_length, rsum_ones. f_equal. f_equal.
    apply rsum_map_ext. intros i Hi. apply in_seq in Hi. rewrite nth_ones by lia. ring.
Qed.
(** mean over time steps with or without weights *)
Lemma time_mean sz d (H : nat -> nat -> R) v : (0 < sz)%nat -> fine_weights sz v ->
  match option_map (map XR) v with
  | Some v => weighted_rows d v (lift (tab sz d H))
  | None => Ok (map (fun k => xmean (map (fun r => nth k r XNaN) (lift (tab sz d H)))) (seq 0 d))
  end = Ok (map (fun k => XR (rsum (map (fun t => nth t (weights_in_force v sz) 0 * H t k) (seq 0 sz)) / rsum (weights_in_force v sz))) (seq 0 d)).
Proof.
  intros Hs Hv.
  assert (EN : forall t k, (k < d)%nat -> nth k (map XR (map (fun k => H t k) (seq 0 d))) XNaN = XR (H t k)).
  { intros t k Hk. rewrite map_map, nth_map_seq; auto. }
  destruct v as [v|]; cbn [option_map weights_in_force].
  - destruct Hv as [Lv Sv]. unfold weighted_rows. rewrite map_length, lift_length, tab_length, Lv, Nat.eqb_refl.
    apply (f_equal (@Ok (list xr))). apply map_ext_in. intros k Hk. apply in_seq in Hk. rewrite xsum_reals.
    rewrite (list_seq v 0), Lv at 1. unfold lift, tab. rewrite !map_map, combine_map_seq. cbn [fst snd].
    rewrite (map_ext_in _ (fun t => XR (nth t v 0 * H t k))).
    + rewrite <- map_map with (g := XR), xsum_reals. apply xdiv_real. auto.
    + intros t _. rewrite EN by lia. reflexivity.
  - apply (f_equal (@Ok (list xr))). apply map_ext_in. intros k Hk. apply in_seq in Hk. unfold lift, tab. rewrite !map_map.
    rewrite (map_ext_in _ (fun t => XR (H t k))) by (intros; apply EN; lia).
    rewrite <- map_map with (g := XR), xmean_reals by (destruct sz; [lia|discriminate]). rewrite map_length, seq_length, rsum_ones. f_equal. f_equal.
    apply rsum_map_ext. intros i Hi. apply in_seq in Hi. rewrite nth_ones by lia. ring.
Qed.
Lemma rsum_div {A} (f : A -> R) c l : rsum (map (fun x => f x / c) l) = rsum (map f l) / c.
Proof. induction l; simpl; [unfold Rdiv; ring|]. rewrite IHl. unfold Rdiv. ring. Qed.
Lemma map_at {B} (g : list (list R) -> B) xs : map g xs = map (fun i => g (nth i xs [])) (seq 0 (length xs)).
Proof. rewrite (list_seq xs []) at 1. rewrite map_map. reflexivity. Qed.
Lemma shaped_nth n sz d xs i : shaped n sz d xs -> (i < n)%nat -> nth i xs [] = tab sz d (at_ xs i).
Proof. intros H Hi. unfold at_. apply (shaped_tab n sz d xs); auto. apply nth_In. destruct H as [-> _]. auto. Qed.

(** the errors per feature *)
Lemma feature_errors (err : xr -> xr -> xr) (e : R -> R -> R) n sz d T P w v mo :
  (forall a b, err (XR a) (XR b) = XR (e a b)) ->
  (0 < n)%nat -> (0 < sz)%nat -> (0 < d)%nat -> shaped n sz d T -> shaped n sz d P -> fine_weights n w -> fine_weights sz v ->
  forecast_error err (given T) (given P) (option_map (map XR) w) (option_map (map XR) v) mo =
  let E := map (fun k => XR (feature_error e n sz (weights_in_force w n) (weights_in_force v sz) T P k)) (seq 0 d) in
  match mo with
  | UniformAverage => Ok (Number (xmean E))
  | RawValues | OtherString => Ok (PerFeature E)
  | FeatureWeights u => bind (weighted_entries u E) (fun x => Ok (Number x))
  end.
Proof.
  intros He Hn Hs Hd HT HP Hw Hv. unfold forecast_error.
  assert (NT : T <> []) by (intros ->; destruct HT as [L _]; simpl in L; lia).
  assert (NP : P <> []) by (intros ->; destruct HP as [L _]; simpl in L; lia).
  rewrite (to_dataset_given n sz d T), (to_dataset_given n sz d P) by auto. cbn [bind]. cbv zeta.
  assert (E0 : In (hd [] T) T) by (destruct T; [contradiction|left; reflexivity]).
  assert (EH : hd [] (map lift T) = lift (hd [] T)) by (destruct T; reflexivity).
  assert (En : length (map lift T) = n) by (rewrite map_length; apply HT).
  assert (Es : arr_sz (map lift T) = sz).
  { unfold arr_sz. etransitivity; [exact (f_equal (@length _) EH)|]. rewrite lift_length. apply (proj2 HT); auto. }
  assert (Ed : arr_d (map lift T) = d).
  { unfold arr_d. etransitivity; [exact (f_equal (@ncols Xnum) EH)|]. destruct (proj2 HT _ E0) as [L Lr].
    destruct (hd [] T) as [|r x]; [simpl in L; lia|]. simpl. etransitivity; [exact (map_length XR r)|]. apply Lr. left. reflexivity. }
  rewrite En, Es, Ed, (reshape_given n sz d T), (reshape_given n sz d P) by auto. cbn [bind].
  unfold sk_errors. rewrite !finite_lift, map_length, (proj1 HT).
  replace (n =? 0)%nat with false by (symmetry; apply Nat.eqb_neq; lia).
  replace (sz * d =? 0)%nat with false by (symmetry; apply Nat.eqb_neq; nia). cbn [orb negb].
  rewrite (map_at (fun x => concat (lift x)) T), (map_at (fun x => concat (lift x)) P), (proj1 HT), (proj1 HP), combine_map_seq. cbn [fst snd].
  rewrite (map_ext_in _ (fun i => concat (lift (tab sz d (fun t k => e (at_ T i t k) (at_ P i t k)))))).
  2: { intros i Hi. apply in_seq in Hi. cbn [fst snd]. rewrite (shaped_nth n sz d T i), (shaped_nth n sz d P i) by (auto; lia).
       apply combine_flat; auto. }
  rewrite (average_tab n sz d (fun i t k => e (at_ T i t k) (at_ P i t k)) w) by auto. cbn [bind].
  set (H := fun t k => rsum (map (fun i => nth i (weights_in_force w n) 0 * e (at_ T i t k) (at_ P i t k)) (seq 0 n)) / rsum (weights_in_force w n)).
  assert (EC : chunks sz d (concat (lift (tab sz d H))) = lift (tab sz d H)).
  { apply chunks_concat; auto.
    - intros r Hr. unfold lift, tab in Hr. rewrite map_map in Hr. apply in_map_iff in Hr. destruct Hr as (t & <- & _).
      rewrite !map_length, seq_length. reflexivity.
    - rewrite lift_length, tab_length. lia. }
  rewrite EC, (time_mean sz d H v) by auto. cbn [bind].
  assert (EE : map (fun k => XR (rsum (map (fun t => nth t (weights_in_force v sz) 0 * H t k) (seq 0 sz)) / rsum (weights_in_force v sz))) (seq 0 d) =
               map (fun k => XR (feature_error e n sz (weights_in_force w n) (weights_in_force v sz) T P k)) (seq 0 d)).
  { apply map_ext_in. intros k _. f_equal. unfold feature_error, H.
    destruct (fine_sum n w Hn Hw) as [_ S1]. destruct (fine_sum sz v Hs Hv) as [_ S2].
    rewrite rsum_swap.
    rewrite (rsum_map_ext _ (fun t => rsum (map (fun i => nth i (weights_in_force w n) 0 * nth t (weights_in_force v sz) 0 * e (at_ T i t k) (at_ P i t k)) (seq 0 n)) / rsum (weights_in_force w n))).
    - rewrite rsum_div. field. auto.
    - intros t _. unfold Rdiv. rewrite <- Rmult_assoc. f_equal. rewrite <- rsum_map_scal. apply rsum_map_ext. intros. ring. }
  rewrite EE. destruct mo; reflexivity.
Qed.

(** what the caller gets from per-feature errors [F] *)
Definition aggregated (d : nat) (F : nat -> R) (mo : multioutput) (out : score) : Prop :=
  match mo with
  | UniformAverage => out = Number (XR (rsum (map F (seq 0 d)) / INR d))
  | RawValues => out = PerFeature (map (fun k => XR (F k)) (seq 0 d))
  | FeatureWeights u => forall u', u = map XR u' -> length u' = d -> rsum u' <> 0 ->
      out = Number (XR (rsum (map (fun k => nth k u' 0 * F k) (seq 0 d)) / rsum u'))
  | OtherString => True
  end.
Definition usable (d : nat) (mo : multioutput) : Prop :=
  match mo with
  | FeatureWeights u => exists u', u = map XR u' /\ length u' = d /\ rsum u' <> 0
  | OtherString => False
  | _ => True
  end.
Lemma weighted_real (u : list R) d (F : nat -> R) : length u = d -> rsum u <> 0 ->
  weighted_entries (map XR u) (map (fun k => XR (F k)) (seq 0 d)) = Ok (XR (rsum (map (fun k => nth k u 0 * F k) (seq 0 d)) / rsum u)).
Proof.
  intros Lu Su. unfold weighted_entries. rewrite !map_length, seq_length, Lu, Nat.eqb_refl. f_equal. rewrite xsum_reals.
  rewrite (list_seq u 0), Lu at 1. rewrite map_map, combine_map_seq. cbn [fst snd]. 
  rewrite (map_ext _ (fun k => XR (nth k u 0 * F k))) by reflexivity.
  rewrite <- map_map with (g := XR), xsum_reals. apply xdiv_real. auto.
Qed.
Lemma mean_real d (F : nat -> R) : (0 < d)%nat -> xmean (map (fun k => XR (F k)) (seq 0 d)) = XR (rsum (map F (seq 0 d)) / INR d).
Proof.
  intros Hd. rewrite <- map_map with (g := XR), xmean_reals by (destruct d; [lia|discriminate]). rewrite map_length, seq_length. reflexivity.
Qed.
Lemma map_XR_inj u v : map XR u = map XR v -> u = v.
Proof. revert v. induction u as [|a u IH]; intros [|b v] H; simpl in H; try discriminate; auto. injection H as -> H. f_equal. auto. Qed.
Lemma error_value (err : xr -> xr -> xr) (e : R -> R -> R) n sz d T P w v mo :
  (forall a b, err (XR a) (XR b) = XR (e a b)) ->
  (0 < n)%nat -> (0 < sz)%nat -> (0 < d)%nat -> shaped n sz d T -> shaped n sz d P -> fine_weights n w -> fine_weights sz v -> usable d mo ->
  exists out, forecast_error err (given T) (given P) (option_map (map XR) w) (option_map (map XR) v) mo = Ok out /\
    aggregated d (feature_error e n sz (weights_in_force w n) (weights_in_force v sz) T P) mo out.
Proof.
  intros He Hn Hs Hd HT HP Hw Hv Hm. rewrite (feature_errors err e n sz d T P w v mo) by auto. cbv zeta.
  destruct mo as [| | |u]; simpl in Hm.
  - eexists. split; [reflexivity|]. simpl. rewrite mean_real by auto. reflexivity.
  - eexists. split; reflexivity.
  - contradiction.
  - destruct Hm as (u' & -> & Lu & Su). rewrite weighted_real by auto. eexists. split; [reflexivity|].
    intros u2 Eu _ _. assert (E2 : u2 = u') by (apply (map_XR_inj u2 u'); auto). subst u2. reflexivity.
Qed.

(** C120: the mean absolute (squared) error is the weighted average of the absolute
    (squared) differences over series and time steps, then over features. *)
Theorem C120_mae n sz d T P w v mo :
  (0 < n)%nat -> (0 < sz)%nat -> (0 < d)%nat -> shaped n sz d T -> shaped n sz d P -> fine_weights n w -> fine_weights sz v -> usable d mo ->
  exists out, mae (given T) (given P) (option_map (map XR) w) (option_map (map XR) v) mo = Ok out /\
    aggregated d (feature_error (fun a b => Rabs (a - b)) n sz (weights_in_force w n) (weights_in_force v sz) T P) mo out.
Proof. apply error_value. intros a b. unfold abs_err, xsub, xabs. simpl. f_equal. rewrite <- Rabs_Ropp. f_equal. ring. Qed.
Print Assumptions C120_mae.
Theorem C120_mse n sz d T P w v mo :
  (0 < n)%nat -> (0 < sz)%nat -> (0 < d)%nat -> shaped n sz d T -> shaped n sz d P -> fine_weights n w -> fine_weights sz v -> usable d mo ->
  exists out, mse (given T) (given P) (option_map (map XR) w) (option_map (map XR) v) mo = Ok out /\
    aggregated d (feature_error (fun a b => (a - b) * (a - b)) n sz (weights_in_force w n) (weights_in_force v sz) T P) mo out.
Proof. apply error_value. intros a b. reflexivity. Qed.
Print Assumptions C120_mse.
(** a case: two series of two steps with two features, series weights 1 and 3 *)
Example C120_instance :
  let T := [[[1; 2]; [3; 4]]; [[0; 0]; [1; 1]]] in let P := [[[2; 2]; [3; 0]]; [[0; 5]; [1; 1]]] in
  shaped 2 2 2 T /\ shaped 2 2 2 P /\ fine_weights 2 (Some [1; 3]) /\ fine_weights 2 None /\ usable 2 UniformAverage /\
  mae (given T) (given P) (Some (map XR [1; 3])) None RawValues = Ok (PerFeature [XR (1 / 8); XR (19 / 8)]).
Proof.
  intros T P.
  assert (HT : shaped 2 2 2 T) by (split; [reflexivity|]; intros x [<-|[<-|[]]]; split; try reflexivity; intros r [<-|[<-|[]]]; reflexivity).
  assert (HP : shaped 2 2 2 P) by (split; [reflexivity|]; intros x [<-|[<-|[]]]; split; try reflexivity; intros r [<-|[<-|[]]]; reflexivity).
  assert (HW : fine_weights 2 (Some [1; 3])) by (split; [reflexivity|simpl; lra]).
  repeat (split; [assumption || exact I|]).
  destruct (C120_mae 2 2 2 T P (Some [1; 3]) None RawValues ltac:(lia) ltac:(lia) ltac:(lia) HT HP HW I I) as (out & E & ->).
  etransitivity; [exact E|]. unfold feature_error, at_, entry, T, P. simpl.
  repeat match goal with |- context [Rabs ?e] => first
    [ replace (Rabs e) with 0 by (symmetry; replace e with 0 by ring; apply Rabs_R0)
    | replace (Rabs e) with 1 by (symmetry; replace e with (Ropp 1) by ring; rewrite Rabs_Ropp; apply Rabs_pos_eq; lra)
    | replace (Rabs e) with 4 by (symmetry; replace e with 4 by ring; apply Rabs_pos_eq; lra)
    | replace (Rabs e) with 5 by (symmetry; replace e with (Ropp 5) by ring; rewrite Rabs_Ropp; apply Rabs_pos_eq; lra) ] end.
  f_equal. f_equal. f_equal; [|f_equal]; f_equal; field.
Qed.

(** ** C121: shapes *)
Lemma flat_size n sz d xs : (0 < d)%nat -> shaped n sz d xs -> length (concat (map (@concat xr) (map lift xs))) = (n * (sz * d))%nat.
Proof.
  intros Hd HS. rewrite map_map. rewrite (concat_len (sz * d)).
  - rewrite map_length, (proj1 HS). lia.
  - intros r H. apply in_map_iff in H. destruct H as (x & <- & Hi). rewrite concat_lift, map_length, (shaped_tab n sz d xs x HS Hi), tab_flat_length; auto.
Qed.
(** predictions with another total number of values are rejected *)
Theorem C121_partial n sz d n' sz' d' T P w v mo :
  (0 < n)%nat -> (0 < sz)%nat -> (0 < d)%nat -> (0 < n')%nat -> (0 < sz')%nat -> (0 < d')%nat ->
  shaped n sz d T -> shaped n' sz' d' P -> (n * sz * d <> n' * sz' * d')%nat ->
  mae (given T) (given P) w v mo = Err ValueError /\ mse (given T) (given P) w v mo = Err ValueError.
Proof.
  intros Hn Hs Hd Hn' Hs' Hd' HT HP HN.
  enough (G : forall err, forecast_error err (given T) (given P) w v mo = Err ValueError) by (split; apply G).
  intros err. unfold forecast_error.
  assert (NT : T <> []) by (intros ->; destruct HT as [L _]; simpl in L; lia).
  assert (NP : P <> []) by (intros ->; destruct HP as [L _]; simpl in L; lia).
  rewrite (to_dataset_given n sz d T), (to_dataset_given n' sz' d' P) by auto. cbn [bind]. cbv zeta.
  assert (E0 : In (hd [] T) T) by (destruct T; [contradiction|left; reflexivity]).
  assert (EH : hd [] (map lift T) = lift (hd [] T)) by (destruct T; reflexivity).
  assert (En : length (map lift T) = n) by (rewrite map_length; apply HT).
  assert (Es : arr_sz (map lift T) = sz).
  { unfold arr_sz. etransitivity; [exact (f_equal (@length _) EH)|]. rewrite lift_length. apply (proj2 HT); auto. }
  assert (Ed : arr_d (map lift T) = d).
  { unfold arr_d. etransitivity; [exact (f_equal (@ncols Xnum) EH)|]. destruct (proj2 HT _ E0) as [L Lr].
    destruct (hd [] T) as [|r x]; [simpl in L; lia|]. simpl. etransitivity; [exact (map_length XR r)|]. apply Lr. left. reflexivity. }
  rewrite En, Es, Ed, (reshape_given n sz d T) by auto. cbn [bind].
  unfold reshape2. rewrite (flat_size n' sz' d' P) by auto. cbv zeta.
  destruct (Nat.eqb_spec (n' * (sz' * d')) (n * (sz * d))); [nia|reflexivity].
Qed.
Print Assumptions C121_partial.
(** one forecast of two steps against two forecasts of one step: accepted *)
Theorem C121_refuted : exists T P out, shaped 1 2 1 T /\ shaped 2 1 1 P /\ mae (given T) (given P) None None UniformAverage = Ok out.
Proof.
  exists [[[0]; [1]]], [[[0]]; [[1]]]. eexists. split; [|split].
  - split; [reflexivity|]. intros x [<-|[]]. split; auto. intros r [<-|[<-|[]]]; reflexivity.
  - split; [reflexivity|]. intros x [<-|[<-|[]]]; (split; [reflexivity|]); intros r [<-|[]]; reflexivity.
  - vm_compute. reflexivity.
Qed.
Print Assumptions C121_refuted.
Example C121_instance : shaped 1 2 1 [[[0]; [1]]] /\ shaped 1 1 1 [[[0]]] /\ (1 * 2 * 1 <> 1 * 1 * 1)%nat.
Proof.
  split; [|split; [|lia]].
  - split; [reflexivity|]. intros x [<-|[]]. split; auto. intros r [<-|[<-|[]]]; reflexivity.
  - split; [reflexivity|]. intros x [<-|[]]. split; auto. intros r [<-|[]]; reflexivity.
Qed.

(** ** C122: the scaled error *)
(** mean absolute seasonal difference of feature [k] over the training series *)
Definition seasonal_scale (n m p : nat) (X : list (list (list R))) (k : nat) : R :=
  rsum (map (fun i => rsum (map (fun t => Rabs (at_ X i t k - at_ X i (t + p) k)) (seq 0 (m - p)))) (seq 0 n)) / (INR n * INR (m - p)).
Lemma concat_len_R m (l : list (list R)) : (forall r, In r l -> length r = m) -> length (concat l) = (length l * m)%nat.
Proof. intros H. induction l as [|r l IH]; simpl; auto. rewrite app_length, IH by (intros; apply H; right; auto). rewrite (H r) by (left; auto). reflexivity. Qed.
Lemma rsum_concat l : rsum (concat l) = rsum (map rsum l).
Proof. induction l as [|a l IH]; simpl; auto. rewrite rsum_app, IH. reflexivity. Qed.
Lemma arr_dims n sz d X : (0 < n)%nat -> (0 < sz)%nat -> shaped n sz d X -> arr_sz (map lift X) = sz /\ arr_d (map lift X) = d.
Proof.
  intros Hn Hs HX.
  assert (NX : X <> []) by (intros ->; destruct HX as [L _]; simpl in L; lia).
  assert (E0 : In (hd [] X) X) by (destruct X; [contradiction|left; reflexivity]).
  assert (EH : hd [] (map lift X) = lift (hd [] X)) by (destruct X; reflexivity). split.
  - unfold arr_sz. etransitivity; [exact (f_equal (@length _) EH)|]. rewrite lift_length. apply (proj2 HX); auto.
  - unfold arr_d. etransitivity; [exact (f_equal (@ncols Xnum) EH)|]. destruct (proj2 HX _ E0) as [L Lr].
    destruct (hd [] X) as [|r x]; [simpl in L; lia|]. simpl. etransitivity; [exact (map_length XR r)|]. apply Lr. left. reflexivity.
Qed.
Lemma entry_lift x t k : (t < length x)%nat -> (k < length (nth t x []))%nat -> nth k (nth t (lift x) []) XNaN = XR (entry x t k).
Proof.
  intros Ht Hk. unfold lift. rewrite (nth_indep (map (map XR) x) [] (map XR [])) by (rewrite map_length; auto). rewrite map_nth.
  rewrite (nth_indep (map XR (nth t x [])) XNaN (XR 0)) by (rewrite map_length; auto). rewrite map_nth. reflexivity.
Qed.
Lemma diffs_real n m d p X : (0 < n)%nat -> (0 < p < m)%nat -> shaped n m d X ->
  seasonal_diffs p (map lift X) =
  Ok (map (fun i => lift (tab (m - p) d (fun t k => Rabs (at_ X i t k - at_ X i (t + p) k)))) (seq 0 n)).
Proof.
  intros Hn Hp HX. unfold seasonal_diffs. destruct (arr_dims n m d X Hn ltac:(lia) HX) as [-> ->].
  replace (p =? 0)%nat with false by (symmetry; apply Nat.eqb_neq; lia). cbn [andb]. cbv zeta.
  apply (f_equal (@Ok _)). rewrite map_map. rewrite (map_at _ X), (proj1 HX). apply map_ext_in. intros i Hi. apply in_seq in Hi.
  assert (Hin : In (nth i X []) X) by (apply nth_In; destruct HX as [-> _]; lia). destruct (proj2 HX _ Hin) as [L Lr].
  unfold lift at 3, tab. rewrite map_map. apply map_ext_in. intros t Ht. apply in_seq in Ht. rewrite map_map. apply map_ext_in. intros k Hk. apply in_seq in Hk.
  assert (EK : forall t, (t < m)%nat -> nth k (nth t (lift (nth i X [])) []) XNaN = XR (at_ X i t k)).
  { intros t' Ht'. rewrite entry_lift; [reflexivity|lia|]. rewrite (Lr (nth t' (nth i X []) [])); [lia|apply nth_In; lia]. }
  etransitivity; [exact (f_equal2 (fun a b => xabs (xsub a b)) (EK t ltac:(lia)) (EK (t + p)%nat ltac:(lia)))|]. reflexivity.
Qed.
Lemma scale_feature n m d p X k : (0 < n)%nat -> (0 < p < m)%nat -> (k < d)%nat ->
  xmean (map (fun r => nth k r XNaN) (concat (map (fun i => lift (tab (m - p) d (fun t k => Rabs (at_ X i t k - at_ X i (t + p) k)))) (seq 0 n))))
  = XR (seasonal_scale n m p X k).
Proof.
  intros Hn Hp Hk. rewrite concat_map, map_map.
  rewrite (map_ext _ (fun i => map XR (map (fun t => Rabs (at_ X i t k - at_ X i (t + p) k)) (seq 0 (m - p))))).
  2: { intros i. unfold lift, tab. rewrite !map_map. apply map_ext. intros t. rewrite map_map, nth_map_seq by auto. reflexivity. }
  rewrite <- map_map with (g := map XR), <- concat_map. rewrite xmean_reals.
  - f_equal. unfold seasonal_scale. rewrite rsum_concat, map_map. f_equal. rewrite <- mult_INR. f_equal.
    rewrite (concat_len_R (m - p)).
    + rewrite map_length, seq_length. lia.
    + intros r H. apply in_map_iff in H. destruct H as (i & <- & _). rewrite map_length, seq_length. reflexivity.
  - intros HE. apply (f_equal (@length R)) in HE. rewrite (concat_len_R (m - p)) in HE.
    + rewrite map_length, seq_length in HE. simpl in HE. nia.
    + intros r H. apply in_map_iff in H. destruct H as (i & <- & _). rewrite map_length, seq_length. reflexivity.
Qed.
Lemma scale_all n m d p X : (0 < n)%nat -> (0 < p < m)%nat -> (0 < d)%nat ->
  xmean (concat (map (@concat xr) (map (fun i => lift (tab (m - p) d (fun t k => Rabs (at_ X i t k - at_ X i (t + p) k)))) (seq 0 n))))
  = XR (rsum (map (seasonal_scale n m p X) (seq 0 d)) / INR d).
Proof.
  intros Hn Hp Hd. rewrite map_map.
  rewrite (map_ext _ (fun i => map XR (concat (tab (m - p) d (fun t k => Rabs (at_ X i t k - at_ X i (t + p) k)))))) by (intros i; apply concat_lift).
  rewrite <- map_map with (g := map XR), <- concat_map.
  assert (EL : length (concat (map (fun i => concat (tab (m - p) d (fun t k => Rabs (at_ X i t k - at_ X i (t + p) k)))) (seq 0 n))) = (n * ((m - p) * d))%nat).
  { rewrite (concat_len_R ((m - p) * d)); [rewrite map_length, seq_length; lia|]. intros r H. apply in_map_iff in H. destruct H as (i & <- & _).
    apply tab_flat_length. auto. }
  rewrite xmean_reals.
  - rewrite EL. f_equal. rewrite rsum_concat, map_map.
    assert (ES : forall i, rsum (concat (tab (m - p) d (fun t k => Rabs (at_ X i t k - at_ X i (t + p) k)))) =
                           rsum (map (fun k => rsum (map (fun t => Rabs (at_ X i t k - at_ X i (t + p) k)) (seq 0 (m - p)))) (seq 0 d))).
    { intros i. rewrite rsum_concat. unfold tab. rewrite map_map. apply rsum_swap. }
    rewrite (rsum_map_ext _ (fun i => rsum (map (fun k => rsum (map (fun t => Rabs (at_ X i t k - at_ X i (t + p) k)) (seq 0 (m - p)))) (seq 0 d)))) by (intros; apply ES).
    rewrite rsum_swap. unfold seasonal_scale. rewrite rsum_div, !mult_INR. field. repeat split; apply not_0_INR; lia.
  - intros HE. rewrite HE in EL. simpl in EL. nia.
Qed.
(** the score is the mean absolute error divided by the mean absolute seasonal
    difference of the training series: feature by feature for raw values, over all
    features otherwise *)
Definition scaled (d : nat) (F S : nat -> R) (mo : multioutput) (out : score) : Prop :=
  match mo with
  | UniformAverage => out = Number (XR ((rsum (map F (seq 0 d)) / INR d) / (rsum (map S (seq 0 d)) / INR d)))
  | RawValues => out = PerFeature (map (fun k => XR (F k / S k)) (seq 0 d))
  | FeatureWeights u => forall u', u = map XR u' -> length u' = d -> rsum u' <> 0 ->
      out = Number (XR ((rsum (map (fun k => nth k u' 0 * F k) (seq 0 d)) / rsum u') / (rsum (map S (seq 0 d)) / INR d)))
  | OtherString => True
  end.
Definition nonzero_scale (d : nat) (S : nat -> R) (mo : multioutput) : Prop :=
  match mo with RawValues => forall k, (k < d)%nat -> S k <> 0 | _ => rsum (map S (seq 0 d)) <> 0 end.
Theorem C122_value n sz d n' m p T P X w v mo :
  (0 < n)%nat -> (0 < sz)%nat -> (0 < d)%nat -> (0 < n')%nat -> (0 < p < m)%nat ->
  shaped n sz d T -> shaped n sz d P -> shaped n' m d X -> fine_weights n w -> fine_weights sz v -> usable d mo ->
  nonzero_scale d (seasonal_scale n' m p X) mo ->
  exists out, mase (given T) (given P) (given X) p (option_map (map XR) w) (option_map (map XR) v) mo = Ok out /\
    scaled d (feature_error (fun a b => Rabs (a - b)) n sz (weights_in_force w n) (weights_in_force v sz) T P) (seasonal_scale n' m p X) mo out.
Proof.
  intros Hn Hs Hd Hn' Hp HT HP HX Hw Hv Hu HS.
  destruct (C120_mae n sz d T P w v mo Hn Hs Hd HT HP Hw Hv Hu) as (e & Ee & Ae).
  set (F := feature_error _ _ _ _ _ _ _) in *. clearbody F. unfold mase.
  assert (NX : X <> []) by (intros ->; destruct HX as [L _]; simpl in L; lia).
  rewrite (to_dataset_given n' m d X) by (auto; lia). cbn [bind]. rewrite Ee. cbn [bind].
  rewrite (diffs_real n' m d p X) by auto. cbn [bind]. cbv zeta.
  destruct (arr_dims n' m d X Hn' ltac:(lia) HX) as [_ Ed].
  assert (HI : INR d <> 0) by (apply not_0_INR; lia).
  destruct mo as [| | |u]; simpl in Ae, HS.
  - subst e. rewrite scale_all by auto. eexists. split; [reflexivity|]. cbn [scaled]. rewrite xdiv_real; [reflexivity|].
    intros H0. apply HS. apply (Rmult_eq_compat_r (INR d)) in H0. field_simplify in H0; auto.
  - subst e. rewrite Ed. rewrite !map_length, seq_length, Nat.eqb_refl, Nat.max_id. cbn [orb]. eexists. split; [reflexivity|].
    cbn [scaled]. f_equal. apply map_ext_in. intros k Hk. apply in_seq in Hk.
    assert (EI : (if (d =? 1)%nat then 0%nat else k) = k) by (destruct (Nat.eqb_spec d 1); lia). rewrite EI.
    rewrite !nth_map_seq by lia. rewrite scale_feature by (auto; lia). apply xdiv_real. apply HS. lia.
  - contradiction.
  - destruct Hu as (u' & Eu & Lu & Su). rewrite (Ae u' Eu Lu Su). rewrite scale_all by auto. eexists. split; [reflexivity|].
    intros u2 E2 _ _. assert (u2 = u') as -> by (apply map_XR_inj; congruence). rewrite xdiv_real; [reflexivity|].
    intros H0. apply HS. apply (Rmult_eq_compat_r (INR d)) in H0. field_simplify in H0; auto.
Qed.
Print Assumptions C122_value.

(** the seasonal naive forecast of the training series: each step predicted by the one
    a period earlier *)
Definition naive_truth (p : nat) (X : list (list (list R))) := map (skipn p) X.
Definition naive_forecast (m p : nat) (X : list (list (list R))) := map (firstn (m - p)) X.
Lemma in_firstn {A} (l : list A) k x : In x (firstn k l) -> In x l.
Proof. rewrite <- (firstn_skipn k l) at 2. intros H. apply in_or_app. auto. Qed.
Lemma in_skipn {A} (l : list A) k x : In x (skipn k l) -> In x l.
Proof. rewrite <- (firstn_skipn k l) at 2. intros H. apply in_or_app. auto. Qed.
Lemma nth_skip {A} (l : list A) p t x : nth t (skipn p l) x = nth (t + p) l x.
Proof. revert l. induction p as [|p IH]; intros l; simpl; [f_equal; lia|]. destruct l; simpl; [destruct t; reflexivity|]. rewrite IH. replace (t + S p)%nat with (S (t + p)) by lia. reflexivity. Qed.
Lemma nth_first {A} (l : list A) q t x : (t < q)%nat -> nth t (firstn q l) x = nth t l x.
Proof. revert l t. induction q as [|q IH]; intros l t H; [lia|]. destruct l; simpl; auto. destruct t; auto. apply IH. lia. Qed.
Lemma naive_shapes n m d p X : (p < m)%nat -> shaped n m d X -> shaped n (m - p) d (naive_truth p X) /\ shaped n (m - p) d (naive_forecast m p X).
Proof.
  intros Hp (L & H). unfold naive_truth, naive_forecast. split; (split; [rewrite map_length; auto|]); intros x Hx; apply in_map_iff in Hx;
    destruct Hx as (y & <- & Hy); destruct (H y Hy) as [Ly Lr].
  - rewrite skipn_length, Ly. split; auto. intros r Hr. apply Lr. eapply in_skipn. exact Hr.
  - rewrite firstn_length, Ly. split; [lia|]. intros r Hr. apply Lr. eapply in_firstn. exact Hr.
Qed.
Lemma naive_error n m d p X k : (0 < n)%nat -> (0 < p < m)%nat -> shaped n m d X ->
  feature_error (fun a b => Rabs (a - b)) n (m - p) (repeat 1 n) (repeat 1 (m - p)) (naive_truth p X) (naive_forecast m p X) k = seasonal_scale n m p X k.
Proof.
  intros Hn Hp (L & H). unfold feature_error, seasonal_scale. rewrite !rsum_ones. f_equal. apply rsum_map_ext. intros i Hi. apply in_seq in Hi.
  apply rsum_map_ext. intros t Ht. apply in_seq in Ht. rewrite !nth_ones by lia.
  unfold at_, entry, naive_truth, naive_forecast.
  assert (E1 : nth i (map (skipn p) X) [] = skipn p (nth i X [])).
  { rewrite (nth_indep _ [] (skipn p [])) by (rewrite map_length; lia). apply map_nth. }
  assert (E2 : nth i (map (firstn (m - p)) X) [] = firstn (m - p) (nth i X [])).
  { rewrite (nth_indep _ [] (firstn (m - p) [])) by (rewrite map_length; lia). apply map_nth. }
  rewrite E1, E2, nth_skip, nth_first by lia. rewrite <- Rabs_Ropp. rewrite Rmult_1_l, Rmult_1_l. f_equal. ring.
Qed.
Theorem C122_naive n m d p X :
  (0 < n)%nat -> (0 < d)%nat -> (0 < p < m)%nat -> shaped n m d X ->
  (rsum (map (seasonal_scale n m p X) (seq 0 d)) <> 0 ->
   mase (given (naive_truth p X)) (given (naive_forecast m p X)) (given X) p None None UniformAverage = Ok (Number (XR 1))) /\
  ((forall k, (k < d)%nat -> seasonal_scale n m p X k <> 0) ->
   mase (given (naive_truth p X)) (given (naive_forecast m p X)) (given X) p None None RawValues = Ok (PerFeature (repeat (XR 1) d))).
Proof.
  intros Hn Hd Hp HX. destruct (naive_shapes n m d p X ltac:(lia) HX) as [HT HP].
  assert (HI : INR d <> 0) by (apply not_0_INR; lia). split; intros HS.
  - destruct (C122_value n (m - p) d n m p _ _ X None None UniformAverage Hn ltac:(lia) Hd Hn Hp HT HP HX I I I HS) as (out & E & ->).
    etransitivity; [exact E|]. cbn [weights_in_force].
    rewrite (rsum_map_ext _ (seasonal_scale n m p X)) by (intros k _; apply (naive_error n m d); auto).
    f_equal. f_equal. f_equal. field. auto.
  - destruct (C122_value n (m - p) d n m p _ _ X None None RawValues Hn ltac:(lia) Hd Hn Hp HT HP HX I I I HS) as (out & E & ->).
    etransitivity; [exact E|]. cbn [weights_in_force]. f_equal. f_equal.
    rewrite (map_ext_in _ (fun _ => XR 1)).
    + clear. generalize 0%nat. induction d as [|d IH]; intros a; simpl; auto. f_equal. apply IH.
    + intros k Hk. apply in_seq in Hk. rewrite (naive_error n m d) by auto. f_equal. field. apply HS. lia.
Qed.
Print Assumptions C122_naive.
(** feature weights: the error is weighted, the scale is not *)
Theorem C122_feature_weights_refuted : exists n m d p X u,
  (0 < p < m)%nat /\ shaped n m d X /\ length u = d /\ rsum u <> 0 /\ (forall k, (k < d)%nat -> seasonal_scale n m p X k <> 0) /\
  mase (given (naive_truth p X)) (given (naive_forecast m p X)) (given X) p None None (FeatureWeights (map XR u)) = Ok (Number (XR (1 / 2))).
Proof.
  exists 1%nat, 2%nat, 2%nat, 1%nat, [[[0; 0]; [1; 3]]], [1; 0].
  assert (HX : shaped 1 2 2 [[[0; 0]; [1; 3]]]).
  { split; [reflexivity|]. intros x [<-|[]]. split; [reflexivity|]. intros r [<-|[<-|[]]]; reflexivity. }
  assert (S0 : seasonal_scale 1 2 1 [[[0; 0]; [1; 3]]] 0 = 1).
  { unfold seasonal_scale, at_, entry. simpl. replace (Rabs (0 - 1)) with 1 by (symmetry; rewrite Rabs_minus_sym; rewrite Rabs_pos_eq; lra). lra. }
  assert (S1 : seasonal_scale 1 2 1 [[[0; 0]; [1; 3]]] 1 = 3).
  { unfold seasonal_scale, at_, entry. simpl. replace (Rabs (0 - 3)) with 3 by (symmetry; rewrite Rabs_minus_sym; rewrite Rabs_pos_eq; lra). lra. }
  split; [lia|]. split; [exact HX|]. split; [reflexivity|]. split; [simpl; lra|]. split.
  { intros [|[|k]] Hk; [rewrite S0; lra|rewrite S1; lra|lia]. }
  destruct (naive_shapes 1 2 2 1 [[[0; 0]; [1; 3]]] ltac:(lia) HX) as [HT HP].
  destruct (C122_value 1 1 2 1 2 1 _ _ [[[0; 0]; [1; 3]]] None None (FeatureWeights (map XR [1; 0]))
              ltac:(lia) ltac:(lia) ltac:(lia) ltac:(lia) ltac:(lia) HT HP HX I I) as (out & E & H).
  { exists [1; 0]. split; [reflexivity|split; [reflexivity|simpl; lra]]. }
  { cbn [nonzero_scale]. cbn [seq map rsum]. rewrite S0, S1. simpl. lra. }
  specialize (H [1; 0] eq_refl eq_refl ltac:(simpl; lra)). subst out. etransitivity; [exact E|].
  pose proof (naive_error 1 2 2 1 [[[0; 0]; [1; 3]]] 0 ltac:(lia) ltac:(lia) HX) as N0.
  pose proof (naive_error 1 2 2 1 [[[0; 0]; [1; 3]]] 1 ltac:(lia) ltac:(lia) HX) as N1.
  cbn [weights_in_force] in *. cbn [seq map]. change (2 - 1)%nat with 1%nat in N0, N1. rewrite N0, N1, S0, S1. simpl. f_equal. f_equal. f_equal. field.
Qed.
Print Assumptions C122_feature_weights_refuted.
Example C122_instance : shaped 1 2 2 [[[0; 0]; [1; 3]]] /\ rsum (map (seasonal_scale 1 2 1 [[[0; 0]; [1; 3]]]) (seq 0 2)) <> 0.
Proof.
  split.
  - split; [reflexivity|]. intros x [<-|[]]. split; [reflexivity|]. intros r [<-|[<-|[]]]; reflexivity.
  - unfold seasonal_scale, at_, entry. simpl. rewrite (Rabs_minus_sym 0 1), (Rabs_minus_sym 0 3), !Rabs_pos_eq by lra. lra.
Qed.

(** ** C123: training series of different lengths *)
Lemma xsum_nan l : In XNaN l -> xsum l = XNaN.
Proof.
  unfold xsum. generalize (XR 0). assert (HN : forall l, fold_left xadd l XNaN = XNaN) by (induction l0; simpl; auto).
  induction l as [|a l IH]; intros x H; [contradiction|]. destruct H as [->|H]; simpl; auto. destruct x; apply HN.
Qed.
Lemma xmean_nan l : In XNaN l -> xmean l = XNaN.
Proof. intros H. unfold xmean. rewrite xsum_nan by auto. unfold xdiv. destruct (Req_EM_T _ 0); reflexivity. Qed.
Lemma xmean_nil : xmean [] = XNaN.
Proof.
  unfold xmean, xdiv. simpl. destruct (Req_EM_T 0 0); [|lra]. unfold Rltb. destruct (Rlt_dec 0 0); [lra|reflexivity].
Qed.
Lemma xabs_sub_nan a : xabs (xsub a XNaN) = XNaN.
Proof. destruct a; reflexivity. Qed.
Lemma list_max_in (l : list nat) a : In a l -> (a <= list_max l)%nat.
Proof. intros H. pose proof (proj1 (list_max_le l (list_max l)) (le_n _)) as F. rewrite Forall_forall in F. auto. Qed.
Lemma concat_nil {A} (g : A -> nat -> list xr) l : concat (map (@concat xr) (map (fun s => map (g s) (seq 0 0)) l)) = [].
Proof. induction l; simpl; auto. Qed.
(** whenever two training series have different lengths, the score is NaN *)
Theorem C123_refuted n sz d T P X x y p w v :
  (0 < n)%nat -> (0 < sz)%nat -> (0 < d)%nat -> shaped n sz d T -> shaped n sz d P -> fine_weights n w -> fine_weights sz v ->
  (forall s, In s X -> real_series d s) -> In x X -> In y X -> (length x < length y)%nat -> (0 < p)%nat ->
  mase (given T) (given P) (given X) p (option_map (map XR) w) (option_map (map XR) v) UniformAverage = Ok (Number XNaN).
Proof.
  intros Hn Hs Hd HT HP Hw Hv HX Hx Hy Hl Hp. unfold mase.
  assert (EG : to_dataset (given X) = Ok (padded d (list_max (map (@length _) X)) X)).
  { rewrite <- (variable_length_padded d 0 X HX). unfold variable_length, given, padded. rewrite map_map. f_equal. apply map_ext. intros s.
    unfold pad_to. simpl. rewrite app_nil_r. reflexivity. }
  set (M := list_max (map (@length _) X)) in *.
  assert (HM : forall s, In s X -> (length s <= M)%nat) by (intros s H; apply list_max_in, in_map; auto).
  rewrite EG. cbn [bind].
  destruct (C120_mae n sz d T P w v UniformAverage Hn Hs Hd HT HP Hw Hv I) as (e & -> & ->). cbn [bind].
  unfold seasonal_diffs. replace (p =? 0)%nat with false by (symmetry; apply Nat.eqb_neq; lia). cbn [andb bind]. cbv zeta.
  assert (EA : arr_sz (padded d M X) = M /\ arr_d (padded d M X) = d).
  { destruct X as [|s X]; [contradiction|]. unfold padded, arr_sz, arr_d. cbn [map hd].
    pose proof (HX s (or_introl eq_refl)) as (_ & Ns & Rs). pose proof (HM s (or_introl eq_refl)) as Ls. split.
    - unfold pad_to. rewrite app_length, lift_length, repeat_length. lia.
    - destruct s as [|r s]; [contradiction|]. unfold pad_to. simpl. etransitivity; [exact (map_length XR r)|]. apply Rs. left. reflexivity. }
  destruct EA as [E1 E2]. rewrite E1, E2.
  match goal with |- Ok (Number (xdiv ?a (xmean ?l))) = _ => assert (EM : xmean l = XNaN); [|rewrite EM; reflexivity] end.
  destruct (Nat.le_gt_cases M p) as [HpM|HpM].
  - replace (M - p)%nat with 0%nat by lia.
    match goal with |- xmean ?l = _ => replace l with (@nil xr); [apply xmean_nil|] end.
    symmetry. apply concat_nil.
  - apply xmean_nan. apply in_concat.
    pose proof (HM y Hy). 
    exists (concat (map (fun t => map (fun k => xabs (xsub (nth k (nth t (pad_to d M x) []) XNaN) (nth k (nth (t + p) (pad_to d M x) []) XNaN))) (seq 0 d)) (seq 0 (M - p)))).
    split.
    + apply in_map_iff. eexists. split; [reflexivity|]. apply in_map_iff. exists (pad_to d M x). split; [reflexivity|]. apply in_map. auto.
    + apply in_concat. eexists. split; [apply in_map_iff; exists (M - 1 - p)%nat; split; [reflexivity|apply in_seq; lia]|].
      apply in_map_iff. exists 0%nat. split; [|apply in_seq; lia].
      rewrite (pad_to_nth d M x (M - 1 - p + p) 0) by (auto; lia).
      destruct (Nat.ltb_spec (M - 1 - p + p) (length x)); [lia|]. apply xabs_sub_nan.
Qed.
Print Assumptions C123_refuted.
Example C123_instance : let X := [[[0]; [1]; [3]]; [[0]; [2]]] in
  (forall s, In s X -> real_series 1 s) /\ In [[0]; [2]] X /\ In [[0]; [1]; [3]] X /\
  shaped 1 1 1 [[[4]]] /\ shaped 1 1 1 [[[5]]].
Proof.
  intros X. split; [|split; [|split; [|split]]].
  - intros s [<-|[<-|[]]]; (split; [lia|split; [discriminate|]]).
    + intros r [<-|[<-|[<-|[]]]]; reflexivity.
    + intros r [<-|[<-|[]]]; reflexivity.
  - right. left. reflexivity.
  - left. reflexivity.
  - split; [reflexivity|]. intros x [<-|[]]. split; auto. intros r [<-|[]]; reflexivity.
  - split; [reflexivity|]. intros x [<-|[]]. split; auto. intros r [<-|[]]; reflexivity.
Qed.

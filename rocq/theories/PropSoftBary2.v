(** C118, C119: the public function [softdtw_barycenter]. *)
From Coq Require Import Bool List Arith Lia ZArith QArith Reals Lra Permutation.
From Verif Require Import Num NumLaws Py Series Masks DtwModel Dataset Spec SpecDtw DpProofs DtwProofs DtwThms
  LimitedThms MaskThms RList PathSum RealSeries PaaModel PaaThms CdistThms PropCtw PreModel PropScale PropResample
  GakModel SoftModel BaryModel BaryThms BaryReal PropBary PropBary2 SoftBaryModel PropSoft PropSoftBary.
Import ListNotations.
Local Open Scope R_scope.

(** the optimiser returns a vector of the same size, at which the function it was
    given has a value that is not larger than at the start *)
Definition descends (minimize : (list xr -> res (xr * list xr)) -> list xr -> res (list xr)) : Prop :=
  forall f x v grad, f (map XR x) = Ok (XR v, grad) ->
    exists y v' grad', minimize f (map XR x) = Ok (map XR y) /\ length y = length x /\ f (map XR y) = Ok (XR v', grad') /\ v' <= v.

Fixpoint rchunks (n d : nat) (l : list R) : list (list R) :=
  match n with O => [] | S n => firstn d l :: rchunks n d (skipn d l) end.
Lemma rchunks_length n d l : length (rchunks n d l) = n.
Proof. revert l. induction n; intros l; simpl; auto. Qed.
Lemma rchunks_rows n d l : length l = (n * d)%nat -> forall r, In r (rchunks n d l) -> length r = d.
Proof.
  revert l. induction n as [|n IH]; intros l H r; simpl; [tauto|]. intros [<-|K].
  - rewrite firstn_length. simpl in H. lia.
  - apply (IH (skipn d l)); auto. rewrite skipn_length. simpl in H. lia.
Qed.
Lemma rchunks_concat n d l : length l = (n * d)%nat -> concat (rchunks n d l) = l.
Proof.
  revert l. induction n as [|n IH]; intros l H; simpl in *; [destruct l; auto; discriminate|].
  rewrite IH by (rewrite skipn_length; lia). apply firstn_skipn.
Qed.
Lemma concat_lift b : concat (lift b) = map XR (concat b).
Proof. unfold lift. rewrite concat_map. reflexivity. Qed.
Lemma ncols_lift d b : real_series d b -> ncols (lift b) = d.
Proof.
  intros (_ & N & K). destruct b as [|r b]; [congruence|]. etransitivity; [exact (map_length XR r)|]. apply K. left; auto.
Qed.

(** the optimisation part *)
Lemma optimise minimize garbage order d b0 xs w gamma g r s code :
  descends minimize -> 0 < gamma -> real_series d b0 -> xs <> [] -> (forall x, In x xs -> real_series d x) -> length w = length xs ->
  positive_slope s -> gc_code g = Ok code ->
  (forall x, In x xs -> exists allowed, constraint (length b0) (length x) g r s allowed) ->
  Permutation order (seq 0 (length xs)) ->
  exists y, minimize (fun z => acc_softdtw_func z (map lift xs) (map XR w) gamma code r s order garbage) (concat (lift b0)) = Ok (map XR y) /\
    exists b, chunks (length b0) d (map XR y) = lift b /\ real_series d b /\ length b = length b0 /\
      objective gamma g r s w xs b <= objective gamma g r s w xs b0.
Proof.
  intros HM Hg Hb Hne Hx Lw Hs Hcode Hc Hord.
  destruct (C117_gradient garbage order d b0 xs w gamma g r s code Hg Hb Hne Hx Lw Hs Hcode Hc Hord) as (_ & G & E & _).
  destruct (HM (fun z => acc_softdtw_func z (map lift xs) (map XR w) gamma code r s order garbage) (concat b0) _ _
    (eq_trans (f_equal (fun z => acc_softdtw_func z (map lift xs) (map XR w) gamma code r s order garbage) (eq_sym (concat_lift b0))) E))
    as (y & v' & grad' & E1 & Ly & E2 & Hv).
  rewrite <- concat_lift in E1. exists y. split; [exact E1|].
  assert (Ly' : length y = (length b0 * d)%nat).
  { rewrite Ly. transitivity (length (concat (lift b0))); [rewrite concat_lift; symmetry; apply map_length|]. rewrite (concat_len d) by (intros; eapply lift_row; eauto). rewrite lift_length. reflexivity. }
  assert (Hr : forall row, In row (rchunks (length b0) d y) -> length row = d) by (apply rchunks_rows; auto).
  assert (Hb' : real_series d (rchunks (length b0) d y)).
  { split; [apply Hb|split; [|exact Hr]]. intros K. apply (f_equal (@length _)) in K. rewrite rchunks_length in K.
    pose proof (real_len _ _ Hb). simpl in K. lia. }
  assert (EC : concat (lift (rchunks (length b0) d y)) = map XR y) by (rewrite concat_lift, rchunks_concat; auto).
  exists (rchunks (length b0) d y). split; [|split; [exact Hb'|split; [apply rchunks_length|]]].
  - rewrite <- EC. apply chunks_concat; [apply Hb|intros; eapply lift_row; eauto|rewrite lift_length, rchunks_length; lia].
  - destruct (C117_gradient garbage order d _ xs w gamma g r s code Hg Hb' Hne Hx Lw Hs Hcode ltac:(rewrite rchunks_length; exact Hc) Hord)
      as (_ & G' & E' & _).
    rewrite EC in E'. pose proof (eq_trans (eq_sym E2) E') as E3. inversion E3. subst. exact Hv.
Qed.
Lemma strip_all d M xs : (forall x, In x xs -> real_series d x) -> map strip (padded d M xs) = map lift xs.
Proof.
  intros H. unfold padded. rewrite map_map. apply map_ext_in. intros x Hi. apply strip_pad_to. auto.
Qed.

(** ** C118 *)
(** With [init] given, for series of any lengths (as lists or as a padded array),
    weights and constraint: if the optimiser never reports a point worse than its
    start, the barycenter has the shape of [init] and its weighted soft-DTW sum is
    not larger than that of [init]. *)
Theorem C118_init : forall minimize garbage order d M b0 xs w max_iter gamma g radius slope code,
  descends minimize -> 0 < gamma -> real_series d b0 -> xs <> [] -> (forall x, In x xs -> real_series d x) ->
  length (weights_in_force w (length xs)) = length xs -> positive_slope slope -> gc_code g = Ok code ->
  (forall x, In x xs -> exists allowed, constraint (length b0) (length x) g radius slope allowed) ->
  Permutation order (seq 0 (length xs)) ->
  exists b, softdtw_barycenter minimize (map Raw2 (padded d M xs)) gamma (option_map (map XR) w) max_iter (Some (lift b0))
              g radius slope order garbage = Ok (lift b) /\ real_series d b /\ length b = length b0 /\
    objective gamma g radius slope (weights_in_force w (length xs)) xs b <=
    objective gamma g radius slope (weights_in_force w (length xs)) xs b0.
Proof.
  intros minimize garbage order d M b0 xs w max_iter gamma g r s code HM Hg Hb Hne Hx Lw Hs Hcode Hc Hord.
  unfold softdtw_barycenter. pose proof (variable_length_padded d M xs Hx) as EV. unfold variable_length in EV. rewrite EV. clear EV.
  cbn [bind]. rewrite (set_weights_real w xs Lw) by (unfold padded; apply map_length).
  unfold softdtw_start. cbn [bind]. rewrite Hcode. cbn [bind]. destruct max_iter as [|max_iter]; cbn [Nat.ltb Nat.leb].
  - exists b0. repeat split; auto; try apply Hb. lra.
  - rewrite strip_all by auto.
    destruct (optimise minimize garbage order d b0 xs (weights_in_force w (length xs)) gamma g r s code HM Hg Hb Hne Hx Lw Hs Hcode Hc Hord)
      as (y & E1 & b & E2 & Hb' & Lb & Hle).
    rewrite E1. cbn [bind]. rewrite (ncols_lift d) by auto. rewrite lift_length, E2. eauto.
Qed.
Print Assumptions C118_init.

Lemma ts_size_pad d M x : real_series d x -> ts_size (N:=Xnum) (pad_to d M x) = length x.
Proof.
  intros H. pose proof (strip_pad_to d M x H) as E. apply (f_equal (@length _)) in E. rewrite lift_length in E. rewrite <- E.
  unfold strip. rewrite <- ts_size_strip. reflexivity.
Qed.
(** Without [init], for series of one length: the start is the Euclidean barycenter,
    so the result is not worse than the public [euclidean_barycenter]. *)
Theorem C118_default : forall minimize garbage order d n xs w max_iter gamma g radius slope code,
  descends minimize -> 0 < gamma -> weighted_dataset d xs (weights_in_force w (length xs)) -> (forall x, In x xs -> length x = n) ->
  positive_slope slope -> gc_code g = Ok code ->
  (exists allowed, constraint n n g radius slope allowed) ->
  Permutation order (seq 0 (length xs)) ->
  exists b0 b, euclidean_barycenter (map lift xs) (option_map (map XR) w) = Ok (lift b0) /\
    softdtw_barycenter minimize (map (fun x => Raw2 (lift x)) xs) gamma (option_map (map XR) w) max_iter None
              g radius slope order garbage = Ok (lift b) /\ real_series d b /\ length b = n /\
    objective gamma g radius slope (weights_in_force w (length xs)) xs b <=
    objective gamma g radius slope (weights_in_force w (length xs)) xs b0 /\
    (max_iter = 0%nat -> b = b0).
Proof.
  intros minimize garbage order d n xs w max_iter gamma g r s code HM Hg HD Hn Hs Hcode (A & Hc) Hord.
  destruct (C83_least_squares d n xs w HD Hn) as (b0 & E0 & Hb & Lb & _). destruct HD as (Hne & Hx & Lw & Hw).
  exists b0.
  assert (EL : map lift xs = padded d 0 xs).
  { unfold padded. apply map_ext_in. intros x _. unfold pad_to. simpl. symmetry. apply app_nil_r. }
  assert (ER : map (fun x => Raw2 (lift x)) xs = map (Raw2 (N:=Xnum)) (padded d 0 xs)) by (rewrite <- EL, map_map; reflexivity).
  pose proof (variable_length_padded d 0 xs Hx) as EV. unfold euclidean_barycenter in E0. rewrite EL, EV in E0. cbn [bind] in E0.
  unfold variable_length in EV.
  assert (ES : softdtw_start (padded d (list_max (map (@length _) xs)) xs) (map XR (weights_in_force w (length xs))) None = Ok (lift b0)).
  { unfold softdtw_start. assert (AE : all_equal_size (padded d (list_max (map (@length _) xs)) xs) = true).
    { generalize (list_max (map (@length (list R)) xs)). intros M. unfold padded. destruct xs as [|x xs']; [reflexivity|]. cbn [map all_equal_size].
      apply forallb_forall. intros t Ht. apply in_map_iff in Ht. destruct Ht as (x' & <- & Hx').
      rewrite !(ts_size_pad d) by (apply Hx; simpl; auto). apply Nat.eqb_eq. rewrite !Hn by (simpl; auto). reflexivity. }
    rewrite AE. cbn [bind]. rewrite <- E0. rewrite (set_weights_real w xs Lw) by (unfold padded; apply map_length). reflexivity. }
  unfold softdtw_barycenter. rewrite ER, EV. cbn [bind]. rewrite (set_weights_real w xs Lw) by (unfold padded; apply map_length).
  rewrite ES. cbn [bind]. rewrite Hcode. cbn [bind]. destruct max_iter as [|max_iter]; cbn [Nat.ltb Nat.leb].
  - exists b0. repeat split; auto; try apply Hb; try lra. unfold euclidean_barycenter. rewrite EL.
    unfold variable_length. rewrite EV. exact E0.
  - rewrite strip_all by auto.
    assert (Hc' : forall x, In x xs -> exists allowed, constraint (length b0) (length x) g r s allowed).
    { intros x Hi. rewrite Lb, Hn by auto. exists A. auto. }
    destruct (optimise minimize garbage order d b0 xs (weights_in_force w (length xs)) gamma g r s code HM Hg Hb Hne Hx Lw Hs Hcode Hc' Hord)
      as (y & E1 & b & E2 & Hb' & Lb' & Hle).
    exists b. rewrite E1. cbn [bind]. rewrite (ncols_lift d) by auto. rewrite lift_length, E2.
    split; [|split; [reflexivity|split; [auto|split; [lia|split; [auto|discriminate]]]]].
    unfold euclidean_barycenter. rewrite EL. unfold variable_length. rewrite EV. exact E0.
Qed.
Print Assumptions C118_default.

(** ** C119 *)
(** FALSE: an initial barycenter with another number of features is rejected.  Four
    rows of one feature are read as two rows of two features; for every optimiser
    that stays at its start the call returns the four rows. *)
Theorem C119_features_refuted : exists xs init,
  (forall x, In x xs -> real_series 2 x) /\ xs <> [] /\ real_series 1 init /\
  forall minimize garbage max_iter, (forall f x v, f x = Ok v -> minimize f x = Ok x) ->
    softdtw_barycenter minimize (map (fun x => Raw2 (lift x)) xs) 1 None max_iter (Some (lift init))
      GcNone None None (seq 0 (length xs)) garbage = Ok (lift init).
Proof.
  pose (xs := [[[0; 1]; [2; 3]]]). pose (init := [[0]; [1]; [2]; [5]]).
  assert (Hx : forall x, In x xs -> real_series 2 x).
  { intros x [<-|[]]. split; [lia|split; [discriminate|]]. intros r [<-|[<-|[]]]; reflexivity. }
  exists xs, init. split; [exact Hx|split; [discriminate|split]].
  { split; [lia|split; [discriminate|]]. intros r [<-|[<-|[<-|[<-|[]]]]]; reflexivity. }
  intros minimize garbage max_iter HM.
  assert (ER : map (fun x => Raw2 (lift x)) xs = map (Raw2 (N:=Xnum)) (padded 2 0 xs)).
  { unfold padded. rewrite map_map. apply map_ext_in. intros x _. unfold pad_to. simpl. rewrite app_nil_r. reflexivity. }
  unfold softdtw_barycenter. pose proof (variable_length_padded 2 0 xs Hx) as EV. unfold variable_length in EV.
  rewrite ER, EV. cbn [bind]. 
  unfold softdtw_start. cbn [bind gc_code]. destruct max_iter as [|max_iter]; cbn [Nat.ltb Nat.leb]; [reflexivity|].
  rewrite strip_all by auto.
  pose (Z := [[0; 1]; [2; 5]]).
  assert (HZ : real_series 2 Z).
  { split; [lia|split; [discriminate|]]. intros r [<-|[<-|[]]]; reflexivity. }
  destruct (C117_gradient garbage (seq 0 1) 2 Z xs [1] 1 GcNone None None 0%nat ltac:(lra) HZ ltac:(discriminate) Hx eq_refl I eq_refl
    ltac:(intros x _; exists everywhere; reflexivity) (Permutation_refl _)) as (_ & G & E & _).
  change (concat (lift Z)) with (concat (lift init)) in E.
  match goal with |- context [minimize ?f ?x] => rewrite (HM f x _ E) end. cbn [bind]. reflexivity.
Qed.
Print Assumptions C119_features_refuted.

(** What is left: when the number of entries of [init] is not a multiple of the
    number of features of the series, the call raises a ValueError (the optimiser
    passes on what its function raises). *)
Theorem C119_error_partial : forall minimize garbage order d M c b0 xs w max_iter gamma g radius slope code,
  (forall f x e, f x = Err e -> minimize f x = Err e) ->
  real_series c b0 -> xs <> [] -> (forall x, In x xs -> real_series d x) -> gc_code g = Ok code ->
  ((length b0 * c) mod d <> 0)%nat -> (0 < max_iter)%nat ->
  softdtw_barycenter minimize (map Raw2 (padded d M xs)) gamma w max_iter (Some (lift b0)) g radius slope order garbage = Err ValueError.
Proof.
  intros minimize garbage order d M c b0 xs w max_iter gamma g r s code HM Hb Hne Hx Hcode Hmod Hm.
  unfold softdtw_barycenter. pose proof (variable_length_padded d M xs Hx) as EV. unfold variable_length in EV. rewrite EV. clear EV.
  cbn [bind]. unfold softdtw_start. cbn [bind]. rewrite Hcode. cbn [bind]. destruct max_iter as [|max_iter]; [lia|]. cbn [Nat.ltb Nat.leb].
  rewrite strip_all by auto. match goal with |- context [minimize ?f ?x] => rewrite (HM f x ValueError) end; [reflexivity|].
  unfold acc_softdtw_func. destruct xs as [|x0 xs']; [congruence|]. cbn [map]. rewrite (ncols_lift d) by (apply Hx; left; auto).
  unfold reshape_rows. rewrite (concat_len c) by (intros; eapply lift_row; eauto). rewrite lift_length.
  destruct (Nat.eqb_spec d 0); [reflexivity|]. destruct (Nat.eqb_spec ((length b0 * c) mod d) 0); [contradiction|reflexivity].
Qed.
Print Assumptions C119_error_partial.
Example C119_instance : (forall x, In x [[[0; 1]; [2; 3]]] -> real_series 2 x) /\ real_series 1 [[0]; [1]; [2]] /\ ((3 * 1) mod 2 <> 0)%nat.
Proof.
  split; [|split; [|discriminate]].
  - intros x [<-|[]]. split; [lia|split; [discriminate|]]. intros r [<-|[<-|[]]]; reflexivity.
  - split; [lia|split; [discriminate|]]. intros r [<-|[<-|[<-|[]]]]; reflexivity.
Qed.

(** instances: two series of different lengths, a band, weights, results in reverse
    order, an optimiser that stays at its start *)
Example C117_instance : exists G, 
  acc_softdtw_func (concat (lift [[0]; [1]; [4]])) (map lift [[[0]; [2]]; [[1]; [3]; [5]; [5]]]) (map XR [1; 3]) 2 2 (Some 2%Z) None [1; 0]%nat
     (fun _ _ _ => XNaN) =
    Ok (XR (objective 2 GcSakoeChiba (Some 2%Z) None [1; 3] [[[0]; [2]]; [[1]; [3]; [5]; [5]]] [[0]; [1]; [4]]), map XR (concat G)) /\
  length G = 3%nat.
Proof.
  destruct (C117_gradient (fun _ _ _ => XNaN) [1; 0]%nat 1 [[0]; [1]; [4]] [[[0]; [2]]; [[1]; [3]; [5]; [5]]] [1; 3] 2 GcSakoeChiba (Some 2%Z) None 2)
    as (_ & G & E & L & _); [lra| |discriminate| |reflexivity|exact I|reflexivity| | |].
  - split; [lia|split; [discriminate|]]. intros r [<-|[<-|[<-|[]]]]; reflexivity.
  - intros x [<-|[<-|[]]]; (split; [lia|split; [discriminate|]]); intros r Hr; repeat (destruct Hr as [<-|Hr]; [reflexivity|]); destruct Hr.
  - intros x _. exists (band 3 (length x) 2). split; [simpl; lia|reflexivity].
  - apply perm_swap.
  - exists G. split; auto.
Qed.
Example C118_instance : descends (fun f x => match f x with Ok _ => Ok x | Err e => Err e end) /\
  weighted_dataset 1 [[[0]; [2]]; [[1]; [3]]] [1; 3] /\ (exists A, constraint 2 2 GcNone None None A).
Proof.
  split; [|split; [|exists everywhere; reflexivity]].
  - intros f x v grad E. exists x, v, grad. rewrite E. repeat split; auto. lra.
  - split; [discriminate|split; [|split; [reflexivity|]]].
    + intros x [<-|[<-|[]]]; (split; [lia|split; [discriminate|]]); intros r [<-|[<-|[]]]; reflexivity.
    + intros a [<-|[<-|[]]]; lra.
Qed.

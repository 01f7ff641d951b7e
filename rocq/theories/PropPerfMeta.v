(** C225, C226: forecasting errors under a change of unit and origin. *)
From Coq Require Import Bool List Arith Lia ZArith QArith Reals Lra.
From Verif Require Import Num NumLaws Py Series DtwModel Dataset RList PathSum RealSeries PaaModel PaaThms PreModel GakModel SoftModel BaryModel BaryThms BaryReal PropBary CastModel SoftBaryModel PropSoftBary PropSoftBary2 PerfModel PropPerf.
Import ListNotations.
Local Open Scope R_scope.

(** ** Specification *)
(** feature [k] of every time step is replaced by [u k * x + o k] *)
Definition converted (d : nat) (u o : nat -> R) (xs : list (list (list R))) : list (list (list R)) :=
  map (map (fun r => map (fun k => u k * nth k r 0 + o k) (seq 0 d))) xs.
Definition xtimes (c : R) (x : xr) : xr := match x with XR r => XR (c * r) | x => x end.
Definition score_times (c : R) (s : score) : score := match s with Number x => Number (xtimes c x) | PerFeature l => PerFeature (map (xtimes c) l) end.

(** ** lemmas *)
Lemma at_converted n sz d u o xs i t k : shaped n sz d xs -> (i < n)%nat -> (t < sz)%nat -> (k < d)%nat -> at_ (converted d u o xs) i t k = u k * at_ xs i t k + o k.
Proof.
  intros (L & H) Hi Ht Hk. unfold at_, entry, converted.
  assert (E1 : nth i (map (map (fun r => map (fun k => u k * nth k r 0 + o k) (seq 0 d))) xs) [] = map (fun r => map (fun k => u k * nth k r 0 + o k) (seq 0 d)) (nth i xs [])).
  { change (@nil (list R)) with (map (fun r : list R => map (fun k => u k * nth k r 0 + o k) (seq 0 d)) []) at 1. apply map_nth. }
  rewrite E1. destruct (H (nth i xs [])) as (L2 & _); [apply nth_In; lia|].
  rewrite (nth_indep _ [] (map (fun k => u k * nth k [] 0 + o k) (seq 0 d))) by (rewrite map_length; lia).
  rewrite (map_nth (fun r => map (fun k => u k * nth k r 0 + o k) (seq 0 d))). rewrite (map_seq_nth (fun k0 => u k0 * nth k0 (nth t (nth i xs []) []) 0 + o k0)) by exact Hk. reflexivity.
Qed.
Lemma shaped_converted n sz d u o xs : shaped n sz d xs -> shaped n sz d (converted d u o xs).
Proof.
  intros (L & H). split; [unfold converted; rewrite map_length; exact L|]. intros x Hx. apply in_map_iff in Hx. destruct Hx as (y & <- & Hy).
  split; [rewrite map_length; apply H, Hy|]. intros r Hr. apply in_map_iff in Hr. destruct Hr as (q & <- & _). rewrite map_length, seq_length. reflexivity.
Qed.
Lemma feature_converted e c n sz d u o W V T P k : (forall x y, e (u k * x + o k) (u k * y + o k) = c * e x y) -> shaped n sz d T -> shaped n sz d P -> (k < d)%nat ->
  feature_error e n sz W V (converted d u o T) (converted d u o P) k = c * feature_error e n sz W V T P k.
Proof.
  intros He HT HP Hk. unfold feature_error, Rdiv. rewrite <- Rmult_assoc. f_equal. rewrite <- rsum_map_scal. apply rsum_map_ext. intros i Hi. apply in_seq in Hi.
  rewrite <- rsum_map_scal. apply rsum_map_ext. intros t Ht. apply in_seq in Ht. rewrite !(at_converted n sz d) by (auto; lia). rewrite He. ring.
Qed.
Lemma scale_converted n m p d u o X k : shaped n m d X -> (k < d)%nat -> seasonal_scale n m p (converted d u o X) k = Rabs (u k) * seasonal_scale n m p X k.
Proof.
  intros HX Hk. unfold seasonal_scale, Rdiv. rewrite <- Rmult_assoc. f_equal. rewrite <- rsum_map_scal. apply rsum_map_ext. intros i Hi. apply in_seq in Hi.
  rewrite <- rsum_map_scal. apply rsum_map_ext. intros t Ht. apply in_seq in Ht. rewrite !(at_converted n m d) by (auto; lia). rewrite <- Rabs_mult. f_equal. ring.
Qed.
Lemma aggregated_times c d F G mo out out' : usable d mo -> (forall k, (k < d)%nat -> G k = c * F k) -> aggregated d F mo out -> aggregated d G mo out' -> out' = score_times c out.
Proof.
  intros HU HG H H'. destruct mo as [| | |w]; cbn [aggregated] in *.
  - subst out out'. cbn. do 2 f_equal. unfold Rdiv. rewrite <- Rmult_assoc. f_equal. rewrite <- rsum_map_scal. apply rsum_map_ext. intros k Hk. apply in_seq in Hk. apply HG. lia.
  - subst out out'. cbn. f_equal. rewrite map_map. apply map_ext_in. intros k Hk. apply in_seq in Hk. cbn. f_equal. apply HG. lia.
  - destruct HU.
  - destruct HU as (u' & E & L & N). rewrite (H u' E L N), (H' u' E L N). cbn. do 2 f_equal. unfold Rdiv. rewrite <- Rmult_assoc. f_equal. rewrite <- rsum_map_scal.
    apply rsum_map_ext. intros k Hk. apply in_seq in Hk. rewrite HG by lia. ring.
Qed.

Lemma abs_conv a b x y : Rabs (a * x + b - (a * y + b)) = Rabs a * Rabs (x - y).
Proof. rewrite <- Rabs_mult. f_equal. ring. Qed.
Lemma sq_conv a b x y : (a * x + b - (a * y + b)) * (a * x + b - (a * y + b)) = a * a * ((x - y) * (x - y)).
Proof. ring. Qed.

Lemma score_times_1 s : score_times 1 s = s.
Proof.
  assert (E : forall x, xtimes 1 x = x) by (intros [r| | |]; cbn; [f_equal; ring|reflexivity..]).
  destruct s as [x|l]; cbn [score_times]; f_equal; [apply E|]. rewrite <- (map_id l) at 2. apply map_ext. exact E.
Qed.

(** ** C225 *)
(** In another unit and from another origin [mae] is multiplied by [|a|] and [mse] by [a * a]; truth and forecast may be exchanged. *)
Theorem C225_mae n sz d T P w v mo a (o : nat -> R) :
  (0 < n)%nat -> (0 < sz)%nat -> (0 < d)%nat -> shaped n sz d T -> shaped n sz d P -> fine_weights n w -> fine_weights sz v -> usable d mo ->
  exists out, mae (given T) (given P) (option_map (map XR) w) (option_map (map XR) v) mo = Ok out /\
    mae (given (converted d (fun _ => a) o T)) (given (converted d (fun _ => a) o P)) (option_map (map XR) w) (option_map (map XR) v) mo = Ok (score_times (Rabs a) out) /\
    mae (given P) (given T) (option_map (map XR) w) (option_map (map XR) v) mo = Ok out.
Proof.
  intros Hn Hs Hd HT HP Hw Hv Hm. destruct (C120_mae n sz d T P w v mo Hn Hs Hd HT HP Hw Hv Hm) as (out & E & A).
  destruct (C120_mae n sz d _ _ w v mo Hn Hs Hd (shaped_converted _ _ _ (fun _ => a) o _ HT) (shaped_converted _ _ _ (fun _ => a) o _ HP) Hw Hv Hm) as (out1 & E1 & A1).
  destruct (C120_mae n sz d P T w v mo Hn Hs Hd HP HT Hw Hv Hm) as (out2 & E2 & A2).
  exists out. split; [exact E|split].
  - rewrite E1. f_equal. apply (aggregated_times (Rabs a) d _ _ mo out out1 Hm (fun k Hk => feature_converted _ (Rabs a) n sz d (fun _ => a) o _ _ T P k (abs_conv a (o k)) HT HP Hk) A A1).
  - rewrite E2. f_equal.
    assert (Q : out2 = score_times 1 out).
    { apply (aggregated_times 1 d _ _ mo out out2 Hm) with (2 := A) (3 := A2). intros k _. rewrite Rmult_1_l. unfold feature_error. f_equal.
      apply rsum_map_ext. intros i _. apply rsum_map_ext. intros t _. rewrite Rabs_minus_sym. reflexivity. }
    rewrite Q. apply score_times_1.
Qed.
Print Assumptions C225_mae.
Theorem C225_mse n sz d T P w v mo a (o : nat -> R) :
  (0 < n)%nat -> (0 < sz)%nat -> (0 < d)%nat -> shaped n sz d T -> shaped n sz d P -> fine_weights n w -> fine_weights sz v -> usable d mo ->
  exists out, mse (given T) (given P) (option_map (map XR) w) (option_map (map XR) v) mo = Ok out /\
    mse (given (converted d (fun _ => a) o T)) (given (converted d (fun _ => a) o P)) (option_map (map XR) w) (option_map (map XR) v) mo = Ok (score_times (a * a) out) /\
    mse (given P) (given T) (option_map (map XR) w) (option_map (map XR) v) mo = Ok out.
Proof.
  intros Hn Hs Hd HT HP Hw Hv Hm. destruct (C120_mse n sz d T P w v mo Hn Hs Hd HT HP Hw Hv Hm) as (out & E & A).
  destruct (C120_mse n sz d _ _ w v mo Hn Hs Hd (shaped_converted _ _ _ (fun _ => a) o _ HT) (shaped_converted _ _ _ (fun _ => a) o _ HP) Hw Hv Hm) as (out1 & E1 & A1).
  destruct (C120_mse n sz d P T w v mo Hn Hs Hd HP HT Hw Hv Hm) as (out2 & E2 & A2).
  exists out. split; [exact E|split].
  - rewrite E1. f_equal. apply (aggregated_times (a * a) d _ _ mo out out1 Hm (fun k Hk => feature_converted _ (a * a) n sz d (fun _ => a) o _ _ T P k (sq_conv a (o k)) HT HP Hk) A A1).
  - rewrite E2. f_equal. assert (Q : out2 = score_times 1 out).
    { apply (aggregated_times 1 d _ _ mo out out2 Hm) with (2 := A) (3 := A2). intros k _. rewrite Rmult_1_l. unfold feature_error. f_equal.
      apply rsum_map_ext. intros i _. apply rsum_map_ext. intros t _. ring. }
    rewrite Q. apply score_times_1.
Qed.
Print Assumptions C225_mse.

(** ** C226 *)
(** the scaled error: one unit for all features, origins may differ; feature by feature, the units may differ too *)
Theorem C226_mase n sz d n' m p T P X w v mo (u o : nat -> R) :
  (0 < n)%nat -> (0 < sz)%nat -> (0 < d)%nat -> (0 < n')%nat -> (0 < p < m)%nat ->
  shaped n sz d T -> shaped n sz d P -> shaped n' m d X -> fine_weights n w -> fine_weights sz v -> usable d mo ->
  nonzero_scale d (seasonal_scale n' m p X) mo -> (forall k, (k < d)%nat -> u k <> 0) -> (mo = RawValues \/ forall k, (k < d)%nat -> u k = u 0%nat) ->
  exists out, mase (given T) (given P) (given X) p (option_map (map XR) w) (option_map (map XR) v) mo = Ok out /\
    mase (given (converted d u o T)) (given (converted d u o P)) (given (converted d u o X)) p (option_map (map XR) w) (option_map (map XR) v) mo = Ok out.
Proof.
  intros Hn Hs Hd Hn' Hp HT HP HX Hw Hv Hm HZ HU HC.
  assert (FE : forall k, (k < d)%nat -> feature_error (fun a b => Rabs (a - b)) n sz (weights_in_force w n) (weights_in_force v sz) (converted d u o T) (converted d u o P) k =
     Rabs (u k) * feature_error (fun a b => Rabs (a - b)) n sz (weights_in_force w n) (weights_in_force v sz) T P k).
  { intros k Hk. apply feature_converted; auto. intros x y. rewrite <- Rabs_mult. f_equal. ring. }
  assert (SE : forall k, (k < d)%nat -> seasonal_scale n' m p (converted d u o X) k = Rabs (u k) * seasonal_scale n' m p X k) by (intros k Hk; apply scale_converted; auto).
  assert (CS : mo <> RawValues -> rsum (map (seasonal_scale n' m p (converted d u o X)) (seq 0 d)) = Rabs (u 0%nat) * rsum (map (seasonal_scale n' m p X) (seq 0 d))).
  { intros N. destruct HC as [HC|HC]; [contradiction|]. rewrite <- rsum_map_scal. apply rsum_map_ext. intros k Hk. apply in_seq in Hk. rewrite SE, HC by lia. reflexivity. }
  assert (AP : forall k, (k < d)%nat -> Rabs (u k) <> 0) by (intros k Hk; apply Rabs_no_R0, HU, Hk).
  assert (HZ' : nonzero_scale d (seasonal_scale n' m p (converted d u o X)) mo).
  { destruct mo; cbn [nonzero_scale] in *; try (rewrite CS by discriminate; apply Rmult_integral_contrapositive_currified; [apply AP; lia|exact HZ]).
    intros k Hk. rewrite SE by exact Hk. apply Rmult_integral_contrapositive_currified; auto. }
  destruct (C122_value n sz d n' m p T P X w v mo Hn Hs Hd Hn' Hp HT HP HX Hw Hv Hm HZ) as (out & E & A).
  destruct (C122_value n sz d n' m p _ _ _ w v mo Hn Hs Hd Hn' Hp (shaped_converted _ _ _ u o _ HT) (shaped_converted _ _ _ u o _ HP) (shaped_converted _ _ _ u o _ HX) Hw Hv Hm HZ') as (out1 & E1 & A1).
  exists out. split; [exact E|]. rewrite E1. f_equal.
  assert (ID : INR d <> 0) by (apply not_0_INR; lia). destruct mo as [| | |q]; cbn [scaled nonzero_scale usable] in *.
  - subst out out1. do 2 f_equal. rewrite CS by discriminate. destruct HC as [HC|HC]; [discriminate|].
    rewrite (rsum_map_ext _ (fun k => Rabs (u 0%nat) * feature_error (fun a b => Rabs (a - b)) n sz (weights_in_force w n) (weights_in_force v sz) T P k)) by (intros k Hk; apply in_seq in Hk; rewrite FE, HC by lia; reflexivity).
    rewrite rsum_map_scal. field. repeat split; auto.
  - subst out out1. f_equal. apply map_ext_in. intros k Hk. apply in_seq in Hk. rewrite FE, SE by lia. f_equal. field. split; [apply HZ|apply AP]; lia.
  - contradiction.
  - destruct Hm as (u' & Eu & L & N). rewrite (A u' Eu L N), (A1 u' Eu L N). do 2 f_equal. rewrite CS by discriminate. destruct HC as [HC|HC]; [discriminate|].
    rewrite (rsum_map_ext _ (fun k => Rabs (u 0%nat) * (nth k u' 0 * feature_error (fun a b => Rabs (a - b)) n sz (weights_in_force w n) (weights_in_force v sz) T P k))) by (intros k Hk; apply in_seq in Hk; rewrite FE, HC by lia; ring).
    rewrite rsum_map_scal. field. repeat split; auto.
Qed.
Print Assumptions C226_mase.
(** The average over features mixes the units: with the second feature in a unit three times smaller the score falls from 1/2 to 1/4. *)
Theorem C226_average_refuted : exists T P X (u : nat -> R),
  shaped 1 1 2 T /\ shaped 1 1 2 P /\ shaped 1 2 2 X /\ (forall k, 0 < u k) /\ (forall k, (k < 2)%nat -> seasonal_scale 1 2 1 X k <> 0) /\
  mase (given T) (given P) (given X) 1 None None UniformAverage = Ok (Number (XR (1 / 2))) /\
  mase (given (converted 2 u (fun _ => 0) T)) (given (converted 2 u (fun _ => 0) P)) (given (converted 2 u (fun _ => 0) X)) 1 None None UniformAverage = Ok (Number (XR (1 / 4))).
Proof.
  exists [[[1; 0]]], [[[0; 0]]], [[[0; 0]; [1; 1]]], (fun k => match k with O => 1 | _ => 3 end).
  assert (HT : shaped 1 1 2 [[[1; 0]]]) by (split; [reflexivity|]; intros x [<-|[]]; split; [reflexivity|]; intros r [<-|[]]; reflexivity).
  assert (HP : shaped 1 1 2 [[[0; 0]]]) by (split; [reflexivity|]; intros x [<-|[]]; split; [reflexivity|]; intros r [<-|[]]; reflexivity).
  assert (HX : shaped 1 2 2 [[[0; 0]; [1; 1]]]) by (split; [reflexivity|]; intros x [<-|[]]; split; [reflexivity|]; intros r [<-|[<-|[]]]; reflexivity).
  assert (A1 : Rabs (0 - 1) = 1) by (rewrite Rabs_minus_sym, Rabs_pos_eq; lra).
  assert (S0 : forall k, (k < 2)%nat -> seasonal_scale 1 2 1 [[[0; 0]; [1; 1]]] k = 1).
  { intros k Hk. unfold seasonal_scale, at_, entry. destruct k as [|[|k]]; [| |lia]; cbn; rewrite A1; field. }
  set (u := fun k : nat => match k with O => 1 | _ => 3 end).
  assert (HU : forall k, 0 < u k) by (intros [|k]; cbn; lra).
  split; [exact HT|split; [exact HP|split; [exact HX|split; [exact HU|split; [intros k Hk; rewrite S0 by exact Hk; lra|]]]]].
  assert (F0 : forall k, (k < 2)%nat -> feature_error (fun a b => Rabs (a - b)) 1 1 (weights_in_force None 1) (weights_in_force None 1) [[[1; 0]]] [[[0; 0]]] k = match k with O => 1 | _ => 0 end).
  { intros k Hk. unfold feature_error, at_, entry. destruct k as [|[|k]]; [| |lia]; cbn; rewrite Rabs_pos_eq by lra; field. }
  split.
  - destruct (C122_value 1 1 2 1 2 1 _ _ _ None None UniformAverage ltac:(lia) ltac:(lia) ltac:(lia) ltac:(lia) ltac:(lia) HT HP HX I I I) as (out & E & A).
    { cbn [nonzero_scale seq map rsum fold_right]. rewrite !S0 by lia. cbn. lra. }
    cbn [option_map] in E. rewrite E. f_equal. cbn [scaled seq map] in A. rewrite !S0, !F0 in A by lia. rewrite A. do 2 f_equal. cbn. lra.
  - destruct (C122_value 1 1 2 1 2 1 _ _ _ None None UniformAverage ltac:(lia) ltac:(lia) ltac:(lia) ltac:(lia) ltac:(lia) (shaped_converted 1 1 2 u (fun _ => 0) _ HT) (shaped_converted 1 1 2 u (fun _ => 0) _ HP) (shaped_converted 1 2 2 u (fun _ => 0) _ HX) I I I) as (out & E & A).
    { cbn [nonzero_scale seq map rsum fold_right]. rewrite !scale_converted, !S0, !Rabs_pos_eq by (lia || auto || (cbn; lra)). cbn. lra. }
    cbn [option_map] in E. rewrite E. f_equal. cbn [scaled seq map] in A.
    rewrite !(scale_converted 1 2 1 2), !S0 in A by (auto; lia).
    assert (F1 : forall k, (k < 2)%nat -> feature_error (fun a b => Rabs (a - b)) 1 1 (weights_in_force None 1) (weights_in_force None 1) (converted 2 u (fun _ => 0) [[[1; 0]]]) (converted 2 u (fun _ => 0) [[[0; 0]]]) k = match k with O => 1 | _ => 0 end).
    { intros k Hk. rewrite (feature_converted _ (u k) 1 1 2 u), F0; auto; [destruct k as [|[|k]]; [| |lia]; cbn; lra|]. intros x y. rewrite abs_conv, Rabs_pos_eq; [reflexivity|]. specialize (HU k). lra. }
    rewrite !F1, !Rabs_pos_eq in A by (lia || (cbn; lra)). rewrite A. do 2 f_equal. cbn. lra.
Qed.
Print Assumptions C226_average_refuted.
(** a case of the hypotheses of [C225_mae], [C225_mse] and [C226_mase]: two series with two features, weighted, features in different units *)
Example C226_instance : let T := [[[1; 2]; [3; 4]]; [[0; 0]; [1; 1]]] in let P := [[[2; 2]; [3; 0]]; [[0; 5]; [1; 1]]] in let X := [[[0; 0]; [1; 3]]] in
  shaped 2 2 2 T /\ shaped 2 2 2 P /\ shaped 1 2 2 X /\ fine_weights 2 (Some [1; 3]) /\ usable 2 RawValues /\ nonzero_scale 2 (seasonal_scale 1 2 1 X) RawValues /\
  converted 2 (fun k => match k with O => 2 | _ => -5 end) (fun _ => 1) X = [[[1; 1]; [3; -14]]].
Proof.
  intros T P X. destruct C120_instance as (HT & HP & HW & _). split; [exact HT|split; [exact HP|]].
  assert (HX : shaped 1 2 2 X). { split; [reflexivity|]. intros x [<-|[]]. split; [reflexivity|]. intros r [<-|[<-|[]]]; reflexivity. }
  split; [exact HX|split; [exact HW|split; [exact I|split]]].
  - intros k Hk. unfold seasonal_scale, at_, entry. destruct k as [|[|k]]; [| |lia]; cbn; rewrite Rabs_minus_sym, Rabs_pos_eq by lra; lra.
  - unfold converted, X. cbn. repeat (f_equal; try ring).
Qed.

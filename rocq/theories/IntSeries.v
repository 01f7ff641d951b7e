(** Concrete alignments of integer series can be evaluated: the alignment
    computation on integers gives the same path and cost as on extended reals. *)
From Coq Require Import Bool List Arith Lia ZArith QArith Reals Lra.
From Verif Require Import Num NumLaws Py Series Masks DtwModel Spec RList RealSeries BaryModel.
Import ListNotations.
Local Open Scope R_scope.

(** integers and an infinite value *)
Definition zadd (a b : option Z) : option Z := match a, b with Some x, Some y => Some (x + y)%Z | _, _ => None end.
Definition zsub (a b : option Z) : option Z := match a, b with Some x, Some y => Some (x - y)%Z | _, _ => None end.
Definition zmul (a b : option Z) : option Z := match a, b with Some x, Some y => Some (x * y)%Z | _, _ => None end.
Definition zleb (a b : option Z) : bool := match a, b with _, None => true | None, _ => false | Some x, Some y => (x <=? y)%Z end.
Definition zltb (a b : option Z) : bool := match a, b with None, _ => false | _, None => true | Some x, Some y => (x <? y)%Z end.
Definition Znum : num := Num (option Z) zadd zsub zmul (fun a => a) zleb zltb (Some 0%Z) None None (fun _ => false).

Definition zx (a : option Z) : xr := match a with Some z => XR (IZR z) | None => XInf end.
Definition zseries (s : list (list Z)) : list (list R) := map (map IZR) s.
Definition zlift (s : list (list Z)) : series Znum := map (map Some) s.

Lemma zx_ltb a b : xltb (zx a) (zx b) = zltb a b.
Proof.
  destruct a as [x|], b as [y|]; simpl; auto. unfold Rltb. destruct (Rlt_dec _ _) as [H|H].
  - apply lt_IZR in H. symmetry. apply Z.ltb_lt. auto.
  - symmetry. apply Z.ltb_ge. apply Z.le_ngt. intros K. apply H. apply IZR_lt. auto.
Qed.
Lemma zx_add a b : xadd (zx a) (zx b) = zx (zadd a b).
Proof. destruct a as [x|], b as [y|]; simpl; auto. rewrite plus_IZR. reflexivity. Qed.
Lemma zx_min a b c : pymin3 (N:=Xnum) (zx a) (zx b) (zx c) = zx (pymin3 (N:=Znum) a b c).
Proof.
  assert (K : forall a b, pymin (N:=Xnum) (zx a) (zx b) = zx (pymin (N:=Znum) a b)).
  { intros u v. unfold pymin. simpl. rewrite zx_ltb. destruct (zltb v u); reflexivity. }
  unfold pymin3. rewrite !K. reflexivity.
Qed.
Lemma zx_argmin a b c : argmin3 (N:=Xnum) (zx a) (zx b) (zx c) = argmin3 (N:=Znum) a b c.
Proof. unfold argmin3. simpl. rewrite !zx_ltb. reflexivity. Qed.
Section Matrix.
Variables (l1 l2 : nat) (D : mat xr) (Dz : mat (option Z)) (mask : mask_t).
Hypothesis HD : forall i j, D i j = zx (Dz i j).
Lemma z_fold cells : forall m mz, (forall i j, m i j = zx (mz i j)) -> forall i j,
  fold_left (cum_step (N:=Xnum) comb_dtw D mask) cells m i j = zx (fold_left (cum_step (N:=Znum) comb_dtw Dz mask) cells mz i j).
Proof.
  induction cells as [|[ci cj] l IH]; simpl; intros m mz H i j; [apply H|]. apply IH. intros a b.
  destruct (mask ci cj); [|apply H]. unfold upd. destruct ((a =? S ci)%nat && (b =? S cj)%nat); [|apply H].
  unfold comb_dtw. simpl. rewrite !H, HD. rewrite zx_min, zx_add. reflexivity.
Qed.
Lemma z_acc i j : acc_matrix (N:=Xnum) comb_dtw l1 l2 D mask i j = zx (acc_matrix (N:=Znum) comb_dtw l1 l2 Dz mask i j).
Proof.
  unfold acc_matrix, cum_matrix. apply z_fold. intros a b. unfold cum_init. destruct ((a =? 0)%nat && (b =? 0)%nat); reflexivity.
Qed.
End Matrix.
Lemma z_backtrack fuel (a : mat xr) (az : mat (option Z)) : (forall i j, a i j = zx (az i j)) -> forall i j p,
  backtrack (N:=Xnum) fuel a i j p = backtrack (N:=Znum) fuel az i j p.
Proof.
  intros H. induction fuel as [|f IH]; intros i j p; auto. destruct i as [|i], j as [|j]; simpl; auto.
  rewrite !H, zx_argmin. destruct (argmin3 _ _ _) as [|[|k]]; apply IH.
Qed.
Lemma zlift_nth s i : nth i (zlift s) [] = map Some (nth i s []).
Proof. unfold zlift. exact (map_nth (map (@Some Z)) s [] i). Qed.
Lemma zseries_nth s i : nth i (zseries s) [] = map IZR (nth i s []).
Proof. unfold zseries. exact (map_nth (map IZR) s [] i). Qed.
Lemma z_dists s1 s2 i j : sq_dists (N:=Xnum) (lift (zseries s1)) (lift (zseries s2)) i j = zx (sq_dists (N:=Znum) (zlift s1) (zlift s2) i j).
Proof.
  unfold sq_dists. pose proof (zlift_nth s1 i) as E1. pose proof (zlift_nth s2 j) as E2. simpl in *. rewrite E1, E2.
  pose proof (lift_nth (zseries s1) i) as E3. pose proof (lift_nth (zseries s2) j) as E4. simpl in *. rewrite E3, E4, !zseries_nth. clear.
  unfold local_sq_dist. generalize (nth i s1 []) (nth j s2 []). intros u v.
  change (nzero (n:=Xnum)) with (zx (nzero (n:=Znum))). generalize (nzero (n:=Znum)). revert v.
  induction u as [|a u IH]; intros [|b v] acc; auto. cbn [map combine fold_left fst snd].
  rewrite <- IH. f_equal. destruct acc as [z|]; simpl; auto. rewrite plus_IZR, mult_IZR, minus_IZR. reflexivity.
Qed.
(** the integer evaluation of [njit_dtw_path] *)
Definition z_path (mp : metric_params) (s1 s2 : list (list Z)) : res (list (nat * nat) * option Z) :=
  elastic_path_generic (N:=Znum) comb_dtw (zlift s1) (zlift s2) (key_code (mp_gc mp)) (mp_radius mp) (mp_slope mp).
Lemma njit_int mp s1 s2 p v : (0 <= v)%Z -> z_path mp s1 s2 = Ok (p, Some v) ->
  njit_dtw_path mp (lift (zseries s1)) (lift (zseries s2)) = Ok (p, XR (sqrt (IZR v))).
Proof.
  intros Hv. unfold z_path, njit_dtw_path, elastic_path_generic.
  assert (L : forall s, length (lift (zseries s)) = length s /\ length (zlift s) = length s).
  { intros s. unfold lift, zseries, zlift. split; [etransitivity; [apply map_length|]|]; apply map_length. }
  destruct (L s1) as [A1 B1]. destruct (L s2) as [A2 B2]. rewrite A1, A2. 
  replace (length (zlift s1)) with (length s1) by (symmetry; exact B1). replace (length (zlift s2)) with (length s2) by (symmetry; exact B2).
  destruct (compute_mask _ _ _ _ _) as [mask|e]; cbn [bind]; [|discriminate].
  set (l1 := length s1). set (l2 := length s2).
  pose proof (z_acc l1 l2 _ _ mask (z_dists s1 s2)) as HA.
  unfold compute_path. rewrite (z_backtrack _ _ _ HA). destruct (backtrack (N:=Znum) _ _ _ _ _) as [q|]; [|discriminate].
  intros E. assert (E1 : p = q /\ acc_matrix (N:=Znum) comb_dtw l1 l2 (sq_dists (N:=Znum) (zlift s1) (zlift s2)) mask (l1 - 1)%nat (l2 - 1)%nat = Some v) by (inversion E; auto).
  destruct E1 as [-> E1]. rewrite HA, E1. simpl. unfold xsqrt. destruct (Rleb 0 (IZR v)) eqn:K; [reflexivity|].
  exfalso. unfold Rleb in K. destruct (Rle_dec 0 (IZR v)) as [H|H]; [discriminate|]. apply H. apply IZR_le. auto.
Qed.

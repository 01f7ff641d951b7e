(** C192: [sigma_gak] with the two back ends. *)
From Coq Require Import Bool List Arith Lia ZArith Reals Lra Permutation Sorting.Sorted.
From Verif Require Import Num Py RList KernelModel SigmaTorchModel PropSigma2.
Import ListNotations.
Local Open Scope R_scope.

Lemma pdist_length l : (2 * length (pdist l) = length l * (length l - 1))%nat.
Proof. induction l as [|a l IH]; cbn [pdist length]; [reflexivity|]. rewrite app_length, map_length. nia. Qed.
Lemma sort_length l : length (sort_r l) = length l.
Proof. symmetry. apply Permutation_length, sort_perm. Qed.
Lemma sorted_nth l : StronglySorted Rle l -> forall i j, (i <= j < length l)%nat -> nth i l 0 <= nth j l 0.
Proof.
  induction 1 as [|x l S IH F]; intros i j H; cbn [length] in H; [lia|]. destruct j as [|j]; [replace i with 0%nat by lia; lra|]. destruct i as [|i].
  - cbn [nth]. rewrite Forall_forall in F. apply F. apply nth_In. lia.
  - cbn [nth]. apply IH. lia.
Qed.
(** C192: PyTorch's value is never larger; it is the same if the number of drawn points is 2 or 3 more than a multiple of 4, since then the
    number of distances is odd. *)
Theorem C192_never_larger ds idx v : (2 <= length idx)%nat -> sigma_gak ds idx = Ok v ->
  exists v', sigma_gak_torch ds idx = Ok v' /\ v' <= v /\ (length idx mod 4 = 2 \/ length idx mod 4 = 3 -> v' = v)%nat.
Proof.
  intros HI E. unfold sigma_gak in E. unfold sigma_gak_torch. destruct (finite_points ds) as [|p pts]; [discriminate|]. injection E as <-. eexists. split; [reflexivity|].
  set (q := map _ idx). assert (LQ : length q = length idx) by apply map_length. pose proof (pdist_length q) as LP. rewrite LQ in LP. set (l := pdist q) in *. pose proof (sort_length l) as LS.
  assert (P0 : (0 < length l)%nat) by nia. unfold median, torch_median.
  assert (B : ((length l - 1) / 2 <= length l / 2 < length l)%nat) by (split; [apply Nat.div_le_mono; lia|apply Nat.div_lt; lia]).
  pose proof (sorted_nth (sort_r l) (sort_sorted l) _ _ ltac:(rewrite LS; exact B)) as O. split.
  - apply Rmult_le_compat_r; [apply sqrt_pos|]. lra.
  - intros M. assert (OD : ((length l - 1) / 2 = length l / 2)%nat).
    { pose proof (Nat.div_mod (length idx) 4 ltac:(lia)) as DM. set (m := (length idx / 4)%nat) in *. destruct M as [M|M]; rewrite M in DM.
      - assert (Q : length l = (S (2 * (4 * m * m + 3 * m)))%nat) by nia. rewrite Q. replace (S (2 * (4 * m * m + 3 * m)) - 1)%nat with ((4 * m * m + 3 * m) * 2)%nat by lia. rewrite Nat.div_mul by lia. replace (S (2 * (4 * m * m + 3 * m))) with (1 + (4 * m * m + 3 * m) * 2)%nat by lia. rewrite Nat.div_add by lia. reflexivity.
      - assert (Q : length l = (S (2 * (4 * m * m + 5 * m + 1)))%nat) by nia. rewrite Q. replace (S (2 * (4 * m * m + 5 * m + 1)) - 1)%nat with ((4 * m * m + 5 * m + 1) * 2)%nat by lia. rewrite Nat.div_mul by lia. replace (S (2 * (4 * m * m + 5 * m + 1))) with (1 + (4 * m * m + 5 * m + 1) * 2)%nat by lia. rewrite Nat.div_add by lia. reflexivity. }
    rewrite OD. lra.
Qed.
Print Assumptions C192_never_larger.
(** ** points 0 and 1 *)
Definition point (b : bool) : list R := if b then [1] else [0].
Definition count (b : bool) (l : list bool) : nat := count_occ Bool.bool_dec l b.
Fixpoint zeros (l : list bool) : nat := match l with [] => 0 | b :: l => count b l + zeros l end.
Fixpoint ones (l : list bool) : nat := match l with [] => 0 | b :: l => count (negb b) l + ones l end.
Lemma point_dist a b : euclid_pts (point a) (point b) = if Bool.eqb a b then 0 else 1.
Proof.
  unfold euclid_pts. destruct a, b; cbn [point combine map fst snd rsum fold_right Bool.eqb]; unfold rsum; cbn [fold_right].
  - replace ((1 - 1) * (1 - 1) + 0) with 0 by ring. apply sqrt_0.
  - replace ((1 - 0) * (1 - 0) + 0) with 1 by ring. apply sqrt_1.
  - replace ((0 - 1) * (0 - 1) + 0) with 1 by ring. apply sqrt_1.
  - replace ((0 - 0) * (0 - 0) + 0) with 0 by ring. apply sqrt_0.
Qed.
Lemma row_counts a l : Permutation (map (euclid_pts (point a)) (map point l)) (repeat 0 (count a l) ++ repeat 1 (count (negb a) l)).
Proof.
  induction l as [|b l IH]; [reflexivity|]. cbn [map]. rewrite point_dist. unfold count in *. cbn [count_occ].
  destruct a, b; cbn [Bool.eqb negb] in *; repeat match goal with |- context [Bool.bool_dec ?x ?y] => let X := fresh in destruct (Bool.bool_dec x y) as [X|X]; try congruence end; cbn [repeat app].
  - apply perm_skip. exact IH.
  - eapply perm_trans; [apply perm_skip; exact IH|]. apply Permutation_middle.
  - eapply perm_trans; [apply perm_skip; exact IH|]. apply Permutation_middle.
  - apply perm_skip. exact IH.
Qed.
Lemma dist_counts l : Permutation (pdist (map point l)) (repeat 0 (zeros l) ++ repeat 1 (ones l)).
Proof.
  induction l as [|b l IH]; [reflexivity|]. cbn [map pdist zeros ones]. eapply perm_trans; [apply Permutation_app; [apply row_counts|exact IH]|]. rewrite !repeat_app.
  set (A := repeat 0 _). set (B := repeat 1 _). set (C := repeat 0 _). set (E := repeat 1 _). rewrite <- !app_assoc. apply Permutation_app_head. rewrite !app_assoc. apply Permutation_app_tail. apply Permutation_app_comm.
Qed.
Lemma sorted_zeros_ones a b : StronglySorted Rle (repeat 0 a ++ repeat 1 b).
Proof.
  induction a as [|a IH]; cbn [repeat app].
  - induction b as [|b IH]; cbn; constructor; auto. apply Forall_forall. intros x Hx. apply repeat_spec in Hx. subst. lra.
  - constructor; [exact IH|]. apply Forall_forall. intros x Hx. apply in_app_iff in Hx. destruct Hx as [Hx|Hx]; apply repeat_spec in Hx; subst; lra.
Qed.
(** C192, false as stated: with the default of 100 draws the two middle distances can differ. The series (0, 1), drawn 45 and 55 times: numpy's
    bandwidth is sqrt 2 / 2, PyTorch's is 0, which is no bandwidth at all. *)
Definition draws : list bool := repeat false 45 ++ repeat true 55.
Theorem C192_refuted : exists ds idx, length idx = 100%nat /\ (forall i, In i idx -> (i < 2)%nat) /\
  sigma_gak ds idx = Ok (sqrt 2 / 2) /\ sigma_gak_torch ds idx = Ok 0.
Proof.
  exists [[[XR 0]; [XR 1]]], (map (fun b : bool => if b then 1%nat else 0%nat) draws).
  assert (PT : map (fun i => nth i (finite_points [[[XR 0]; [XR 1]]]) []) (map (fun b : bool => if b then 1%nat else 0%nat) draws) = map point draws).
  { rewrite map_map. apply map_ext. intros [|]; reflexivity. }
  assert (ST : sort_r (pdist (map point draws)) = repeat 0 2475 ++ repeat 1 2475).
  { apply sorted_unique; [apply sort_sorted|apply sorted_zeros_ones|]. eapply perm_trans; [apply Permutation_sym, sort_perm|]. eapply perm_trans; [apply dist_counts|].
    replace (zeros draws) with 2475%nat by (vm_compute; reflexivity). replace (ones draws) with 2475%nat by (vm_compute; reflexivity). reflexivity. }
  assert (LD : length (pdist (map point draws)) = 4950%nat) by (rewrite (Permutation_length (dist_counts draws)), app_length, !repeat_length; vm_compute; reflexivity).
  assert (N0 : nth ((4950 - 1) / 2) (repeat 0 2475 ++ repeat 1 2475) 0 = 0).
  { replace ((4950 - 1) / 2)%nat with 2474%nat by (vm_compute; reflexivity). rewrite app_nth1 by (rewrite repeat_length; apply Nat.ltb_lt; vm_compute; reflexivity). apply nth_repeat. }
  assert (N1 : nth (4950 / 2) (repeat 0 2475 ++ repeat 1 2475) 0 = 1).
  { replace (4950 / 2)%nat with 2475%nat by (vm_compute; reflexivity). rewrite app_nth2 by (rewrite repeat_length; apply Nat.leb_le; vm_compute; reflexivity). rewrite repeat_length. replace (2475 - 2475)%nat with 0%nat by (vm_compute; reflexivity). reflexivity. }
  split; [vm_compute; reflexivity|]. split; [intros i Hi; apply in_map_iff in Hi; destruct Hi as ([|] & <- & _); lia|].
  unfold sigma_gak, sigma_gak_torch. rewrite PT. cbn [finite_points concat app flat_map finite_row length INR]. unfold median, torch_median. rewrite LD, ST, N0, N1. split; f_equal; [replace (1 + 1) with 2 by ring; lra|lra].
Qed.
Print Assumptions C192_refuted.

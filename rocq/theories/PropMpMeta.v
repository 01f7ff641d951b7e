(** C227: the matrix profile of a reversed and of a longer series. *)
From Coq Require Import Bool List Arith ZArith Lia Reals Lra Permutation.
From Verif Require Import Num NumLaws Py Series Dataset RList PathSum SoftModel GakModel PaaModel PaaThms PreModel PropScale MpModel PropMp.
Import ListNotations.
Local Open Scope R_scope.

(** ** Specification *)
(** [v] is a number, or infinite, and not above [w] *)
Definition not_above (v w : xr) : Prop :=
  match v, w with XR a, XR b => a <= b | XR _, XInf => True | XInf, XInf => True | _, _ => False end.

(** ** lemmas *)
Lemma least_unique P f v w : least P f v -> least P f w -> v = w.
Proof.
  intros [(j & Pj & -> & H)|(-> & H)] [(k & Pk & -> & K)|(-> & K)]; try reflexivity.
  - f_equal. apply Rle_antisym; auto.
  - destruct (K j Pj).
  - destruct (H k Pk).
Qed.
Lemma window_rev m x i : (i + m <= length x)%nat -> window m (rev x) i = rev (window m x (length x - m - i)).
Proof.
  intros H. apply nth_ext with (d := 0) (d' := 0); [rewrite rev_length, !window_len; reflexivity|]. intros t Ht. rewrite window_len in Ht.
  rewrite rev_nth by (rewrite window_len; exact Ht). rewrite window_len. unfold window. rewrite !map_seq_nth by lia. rewrite rev_nth by lia. f_equal. lia.
Qed.
Lemma window_app m a x b i : (i + m <= length x)%nat -> window m (a ++ x ++ b) (length a + i) = window m x i.
Proof. intros H. apply map_ext_in. intros t Ht. apply in_seq in Ht. rewrite app_nth2 by lia. rewrite app_nth1 by lia. f_equal. lia. Qed.
Lemma rsum_rev l : rsum (rev l) = rsum l.
Proof. apply rsum_perm, Permutation_sym, Permutation_rev. Qed.
Lemma mean_rev l : mean (rev l) = mean l.
Proof. unfold mean. rewrite rsum_rev, rev_length. reflexivity. Qed.
Lemma std_rev l : std_dev (rev l) = std_dev l.
Proof. unfold std_dev. rewrite mean_rev, map_rev, mean_rev. reflexivity. Qed.
Lemma znorm_rev l : znorm (rev l) = rev (znorm l).
Proof. unfold znorm. rewrite mean_rev, std_rev, map_rev. reflexivity. Qed.
Lemma shown_rev s l : shown s (rev l) = rev (shown s l).
Proof. destruct s; [apply znorm_rev|reflexivity]. Qed.
Lemma combine_rev {A B} (a : list A) (b : list B) : length a = length b -> combine (rev a) (rev b) = rev (combine a b).
Proof.
  revert b. induction a as [|x a IH]; intros [|y b] H; try discriminate; [reflexivity|]. cbn [rev combine]. injection H as H. rewrite <- IH by exact H.
  assert (G : forall (u : list A) (v : list B) x y, length u = length v -> combine (u ++ [x]) (v ++ [y]) = combine u v ++ [(x, y)]).
  { clear. induction u as [|p u IH]; intros [|q v] x y H; try discriminate; [reflexivity|]. cbn. f_equal. apply IH. injection H as H. exact H. }
  apply G. rewrite !rev_length. exact H.
Qed.
Lemma eucl_rev a b : length a = length b -> eucl (rev a) (rev b) = eucl a b.
Proof. intros H. unfold eucl. rewrite combine_rev by exact H. rewrite map_rev, rsum_rev. reflexivity. Qed.
Lemma shown_len s l : length (shown s l) = length l.
Proof. destruct s; [apply znorm_len|reflexivity]. Qed.

(** The profile of the reversed series is the reversed profile. *)
Theorem C227_reversed scale m x : (1 <= m <= length x)%nat ->
  exists out, mp_series scale m (univ x) = Ok out /\ mp_series scale m (univ (rev x)) = Ok (rev out).
Proof.
  intros Hm. destruct (C60_profile scale m x Hm) as (out & E & L & H). destruct (C60_profile scale m (rev x)) as (out' & E' & L' & H'); [rewrite rev_length; exact Hm|].
  exists out. split; [exact E|]. rewrite E'. f_equal. rewrite rev_length in *. set (n := length x) in *.
  apply nth_ext with (d := XNaN) (d' := XNaN); [rewrite rev_length, L, L'; reflexivity|]. intros i Hi. rewrite L' in Hi.
  rewrite rev_nth, L by lia. replace (n - m + 1 - S i)%nat with (n - m - i)%nat by lia.
  specialize (H (n - m - i)%nat ltac:(lia)). specialize (H' i ltac:(lia)). unfold mp_spec in H, H'. rewrite rev_length in H'. fold n in H, H'.
  assert (EQ : forall j, (j + m <= n)%nat -> eucl (shown scale (window m (rev x) i)) (shown scale (window m (rev x) j)) = eucl (shown scale (window m x (n - m - i))) (shown scale (window m x (n - m - j)))).
  { intros j Hj. rewrite !window_rev by (unfold n in *; lia). rewrite !shown_rev. apply eucl_rev. rewrite !shown_len, !window_len. reflexivity. }
  assert (AP : forall j, (j + m <= n)%nat -> apart m i j <-> apart m (n - m - i) (n - m - j)) by (intros j Hj; unfold apart; lia).
  apply (least_unique (fun j => (j + m <= n)%nat /\ apart m (n - m - i) j) (fun j => eucl (shown scale (window m x (n - m - i))) (shown scale (window m x j)))); [|exact H].
  destruct H' as [(j & (Q1 & Q2) & -> & Q3)|(-> & Q)].
  - left. exists (n - m - j)%nat. split; [split; [lia|apply AP; assumption]|]. split; [f_equal; apply EQ, Q1|].
    intros k (K1 & K2). rewrite <- (EQ j Q1). replace k with (n - m - (n - m - k))%nat by lia. rewrite <- (EQ (n - m - k)%nat) by lia. apply Q3. split; [lia|].
    apply AP; [lia|]. replace (n - m - (n - m - k))%nat with k by lia. exact K2.
  - right. split; [reflexivity|]. intros k (K1 & K2). apply (Q (n - m - k)%nat). split; [lia|]. apply AP; [lia|]. replace (n - m - (n - m - k))%nat with k by lia. exact K2.
Qed.
Print Assumptions C227_reversed.
(** Data added before and after a series increase no entry of the profile of its segments. *)
Theorem C227_longer scale m a x b : (1 <= m <= length x)%nat ->
  exists out out', mp_series scale m (univ x) = Ok out /\ mp_series scale m (univ (a ++ x ++ b)) = Ok out' /\
    forall i, (i + m <= length x)%nat -> not_above (nth (length a + i) out' XNaN) (nth i out XNaN).
Proof.
  intros Hm. destruct (C60_profile scale m x Hm) as (out & E & L & H). destruct (C60_profile scale m (a ++ x ++ b)) as (out' & E' & L' & H'); [rewrite !app_length; lia|].
  exists out, out'. split; [exact E|split; [exact E'|]]. intros i Hi. specialize (H i Hi). specialize (H' (length a + i)%nat ltac:(rewrite !app_length; lia)).
  unfold mp_spec in H, H'. rewrite window_app in H' by exact Hi.
  assert (IN : forall j, (j + m <= length x)%nat /\ apart m i j -> (length a + j + m <= length (a ++ x ++ b))%nat /\ apart m (length a + i) (length a + j)).
  { intros j (J1 & J2). rewrite !app_length. unfold apart in *. split; lia. }
  destruct H as [(j & J & -> & _)|(-> & Q)], H' as [(k & K & -> & K3)|(-> & K)]; cbn [not_above]; auto.
  - specialize (K3 (length a + j)%nat (IN j J)). rewrite window_app in K3 by (apply J). exact K3.
  - destruct (K (length a + j)%nat (IN j J)).
Qed.
Print Assumptions C227_longer.
(** a case where an entry falls: segments of length 1, one more value, equal to the first *)
Lemma eucl_one u v : eucl [u] [v] = Rabs (u - v).
Proof. unfold eucl. cbn. rewrite Rplus_0_r. fold (Rsqr (u - v)). apply sqrt_Rsqr_abs. Qed.
Example C227_nontrivial : exists out out',
  mp_series false 1 (univ [1; 5; 2; 4]) = Ok out /\ mp_series false 1 (univ ([1; 5; 2; 4] ++ [1])) = Ok out' /\
  nth 0 out XNaN = XR 1 /\ nth 0 out' XNaN = XR 0.
Proof.
  destruct (C60_profile false 1 [1; 5; 2; 4] ltac:(cbn; lia)) as (out & E & _ & H). destruct (C60_profile false 1 ([1; 5; 2; 4] ++ [1]) ltac:(cbn; lia)) as (out' & E' & _ & H').
  exists out, out'. split; [exact E|split; [exact E'|]]. specialize (H 0%nat ltac:(cbn; lia)). specialize (H' 0%nat ltac:(cbn; lia)). split.
  - eapply least_unique; [exact H|]. left. exists 2%nat. unfold apart, shown, window. cbn [length seq map nth Nat.add]. rewrite !eucl_one. split; [lia|split].
    + f_equal. rewrite Rabs_left; lra.
    + intros j (J1 & J2). destruct j as [|[|[|[|j]]]]; try lia; cbn [nth Nat.add]; rewrite ?eucl_one; rewrite ?(Rabs_left (1 - 2)), ?(Rabs_left (1 - 4)) by lra; lra.
  - eapply least_unique; [exact H'|]. left. exists 4%nat. unfold apart, shown, window. cbn [length seq map nth Nat.add app]. rewrite !eucl_one. split; [lia|split].
    + f_equal. rewrite Rminus_diag_eq, Rabs_R0 by reflexivity. reflexivity.
    + intros j (J1 & J2). rewrite Rminus_diag_eq, Rabs_R0 by reflexivity. unfold eucl. apply sqrt_pos.
Qed.

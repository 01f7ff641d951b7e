(** Lists of real numbers: sums, minima, maxima. *)
From Coq Require Import Reals List Arith Lia Lra.
Import ListNotations.
Local Open Scope R_scope.

Definition rsum (l : list R) : R := fold_right Rplus 0 l.
(** numpy.min / numpy.max of a non-empty array (0 for an empty one: callers check) *)
Fixpoint rmin (l : list R) : R := match l with [] => 0 | [x] => x | x :: l' => Rmin x (rmin l') end.
Fixpoint rmax (l : list R) : R := match l with [] => 0 | [x] => x | x :: l' => Rmax x (rmax l') end.

Lemma rsum_app l l' : rsum (l ++ l') = rsum l + rsum l'.
Proof. induction l; simpl; lra. Qed.
Lemma rsum_nonneg l : (forall x, In x l -> 0 <= x) -> 0 <= rsum l.
Proof.
  induction l as [|x l IH]; simpl; intros H; [lra|]. pose proof (H x (or_introl eq_refl)).
  assert (0 <= rsum l) by (apply IH; auto). lra.
Qed.
Lemma rsum_map_plus {A} (f g : A -> R) l : rsum (map (fun x => f x + g x) l) = rsum (map f l) + rsum (map g l).
Proof. induction l; simpl; lra. Qed.
Lemma rsum_map_scal {A} (c : R) (f : A -> R) l : rsum (map (fun x => c * f x) l) = c * rsum (map f l).
Proof. induction l; simpl; lra. Qed.
Lemma rsum_map_le {A} (f g : A -> R) l : (forall x, In x l -> f x <= g x) -> rsum (map f l) <= rsum (map g l).
Proof.
  induction l as [|x l IH]; simpl; intros H; [lra|]. pose proof (H x (or_introl eq_refl)).
  assert (rsum (map f l) <= rsum (map g l)) by (apply IH; auto). lra.
Qed.
Lemma rsum_map_ext {A} (f g : A -> R) l : (forall x, In x l -> f x = g x) -> rsum (map f l) = rsum (map g l).
Proof. intros H. f_equal. apply map_ext_in. auto. Qed.
Lemma rsum_const {A} (c : R) (l : list A) : rsum (map (fun _ => c) l) = INR (length l) * c.
Proof. induction l as [|x l IH]; [simpl; lra|]. change (length (x :: l)) with (S (length l)). rewrite S_INR. simpl map. simpl rsum. rewrite IH. lra. Qed.
Lemma rsum_filter {A} (f : A -> R) (P : A -> bool) l :
  rsum (map f (filter P l)) = rsum (map (fun x => if P x then f x else 0) l).
Proof. induction l as [|x l IH]; simpl; auto. destruct (P x); simpl; lra. Qed.

Lemma rmin_in l : l <> [] -> In (rmin l) l.
Proof.
  induction l as [|x l IH]; [congruence|]. intros _. destruct l as [|y l]; [simpl; auto|].
  change (rmin (x :: y :: l)) with (Rmin x (rmin (y :: l))).
  unfold Rmin. destruct (Rle_dec x (rmin (y :: l))); [left; auto|right; apply IH; discriminate].
Qed.
Lemma rmin_le l x : In x l -> rmin l <= x.
Proof.
  induction l as [|y l IH]; [contradiction|]. intros H. destruct l as [|z l]; [destruct H as [->|[]]; simpl; lra|].
  change (rmin (y :: z :: l)) with (Rmin y (rmin (z :: l))). destruct H as [->|H]; [apply Rmin_l|].
  eapply Rle_trans; [apply Rmin_r|]. auto.
Qed.
Lemma rmax_in l : l <> [] -> In (rmax l) l.
Proof.
  induction l as [|x l IH]; [congruence|]. intros _. destruct l as [|y l]; [simpl; auto|].
  change (rmax (x :: y :: l)) with (Rmax x (rmax (y :: l))).
  unfold Rmax. destruct (Rle_dec x (rmax (y :: l))); [right; apply IH; discriminate|left; auto].
Qed.
Lemma rmax_ge l x : In x l -> x <= rmax l.
Proof.
  induction l as [|y l IH]; [contradiction|]. intros H. destruct l as [|z l]; [destruct H as [->|[]]; simpl; lra|].
  change (rmax (y :: z :: l)) with (Rmax y (rmax (z :: l))). destruct H as [->|H]; [apply Rmax_l|].
  eapply Rle_trans; [|apply Rmax_r]. auto.
Qed.

(** Python's [l[a:b]] for 0 <= a, 0 <= b *)
Definition slice {A} (a b : nat) (l : list A) : list A := firstn (b - a) (skipn a l).
Lemma slice_nth {A} a b (l : list A) j d : (j < b - a)%nat -> nth j (slice a b l) d = nth (a + j) l d.
Proof.
  intros H. unfold slice.
  assert (F : forall (l : list A) k i, (i < k)%nat -> nth i (firstn k l) d = nth i l d).
  { intros l0. induction l0 as [|x l0 IH]; intros k i Hk; [rewrite firstn_nil; auto|].
    destruct k; [lia|]. destruct i; simpl; auto. apply IH. lia. }
  assert (S' : forall a (l : list A) i, nth i (skipn a l) d = nth (a + i) l d).
  { clear. induction a as [|a IH]; intros l i; simpl; auto. destruct l; simpl; auto. destruct i; auto. }
  rewrite F by lia. apply S'.
Qed.
Lemma slice_length {A} a b (l : list A) : length (slice a b l) = Nat.min (b - a) (length l - a).
Proof. unfold slice. rewrite firstn_length, skipn_length. reflexivity. Qed.
Lemma in_slice_iff {A} a b (l : list A) x (d : A) :
  In x (slice a b l) <-> exists k, (a <= k < b)%nat /\ (k < length l)%nat /\ nth k l d = x.
Proof.
  split.
  - intros H. apply (In_nth _ _ d) in H. destruct H as (j & Hj & E). rewrite slice_length in Hj.
    rewrite slice_nth in E by lia. exists (a + j)%nat. repeat split; auto; lia.
  - intros (k & H1 & H2 & E). replace k with (a + (k - a))%nat in E by lia. rewrite <- (slice_nth a b) in E by lia.
    rewrite <- E. apply nth_In. rewrite slice_length. lia.
Qed.

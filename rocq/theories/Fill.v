(** Tables filled cell by cell in lexicographic order satisfy their recurrence. *)
From Coq Require Import Bool List Arith Lia Sorting.Sorted.
From Verif Require Import Py Spec DpProofs.
Import ListNotations.

(** [for i in range(a, a+n): for j in range(b, b+m)] *)
Definition grid (a n b m : nat) : list (nat * nat) :=
  flat_map (fun i => map (fun j => (i, j)) (seq b m)) (seq a n).

Lemma in_grid a n b m i j : In (i, j) (grid a n b m) <-> a <= i < a + n /\ b <= j < b + m.
Proof.
  unfold grid. rewrite in_flat_map. split.
  - intros (x & Hx & H). apply in_map_iff in H. destruct H as (y & [= -> ->] & Hy). apply in_seq in Hx, Hy. lia.
  - intros H. exists i. split; [apply in_seq; lia|]. apply in_map_iff. exists j. split; auto. apply in_seq. lia.
Qed.
Lemma sorted_grid a n b m : StronglySorted lex (grid a n b m).
Proof.
  revert a. unfold grid. induction n as [|n IH]; intros a; simpl; [constructor|].
  apply sorted_app; [apply sorted_row|apply IH|].
  intros [x y] [x' y'] H1 H2. apply in_map_iff in H1. destruct H1 as (z & E & Hz). inversion E; subst.
  apply in_flat_map in H2. destruct H2 as (w & Hw & H2). apply in_map_iff in H2. destruct H2 as (v & E2 & Hv).
  inversion E2; subst. apply in_seq in Hw. left; simpl; lia.
Qed.

Section Fill.
Variable A : Type.
(** value written at a cell, given the table so far *)
Variable F : mat A -> nat -> nat -> A.
Definition fill_step (m : mat A) (c : nat * nat) : mat A := upd m (fst c) (snd c) (F m (fst c) (snd c)).
Definition fill (cells : list (nat * nat)) (m0 : mat A) : mat A := fold_left fill_step cells m0.

Lemma fill_step_other m c i j : (i, j) <> c -> fill_step m c i j = m i j.
Proof.
  intros H. unfold fill_step, upd. destruct (i =? fst c) eqn:E1; auto. destruct (j =? snd c) eqn:E2; auto.
  apply Nat.eqb_eq in E1, E2. destruct c; simpl in *; congruence.
Qed.
Lemma fill_other cells m i j : ~ In (i, j) cells -> fill cells m i j = m i j.
Proof.
  revert m. induction cells as [|c cells IH]; simpl; intros m H; auto.
  unfold fill in *. simpl. rewrite IH by tauto. apply fill_step_other. intros E. apply H. auto.
Qed.
Lemma fill_rec cells m0 i j : StronglySorted lex cells -> In (i, j) cells ->
  (forall m m', (forall a b, lex (a, b) (i, j) -> m a b = m' a b) -> F m i j = F m' i j) ->
  fill cells m0 i j = F (fill cells m0) i j.
Proof.
  intros Hs Hin HF. apply in_split in Hin. destruct Hin as (l & r & ->).
  apply sorted_split in Hs. destruct Hs as [Hr Hl].
  unfold fill. rewrite fold_left_app. simpl. set (m1 := fold_left fill_step l m0).
  assert (K : forall a b, lex (a, b) (i, j) \/ (a, b) = (i, j) ->
     fold_left fill_step r (fill_step m1 (i, j)) a b = fill_step m1 (i, j) a b).
  { intros a b Hab. apply (fill_other r). intros Hc. apply Hr in Hc. unfold lex in *. simpl in *.
    destruct Hab as [Hab|[= -> ->]]; lia. }
  rewrite (K i j) by auto. transitivity (F m1 i j).
  - unfold fill_step, upd. simpl. rewrite !Nat.eqb_refl. reflexivity.
  - apply HF. intros a b Hab. rewrite K by auto. symmetry. apply fill_step_other.
    intros [= -> ->]. unfold lex in Hab; simpl in Hab; lia.
Qed.
(** state of the table just before a cell is written *)
Lemma fill_at cells m0 i j : StronglySorted lex cells -> In (i, j) cells ->
  exists m1, m1 i j = m0 i j /\ (forall a b, lex (a, b) (i, j) -> m1 a b = fill cells m0 a b) /\
             fill cells m0 i j = F m1 i j.
Proof.
  intros Hs Hin. apply in_split in Hin. destruct Hin as (l & r & ->).
  apply sorted_split in Hs. destruct Hs as [Hr Hl].
  unfold fill. rewrite fold_left_app. simpl. set (m1 := fold_left fill_step l m0).
  assert (K : forall a b, lex (a, b) (i, j) \/ (a, b) = (i, j) ->
     fold_left fill_step r (fill_step m1 (i, j)) a b = fill_step m1 (i, j) a b).
  { intros a b Hab. apply (fill_other r). intros Hc. apply Hr in Hc. unfold lex in *. simpl in *.
    destruct Hab as [Hab|[= -> ->]]; lia. }
  exists m1. split; [|split].
  - apply (fill_other l). intros Hc. apply Hl in Hc. unfold lex in Hc; simpl in Hc; lia.
  - intros a b Hab. rewrite K by auto. symmetry. apply fill_step_other.
    intros [= -> ->]. unfold lex in Hab; simpl in Hab; lia.
  - rewrite K by auto. unfold fill_step, upd. simpl. rewrite !Nat.eqb_refl. reflexivity.
Qed.
End Fill.
Arguments fill {A}. Arguments fill_step {A}.

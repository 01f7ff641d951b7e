(** Enumerating the warping paths that end at (or start from) a cell, and sums of
    weights over all of them. *)
From Coq Require Import Bool List Arith Lia Reals Lra Permutation.
From Verif Require Import Spec DpProofs LimitedThms RList.
Import ListNotations.
Local Open Scope nat_scope.

Section Enum.
Variable ok : nat -> nat -> bool.
(** all paths from (0,0) to (i,j) inside [ok], last cell first *)
Fixpoint rpaths (i : nat) : nat -> list (list cell) :=
  fix inner (j : nat) : list (list cell) :=
    if ok i j then
      match i, j with
      | 0, 0 => [[(0, 0)]]
      | 0, S j' => map (cons (i, j)) (inner j')
      | S i', 0 => map (cons (i, j)) (rpaths i' 0)
      | S i', S j' => map (cons (i, j)) (rpaths i' (S j') ++ inner j' ++ rpaths i' j')
      end
    else [].

Lemma rpaths_eq i j : rpaths i j =
  if ok i j then
    match i, j with
    | 0, 0 => [[(0, 0)]]
    | 0, S j' => map (cons (i, j)) (rpaths i j')
    | S i', 0 => map (cons (i, j)) (rpaths i' 0)
    | S i', S j' => map (cons (i, j)) (rpaths i' (S j') ++ rpaths i j' ++ rpaths i' j')
    end
  else [].
Proof. destruct i, j; reflexivity. Qed.

Lemma sum_ind (P : nat -> nat -> Prop) :
  (forall i j, (forall a b, a + b < i + j -> P a b) -> P i j) -> forall i j, P i j.
Proof.
  intros H. assert (G : forall s i j, i + j < s -> P i j).
  { induction s as [|s IH]; intros i j L; [lia|]. apply H. intros a b Hab. apply IH. lia. }
  intros i j. apply (G (S (i + j))). lia.
Qed.

Lemma in_rpaths i j p : In p (rpaths i j) <-> rpath ok i j p.
Proof.
  revert i j p. apply (sum_ind (fun i j => forall p, In p (rpaths i j) <-> rpath ok i j p)).
  intros i j IH p. rewrite rpaths_eq.
  destruct (ok i j) eqn:E.
  2: { split; [intros []|]. intros H. inversion H; congruence. }
  split.
  - destruct i as [|i], j as [|j]; intros H.
    + destruct H as [<-|[]]. constructor; auto.
    + apply in_map_iff in H. destruct H as (q & <- & H). apply IH in H; [|lia].
      econstructor; eauto. unfold move; simpl; lia.
    + apply in_map_iff in H. destruct H as (q & <- & H). apply IH in H; [|lia].
      econstructor; eauto. unfold move; simpl; lia.
    + apply in_map_iff in H. destruct H as (q & <- & H). rewrite !in_app_iff in H.
      destruct H as [H|[H|H]]; apply IH in H; try lia; econstructor; eauto; unfold move; simpl; lia.
  - intros H. apply rpath_inv in H.
    destruct H as [(-> & -> & ->)|(a & b & q & -> & Hq & Hm)].
    + simpl; auto.
    + unfold move in Hm; simpl in Hm.
      destruct i as [|i], j as [|j]; try lia;
        apply in_map_iff; exists q; split; auto.
      * assert (a = 0 /\ b = j) as [-> ->] by lia. apply IH; auto; lia.
      * assert (a = i /\ b = 0) as [-> ->] by lia. apply IH; auto; lia.
      * rewrite !in_app_iff.
        destruct Hm as [[A B]|[[A B]|[A B]]]; [left|right; left|right; right]; try injection A as A; try injection B as B; subst; apply IH; auto; lia.
Qed.

Lemma rpaths_head i j p : In p (rpaths i j) -> exists q, p = (i, j) :: q.
Proof. intros H. apply in_rpaths in H. eapply rpath_hd; eauto. Qed.

Lemma nodup_app {A} (l l' : list A) : NoDup l -> NoDup l' -> (forall x, In x l -> In x l' -> False) -> NoDup (l ++ l').
Proof.
  induction l as [|x l IH]; simpl; intros H H' D; auto. inversion H; subst. constructor.
  - rewrite in_app_iff. intros [C|C]; [auto|eapply D; [left; reflexivity|auto]].
  - apply IH; auto. intros y Hy Hy'. eapply D; [right; eassumption|auto].
Qed.
Lemma nodup_map_inj {A B} (f : A -> B) l : (forall x y, In x l -> In y l -> f x = f y -> x = y) -> NoDup l -> NoDup (map f l).
Proof.
  induction l as [|x l IH]; simpl; intros I H; [constructor|]. inversion H; subst. constructor.
  - intros C. apply in_map_iff in C. destruct C as (y & E & Hy). apply I in E; auto. subst. auto.
  - apply IH; auto.
Qed.

Lemma rpaths_nodup i j : NoDup (rpaths i j).
Proof.
  revert i j. apply (sum_ind (fun i j => NoDup (rpaths i j))). intros i j IH. rewrite rpaths_eq.
  destruct (ok i j); [|constructor].
  assert (C : forall l, NoDup l -> NoDup (map (cons (i, j)) l)).
  { intros l Hl. apply nodup_map_inj; auto. intros x y _ _ E. injection E; auto. }
  destruct i as [|i], j as [|j].
  - constructor; [intros []|constructor].
  - apply C, IH. lia.
  - apply C, IH. lia.
  - apply C. apply nodup_app; [apply IH; lia|apply nodup_app; [apply IH; lia|apply IH; lia|]|].
    + intros x H1 H2. apply rpaths_head in H1, H2. destruct H1 as (q1 & ->), H2 as (q2 & E). injection E; intros; lia.
    + intros x H1 H2. apply in_app_iff in H2. apply rpaths_head in H1. destruct H1 as (q1 & ->).
      destruct H2 as [H2|H2]; apply rpaths_head in H2; destruct H2 as (q2 & E); injection E; intros; lia.
Qed.
End Enum.

(** * Weighted sums *)
Local Open Scope R_scope.
Definition rprod (l : list R) : R := fold_right Rmult 1 l.
Lemma rprod_app l l' : rprod (l ++ l') = rprod l * rprod l'.
Proof. induction l; simpl; [lra|]. rewrite IHl. ring. Qed.
Lemma rprod_rev l : rprod (rev l) = rprod l.
Proof. induction l; simpl; auto. rewrite rprod_app, IHl. simpl. ring. Qed.
Lemma rprod_pos l : (forall x, In x l -> 0 < x) -> 0 < rprod l.
Proof. induction l; simpl; intros H; [lra|]. apply Rmult_lt_0_compat; auto. Qed.
Lemma rsum_perm l l' : Permutation l l' -> rsum l = rsum l'.
Proof. induction 1; simpl; lra. Qed.
Lemma rsum_scal_r {A} (c : R) (f : A -> R) l : rsum (map (fun x => f x * c) l) = rsum (map f l) * c.
Proof. induction l; simpl; lra. Qed.
Lemma rsum_pos l : l <> [] -> (forall x, In x l -> 0 < x) -> 0 < rsum l.
Proof.
  destruct l as [|x l]; [congruence|]. intros _ H. simpl. pose proof (H x (or_introl eq_refl)).
  assert (0 <= rsum l); [|lra]. apply rsum_nonneg. intros y Hy. left. apply H. right. auto.
Qed.

(** product of the weights of the cells of a path *)
Definition pweight (w : nat -> nat -> R) (p : list cell) : R := rprod (map (fun c => w (fst c) (snd c)) p).

Section Sum.
Variable ok : nat -> nat -> bool.
Variable w : nat -> nat -> R.
Definition psum (i j : nat) : R := rsum (map (pweight w) (rpaths ok i j)).
(** the same, with a border row and column *)
Definition bsum (i j : nat) : R :=
  match i, j with
  | O, O => 1
  | S i', S j' => psum i' j'
  | _, _ => 0
  end.
Lemma psum_cons c l : rsum (map (pweight w) (map (cons c) l)) = w (fst c) (snd c) * rsum (map (pweight w) l).
Proof. rewrite map_map. rewrite <- rsum_map_scal. reflexivity. Qed.
Lemma psum_rec i j : psum i j = if ok i j then w i j * (bsum i (S j) + bsum (S i) j + bsum i j) else 0.
Proof.
  unfold psum. rewrite rpaths_eq. destruct (ok i j); [|reflexivity].
  destruct i as [|i], j as [|j].
  - simpl. unfold pweight. simpl. lra.
  - rewrite psum_cons. unfold bsum, psum. simpl fst; simpl snd. ring.
  - rewrite psum_cons. unfold bsum, psum. simpl fst; simpl snd. ring.
  - rewrite psum_cons, !map_app, !rsum_app. unfold bsum, psum. simpl fst; simpl snd. ring.
Qed.
Lemma psum_out i j : ok i j = false -> psum i j = 0.
Proof. intros H. rewrite psum_rec, H. reflexivity. Qed.
Hypothesis wpos : forall i j, ok i j = true -> 0 < w i j.
Lemma rpath_ok i j p a b : rpath ok i j p -> In (a, b) p -> ok a b = true.
Proof. intros H Hin. apply rpath_spec in H. destruct H as (_ & _ & _ & H). apply H. rewrite <- in_rev. auto. Qed.
Lemma pweight_pos i j p : rpath ok i j p -> 0 < pweight w p.
Proof.
  intros H. apply rprod_pos. intros x Hx. apply in_map_iff in Hx. destruct Hx as ([a b] & <- & Hc). apply wpos.
  eapply rpath_ok; eauto.
Qed.
Lemma psum_nonneg i j : 0 <= psum i j.
Proof.
  apply rsum_nonneg. intros x Hx. apply in_map_iff in Hx. destruct Hx as (p & <- & Hp). apply in_rpaths in Hp.
  left. eapply pweight_pos; eauto.
Qed.
Lemma psum_pos i j p : rpath ok i j p -> 0 < psum i j.
Proof.
  intros H. apply rsum_pos.
  - apply in_rpaths in H. intros E. apply (in_map (pweight w)) in H. unfold cell in *. rewrite E in H. contradiction.
  - intros x Hx. apply in_map_iff in Hx. destruct Hx as (q & <- & Hq). apply in_rpaths in Hq. eapply pweight_pos; eauto.
Qed.
Lemma bsum_nonneg i j : 0 <= bsum i j.
Proof. destruct i, j; simpl; try lra. apply psum_nonneg. Qed.
End Sum.

Lemma psum_ext ok ok' w w' n m : (forall i j, (i < n)%nat -> (j < m)%nat -> ok i j = ok' i j) ->
  (forall i j, (i < n)%nat -> (j < m)%nat -> ok i j = true -> w i j = w' i j) ->
  forall i j, (i < n)%nat -> (j < m)%nat -> psum ok w i j = psum ok' w' i j.
Proof.
  intros Ho Hw. apply (sum_ind (fun i j => (i < n)%nat -> (j < m)%nat -> psum ok w i j = psum ok' w' i j)).
  intros i j IH Hi Hj. rewrite !psum_rec. rewrite <- Ho by auto.
  destruct (ok i j) eqn:E; auto. rewrite <- Hw by auto. f_equal.
  assert (B : forall a b, (a <= S i)%nat -> (b <= S j)%nat -> (a + b < S i + S j)%nat -> bsum ok w a b = bsum ok' w' a b).
  { intros [|a] [|b] Ha Hb Hs; simpl; auto. apply IH; lia. }
  rewrite !B by lia. reflexivity.
Qed.

(** * Enumerations of a finite set of paths *)
(** [ps] lists exactly the elements of [P], each once *)
Definition enumerates (P : list cell -> Prop) (ps : list (list cell)) : Prop :=
  NoDup ps /\ forall p, In p ps <-> P p.
Lemma enumerates_perm P ps ps' : enumerates P ps -> enumerates P ps' -> Permutation ps ps'.
Proof.
  intros [N1 H1] [N2 H2]. apply NoDup_Permutation; auto. intros p. rewrite H1, H2. tauto.
Qed.
Lemma enumerates_rsum P ps ps' f : enumerates P ps -> enumerates P ps' -> rsum (map f ps) = rsum (map f ps').
Proof. intros H H'. apply rsum_perm, Permutation_map. eapply enumerates_perm; eauto. Qed.
Lemma enumerates_length P ps ps' : enumerates P ps -> enumerates P ps' -> length ps = length ps'.
Proof. intros H H'. apply Permutation_length. eapply enumerates_perm; eauto. Qed.
Lemma enumerates_filter P ps (f : list cell -> bool) : enumerates P ps ->
  enumerates (fun p => P p /\ f p = true) (filter f ps).
Proof. intros [N1 H1]. split; [apply NoDup_filter; auto|]. intros p. rewrite filter_In, H1. tauto. Qed.

Definition all_paths (n m : nat) (ok : nat -> nat -> bool) : list (list cell) :=
  map (@rev cell) (rpaths ok (n - 1) (m - 1)).
Lemma all_paths_enum n m ok : (0 < n)%nat -> (0 < m)%nat -> enumerates (warping_path n m ok) (all_paths n m ok).
Proof.
  intros Hn Hm. split.
  - apply nodup_map_inj; [|apply rpaths_nodup]. intros x y _ _ E. rewrite <- (rev_involutive x), E. apply rev_involutive.
  - intros p. unfold all_paths. rewrite in_map_iff. split.
    + intros (q & <- & H). apply in_rpaths in H. apply rpath_wpath. auto.
    + intros H. exists (rev p). split; [apply rev_involutive|]. apply in_rpaths. apply wpath_rpath; auto.
Qed.
Lemma all_paths_sum n m ok w : rsum (map (pweight w) (all_paths n m ok)) = psum ok w (n - 1) (m - 1).
Proof.
  unfold all_paths, psum. rewrite map_map. apply rsum_map_ext. intros p _. unfold pweight. rewrite map_rev. apply rprod_rev.
Qed.

(** * Paths through a cell *)
Lemma linked_mid {A} (R : A -> A -> Prop) (l1 l2 : list A) a :
  linked R (l1 ++ a :: l2) <-> linked R (l1 ++ [a]) /\ linked R (a :: l2).
Proof.
  induction l1 as [|x [|y l1] IH].
  - simpl. tauto.
  - simpl. tauto.
  - change ((x :: y :: l1) ++ a :: l2) with (x :: (y :: l1) ++ a :: l2).
    change ((x :: y :: l1) ++ [a]) with (x :: (y :: l1) ++ [a]).
    assert (E : forall t, linked R (x :: (y :: l1) ++ t) <-> R x y /\ linked R ((y :: l1) ++ t)) by (intros; simpl; tauto).
    rewrite !E, IH. tauto.
Qed.
Section Through.
Variable ok : nat -> nat -> bool.
Variable w : nat -> nat -> R.
Variables n m : nat.
Hypothesis Hn : (0 < n)%nat.
Hypothesis Hm : (0 < m)%nat.
Definition refl_cell (c : cell) : cell := ((n - 1 - fst c)%nat, (m - 1 - snd c)%nat).
Definition ok' (i j : nat) : bool := ok (n - 1 - i)%nat (m - 1 - j)%nat.
Definition w' (i j : nat) : R := w (n - 1 - i)%nat (m - 1 - j)%nat.
(** paths from (i,j) to the last cell, in order *)
Definition fpath (i j : nat) (p : list cell) : Prop :=
  first_is p (i, j) /\ last_is p ((n - 1)%nat, (m - 1)%nat) /\ linked move p /\ (forall a b, In (a, b) p -> ok a b = true).
Definition fpaths (i j : nat) : list (list cell) := map (map refl_cell) (rpaths ok' (n - 1 - i)%nat (m - 1 - j)%nat).

Lemma rpath_bounds o a b p : rpath o a b p -> forall x y, In (x, y) p -> (x <= a)%nat /\ (y <= b)%nat.
Proof.
  induction 1; simpl; intros x y Hin.
  - destruct Hin as [[= <- <-]|[]]. lia.
  - destruct Hin as [[= <- <-]|Hin]; [lia|]. apply IHrpath in Hin. unfold move in *. simpl in *. lia.
Qed.

Lemma fpath_cons i j i2 j2 p : fpath i2 j2 p -> move (i, j) (i2, j2) -> ok i j = true -> fpath i j ((i, j) :: p).
Proof.
  intros (F & La & Li & Al) Hmv Ho. unfold first_is in F. destruct p as [|c p]; [discriminate|]. injection F as ->.
  split; [reflexivity|split; [|split]].
  - unfold last_is in *. simpl length in *. replace (S (S (length p)) - 1)%nat with (S (length p)) by lia.
    replace (S (length p) - 1)%nat with (length p) in La by lia. exact La.
  - simpl. auto.
  - intros a b [E|H]; [injection E as <- <-; auto|auto].
Qed.

Lemma rpath_fpath a b p : rpath ok' a b p -> (a <= n - 1)%nat -> (b <= m - 1)%nat ->
  fpath (n - 1 - a) (m - 1 - b) (map refl_cell p).
Proof.
  induction 1 as [H|i j i2 j2 p H IH Hmv Ho]; intros Ha Hb.
  - simpl. unfold refl_cell; simpl. rewrite !Nat.sub_0_r. unfold ok' in H. rewrite !Nat.sub_0_r in H.
    split; [reflexivity|split; [reflexivity|split; [simpl; auto|]]]. intros x y [E|[]]. injection E as <- <-. auto.
  - simpl. unfold refl_cell at 1. simpl. apply fpath_cons with (i2 := (n - 1 - i)%nat) (j2 := (m - 1 - j)%nat).
    + apply IH; unfold move in Hmv; simpl in Hmv; lia.
    + unfold move in *; simpl in *; lia.
    + exact Ho.
Qed.

Lemma fpath_tail c c2 p i j : fpath i j (c :: c2 :: p) -> c = (i, j) /\ move c c2 /\ ok i j = true /\ fpath (fst c2) (snd c2) (c2 :: p).
Proof.
  intros (F & La & Li & Al). unfold first_is in F. simpl in F. injection F as ->. simpl in Li. destruct Li as [Hmv Li].
  split; [auto|split; [auto|split; [apply Al; simpl; auto|]]].
  split; [destruct c2; reflexivity|split; [|split]].
  - unfold last_is in *. simpl length in *. replace (S (S (length p)) - 1)%nat with (S (length p)) in La by lia.
    replace (S (length p) - 1)%nat with (length p) by lia. exact La.
  - exact Li.
  - intros x y H. apply Al. right. exact H.
Qed.
Lemma fpath_rpath p : forall i j, fpath i j p -> (i <= n - 1)%nat /\ (j <= m - 1)%nat /\
  rpath ok' (n - 1 - i) (m - 1 - j) (map refl_cell p) /\ map refl_cell (map refl_cell p) = p.
Proof.
  induction p as [|c p IH]; intros i j H.
  - destruct H as (F & _). discriminate.
  - destruct p as [|c2 p].
    + destruct H as (F & La & Li & Al). unfold first_is, last_is in *. simpl in F, La. injection F as ->. injection La as -> ->.
      split; [lia|split; [lia|split]].
      * simpl. unfold refl_cell; simpl. rewrite !Nat.sub_diag. constructor. unfold ok'. rewrite !Nat.sub_0_r. apply Al; simpl; auto.
      * simpl. unfold refl_cell; simpl. rewrite !Nat.sub_diag, !Nat.sub_0_r. reflexivity.
    + apply fpath_tail in H. destruct H as (-> & Hmv & Ho & H). apply IH in H. destruct H as (A & B & R & E).
      destruct c2 as [i2 j2]. unfold move in Hmv; simpl in Hmv, A, B.
      split; [lia|split; [lia|split]].
      * change (map refl_cell ((i, j) :: (i2, j2) :: p)) with (refl_cell (i, j) :: map refl_cell ((i2, j2) :: p)).
        unfold refl_cell at 1. simpl fst; simpl snd. eapply rp_step; [exact R| |].
        -- unfold move; simpl; lia.
        -- unfold ok'. replace (n - 1 - (n - 1 - i))%nat with i by lia. replace (m - 1 - (m - 1 - j))%nat with j by lia. exact Ho.
      * assert (E2 : refl_cell (refl_cell (i, j)) = (i, j)) by (unfold refl_cell; simpl; f_equal; lia).
        exact (f_equal2 (@cons cell) E2 E).
Qed.
Lemma in_fpaths i j p : (i < n)%nat -> (j < m)%nat -> (In p (fpaths i j) <-> fpath i j p).
Proof.
  intros Hi Hj. unfold fpaths. rewrite in_map_iff. split.
  - intros (q & <- & H). apply in_rpaths in H. apply rpath_fpath in H; [|lia|lia].
    replace (n - 1 - (n - 1 - i))%nat with i in H by lia. replace (m - 1 - (m - 1 - j))%nat with j in H by lia. exact H.
  - intros H. destruct (fpath_rpath p i j H) as (_ & _ & R & E). exists (map refl_cell p). split; auto. apply in_rpaths; auto.
Qed.
Lemma fpaths_nodup i j : (i < n)%nat -> (j < m)%nat -> NoDup (fpaths i j).
Proof.
  intros Hi Hj. unfold fpaths. apply nodup_map_inj; [|apply rpaths_nodup]. intros x y Hx Hy E.
  apply in_rpaths in Hx, Hy.
  assert (K : forall z, rpath ok' (n - 1 - i) (m - 1 - j) z -> map refl_cell (map refl_cell z) = z).
  { intros z Hz. rewrite map_map. rewrite <- (map_id z) at 2. apply map_ext_in. intros [a b] Hin.
    destruct (rpath_bounds _ _ _ _ Hz a b Hin). unfold refl_cell; simpl. f_equal; lia. }
  rewrite <- (K x Hx), <- (K y Hy), E. reflexivity.
Qed.
(** total weight of the paths from (i,j) to the last cell, (i,j) included *)
Definition fsum (i j : nat) : R := rsum (map (pweight w) (fpaths i j)).
Lemma fsum_psum i j : fsum i j = psum ok' w' (n - 1 - i) (m - 1 - j).
Proof.
  unfold fsum, psum, fpaths. rewrite map_map. apply rsum_map_ext. intros p _. unfold pweight. rewrite map_map. reflexivity.
Qed.
(** total weight of what may follow (i,j) *)
Definition rest (i j : nat) : R :=
  if ((i =? n - 1) && (j =? m - 1))%nat then 1 else
  (if (i =? n - 1)%nat then 0 else fsum (S i) j) + (if (j =? m - 1)%nat then 0 else fsum i (S j))
  + (if ((i =? n - 1) || (j =? m - 1))%nat then 0 else fsum (S i) (S j)).
Lemma fsum_rec i j : (i < n)%nat -> (j < m)%nat -> fsum i j = if ok i j then w i j * rest i j else 0.
Proof.
  intros Hi Hj. rewrite fsum_psum, psum_rec. unfold ok' at 1, w' at 1.
  replace (n - 1 - (n - 1 - i))%nat with i by lia. replace (m - 1 - (m - 1 - j))%nat with j by lia.
  destruct (ok i j); auto. f_equal. unfold rest.
  destruct (i =? n - 1)%nat eqn:E1; destruct (j =? m - 1)%nat eqn:E2; simpl.
  - apply Nat.eqb_eq in E1, E2. subst i j. rewrite !Nat.sub_diag. unfold bsum. lra.
  - apply Nat.eqb_eq in E1. apply Nat.eqb_neq in E2. subst i. rewrite !Nat.sub_diag.
    destruct (m - 1 - j)%nat as [|k] eqn:Ek; [lia|]. unfold bsum. rewrite fsum_psum, Nat.sub_diag.
    replace (m - 1 - S j)%nat with k by lia. lra.
  - apply Nat.eqb_neq in E1. apply Nat.eqb_eq in E2. subst j. rewrite !Nat.sub_diag.
    destruct (n - 1 - i)%nat as [|k] eqn:Ek; [lia|]. unfold bsum. rewrite fsum_psum, Nat.sub_diag.
    replace (n - 1 - S i)%nat with k by lia. lra.
  - apply Nat.eqb_neq in E1, E2.
    destruct (n - 1 - i)%nat as [|k] eqn:Ek; [lia|]. destruct (m - 1 - j)%nat as [|k2] eqn:Ek2; [lia|].
    unfold bsum. rewrite !fsum_psum. replace (n - 1 - S i)%nat with k by lia. replace (m - 1 - S j)%nat with k2 by lia.
    rewrite Ek, Ek2. lra.
Qed.

(** does the path visit the cell? *)
Definition visits (i j : nat) (p : list cell) : bool := existsb (fun c => (fst c =? i) && (snd c =? j))%nat p.
Lemma visits_in i j p : visits i j p = true <-> In (i, j) p.
Proof.
  unfold visits. rewrite existsb_exists. split.
  - intros ([a b] & H & E). apply andb_true_iff in E. destruct E as [E1 E2]. apply Nat.eqb_eq in E1, E2. simpl in *. subst. auto.
  - intros H. exists (i, j). split; auto. simpl. rewrite !Nat.eqb_refl. reflexivity.
Qed.

Definition through (i j : nat) : list (list cell) :=
  flat_map (fun q => map (fun s => rev q ++ tl s) (fpaths i j)) (rpaths ok i j).

(** cells of a path strictly increase in i + j *)
Lemma rpath_sum_lt i j q a b : rpath ok i j ((i, j) :: q) -> In (a, b) q -> (a + b < i + j)%nat.
Proof.
  intros H Hin. apply rpath_inv in H. destruct H as [(-> & -> & E)|(i' & j' & q' & E & R & Hmv)].
  - injection E as ->. contradiction.
  - injection E as ->. destruct (rpath_bounds _ _ _ _ R a b Hin). unfold move in Hmv; simpl in Hmv. lia.
Qed.
Lemma through_enum i j : (i < n)%nat -> (j < m)%nat ->
  enumerates (fun p => warping_path n m ok p /\ visits i j p = true) (through i j).
Proof.
  intros Hi Hj. split.
  - unfold through. assert (G : forall l, NoDup l -> (forall q, In q l -> rpath ok i j q) ->
      NoDup (flat_map (fun q => map (fun s => rev q ++ tl s) (fpaths i j)) l)).
    { induction l as [|q l IH]; intros ND HR; [constructor|]. inversion ND; subst. simpl. apply nodup_app.
      - apply nodup_map_inj; [|apply fpaths_nodup; auto]. intros x y Hx Hy E. apply app_inv_head in E.
        apply in_fpaths in Hx; auto. apply in_fpaths in Hy; auto. destruct Hx as (Fx & _), Hy as (Fy & _).
        unfold first_is in *. destruct x, y; try discriminate. simpl in *. congruence.
      - apply IH; auto. intros; apply HR; right; auto.
      - intros x Hx Hx2. apply in_map_iff in Hx. destruct Hx as (s & <- & Hs).
        apply in_flat_map in Hx2. destruct Hx2 as (q2 & Hq2 & Hx2). apply in_map_iff in Hx2. destruct Hx2 as (s2 & E & Hs2).
        assert (NE : q2 <> q) by (intros ->; auto). apply NE. clear NE.
        pose proof (HR q (or_introl eq_refl)) as R1. pose proof (HR q2 (or_intror Hq2)) as R2.
        destruct (rpath_hd _ _ _ _ R1) as (t1 & ->). destruct (rpath_hd _ _ _ _ R2) as (t2 & ->).
        simpl in E. rewrite <- !app_assoc in E. simpl in E.
        assert (K : forall (l1 l2 r1 r2 : list cell), ~ In (i, j) l1 -> ~ In (i, j) l2 -> l1 ++ (i, j) :: r1 = l2 ++ (i, j) :: r2 -> l1 = l2).
        { induction l1 as [|x l1 IHl]; intros [|y l2] r1 r2 N1 N2 E'; simpl in *; auto.
          - exfalso. apply N2. left. congruence.
          - exfalso. apply N1. left. congruence.
          - injection E' as -> E'. f_equal. eapply IHl; eauto. }
        apply K in E.
        + assert (E3 : t2 = t1). { rewrite <- (rev_involutive t1). rewrite <- (rev_involutive t2). exact (f_equal (@rev cell) E). }
          exact (f_equal (@cons cell (i, j)) E3).
        + rewrite <- in_rev. intros C. apply (rpath_sum_lt _ _ _ _ _ R2) in C. lia.
        + rewrite <- in_rev. intros C. apply (rpath_sum_lt _ _ _ _ _ R1) in C. lia. }
    apply G; [apply rpaths_nodup|]. intros q Hq. apply in_rpaths; auto.
  - intros p. unfold through. rewrite in_flat_map. split.
    + intros (q & Hq & Hp). apply in_map_iff in Hp. destruct Hp as (s & <- & Hs). apply in_rpaths in Hq.
      apply in_fpaths in Hs; auto. destruct (rpath_hd _ _ _ _ Hq) as (t & ->).
      apply rpath_spec in Hq. destruct Hq as (F & La & Li & Al). destruct Hs as (F2 & La2 & Li2 & Al2).
      unfold first_is in F2. destruct s as [|c s]; [discriminate|]. simpl in F2. injection F2 as ->. simpl tl.
      simpl rev in *. split.
      * rewrite <- app_assoc. simpl. split; [|split; [|split]].
        -- unfold first_is, cell in *. simpl in F. destruct (rev t); simpl in *; auto.
        -- unfold last_is in *. simpl length in *. rewrite app_length. simpl length.
           rewrite nth_error_app2 by (rewrite rev_length in *; lia).
           rewrite <- La2. f_equal. unfold cell. lia.
        -- apply linked_mid; auto.
        -- intros a b H. apply in_app_iff in H. destruct H as [H|H]; [apply Al; apply in_app_iff; auto|auto].
      * apply visits_in. rewrite !in_app_iff. simpl. auto.
    + intros [(F & La & Li & Al) V]. apply visits_in in V. apply in_split in V. destruct V as (l1 & l2 & ->).
      exists ((i, j) :: rev l1). split.
      * apply in_rpaths. apply spec_rpath; simpl; rewrite rev_involutive.
        -- unfold first_is, cell in *. destruct l1; simpl in *; auto.
        -- unfold last_is. rewrite app_length. simpl. replace (length l1 + 1 - 1)%nat with (length l1) by lia.
           rewrite nth_error_app2, Nat.sub_diag; auto.
        -- apply linked_mid in Li. apply Li.
        -- intros a b H. apply Al. apply in_app_iff in H. apply in_app_iff. simpl in *. tauto.
      * apply in_map_iff. exists ((i, j) :: l2). split; [simpl; rewrite rev_involutive, <- app_assoc; reflexivity|].
        apply in_fpaths; auto. split; [reflexivity|split; [|split]].
        -- unfold last_is in *. rewrite app_length in La. simpl length in *. rewrite nth_error_app2 in La by lia.
           replace (length l1 + S (length l2) - 1 - length l1)%nat with (S (length l2) - 1)%nat in La by lia. exact La.
        -- apply linked_mid in Li. apply Li.
        -- intros a b H. apply Al. apply in_app_iff. auto.
Qed.
Lemma through_sum i j : (i < n)%nat -> (j < m)%nat -> ok i j = true -> w i j <> 0 ->
  rsum (map (pweight w) (through i j)) = psum ok w i j * rest i j.
Proof.
  intros Hi Hj Ho Hw. assert (E : fsum i j = w i j * rest i j) by (rewrite fsum_rec, Ho by auto; auto).
  replace (rest i j) with (fsum i j / w i j) by (rewrite E; field; auto).
  unfold through, psum. assert (G : forall l, (forall q, In q l -> rpath ok i j q) ->
    rsum (map (pweight w) (flat_map (fun q => map (fun s => rev q ++ tl s) (fpaths i j)) l)) =
    rsum (map (pweight w) l) * (fsum i j / w i j)).
  { induction l as [|q l IH]; intros HR; [simpl; lra|]. simpl. rewrite map_app, rsum_app, IH by (intros; apply HR; right; auto).
    rewrite Rmult_plus_distr_r. f_equal. rewrite map_map.
    rewrite (rsum_map_ext _ (fun s => pweight w q / w i j * pweight w s)).
    - rewrite rsum_map_scal. fold (fsum i j). field. auto.
    - intros s Hs. apply in_fpaths in Hs; auto. destruct Hs as (F & _). unfold first_is in F. destruct s as [|c s]; [discriminate|].
      simpl in F. injection F as ->. simpl tl. unfold pweight. rewrite map_app, rprod_app, map_rev, rprod_rev. simpl.
      unfold Rdiv. rewrite Rmult_assoc, <- (Rmult_assoc (/ w i j)), Rinv_l, Rmult_1_l; auto. }
  apply G. intros q Hq. apply in_rpaths; auto.
Qed.
End Through.

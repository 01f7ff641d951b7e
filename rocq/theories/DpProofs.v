(** Dynamic programming over warping paths: the fill loop computes the optimum. *)
From Coq Require Import Bool List Arith Lia Sorting.Sorted.
From Verif Require Import Num Py Series Masks DtwModel Spec.
Import ListNotations.

(** ** Orders of evaluation *)
Definition lex (a b : cell) : Prop := fst a < fst b \/ (fst a = fst b /\ snd a < snd b).

Lemma in_row_major n1 n2 i j : In (i, j) (row_major n1 n2) <-> i < n1 /\ j < n2.
Proof.
  unfold row_major. rewrite in_flat_map. split.
  - intros (x & Hx & H). apply in_map_iff in H. destruct H as (y & E & Hy). inversion E; subst.
    apply in_seq in Hx, Hy. lia.
  - intros [Hi Hj]. exists i. split; [apply in_seq; lia|]. apply in_map_iff. exists j. split; auto. apply in_seq; lia.
Qed.

Lemma sorted_app {A} (R : A -> A -> Prop) l1 l2 :
  StronglySorted R l1 -> StronglySorted R l2 ->
  (forall a b, In a l1 -> In b l2 -> R a b) -> StronglySorted R (l1 ++ l2).
Proof.
  induction l1 as [|a l1 IH]; simpl; intros H1 H2 H; auto.
  inversion H1; subst. constructor.
  - apply IH; auto.
  - apply Forall_app; split; auto. apply Forall_forall. intros b Hb. apply H; auto.
Qed.

Lemma sorted_row i a n2 : StronglySorted lex (map (fun j => (i, j)) (seq a n2)).
Proof.
  revert a. induction n2 as [|n2 IH]; intros a; simpl; constructor; auto.
  apply Forall_forall. intros [x y] H. apply in_map_iff in H. destruct H as (z & E & Hz). inversion E; subst.
  apply in_seq in Hz. right; simpl; lia.
Qed.

Lemma sorted_rows_aux a n1 n2 :
  StronglySorted lex (flat_map (fun i => map (fun j => (i, j)) (seq 0 n2)) (seq a n1)).
Proof.
  revert a. induction n1 as [|n1 IH]; intros a; simpl; [constructor|].
  apply sorted_app; [apply sorted_row|apply IH|].
  intros [x y] [x' y'] H1 H2. apply in_map_iff in H1. destruct H1 as (z & E & Hz). inversion E; subst.
  apply in_flat_map in H2. destruct H2 as (w & Hw & H2). apply in_map_iff in H2. destruct H2 as (v & E2 & Hv).
  inversion E2; subst. apply in_seq in Hw. left; simpl; lia.
Qed.

Lemma sorted_row_major n1 n2 : StronglySorted lex (row_major n1 n2).
Proof. apply sorted_rows_aux. Qed.

Section DP.
Variable N : num.
Variables nn fin : N -> Prop.
Hypothesis L : num_laws N nn fin.
Variable comb : N -> N -> N.

(** What is needed of the combining operation. *)
Record comb_laws : Prop := {
  comb_nn : forall d a, nn d -> nn a -> nn (comb d a);
  comb_mono : forall d a b, nn d -> nn a -> nn b -> nleb a b = true -> nleb (comb d a) (comb d b) = true;
  comb_inf : forall d, nn d -> comb d ninf = ninf;
  comb_inf_l : forall a, nn a -> comb ninf a = ninf;
  comb_zero : comb nzero nzero = nzero;
  comb_ge_l : forall d a, nn d -> nn a -> nleb d (comb d a) = true
}.
Hypothesis CL : comb_laws.

Variables (l1 l2 : nat).
Variable D : mat N.
Variable mask : mask_t.
Hypothesis Dnn : forall i j, i < l1 -> j < l2 -> mask i j = true -> nn (D i j).

Notation cum := (cum_matrix comb l1 l2 D mask).

(** *** the recurrence *)
Lemma step_other m c i j : (i, j) <> (S (fst c), S (snd c)) ->
  cum_step comb D mask m c i j = m i j.
Proof.
  destruct c as [ci cj]. simpl. intros H. destruct (mask ci cj); auto. unfold upd.
  destruct (i =? S ci) eqn:E1; auto. destruct (j =? S cj) eqn:E2; auto.
  apply Nat.eqb_eq in E1, E2. subst. congruence.
Qed.

Lemma fold_other l m i j : (forall c, In c l -> (i, j) <> (S (fst c), S (snd c))) ->
  fold_left (cum_step comb D mask) l m i j = m i j.
Proof.
  revert m. induction l as [|c l IH]; simpl; intros m H; auto.
  rewrite IH by auto. apply step_other. auto.
Qed.

Lemma cum_border i j : i = 0 \/ j = 0 -> cum i j = cum_init i j.
Proof.
  intros H. unfold cum_matrix. apply fold_other. intros c _ E. inversion E. lia.
Qed.

Lemma sorted_split (l r : list cell) c : StronglySorted lex (l ++ c :: r) ->
  (forall c', In c' r -> lex c c') /\ (forall c', In c' l -> lex c' c).
Proof.
  induction l as [|a l IH]; simpl; intros H; inversion H; subst.
  - split; [|tauto]. rewrite Forall_forall in H3. auto.
  - destruct (IH H2) as [H4 H5]. split; auto. intros c' [E|Hc]; auto. subst.
    rewrite Forall_forall in H3. apply H3. apply in_or_app. right; left; auto.
Qed.

Lemma cum_rec i j : i < l1 -> j < l2 ->
  cum (S i) (S j) =
    if mask i j then comb (D i j) (pymin3 (cum i (S j)) (cum (S i) j) (cum i j)) else ninf.
Proof.
  intros Hi Hj. unfold cum_matrix.
  assert (Hin : In (i, j) (row_major l1 l2)) by (apply in_row_major; auto).
  apply in_split in Hin. destruct Hin as (l & r & E).
  pose proof (sorted_row_major l1 l2) as Hs. rewrite E in *.
  apply sorted_split in Hs. destruct Hs as [Hr Hl].
  set (m0 := fold_left (cum_step comb D mask) l cum_init).
  assert (K : forall a b, (a, b) = (i, S j) \/ (a, b) = (S i, j) \/ (a, b) = (i, j) ->
     fold_left (cum_step comb D mask) (l ++ (i, j) :: r) cum_init a b = m0 a b).
  { intros a b Hab. rewrite fold_left_app. fold m0. apply fold_other.
    intros [ci cj] Hc Eq. inversion Eq; subst. destruct Hc as [Hc|Hc].
    - inversion Hc; subst. destruct Hab as [Hab|[Hab|Hab]]; inversion Hab; lia.
    - apply Hr in Hc. unfold lex in Hc; simpl in Hc. destruct Hab as [Hab|[Hab|Hab]]; inversion Hab; subst; lia. }
  rewrite (K i (S j)), (K (S i) j), (K i j) by tauto. clear K.
  rewrite fold_left_app. fold m0. simpl fold_left.
  rewrite fold_other.
  2:{ intros [ci cj] Hc Eq. inversion Eq; subst. apply Hr in Hc. destruct Hc as [Hc|Hc]; simpl in Hc; lia. }
  destruct (mask i j).
  - unfold upd. rewrite !Nat.eqb_refl. reflexivity.
  - unfold m0. rewrite fold_other; [reflexivity|].
    intros [ci cj] Hc Eq. inversion Eq; subst. apply Hl in Hc. destruct Hc as [Hc|Hc]; simpl in Hc; lia.
Qed.

(** *** pymin / pymin3 on [nn] *)
Lemma pymin_cases (a b : N) : pymin a b = a \/ pymin a b = b.
Proof. unfold pymin. destruct (nltb b a); auto. Qed.
Lemma pymin_nn a b : nn a -> nn b -> nn (pymin a b).
Proof. intros. destruct (pymin_cases a b) as [E|E]; rewrite E; auto. Qed.
Lemma pymin_le_l a b : nn a -> nn b -> nleb (pymin a b) a = true.
Proof.
  intros Ha Hb. unfold pymin. destruct (nltb b a) eqn:E.
  - rewrite (ltb_leb _ _ _ L) in E by auto. apply negb_true_iff in E.
    destruct (leb_total _ _ _ L a b Ha Hb); congruence.
  - apply (leb_refl _ _ _ L); auto.
Qed.
Lemma pymin_le_r a b : nn a -> nn b -> nleb (pymin a b) b = true.
Proof.
  intros Ha Hb. unfold pymin. destruct (nltb b a) eqn:E.
  - apply (leb_refl _ _ _ L); auto.
  - rewrite (ltb_leb _ _ _ L) in E by auto. apply negb_false_iff in E. auto.
Qed.
Lemma pymin3_nn a b c : nn a -> nn b -> nn c -> nn (pymin3 a b c).
Proof. intros. unfold pymin3. apply pymin_nn; auto. apply pymin_nn; auto. Qed.
Lemma pymin3_cases (a b c : N) : pymin3 a b c = a \/ pymin3 a b c = b \/ pymin3 a b c = c.
Proof.
  unfold pymin3. destruct (pymin_cases (pymin a b) c) as [E|E]; rewrite E; auto.
  destruct (pymin_cases a b) as [E2|E2]; rewrite E2; auto.
Qed.
Lemma pymin3_le a b c : nn a -> nn b -> nn c ->
  nleb (pymin3 a b c) a = true /\ nleb (pymin3 a b c) b = true /\ nleb (pymin3 a b c) c = true.
Proof.
  intros Ha Hb Hc. unfold pymin3.
  assert (Hm : nn (pymin a b)) by (apply pymin_nn; auto).
  assert (Hm3 : nn (pymin (pymin a b) c)) by (apply pymin_nn; auto).
  repeat split.
  - apply (leb_trans _ _ _ L) with (b := pymin a b); auto; [apply pymin_le_l|apply pymin_le_l]; auto.
  - apply (leb_trans _ _ _ L) with (b := pymin a b); auto; [apply pymin_le_l|apply pymin_le_r]; auto.
  - apply pymin_le_r; auto.
Qed.

Lemma cum_nn i j : i <= l1 -> j <= l2 -> nn (cum i j).
Proof.
  assert (G : forall s i j, i + j < s -> i <= l1 -> j <= l2 -> nn (cum i j)).
  { induction s as [|s IH]; intros a b Hs Ha Hb; [lia|].
    destruct a as [|a]; [|destruct b as [|b]].
    - rewrite cum_border by auto. unfold cum_init. destruct (_ && _); [apply (nn_zero _ _ _ L)|apply (nn_inf _ _ _ L)].
    - rewrite cum_border by auto. apply (nn_inf _ _ _ L).
    - rewrite cum_rec by lia. destruct (mask a b) eqn:E; [|apply (nn_inf _ _ _ L)].
      apply (comb_nn CL); [apply Dnn; auto; lia|].
      apply pymin3_nn; apply IH; lia. }
  intros. apply (G (S (i + j))); auto.
Qed.

(** *** paths in reverse order *)
Inductive rpath (ok : nat -> nat -> bool) : nat -> nat -> list cell -> Prop :=
| rp_start : ok 0 0 = true -> rpath ok 0 0 [(0, 0)]
| rp_step i j i' j' p : rpath ok i j p -> move (i, j) (i', j') -> ok i' j' = true ->
    rpath ok i' j' ((i', j') :: p).

Definition rcost (p : list cell) : N := fold_right (fun c acc => comb (D (fst c) (snd c)) acc) nzero p.

Lemma rpath_hd ok i j p : rpath ok i j p -> exists q, p = (i, j) :: q.
Proof. intros H; inversion H; subst; eauto. Qed.

Lemma rcost_nn ok i j p : (forall a b, ok a b = true -> mask a b = true) ->
  i < l1 -> j < l2 -> rpath ok i j p -> nn (rcost p).
Proof.
  intros Hok Hi Hj H. induction H as [H|i j i' j' p H IH Hm Ho]; simpl.
  - apply (comb_nn CL); [apply Dnn; auto|apply (nn_zero _ _ _ L)].
  - apply (comb_nn CL); [apply Dnn; auto|].
    apply IH; unfold move in Hm; simpl in Hm; lia.
Qed.

(** lower bound: no admissible path is cheaper than the table entry *)
Lemma cum_lower i j p : i < l1 -> j < l2 -> rpath mask i j p -> nleb (cum (S i) (S j)) (rcost p) = true.
Proof.
  intros Hi Hj H. induction H as [H|i j i' j' p H IH Hm Ho].
  - rewrite cum_rec by auto. rewrite H. simpl.
    destruct (pymin3_le (cum 0 1) (cum 1 0) (cum 0 0)) as (_ & _ & Hle); try (apply cum_nn; lia).
    apply (comb_mono CL); auto; try apply pymin3_nn; try (apply cum_nn; lia); try apply (nn_zero _ _ _ L).
    rewrite (cum_border 0 0) in Hle at 2 by auto. exact Hle.
  - assert (i <= i' /\ j <= j') as [Hi' Hj'] by (unfold move in Hm; simpl in Hm; lia).
    specialize (IH ltac:(lia) ltac:(lia)).
    rewrite cum_rec by auto. rewrite Ho. simpl.
    assert (N1 : nn (cum i' (S j'))) by (apply cum_nn; lia).
    assert (N2 : nn (cum (S i') j')) by (apply cum_nn; lia).
    assert (N3 : nn (cum i' j')) by (apply cum_nn; lia).
    assert (N4 : nn (rcost p)) by (apply (rcost_nn mask i j); auto; lia).
    assert (N5 : nn (cum (S i) (S j))) by (apply cum_nn; lia).
    destruct (pymin3_le (cum i' (S j')) (cum (S i') j') (cum i' j')) as (A & B & C); auto.
    apply (comb_mono CL); auto; [apply pymin3_nn; auto|].
    apply (leb_trans _ _ _ L) with (b := cum (S i) (S j)); auto; [apply pymin3_nn; auto|].
    unfold move in Hm; simpl in Hm. destruct Hm as [[E1 E2]|[[E1 E2]|[E1 E2]]]; subst; auto.
Qed.

(** the table entry is infinite or realised by an admissible path *)
Lemma cum_attained i j : i < l1 -> j < l2 ->
  cum (S i) (S j) = ninf \/ exists p, rpath mask i j p /\ rcost p = cum (S i) (S j).
Proof.
  assert (G : forall s i j, i + j < s -> i < l1 -> j < l2 ->
     cum (S i) (S j) = ninf \/ exists p, rpath mask i j p /\ rcost p = cum (S i) (S j)).
  { induction s as [|s IH]; intros a b Hs Ha Hb; [lia|].
    rewrite cum_rec by auto. destruct (mask a b) eqn:E; [|left; reflexivity].
    assert (Dn : nn (D a b)) by (apply Dnn; auto).
    assert (P : forall i' j', move (i', j') (a, b) -> cum (S i') (S j') = ninf \/
       exists p, rpath mask a b p /\ rcost p = comb (D a b) (cum (S i') (S j'))).
    { intros i' j' Hm. destruct (IH i' j') as [X|(p & Hp & Hc)]; try (unfold move in Hm; simpl in Hm; lia); auto.
      right. exists ((a, b) :: p). split; [econstructor; eauto|]. simpl. rewrite Hc. reflexivity. }
    assert (Inf : comb (D a b) ninf = ninf) by (apply (comb_inf CL); auto).
    destruct (pymin3_cases (cum a (S b)) (cum (S a) b) (cum a b)) as [X|[X|X]]; rewrite X.
    - destruct a as [|a]; [left; rewrite cum_border by auto; exact Inf|].
      destruct (P a b) as [Y|Y]; [left; simpl; lia| |]; auto. left. rewrite Y. exact Inf.
    - destruct b as [|b]; [left; rewrite cum_border by auto; exact Inf|].
      destruct (P a b) as [Y|Y]; [right; left; simpl; lia| |]; auto. left. rewrite Y. exact Inf.
    - destruct a as [|a]; [|destruct b as [|b]].
      + rewrite cum_border by auto. unfold cum_init. destruct b as [|b]; simpl; [|left; exact Inf].
        right. exists [(0, 0)]. split; [constructor; auto|reflexivity].
      + left. rewrite cum_border by auto. exact Inf.
      + destruct (P a b) as [Y|Y]; [right; right; simpl; lia| |]; auto. left. rewrite Y. exact Inf. }
  intros. apply (G (S (i + j))); auto.
Qed.

(** *** link with the specification's paths *)
Lemma linked_app {A} (R : A -> A -> Prop) (p : list A) a b :
  linked R (p ++ [a]) -> R a b -> linked R ((p ++ [a]) ++ [b]).
Proof.
  induction p as [|x [|y p] IH]; simpl; intros H HR; [auto|tauto|].
  destruct H as [H1 H2]. split; auto. apply IH; auto.
Qed.

Lemma first_is_app {A} (p q : list A) a : first_is p a -> first_is (p ++ q) a.
Proof. unfold first_is. destruct p; simpl; auto; discriminate. Qed.
Lemma first_is_app_inv {A} (p q : list A) a : p <> [] -> first_is (p ++ q) a -> first_is p a.
Proof. unfold first_is. destruct p; simpl; auto; congruence. Qed.
Lemma last_is_app {A} (p : list A) a b : last_is (p ++ [a]) b <-> a = b.
Proof.
  unfold last_is. rewrite app_length; simpl. rewrite nth_error_app2 by lia.
  replace (length p + 1 - 1 - length p) with 0 by lia. simpl. split; congruence.
Qed.

Lemma linked_app_inv {A} (R : A -> A -> Prop) (p : list A) a b :
  linked R ((p ++ [a]) ++ [b]) -> linked R (p ++ [a]) /\ R a b.
Proof.
  induction p as [|x [|y p] IH]; simpl; intros H; [tauto|tauto|].
  destruct H as [H1 H2]. apply IH in H2. simpl in H2. tauto.
Qed.

Lemma rpath_spec ok i j p : rpath ok i j p ->
  first_is (rev p) (0, 0) /\ last_is (rev p) (i, j) /\ linked move (rev p) /\
  (forall a b, In (a, b) (rev p) -> ok a b = true).
Proof.
  induction 1 as [H|i j i' j' p H IH Hm Ho].
  - simpl. repeat split; auto. intros a b [E|[]]. inversion E; subst; auto.
  - destruct IH as (F & La & Li & Al). destruct (rpath_hd _ _ _ _ H) as (q & Eq). subst p.
    simpl in *. repeat split.
    + apply first_is_app; auto.
    + apply last_is_app; auto.
    + apply linked_app; auto.
    + intros a b Hin. apply in_app_or in Hin. destruct Hin as [Hin|[E|[]]]; auto. inversion E; subst; auto.
Qed.

Lemma spec_rpath ok i j p :
  first_is (rev p) (0, 0) -> last_is (rev p) (i, j) -> linked move (rev p) ->
  (forall a b, In (a, b) (rev p) -> ok a b = true) -> rpath ok i j p.
Proof.
  revert i j. induction p as [|c p IH]; intros i j F La Li Al; [discriminate|].
  simpl in *. apply last_is_app in La. subst c.
  destruct p as [|[a b] p].
  - simpl in *. unfold first_is in F. simpl in F. inversion F; subst. constructor. apply Al. left; auto.
  - simpl in *. apply linked_app_inv in Li. destruct Li as [Li Hm].
    econstructor; [apply IH| |]; eauto.
    + eapply first_is_app_inv; [|exact F]. destruct (rev p); discriminate.
    + apply last_is_app; auto.
    + intros a' b' Hin. apply Al. apply in_or_app; auto.
    + apply Al. apply in_or_app. right; left; auto.
Qed.

Lemma rcost_path_cost p : rcost p = path_cost comb D (rev p).
Proof. unfold rcost, path_cost. rewrite <- fold_left_rev_right, rev_involutive. reflexivity. Qed.

Lemma rpath_dec ok i j : (exists p, rpath ok i j p) \/ (forall p, ~ rpath ok i j p).
Proof.
  assert (G : forall s i j, i + j < s -> (exists p, rpath ok i j p) \/ (forall p, ~ rpath ok i j p)).
  { induction s as [|s IH]; intros a b Hs; [lia|].
    destruct (ok a b) eqn:E.
    2:{ right. intros p H. inversion H; subst; congruence. }
    destruct a as [|a], b as [|b].
    - left. exists [(0, 0)]. constructor; auto.
    - destruct (IH 0 b) as [(p & Hp)|Hn]; [lia| |].
      + left. eexists. eapply rp_step; eauto. unfold move; simpl; lia.
      + right. intros p H. inversion H; subst. unfold move in *; simpl in *.
        assert (i0 = 0 /\ j0 = b) as [-> ->] by lia. eapply Hn; eauto.
    - destruct (IH a 0) as [(p & Hp)|Hn]; [lia| |].
      + left. eexists. eapply rp_step; eauto. unfold move; simpl; lia.
      + right. intros p H. inversion H; subst. unfold move in *; simpl in *.
        assert (i0 = a /\ j0 = 0) as [-> ->] by lia. eapply Hn; eauto.
    - destruct (IH a b) as [(p & Hp)|Hn1]; [lia| |].
      { left. eexists. eapply rp_step; eauto. unfold move; simpl; lia. }
      destruct (IH a (S b)) as [(p & Hp)|Hn2]; [lia| |].
      { left. eexists. eapply rp_step; eauto. unfold move; simpl; lia. }
      destruct (IH (S a) b) as [(p & Hp)|Hn3]; [lia| |].
      { left. eexists. eapply rp_step; eauto. unfold move; simpl; lia. }
      right. intros p H. inversion H; subst. unfold move in *; simpl in *.
      match goal with K : _ \/ _ \/ _ |- _ => destruct K as [[K1 K2]|[[K1 K2]|[K1 K2]]] end.
      + inversion K1; subst. eapply Hn2; eauto.
      + inversion K2; subst. eapply Hn3; eauto.
      + inversion K1; inversion K2; subst. eapply Hn1; eauto. }
  apply (G (S (i + j))); auto.
Qed.

Lemma wpath_rpath p : 0 < l1 -> 0 < l2 ->
  warping_path l1 l2 mask p -> rpath mask (l1 - 1) (l2 - 1) (rev p).
Proof.
  intros H1 H2 (F & La & Li & Al). apply spec_rpath; rewrite rev_involutive; auto.
Qed.
Lemma rpath_wpath p : rpath mask (l1 - 1) (l2 - 1) p -> warping_path l1 l2 mask (rev p).
Proof. intros H. apply rpath_spec in H. exact H. Qed.

Theorem acc_least_cost : 0 < l1 -> 0 < l2 ->
  least_cost (warping_path l1 l2 mask) (path_cost comb D) (acc_matrix comb l1 l2 D mask (l1 - 1) (l2 - 1)).
Proof.
  intros H1 H2. unfold acc_matrix.
  assert (Hlow : forall p, warping_path l1 l2 mask p ->
      nleb (cum (S (l1 - 1)) (S (l2 - 1))) (path_cost comb D p) = true).
  { intros p Hp. apply wpath_rpath in Hp; auto. rewrite <- (rev_involutive p), <- rcost_path_cost.
    apply cum_lower; auto; lia. }
  split; auto.
  destruct (cum_attained (l1 - 1) (l2 - 1)) as [E|(p & Hp & Hc)]; try lia.
  - rewrite E. destruct (rpath_dec mask (l1 - 1) (l2 - 1)) as [(p & Hp)|Hn].
    + left. exists (rev p). split; [apply rpath_wpath; auto|].
      assert (Hnn : nn (rcost p)) by (apply (rcost_nn mask (l1 - 1) (l2 - 1)); auto; lia).
      rewrite <- rcost_path_cost.
      apply (leb_antisym _ _ _ L); auto; [apply (nn_inf _ _ _ L)|apply (leb_inf _ _ _ L); auto|].
      rewrite <- E. apply cum_lower; auto; lia.
    + right. split; auto. intros p Hp. apply wpath_rpath in Hp; auto. eapply Hn; eauto.
  - left. exists (rev p). split; [apply rpath_wpath; auto|]. rewrite <- rcost_path_cost. auto.
Qed.

Lemma acc_nn i j : i < l1 -> j < l2 -> nn (acc_matrix comb l1 l2 D mask i j).
Proof. intros. apply cum_nn; lia. Qed.

(** *** backtracking *)
Lemma argmin3_spec (a b c : N) : nn a -> nn b -> nn c ->
  let k := argmin3 a b c in
  (k = 0 /\ nleb a b = true /\ nleb a c = true) \/
  (k = 1 /\ nleb b a = true /\ nleb b c = true) \/
  (k = 2 /\ nleb c a = true /\ nleb c b = true).
Proof.
  intros Ha Hb Hc. simpl. unfold argmin3.
  assert (T : forall x y, nn x -> nn y -> nltb x y = true -> nleb x y = true).
  { intros x y Hx Hy. rewrite (ltb_leb _ _ _ L) by auto. intros E. apply negb_true_iff in E.
    destruct (leb_total _ _ _ L x y Hx Hy); congruence. }
  assert (F : forall x y, nn x -> nn y -> nltb x y = false -> nleb y x = true).
  { intros x y Hx Hy. rewrite (ltb_leb _ _ _ L) by auto. intros E. apply negb_false_iff in E. auto. }
  destruct (nltb b a) eqn:E1.
  - apply T in E1; auto. destruct (nltb c b) eqn:E2.
    + apply T in E2; auto. right; right. repeat split; auto. apply (leb_trans _ _ _ L) with (b := b); auto.
    + apply F in E2; auto.
  - apply F in E1; auto. destruct (nltb c a) eqn:E2.
    + apply T in E2; auto. right; right. repeat split; auto. apply (leb_trans _ _ _ L) with (b := a); auto.
    + apply F in E2; auto.
Qed.

Lemma pymin3_char a b c m : nn a -> nn b -> nn c -> (m = a \/ m = b \/ m = c) ->
  nleb m a = true -> nleb m b = true -> nleb m c = true -> pymin3 a b c = m.
Proof.
  intros Ha Hb Hc Hm H1 H2 H3.
  destruct (pymin3_le a b c) as (A & B & C); auto.
  assert (Hp : nn (pymin3 a b c)) by (apply pymin3_nn; auto).
  assert (Hn : nn m) by (destruct Hm as [E|[E|E]]; rewrite E; auto).
  apply (leb_antisym _ _ _ L); auto.
  - destruct Hm as [E|[E|E]]; rewrite E; auto.
  - destruct (pymin3_cases a b c) as [E|[E|E]]; rewrite E; auto.
Qed.

Notation acc := (acc_matrix comb l1 l2 D mask).

(** Walking back from a cell with a finite entry stays in the mask and collects
    the entry's value; walking back from any cell needs at most [i + j] steps. *)
Lemma backtrack_total fuel (a : mat N) i j path : i + j < fuel -> exists p, backtrack fuel a i j path = Some p.
Proof.
  revert i j path. induction fuel as [|f IH]; intros i j path H; [lia|].
  destruct i as [|i], j as [|j]; simpl.
  - eauto.
  - apply IH; lia.
  - apply IH; lia.
  - destruct (argmin3 _ _ _) as [|[|k]]; apply IH; lia.
Qed.

Lemma acc_fin_mask i j : i < l1 -> j < l2 -> acc i j <> ninf ->
  mask i j = true /\ acc i j = comb (D i j) (pymin3 (cum i (S j)) (cum (S i) j) (cum i j)) /\
  pymin3 (cum i (S j)) (cum (S i) j) (cum i j) <> ninf.
Proof.
  intros Hi Hj Hf. unfold acc_matrix in *. rewrite cum_rec in * by auto.
  destruct (mask i j) eqn:E; [|congruence]. repeat split; auto.
  intros Hc. apply Hf. rewrite Hc. apply (comb_inf CL). auto.
Qed.

Lemma backtrack_spec fuel i j path p : i < l1 -> j < l2 -> acc i j <> ninf ->
  backtrack fuel acc i j path = Some p ->
  exists q, rpath mask i j ((i, j) :: q) /\ rcost ((i, j) :: q) = acc i j /\ p = rev q ++ path.
Proof.
  revert i j path. induction fuel as [|f IH]; intros i j path Hi Hj Hf Hb; [discriminate|].
  destruct (acc_fin_mask i j Hi Hj Hf) as (Hm & Ha & Hp).
  assert (I0 : nn (ninf (n:=N))) by apply (nn_inf _ _ _ L).
  assert (Step : forall i' j', move (i', j') (i, j) ->
     pymin3 (cum i (S j)) (cum (S i) j) (cum i j) = acc i' j' ->
     backtrack f acc i' j' ((i', j') :: path) = Some p ->
     exists q, rpath mask i j ((i, j) :: q) /\ rcost ((i, j) :: q) = acc i j /\ p = rev q ++ path).
  { intros i' j' Hmv E Hbk.
    destruct (IH i' j' _ ltac:(unfold move in Hmv; simpl in Hmv; lia) ltac:(unfold move in Hmv; simpl in Hmv; lia)
                ltac:(rewrite <- E; exact Hp) Hbk) as (q & Q1 & Q2 & Q3).
    exists ((i', j') :: q). split; [|split].
    - econstructor; eauto.
    - simpl in *. rewrite Q2, Ha, E. reflexivity.
    - simpl. rewrite <- app_assoc. exact Q3. }
  destruct i as [|i], j as [|j]; simpl in Hb.
  - inversion Hb; subst. exists []. split; [constructor; auto|split; auto].
    simpl. rewrite Ha. f_equal. symmetry. apply pymin3_char; try (apply cum_nn; lia).
    + right; right. rewrite cum_border; auto.
    + apply (leb_zero _ _ _ L). apply cum_nn; lia.
    + apply (leb_zero _ _ _ L). apply cum_nn; lia.
    + apply (leb_zero _ _ _ L). apply cum_nn; lia.
  - apply (Step 0 j); auto; [unfold move; simpl; lia|].
    apply pymin3_char; try (apply cum_nn; lia); auto.
    + rewrite (cum_border 0) by auto. apply (leb_inf _ _ _ L). apply acc_nn; lia.
    + apply (leb_refl _ _ _ L). apply acc_nn; lia.
    + rewrite (cum_border 0) by auto. apply (leb_inf _ _ _ L). apply acc_nn; lia.
  - apply (Step i 0); auto; [unfold move; simpl; lia|].
    apply pymin3_char; try (apply cum_nn; lia); auto.
    + apply (leb_refl _ _ _ L). apply acc_nn; lia.
    + rewrite (cum_border _ 0) by auto. apply (leb_inf _ _ _ L). apply acc_nn; lia.
    + rewrite (cum_border _ 0) by auto. apply (leb_inf _ _ _ L). apply acc_nn; lia.
  - destruct (argmin3_spec (acc i j) (acc i (S j)) (acc (S i) j)) as [(E & A & B)|[(E & A & B)|(E & A & B)]];
      try (apply acc_nn; lia); rewrite E in Hb.
    + apply (Step i j); auto; [unfold move; simpl; lia|].
      apply pymin3_char; try (apply cum_nn; lia); auto. apply (leb_refl _ _ _ L). apply acc_nn; lia.
    + apply (Step i (S j)); auto; [unfold move; simpl; lia|].
      apply pymin3_char; try (apply cum_nn; lia); auto. apply (leb_refl _ _ _ L). apply acc_nn; lia.
    + apply (Step (S i) j); auto; [unfold move; simpl; lia|].
      apply pymin3_char; try (apply cum_nn; lia); auto. apply (leb_refl _ _ _ L). apply acc_nn; lia.
Qed.

Theorem compute_path_total (a : mat N) : 0 < l1 -> 0 < l2 -> exists p, compute_path l1 l2 a = Some p.
Proof. intros. unfold compute_path. apply backtrack_total. lia. Qed.

Theorem compute_path_spec p : 0 < l1 -> 0 < l2 -> acc (l1 - 1) (l2 - 1) <> ninf ->
  compute_path l1 l2 acc = Some p ->
  warping_path l1 l2 mask p /\ path_cost comb D p = acc (l1 - 1) (l2 - 1).
Proof.
  intros H1 H2 Hf Hp. unfold compute_path in Hp.
  apply backtrack_spec in Hp; auto; try lia. destruct Hp as (q & Q1 & Q2 & Q3).
  assert (E : p = rev ((l1 - 1, l2 - 1) :: q)) by (simpl; exact Q3).
  rewrite E. split; [apply rpath_wpath; auto|]. rewrite <- rcost_path_cost. exact Q2.
Qed.

(** *** anti-diagonal order *)
Notation D' := (fun i j => if mask i j then D i j else ninf).
Lemma torch_fill n i j : i < l1 -> j < l2 ->
  fold_left (torch_diag_step comb l1 l2 D') (seq 0 n) cum_init (S i) (S j) =
    if i + j <? n then cum (S i) (S j) else ninf.
Proof.
  intros Hi Hj. revert i j Hi Hj. induction n as [|n IH]; intros i j Hi Hj.
  - simpl. reflexivity.
  - rewrite seq_S. rewrite fold_left_app. simpl fold_left. cbv zeta beta.
    set (m := fold_left (torch_diag_step comb l1 l2 D') (seq 0 n) cum_init) in *.
    unfold torch_diag_step at 1.
    replace (S i - 1) with i by lia. replace (S j - 1) with j by lia. simpl (1 <=? S _).
    assert (Bd : forall k a b, a = 0 \/ b = 0 ->
        fold_left (torch_diag_step comb l1 l2 D') (seq 0 k) cum_init a b = cum_init (N:=N) a b).
    { clear. induction k as [|k IHk]; intros a b Hab; auto.
      rewrite seq_S, fold_left_app. simpl. unfold torch_diag_step at 1.
      destruct Hab; subst; simpl; [apply IHk; auto|]. rewrite andb_false_r. simpl. apply IHk; auto. }
    destruct (i + j =? n) eqn:E.
    + apply Nat.eqb_eq in E. rewrite andb_true_r.
      replace (n - (l2 - 1) <=? i) with true by (symmetry; apply Nat.leb_le; lia).
      replace (i <? Nat.min (l1 - 1) n + 1) with true by (symmetry; apply Nat.ltb_lt; lia).
      simpl. replace (i + j <? S n) with true by (symmetry; apply Nat.ltb_lt; lia).
      assert (Pr : forall a b, a <= i -> b <= S j -> a <= S i -> (a, b) <> (S i, S j) -> a + b <= S n ->
           m a b = cum a b).
      { intros a b A1 A2 A3 A4 A5. destruct a as [|a]; [|destruct b as [|b]].
        - unfold m. rewrite Bd, cum_border by auto. reflexivity.
        - unfold m. rewrite Bd, cum_border by auto. reflexivity.
        - rewrite IH by lia. replace (a + b <? n) with true by (symmetry; apply Nat.ltb_lt; lia). reflexivity. }
      assert (Pr2 : m (S i) j = cum (S i) j).
      { destruct j as [|j'].
        - unfold m. rewrite Bd, cum_border by auto. reflexivity.
        - rewrite IH by lia. replace (i + j' <? n) with true by (symmetry; apply Nat.ltb_lt; lia). reflexivity. }
      rewrite (Pr i (S j)), (Pr i j), Pr2 by (try lia; try congruence; intros X; inversion X; lia).
      rewrite cum_rec by auto. destruct (mask i j); auto.
      apply (comb_inf_l CL). apply pymin3_nn; apply cum_nn; lia.
    + apply Nat.eqb_neq in E. rewrite andb_false_r. rewrite IH by auto.
      destruct (i + j <? n) eqn:E2; destruct (i + j <? S n) eqn:E3; auto.
      * apply Nat.ltb_lt in E2. apply Nat.ltb_ge in E3. lia.
      * apply Nat.ltb_ge in E2. apply Nat.ltb_lt in E3. lia.
Qed.

Theorem torch_acc_eq i j : i < l1 -> j < l2 ->
  torch_acc_matrix comb l1 l2 D mask i j = acc_matrix comb l1 l2 D mask i j.
Proof.
  intros Hi Hj. unfold torch_acc_matrix. cbv zeta. rewrite torch_fill by auto.
  replace (i + j <? l1 + l2 - 1) with true by (symmetry; apply Nat.ltb_lt; lia). reflexivity.
Qed.
End DP.

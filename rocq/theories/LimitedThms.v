(** DTW with a limited warping length. *)
From Coq Require Import Bool List Arith ZArith QArith Lia.
From Verif Require Import Num Py Series Masks DtwModel Fill VariantModel Spec SpecDtw DpProofs DtwProofs DtwThms.
Import ListNotations.
Local Open Scope nat_scope.

Lemma rpath_len ok i j p : rpath ok i j p -> S (Nat.max i j) <= length p <= S (i + j).
Proof.
  induction 1 as [H|i j i' j' p H IH Hm Ho]; [simpl; lia|].
  unfold move in Hm; simpl in *. lia.
Qed.
Lemma rpath_inv ok i j p : rpath ok i j p -> (i = 0 /\ j = 0 /\ p = [(0, 0)]) \/
  exists i' j' q, p = (i, j) :: q /\ rpath ok i' j' q /\ move (i', j') (i, j).
Proof. intros H. inversion H; subst; [left; auto|right; eauto 8]. Qed.
Lemma rpath_exists_len i j s : Nat.max i j <= s <= i + j -> exists p, rpath everywhere i j p /\ length p = S s.
Proof.
  remember (i + j) as t eqn:Et. revert i j s Et. induction t as [t IH] using lt_wf_ind. intros i j s Et H.
  destruct i as [|i], j as [|j].
  - exists [(0, 0)]. split; [constructor; reflexivity|]. simpl. lia.
  - destruct (IH (0 + j) ltac:(lia) 0 j (s - 1) eq_refl ltac:(lia)) as (p & Hp & Hl).
    exists ((0, S j) :: p). split; [econstructor; eauto; unfold move; simpl; lia|simpl; lia].
  - destruct (IH (i + 0) ltac:(lia) i 0 (s - 1) eq_refl ltac:(lia)) as (p & Hp & Hl).
    exists ((S i, 0) :: p). split; [econstructor; eauto; unfold move; simpl; lia|simpl; lia].
  - destruct (Nat.eq_dec s (S i + S j)) as [E|E].
    + destruct (IH (i + S j) ltac:(lia) i (S j) (s - 1) eq_refl ltac:(lia)) as (p & Hp & Hl).
      exists ((S i, S j) :: p). split; [econstructor; eauto; unfold move; simpl; lia|simpl; lia].
    + destruct (IH (i + j) ltac:(lia) i j (s - 1) eq_refl ltac:(lia)) as (p & Hp & Hl).
      exists ((S i, S j) :: p). split; [econstructor; eauto; unfold move; simpl; lia|simpl; lia].
Qed.

Section Lim.
Variable N : num.
Variables nn fin : N -> Prop.
Hypothesis L : num_laws N nn fin.
Variables (l1 l2 ml : nat) (D : mat N).
Hypothesis H1 : 0 < l1.
Hypothesis H2 : 0 < l2.
Hypothesis Hml : Nat.max l1 l2 <= ml.
Hypothesis Dnn : forall i j, nn (D i j).
Notation costs := (lim_costs D ml l1 l2).
Notation rc := (rcost N nadd D).

Lemma costs_col i : costs i 0 = [(i, col_cost D i)].
Proof. unfold lim_costs. rewrite fill_other; [reflexivity|]. rewrite in_grid. lia. Qed.
Lemma costs_row j : costs 0 (S j) = [(S j, row_cost D (S j))].
Proof. unfold lim_costs. rewrite fill_other; [reflexivity|]. rewrite in_grid. lia. Qed.
Lemma costs_in i j : S i < l1 -> S j < l2 -> costs (S i) (S j) = lim_cell D ml l1 l2 costs (S i) (S j).
Proof.
  intros Hi Hj. unfold lim_costs. apply fill_rec.
  - apply sorted_grid.
  - apply in_grid. lia.
  - intros m m' H. unfold lim_cell. apply map_ext. intros s. simpl. rewrite !Nat.sub_0_r.
    rewrite !H by (unfold lex; simpl; lia). reflexivity.
Qed.

Lemma dget_map (f : nat -> N) a n s : dget (map (fun s => (s, f s)) (seq a n)) s =
  if (a <=? s) && (s <? a + n) then Some (f s) else None.
Proof.
  revert a. induction n as [|n IH]; intros a; simpl.
  - destruct (Nat.leb_spec a s), (Nat.ltb_spec s (a + 0)); simpl; auto; lia.
  - destruct (Nat.eqb_spec a s) as [E|E].
    + subst. rewrite Nat.leb_refl. simpl. destruct (Nat.ltb_spec s (s + S n)); auto; lia.
    + rewrite IH. destruct (Nat.leb_spec (S a) s), (Nat.leb_spec a s), (Nat.ltb_spec s (S a + n)), (Nat.ltb_spec s (a + S n)); simpl; auto; lia.
Qed.

Definition hi i j := max_steps i j (ml - 1) l1 l2.
Lemma costs_get i j s : S i < l1 -> S j < l2 -> dget (costs (S i) (S j)) s =
  if (Nat.max (S i) (S j) <=? s) && (s <=? hi (S i) (S j)) then
    Some (nadd (D (S i) (S j)) (pymin3 (dget_inf (costs (S i) j) (Z.of_nat s - 1))
       (dget_inf (costs i (S j)) (Z.of_nat s - 1)) (dget_inf (costs i j) (Z.of_nat s - 1))))
  else None.
Proof.
  intros Hi Hj. rewrite costs_in by auto. unfold lim_cell. cbv zeta.
  rewrite (dget_map (fun s => nadd (D (S i) (S j)) (pymin3 (dget_inf (costs (S i) (S j - 1)) (Z.of_nat s - 1))
       (dget_inf (costs (S i - 1) (S j)) (Z.of_nat s - 1)) (dget_inf (costs (S i - 1) (S j - 1)) (Z.of_nat s - 1))))).
  fold (hi (S i) (S j)). simpl Nat.sub. rewrite !Nat.sub_0_r.
  destruct (Nat.max (S i) (S j) <=? s) eqn:E; cbn [andb]; auto. apply Nat.leb_le in E.
  destruct (s <=? hi (S i) (S j)) eqn:E2.
  - apply Nat.leb_le in E2. destruct (s <? _) eqn:E3; auto. apply Nat.ltb_ge in E3. lia.
  - apply Nat.leb_gt in E2. destruct (s <? _) eqn:E3; auto. apply Nat.ltb_lt in E3. lia.
Qed.

Lemma dget_inf_nat d s : dget_inf d (Z.of_nat s) = match dget d s with Some v => v | None => ninf (n:=N) end.
Proof.
  unfold dget_inf. destruct (Z.of_nat s <? 0)%Z eqn:E; [apply Z.ltb_lt in E; lia|]. rewrite Nat2Z.id. reflexivity.
Qed.
Lemma dget_inf_pred d s : dget_inf d (Z.of_nat (S s) - 1) = match dget d s with Some v => v | None => ninf (n:=N) end.
Proof. replace (Z.of_nat (S s) - 1)%Z with (Z.of_nat s) by lia. apply dget_inf_nat. Qed.

Lemma col_cost_nn i : nn (col_cost D i).
Proof. induction i; simpl; auto. apply (nn_add _ _ _ L); auto. Qed.
Lemma row_cost_nn j : nn (row_cost D j).
Proof. induction j; simpl; auto. apply (nn_add _ _ _ L); auto. Qed.

Definition val i j s : N := match dget (costs i j) s with Some v => v | None => ninf end.
Lemma val_col i s : val i 0 s = if i =? s then col_cost D i else ninf.
Proof. unfold val. rewrite costs_col. simpl. destruct (i =? s); reflexivity. Qed.
Lemma val_row j s : val 0 (S j) s = if S j =? s then row_cost D (S j) else ninf.
Proof. unfold val. rewrite costs_row. unfold dget. destruct (S j =? s); reflexivity. Qed.
Lemma val_in i j s : S i < l1 -> S j < l2 -> val (S i) (S j) (S s) =
  if (Nat.max (S i) (S j) <=? S s) && (S s <=? hi (S i) (S j)) then
    nadd (D (S i) (S j)) (pymin3 (val (S i) j s) (val i (S j) s) (val i j s))
  else ninf.
Proof.
  intros Hi Hj. unfold val at 1. rewrite costs_get by auto. destruct (_ && _); auto.
  rewrite !dget_inf_pred. reflexivity.
Qed.
Lemma val_in0 i j : S i < l1 -> S j < l2 -> val (S i) (S j) 0 = ninf.
Proof. intros Hi Hj. unfold val. rewrite costs_get by auto. reflexivity. Qed.

Lemma val_nn i j s : i < l1 -> j < l2 -> nn (val i j s).
Proof.
  assert (G : forall t i j s, i + j < t -> i < l1 -> j < l2 -> nn (val i j s)).
  { induction t as [|t IH]; intros a b s' Ht Ha Hb; [lia|].
    destruct b as [|b].
    - rewrite val_col. destruct (_ =? _); [apply col_cost_nn|apply (nn_inf _ _ _ L)].
    - destruct a as [|a].
      + rewrite val_row. destruct (_ =? _); [apply row_cost_nn|apply (nn_inf _ _ _ L)].
      + destruct s' as [|s']; [rewrite val_in0 by auto; apply (nn_inf _ _ _ L)|].
        rewrite val_in by auto. destruct (_ && _); [|apply (nn_inf _ _ _ L)].
        apply (nn_add _ _ _ L); auto. apply (pymin3_nn N nn); apply IH; lia. }
  intros. apply (G (S (i + j))); auto.
Qed.

Lemma rpath_col ok i p : rpath ok i 0 p -> length p = S i /\ rc p = col_cost D i.
Proof.
  revert p. induction i as [|i IH]; intros p H; destruct (rpath_inv _ _ _ _ H) as [(A & B & C)|(i' & j' & q & E & Hq & Hm)];
    subst; try lia; try (unfold move in Hm; simpl in Hm; lia).
  - split; auto. simpl. rewrite (add_zero _ _ _ L); auto.
  - assert (i' = i /\ j' = 0) as [-> ->] by (unfold move in Hm; simpl in Hm; lia).
    destruct (IH _ Hq) as [E1 E2]. simpl. rewrite E2. split; [lia|]. apply (add_comm _ _ _ L); auto. apply col_cost_nn.
Qed.
Lemma rpath_row ok j p : rpath ok 0 j p -> length p = S j /\ rc p = row_cost D j.
Proof.
  revert p. induction j as [|j IH]; intros p H; destruct (rpath_inv _ _ _ _ H) as [(A & B & C)|(i' & j' & q & E & Hq & Hm)];
    subst; try lia; try (unfold move in Hm; simpl in Hm; lia).
  - split; auto. simpl. rewrite (add_zero _ _ _ L); auto.
  - assert (i' = 0 /\ j' = j) as [-> ->] by (unfold move in Hm; simpl in Hm; lia).
    destruct (IH _ Hq) as [E1 E2]. simpl. rewrite E2. split; [lia|]. apply (add_comm _ _ _ L); auto. apply row_cost_nn.
Qed.

Lemma rc_nn p : nn (rc p).
Proof. induction p as [|c p IH]; simpl; [apply (nn_zero _ _ _ L)|apply (nn_add _ _ _ L); auto]. Qed.

(** remaining room for a path to the last cell *)
Definition room i j := ml - 1 - Nat.max (l1 - i - 1) (l2 - j - 1).

Lemma val_lower i j p : i < l1 -> j < l2 -> rpath everywhere i j p -> length p <= S (room i j) ->
  nleb (val i j (length p - 1)) (rc p) = true.
Proof.
  intros Hi Hj H Hroom. induction H as [H|i j i' j' p H IH Hm Ho].
  - simpl. rewrite val_col. simpl. rewrite (add_zero _ _ _ L) by auto. apply (leb_refl _ _ _ L); auto.
  - assert (Hp : rpath everywhere i' j' ((i', j') :: p)) by (econstructor; eauto).
    pose proof (rpath_len _ _ _ _ Hp) as Hlen. pose proof (rpath_len _ _ _ _ H) as Hlen0.
    destruct j' as [|j'].
    { destruct (rpath_col _ _ _ Hp) as [E1 E2]. rewrite E1, E2, val_col. replace (S i' - 1) with i' by lia.
      rewrite Nat.eqb_refl. apply (leb_refl _ _ _ L), col_cost_nn. }
    destruct i' as [|i'].
    { destruct (rpath_row _ _ _ Hp) as [E1 E2]. rewrite E1, E2, val_row. replace (S (S j') - 1) with (S j') by lia.
      rewrite Nat.eqb_refl. apply (leb_refl _ _ _ L), row_cost_nn. }
    assert (Hij : i <= S i' /\ j <= S j' /\ i < l1 /\ j < l2) by (unfold move in Hm; simpl in Hm; lia).
    assert (R : length p <= S (room i j)).
    { assert (M : room (S i') (S j') <= S (room i j)).
      { unfold room. assert (Nat.max (l1 - i - 1) (l2 - j - 1) <= S (Nat.max (l1 - S i' - 1) (l2 - S j' - 1))).
        { unfold move in Hm; simpl in Hm. clear - Hm. destruct Hm as [[E1 E2]|[[E1 E2]|[E1 E2]]]; inversion E1; inversion E2; subst; lia. }
        lia. }
      simpl in Hroom. lia. }
    specialize (IH ltac:(lia) ltac:(lia) R).
    simpl length. simpl in Hlen. destruct (length p) as [|s] eqn:Es; [lia|].
    replace (S (S s) - 1) with (S s) by lia. rewrite val_in by auto.
    assert (E : (Nat.max (S i') (S j') <=? S s) && (S s <=? hi (S i') (S j')) = true).
    { apply andb_true_iff. split; apply Nat.leb_le; [simpl; lia|]. unfold hi, max_steps. simpl length in Hroom.
      unfold room in Hroom. lia. }
    rewrite E. simpl rcost. replace (S s - 1) with s in IH by lia.
    assert (N1 : nn (val (S i') j' s)) by (apply val_nn; lia).
    assert (N2 : nn (val i' (S j') s)) by (apply val_nn; lia).
    assert (N3 : nn (val i' j' s)) by (apply val_nn; lia).
    assert (N5 : nn (val i j s)) by (apply val_nn; lia).
    destruct (pymin3_le N nn fin L (val (S i') j' s) (val i' (S j') s) (val i' j' s)) as (A & B & C); auto.
    apply (add_mono _ _ _ L); [apply Dnn|apply (pymin3_nn N nn); auto|apply rc_nn|].
    apply (leb_trans _ _ _ L) with (b := val i j s); [apply (pymin3_nn N nn); auto|auto|apply rc_nn| |auto].
    unfold move in Hm; simpl in Hm. destruct Hm as [[E1 E2]|[[E1 E2]|[E1 E2]]]; inversion E1; inversion E2; subst; auto.
Qed.

Lemma val_attained i j s : i < l1 -> j < l2 -> val i j s = ninf \/
  exists p, rpath everywhere i j p /\ length p = S s /\ rc p = val i j s.
Proof.
  assert (G : forall t i j s, i + j < t -> i < l1 -> j < l2 -> val i j s = ninf \/
     exists p, rpath everywhere i j p /\ length p = S s /\ rc p = val i j s).
  { induction t as [|t IH]; intros a b s' Ht Ha Hb; [lia|].
    destruct b as [|b].
    - rewrite val_col. destruct (a =? s') eqn:E; auto. apply Nat.eqb_eq in E. subst. right.
      destruct (rpath_exists_len s' 0 s' ltac:(lia)) as (p & Hp & Hl). exists p. repeat split; auto.
      apply (rpath_col _ _ _ Hp).
    - destruct a as [|a].
      + rewrite val_row. destruct (S b =? s') eqn:E; auto. apply Nat.eqb_eq in E. subst. right.
        destruct (rpath_exists_len 0 (S b) (S b) ltac:(lia)) as (p & Hp & Hl). exists p. repeat split; auto.
        apply (rpath_row _ _ _ Hp).
      + destruct s' as [|s']; [left; apply val_in0; auto|].
        rewrite val_in by auto. destruct (_ && _); auto.
        assert (P : forall i' j', move (i', j') (S a, S b) -> val i' j' s' = ninf \/
           exists p, rpath everywhere (S a) (S b) p /\ length p = S (S s') /\ rc p = nadd (D (S a) (S b)) (val i' j' s')).
        { intros i' j' Hm. destruct (IH i' j' s') as [X|(p & Hp & Hl & Hc)]; try (unfold move in Hm; simpl in Hm; lia); auto.
          right. exists ((S a, S b) :: p). split; [econstructor; eauto|]. simpl. rewrite Hc, Hl. auto. }
        assert (Inf : nadd (D (S a) (S b)) ninf = ninf) by (apply (add_inf _ _ _ L); auto).
        destruct (pymin3_cases N (val (S a) b s') (val a (S b) s') (val a b s')) as [X|[X|X]]; rewrite X.
        * destruct (P (S a) b) as [Y|Y]; [right; left; simpl; lia|left; rewrite Y; auto|auto].
        * destruct (P a (S b)) as [Y|Y]; [left; simpl; lia|left; rewrite Y; auto|auto].
        * destruct (P a b) as [Y|Y]; [right; right; simpl; lia|left; rewrite Y; auto|auto]. }
  intros. apply (G (S (i + j))); auto.
Qed.

(** keys of the last cell *)
Lemma last_keys : exists n, map fst (costs (l1 - 1) (l2 - 1)) = seq (Nat.max (l1 - 1) (l2 - 1)) (S n) /\
  Nat.max (l1 - 1) (l2 - 1) + n = Nat.min (l1 - 1 + (l2 - 1)) (ml - 1).
Proof.
  destruct (l2 - 1) as [|j] eqn:Ej.
  - exists 0. rewrite costs_col. split; [simpl; f_equal; lia|lia].
  - destruct (l1 - 1) as [|i] eqn:Ei.
    + exists 0. rewrite costs_row. split; [reflexivity|lia].
    + rewrite costs_in by lia. unfold lim_cell. cbv zeta. rewrite map_map.
      exists (max_steps (S i) (S j) (ml - 1) l1 l2 - Nat.max (S i) (S j)).
      assert (B : Nat.max (S i) (S j) <= max_steps (S i) (S j) (ml - 1) l1 l2) by (unfold max_steps; lia).
      split.
      * simpl fst. rewrite map_id. f_equal. lia.
      * assert (E : max_steps (S i) (S j) (ml - 1) l1 l2 = Nat.min (S i + S j) (ml - 1)).
        { unfold max_steps. replace (l1 - S i - 1) with 0 by lia. replace (l2 - S j - 1) with 0 by lia. f_equal. simpl. lia. }
        rewrite E in *. clear - B. lia.
Qed.

Notation lastc := (costs (l1 - 1) (l2 - 1)).
Lemma dget_keys (d : dict N) a n : map fst d = seq a n -> forall s v, In (s, v) d <-> dget d s = Some v.
Proof.
  revert a n. induction d as [|[k w] d IH]; intros a n E s v.
  - simpl. split; [tauto|discriminate].
  - destruct n as [|n]; [discriminate|]. simpl in E. inversion E as [[E1 E2]]. subst k.
    simpl. specialize (IH _ _ E2 s v). destruct (Nat.eqb_spec a s) as [X|X].
    + subst. split; [intros [Y|Y]|intros Y]; [congruence| |left; congruence].
      exfalso. assert (In s (map fst d)) by (apply in_map_iff; exists (s, v); auto).
      rewrite E2, in_seq in H. lia.
    + split; [intros [Y|Y]; [congruence|tauto]|tauto].
Qed.
Lemma last_in s v : In (s, v) lastc <->
  Nat.max (l1 - 1) (l2 - 1) <= s <= Nat.min (l1 - 1 + (l2 - 1)) (ml - 1) /\ v = val (l1 - 1) (l2 - 1) s.
Proof.
  destruct last_keys as (n & E & B). rewrite (dget_keys _ _ _ E). unfold val.
  assert (K : In s (map fst lastc) <-> exists v, dget lastc s = Some v).
  { rewrite in_map_iff. split.
    - intros ([k w] & E1 & E2). simpl in E1. subst k. exists w. apply (dget_keys _ _ _ E). auto.
    - intros (w & Hw). exists (s, w). split; auto. apply (dget_keys _ _ _ E). auto. }
  rewrite E, in_seq in K. split.
  - intros H. assert (exists v, dget lastc s = Some v) as X by eauto. apply K in X. rewrite H. split; [lia|auto].
  - intros [H1' ->]. destruct K as [K _]. destruct K as (w & Hw); [lia|]. rewrite Hw. reflexivity.
Qed.

Definition short p := warping_path l1 l2 everywhere p /\ length p <= ml.

Lemma short_rpath p : short p -> rpath everywhere (l1 - 1) (l2 - 1) (rev p).
Proof. intros [H _]. apply wpath_rpath; auto. Qed.
Lemma rpath_short p : rpath everywhere (l1 - 1) (l2 - 1) p -> length p <= ml -> short (rev p).
Proof. intros H Hl. split; [apply rpath_wpath; auto|rewrite rev_length; auto]. Qed.
Lemma room_last : S (room (l1 - 1) (l2 - 1)) = ml.
Proof. unfold room. lia. Qed.

Lemma rc_path p : rc (rev p) = path_cost nadd D p.
Proof. rewrite rcost_path_cost, rev_involutive. reflexivity. Qed.

Lemma last_lower p : short p -> exists v, In (length p - 1, v) lastc /\ nleb v (path_cost nadd D p) = true.
Proof.
  intros H. pose proof (short_rpath _ H) as R. destruct H as [_ Hl]. pose proof (rpath_len _ _ _ _ R) as Hb.
  rewrite rev_length in Hb. exists (val (l1 - 1) (l2 - 1) (length p - 1)). split.
  - apply last_in. split; auto. lia.
  - rewrite <- rc_path, <- (rev_length p). apply val_lower; auto; try lia. rewrite rev_length, room_last. auto.
Qed.
Lemma last_attained s v : In (s, v) lastc -> exists p, short p /\ (length p = S s) /\ nleb (path_cost nadd D p) v = true.
Proof.
  intros H. apply last_in in H. destruct H as [Hs ->].
  destruct (val_attained (l1 - 1) (l2 - 1) s) as [E|(p & Hp & Hl & Hc)]; try lia.
  - destruct (rpath_exists_len (l1 - 1) (l2 - 1) s ltac:(lia)) as (p & Hp & Hl).
    exists (rev p). split; [apply rpath_short; auto; lia|]. rewrite rev_length. split; auto.
    rewrite E. apply (leb_inf _ _ _ L). rewrite <- rc_path. apply rc_nn.
  - exists (rev p). split; [apply rpath_short; auto; lia|]. rewrite rev_length. split; auto.
    rewrite <- rc_path, rev_involutive, Hc. apply (leb_refl _ _ _ L). apply val_nn; lia.
Qed.

Lemma fold_pymin vs v : nn v -> Forall nn vs -> let r := fold_left (fun a b => pymin a b) vs v in
  In r (v :: vs) /\ (forall x, In x (v :: vs) -> nleb r x = true).
Proof.
  revert v. induction vs as [|w vs IH]; intros v Hv Hvs r.
  - subst r. split; simpl; auto. intros x [<-|[]]. apply (leb_refl _ _ _ L); auto.
  - inversion Hvs as [|? ? Hw Hvs']; subst. assert (Hp : nn (pymin v w)) by (apply (pymin_nn N nn); auto).
    destruct (IH (pymin v w) Hp Hvs') as [A B]. subst r. cbn [fold_left].
    assert (Hr : nn (fold_left (fun a b => pymin a b) vs (pymin v w))).
    { destruct A as [A|A]; [rewrite <- A; auto|rewrite Forall_forall in Hvs'; auto]. }
    split.
    + destruct A as [A|A]; [|simpl; auto]. rewrite <- A.
      destruct (pymin_cases N v w) as [E|E]; rewrite E; simpl; auto.
    + intros x [<-|[<-|Hx]].
      * apply (leb_trans _ _ _ L) with (b := pymin v w); auto; [apply B; simpl; auto|apply (pymin_le_l N nn fin L); auto].
      * apply (leb_trans _ _ _ L) with (b := pymin v w); auto; [apply B; simpl; auto|apply (pymin_le_r N nn fin L); auto].
      * apply B. simpl. auto.
Qed.

Lemma last_nn s v : In (s, v) lastc -> nn v.
Proof. intros H. apply last_in in H. destruct H as [_ ->]. apply val_nn; lia. Qed.

Lemma least_of_last w : In w (map snd lastc) -> (forall x, In x (map snd lastc) -> nleb w x = true) ->
  least_cost short (path_cost nadd D) w.
Proof.
  intros A B.
  assert (Hnn : nn w) by (apply in_map_iff in A; destruct A as ([s x] & <- & Hx); eapply last_nn; eauto).
  assert (Low : forall p, short p -> nleb w (path_cost nadd D p) = true).
  { intros p Hp. destruct (last_lower p Hp) as (v & Hv & Hle).
    apply (leb_trans _ _ _ L) with (b := v); auto.
    - eapply last_nn; eauto.
    - rewrite <- rc_path. apply rc_nn.
    - apply B. apply in_map_iff. exists (length p - 1, v). auto. }
  split; auto. left. apply in_map_iff in A. destruct A as ([s x] & E & Hx). simpl in E. subst x.
  destruct (last_attained _ _ Hx) as (p & Hp & _ & Hle). exists p. split; auto.
  apply (leb_antisym _ _ _ L); auto. rewrite <- rc_path. apply rc_nn.
Qed.

Lemma last_vals : Forall nn (map snd lastc).
Proof.
  rewrite Forall_forall. intros x Hx. apply in_map_iff in Hx. destruct Hx as ([s y] & <- & Hy). eapply last_nn; eauto.
Qed.
Lemma last_nonempty : lastc <> [].
Proof. destruct last_keys as (n & E & _). intros X. rewrite X in E. discriminate. Qed.

Theorem min_values_least : exists w, min_values lastc = Ok w /\ nn w /\ least_cost short (path_cost nadd D) w.
Proof.
  unfold min_values. pose proof last_vals as F. pose proof last_nonempty as Ne. pose proof least_of_last as Lol.
  destruct (map snd lastc) as [|v vs] eqn:E; [destruct lastc; [congruence|discriminate]|].
  inversion F; subst. destruct (fold_pymin vs v) as [A B]; auto.
  eexists. split; [reflexivity|]. split; [rewrite Forall_forall in F; auto|]. auto.
Qed.

(** back-tracking *)
Lemma back_neg i j cur path fuel : i + j < fuel -> (cur < 0)%Z ->
  exists r, rpath everywhere i j ((i, j) :: r) /\ length r = Nat.max i j /\
    lim_backtrack fuel costs i j cur path = Some (rev r ++ path).
Proof.
  revert i j cur path. induction fuel as [|f IH]; intros i j cur path Hf Hc; [lia|]. simpl.
  destruct i as [|i], j as [|j].
  - exists []. repeat split; auto. constructor. reflexivity.
  - destruct (IH 0 j cur ((0, j) :: path) ltac:(lia) Hc) as (r & Hr & Hl & E). exists ((0, j) :: r).
    split; [econstructor; eauto; unfold move; simpl; lia|]. split; [simpl; lia|].
    rewrite E. simpl. rewrite <- app_assoc. reflexivity.
  - destruct (IH i 0 cur ((i, 0) :: path) ltac:(lia) Hc) as (r & Hr & Hl & E). exists ((i, 0) :: r).
    split; [econstructor; eauto; unfold move; simpl; lia|]. split; [simpl; lia|].
    rewrite E. simpl. rewrite <- app_assoc. reflexivity.
  - unfold dget_inf. assert (X : (cur - 1 <? 0)%Z = true) by (apply Z.ltb_lt; lia). rewrite X.
    assert (Y : argmin3 (N:=N) ninf ninf ninf = 0).
    { unfold argmin3. rewrite (ltb_leb _ _ _ L) by apply (nn_inf _ _ _ L).
      rewrite (leb_inf _ _ _ L) by apply (nn_inf _ _ _ L). reflexivity. }
    rewrite Y. destruct (IH i j (cur - 1)%Z ((i, j) :: path) ltac:(lia) ltac:(lia)) as (r & Hr & Hl & E). exists ((i, j) :: r).
    split; [econstructor; eauto; unfold move; simpl; lia|]. split; [simpl; lia|].
    rewrite E. simpl. rewrite <- app_assoc. reflexivity.
Qed.

Lemma back_pos i j s path fuel : i + j < fuel -> i < l1 -> j < l2 -> val i j s <> ninf ->
  exists r, rpath everywhere i j ((i, j) :: r) /\ length r = s /\ rc ((i, j) :: r) = val i j s /\
    lim_backtrack fuel costs i j (Z.of_nat s) path = Some (rev r ++ path).
Proof.
  revert i j s path. induction fuel as [|f IH]; intros i j s path Hf Hi Hj Hv; [lia|].
  assert (Col : forall g i cur path, i < g -> exists r, rpath everywhere i 0 ((i, 0) :: r) /\
     lim_backtrack g costs i 0 cur path = Some (rev r ++ path)).
  { clear. induction g as [|g IHg]; intros i cur path Hg; [lia|]. destruct i as [|i].
    - exists []. split; auto. constructor. reflexivity.
    - destruct (IHg i cur ((i, 0) :: path) ltac:(lia)) as (r & Hr & E). exists ((i, 0) :: r).
      split; [econstructor; eauto; unfold move; simpl; lia|]. simpl. rewrite E, <- app_assoc. reflexivity. }
  assert (Row : forall g j cur path, j < g -> exists r, rpath everywhere 0 j ((0, j) :: r) /\
     lim_backtrack g costs 0 j cur path = Some (rev r ++ path)).
  { clear. induction g as [|g IHg]; intros j cur path Hg; [lia|]. destruct j as [|j].
    - exists []. split; auto. constructor. reflexivity.
    - destruct (IHg j cur ((0, j) :: path) ltac:(lia)) as (r & Hr & E). exists ((0, j) :: r).
      split; [econstructor; eauto; unfold move; simpl; lia|]. simpl. rewrite E, <- app_assoc. reflexivity. }
  destruct j as [|j].
  { rewrite val_col in Hv |- *. destruct (Nat.eqb_spec i s); [|congruence]. subst s.
    destruct (Col (S f) i (Z.of_nat i) path ltac:(lia)) as (r & Hr & E). exists r.
    destruct (rpath_col _ _ _ Hr) as [E1 E2]. simpl in E1. repeat split; auto. }
  destruct i as [|i].
  { rewrite val_row in Hv |- *. destruct (Nat.eqb_spec (S j) s); [|congruence]. subst s.
    destruct (Row (S f) (S j) (Z.of_nat (S j)) path ltac:(lia)) as (r & Hr & E). exists r.
    destruct (rpath_row _ _ _ Hr) as [E1 E2]. simpl length in E1. repeat split; auto. }
  destruct s as [|s]; [rewrite val_in0 in Hv by auto; congruence|].
  rewrite val_in in Hv |- * by auto. destruct (_ && _); [|congruence].
  assert (N1 : nn (val (S i) j s)) by (apply val_nn; lia).
  assert (N2 : nn (val i (S j) s)) by (apply val_nn; lia).
  assert (N3 : nn (val i j s)) by (apply val_nn; lia).
  cbn [lim_backtrack]. rewrite !dget_inf_pred. fold (val i j s) (val i (S j) s) (val (S i) j s).
  assert (G : forall i' j', move (i', j') (S i, S j) -> pymin3 (val (S i) j s) (val i (S j) s) (val i j s) = val i' j' s ->
    exists r, rpath everywhere (S i) (S j) ((S i, S j) :: r) /\ length r = S s /\
      rc ((S i, S j) :: r) = nadd (D (S i) (S j)) (pymin3 (val (S i) j s) (val i (S j) s) (val i j s)) /\
      lim_backtrack f costs i' j' (Z.of_nat (S s) - 1) ((i', j') :: path) = Some (rev r ++ path)).
  { intros i' j' Hm E. replace (Z.of_nat (S s) - 1)%Z with (Z.of_nat s) by lia.
    destruct (IH i' j' s ((i', j') :: path)) as (r & Hr & Hl & Hc & E2); try (unfold move in Hm; simpl in Hm; lia).
    - intros X. rewrite E, X in Hv. rewrite (add_inf _ _ _ L) in Hv by auto. congruence.
    - exists ((i', j') :: r). split; [econstructor; eauto|]. split; [simpl; lia|]. split.
      + rewrite E, <- Hc. reflexivity.
      + rewrite E2. simpl. rewrite <- app_assoc. reflexivity. }
  destruct (argmin3_spec N nn fin L (val i j s) (val i (S j) s) (val (S i) j s) N3 N2 N1) as [(E & A & B)|[(E & A & B)|(E & A & B)]];
    rewrite E.
  - apply G; [unfold move; simpl; lia|]. apply (pymin3_char N nn fin L); auto. apply (leb_refl _ _ _ L); auto.
  - apply G; [unfold move; simpl; lia|]. apply (pymin3_char N nn fin L); auto. apply (leb_refl _ _ _ L); auto.
  - apply G; [unfold move; simpl; lia|]. apply (pymin3_char N nn fin L); auto. apply (leb_refl _ _ _ L); auto.
Qed.

Lemma best_item_gen d b : (forall k v, In (k, v) d -> nn v) -> nn (snd b) ->
  let r := fold_left (fun b (kv : nat * N) => if nltb (snd kv) (snd b) then (Z.of_nat (fst kv), snd kv) else b) d b in
  nn (snd r) /\ nleb (snd r) (snd b) = true /\ (forall k v, In (k, v) d -> nleb (snd r) v = true) /\
  (r = b \/ (nltb (snd r) (snd b) = true /\ exists k v, In (k, v) d /\ r = (Z.of_nat k, v))).
Proof.
  revert b. induction d as [|[k v] d IH]; intros b Hd Hb r.
  - subst r. simpl. split; [auto|]. split; [apply (leb_refl _ _ _ L); auto|]. split; [tauto|auto].
  - subst r. cbn [fold_left fst snd].
    assert (Hv : nn v) by (apply (Hd k); simpl; auto).
    assert (Hd' : forall k v, In (k, v) d -> nn v) by (intros; eapply Hd; simpl; eauto).
    destruct (nltb v (snd b)) eqn:E.
    + destruct (IH (Z.of_nat k, v) Hd' Hv) as (A & B & C & F). cbn [snd] in *.
      rewrite (ltb_leb _ _ _ L) in E by auto. apply negb_true_iff in E.
      assert (Hvb : nleb v (snd b) = true) by (destruct (leb_total _ _ _ L v (snd b) Hv Hb); congruence).
      set (r := fold_left _ d (Z.of_nat k, v)) in *.
      assert (Hrb : nleb (snd r) (snd b) = true) by (apply (leb_trans _ _ _ L) with (b := v); auto).
      split; [auto|]. split; [auto|]. split.
      * intros k' v' [X|X]; [inversion X; subst; auto|eauto].
      * right. split.
        -- rewrite (ltb_leb _ _ _ L) by auto. apply negb_true_iff. destruct (nleb (snd b) (snd r)) eqn:Y; auto.
           rewrite (leb_trans _ _ _ L (snd b) (snd r) v) in E; auto.
        -- destruct F as [F|(_ & k' & v' & I & F)]; [exists k, v; simpl; auto|exists k', v'; simpl; auto].
    + destruct (IH b Hd' Hb) as (A & B & C & F). split; [auto|]. split; [auto|].
      rewrite (ltb_leb _ _ _ L) in E by auto. apply negb_false_iff in E. split.
      * intros k' v' [X|X]; [inversion X; subst|eauto]. apply (leb_trans _ _ _ L) with (b := snd b); auto.
      * destruct F as [F|(F1 & k' & v' & I & F)]; [auto|right; split; [auto|exists k', v'; simpl; auto]].
Qed.

Theorem limited_path : let (k, v) := best_item lastc in
  exists p, lim_backtrack (l1 + l2) costs (l1 - 1) (l2 - 1) k [(l1 - 1, l2 - 1)] = Some p /\
    short p /\ path_cost nadd D p = v /\ nn v /\ least_cost short (path_cost nadd D) v.
Proof.
  destruct (best_item_gen lastc ((-1)%Z, ninf)) as (A & B & C & F);
    [intros; eapply last_nn; eauto|simpl; apply (nn_inf _ _ _ L)|].
  fold (best_item lastc) in *. destruct (best_item lastc) as [k v]. cbn [fst snd] in *.
  assert (Hle : forall x, In x (map snd lastc) -> nleb v x = true).
  { intros x Hx. apply in_map_iff in Hx. destruct Hx as ([k' v'] & <- & Hx). eauto. }
  destruct F as [F|(F1 & k' & v' & I & F)].
  - inversion F; subst.
    destruct (back_neg (l1 - 1) (l2 - 1) (-1) [(l1 - 1, l2 - 1)] (l1 + l2) ltac:(lia) ltac:(lia)) as (r & Hr & Hl & E).
    assert (Hs : short (rev r ++ [(l1 - 1, l2 - 1)])).
    { change (short (rev ((l1 - 1, l2 - 1) :: r))). apply rpath_short; auto. cbn [length]. unfold cell in *. lia. }
    assert (Low : least_cost short (path_cost nadd D) ninf).
    { apply least_of_last; auto. pose proof last_nonempty as Ne. destruct lastc as [|[s x] rest] eqn:El; [congruence|].
      simpl. left. apply (leb_antisym _ _ _ L); auto.
      - apply (last_nn s). rewrite El. simpl. auto.
      - apply (leb_inf _ _ _ L). apply (last_nn s). rewrite El. simpl. auto.
      - apply Hle. simpl. auto. }
    eexists. split; [exact E|]. split; auto. split; auto.
    apply (leb_antisym _ _ _ L); auto; [rewrite <- rc_path; apply rc_nn|apply (leb_inf _ _ _ L); rewrite <- rc_path; apply rc_nn|].
    destruct Low as [Low _]. auto.
  - inversion F; subst. pose proof I as I2. apply last_in in I2. destruct I2 as [Hk Ev].
    destruct (back_pos (l1 - 1) (l2 - 1) k' [(l1 - 1, l2 - 1)] (l1 + l2)) as (r & Hr & Hl & Hc & E); try lia.
    { rewrite <- Ev. intros X. rewrite X in F1. rewrite (ltb_leb _ _ _ L), (leb_refl _ _ _ L) in F1 by apply (nn_inf _ _ _ L).
      discriminate. }
    exists (rev r ++ [(l1 - 1, l2 - 1)]). split; [exact E|].
    split; [change (short (rev ((l1 - 1, l2 - 1) :: r))); apply rpath_short; auto; cbn [length]; unfold cell in *; lia|].
    split; [|split; auto].
    + rewrite <- rc_path. change (rev r ++ [(l1 - 1, l2 - 1)]) with (rev ((l1 - 1, l2 - 1) :: r)). rewrite rev_involutive.
      rewrite Hc. auto.
    + apply least_of_last; auto. apply in_map_iff. exists (k', v'). auto.
Qed.
End Lim.

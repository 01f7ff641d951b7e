(** Subsequence DTW. *)
From Coq Require Import Bool List Arith ZArith QArith Lia.
From Verif Require Import Num Py Series Masks DtwModel Fill VariantModel Spec SpecDtw DpProofs DtwProofs DtwThms.
Import ListNotations.
Local Open Scope nat_scope.

(** alignment of the query (length [n]) with the elements [a..b] of a long series *)
Definition window_path (n a b : nat) (p : list cell) : Prop :=
  first_is p (0, a) /\ last_is p (n - 1, b) /\ linked move p.

Section Argmin.
Variable N : num.
Variables nn fin : N -> Prop.
Hypothesis L : num_laws N nn fin.

Lemma argmin_from_spec (l pre : list N) best bi : nn best -> Forall nn l -> Forall nn pre -> nth_error (pre ++ l) bi = Some best ->
  (forall x, In x pre -> nleb best x = true) ->
  exists v, nth_error (pre ++ l) (argmin_from best bi (length pre) l) = Some v /\ forall x, In x (pre ++ l) -> nleb v x = true.
Proof.
  revert pre best bi. induction l as [|x l IH]; intros pre best bi Hb Hl Hp Hn Hle.
  - simpl. exists best. split; auto. rewrite app_nil_r. auto.
  - inversion Hl as [|? ? Hx Hl']; subst. simpl.
    assert (Eq : pre ++ x :: l = (pre ++ [x]) ++ l) by (rewrite <- app_assoc; reflexivity).
    assert (Fp : Forall nn (pre ++ [x])) by (apply Forall_app; auto).
    rewrite Eq in *. replace (S (length pre)) with (length (pre ++ [x])) by (rewrite app_length; simpl; lia).
    destruct (nltb x best) eqn:E; rewrite (ltb_leb _ _ _ L) in E by auto.
    + apply negb_true_iff in E. assert (Hxb : nleb x best = true) by (destruct (leb_total _ _ _ L x best Hx Hb); congruence).
      apply IH; auto.
      * rewrite <- Eq. rewrite nth_error_app2 by lia. rewrite Nat.sub_diag. reflexivity.
      * intros y Hy. apply in_app_iff in Hy. destruct Hy as [Hy|[<-|[]]]; [|apply (leb_refl _ _ _ L); auto].
        apply (leb_trans _ _ _ L) with (b := best); auto. rewrite Forall_forall in Hp. auto.
    + apply negb_false_iff in E. apply IH; auto.
      intros y Hy. apply in_app_iff in Hy. destruct Hy as [Hy|[<-|[]]]; auto.
Qed.
Lemma argmin_spec (l : list N) : l <> [] -> Forall nn l ->
  exists v, nth_error l (argmin l) = Some v /\ forall x, In x l -> nleb v x = true.
Proof.
  destruct l as [|x l]; [congruence|]. intros _ H. inversion H; subst.
  apply (argmin_from_spec l [x] x 0); simpl; auto. intros y [<-|[]]. apply (leb_refl _ _ _ L); auto.
Qed.
Lemma argmin_from_bound (l : list N) best bi k : bi < k -> argmin_from best bi k l < k + length l.
Proof.
  revert best bi k. induction l as [|x l IH]; intros best bi k H; simpl; [lia|].
  destruct (nltb x best); (eapply Nat.lt_le_trans; [apply IH; lia|lia]).
Qed.
End Argmin.

Section Sub.
Variable N : num.
Variables nn fin : N -> Prop.
Hypothesis L : num_laws N nn fin.
Variables (l1 l2 : nat) (D : mat N).
Hypothesis Dnn : forall i j, nn (D i j).
Notation cum := (sub_cum D l1 l2).
Notation acc := (sub_matrix D l1 l2).
Notation rc := (rcost N nadd D).

Lemma cum_top j : cum 0 j = nzero.
Proof. unfold sub_cum. rewrite fill_other; [reflexivity|]. rewrite in_grid. lia. Qed.
Lemma cum_left i : cum (S i) 0 = ninf.
Proof. unfold sub_cum. rewrite fill_other; [reflexivity|]. rewrite in_grid. lia. Qed.
Lemma cum_in i j : i < l1 -> j < l2 -> cum (S i) (S j) = nadd (D i j) (pymin3 (cum i (S j)) (cum (S i) j) (cum i j)).
Proof.
  intros Hi Hj. unfold sub_cum. rewrite fill_rec.
  - unfold sub_cell. simpl. rewrite !Nat.sub_0_r. reflexivity.
  - apply sorted_grid.
  - apply in_grid. lia.
  - intros m m' H. unfold sub_cell. simpl. rewrite !Nat.sub_0_r. rewrite !H by (unfold lex; simpl; lia). reflexivity.
Qed.
Lemma cum_nn' i j : i <= l1 -> j <= l2 -> nn (cum i j).
Proof.
  revert j. induction i as [|i IHi]; intros j Hi Hj; [rewrite cum_top; apply (nn_zero _ _ _ L)|].
  induction j as [|j IHj]; [rewrite cum_left; apply (nn_inf _ _ _ L)|].
  rewrite cum_in by lia. apply (nn_add _ _ _ L); auto. apply (pymin3_nn N nn); [apply IHi; lia|apply IHj; lia|apply IHi; lia].
Qed.
Lemma acc_nn' i j : i < l1 -> j < l2 -> nn (acc i j).
Proof. intros. apply cum_nn'; lia. Qed.
Lemma acc_top j : 0 < l1 -> j < l2 -> acc 0 j = D 0 j.
Proof.
  intros H1 Hj. unfold sub_matrix. rewrite cum_in by auto.
  rewrite (pymin3_char N nn fin L) with (m := nzero).
  - apply (add_zero _ _ _ L); auto.
  - apply cum_nn'; lia.
  - apply cum_nn'; lia.
  - apply cum_nn'; lia.
  - left. symmetry. apply cum_top.
  - rewrite cum_top. apply (leb_refl _ _ _ L), (nn_zero _ _ _ L).
  - apply (leb_zero _ _ _ L). apply cum_nn'; lia.
  - rewrite cum_top. apply (leb_refl _ _ _ L), (nn_zero _ _ _ L).
Qed.
Lemma acc_left i : S i < l1 -> 0 < l2 -> acc (S i) 0 = nadd (D (S i) 0) (acc i 0).
Proof.
  intros Hi Hj. unfold sub_matrix. rewrite cum_in by auto. f_equal.
  apply (pymin3_char N nn fin L); try (apply cum_nn'; lia); auto.
  - apply (leb_refl _ _ _ L), cum_nn'; lia.
  - rewrite cum_left. apply (leb_inf _ _ _ L), cum_nn'; lia.
  - rewrite cum_left. apply (leb_inf _ _ _ L), cum_nn'; lia.
Qed.
Lemma acc_in i j : S i < l1 -> S j < l2 -> acc (S i) (S j) = nadd (D (S i) (S j)) (pymin3 (acc i (S j)) (acc (S i) j) (acc i j)).
Proof. intros Hi Hj. unfold sub_matrix. apply cum_in; auto. Qed.

Inductive spath : nat -> nat -> list cell -> Prop :=
| sp_start j : spath 0 j [(0, j)]
| sp_step i j i' j' p : spath i j p -> move (i, j) (i', j') -> spath i' j' ((i', j') :: p).

Lemma rc_nn' p : nn (rc p).
Proof. induction p as [|c p IH]; simpl; [apply (nn_zero _ _ _ L)|apply (nn_add _ _ _ L); auto]. Qed.

Lemma sub_lower i j p : spath i j p -> i < l1 -> j < l2 -> nleb (acc i j) (rc p) = true.
Proof.
  induction 1 as [j|i j i' j' p H IH Hm]; intros Hi Hj.
  - rewrite acc_top by auto. simpl. rewrite (add_zero _ _ _ L) by auto. apply (leb_refl _ _ _ L); auto.
  - assert (Hb : i < l1 /\ j < l2 /\ i <= i' /\ j <= j') by (unfold move in Hm; simpl in Hm; lia).
    specialize (IH ltac:(lia) ltac:(lia)). simpl.
    destruct i' as [|i'].
    { rewrite acc_top by auto. rewrite <- (add_zero _ _ _ L (D 0 j')) at 1 by auto.
      apply (add_mono _ _ _ L); auto; [apply (nn_zero _ _ _ L)|apply rc_nn'|apply (leb_zero _ _ _ L), rc_nn']. }
    destruct j' as [|j'].
    { assert (i = i' /\ j = 0) as [-> ->] by (unfold move in Hm; simpl in Hm; lia). rewrite acc_left by auto.
      apply (add_mono _ _ _ L); auto; [apply acc_nn'; lia|apply rc_nn']. }
    rewrite acc_in by auto.
    assert (N1 : nn (acc i' (S j'))) by (apply acc_nn'; lia).
    assert (N2 : nn (acc (S i') j')) by (apply acc_nn'; lia).
    assert (N3 : nn (acc i' j')) by (apply acc_nn'; lia).
    destruct (pymin3_le N nn fin L (acc i' (S j')) (acc (S i') j') (acc i' j')) as (A & B & C); auto.
    apply (add_mono _ _ _ L); [apply Dnn|apply (pymin3_nn N nn); auto|apply rc_nn'|].
    apply (leb_trans _ _ _ L) with (b := acc i j); [apply (pymin3_nn N nn); auto|apply acc_nn'; lia|apply rc_nn'| |auto].
    unfold move in Hm; simpl in Hm. destruct Hm as [[E1 E2]|[[E1 E2]|[E1 E2]]]; inversion E1; inversion E2; subst; auto.
Qed.

Lemma sub_back i j path fuel : i + j < fuel -> i < l1 -> j < l2 ->
  exists r, spath i j ((i, j) :: r) /\ rc ((i, j) :: r) = acc i j /\ sub_backtrack fuel acc i j path = Some (rev r ++ path).
Proof.
  revert i j path. induction fuel as [|f IH]; intros i j path Hf Hi Hj; [lia|].
  destruct i as [|i].
  { exists []. split; [constructor|]. split; [|reflexivity]. simpl. rewrite acc_top by auto. apply (add_zero _ _ _ L); auto. }
  assert (G : forall i' j', move (i', j') (S i, S j) \/ (i' = i /\ j' = j /\ j = 0) \/ move (i', j') (S i, j) ->
     move (i', j') (S i, j) -> acc (S i) j = nadd (D (S i) j) (acc i' j') ->
    exists r, spath (S i) j ((S i, j) :: r) /\ rc ((S i, j) :: r) = acc (S i) j /\
      sub_backtrack f acc i' j' ((i', j') :: path) = Some (rev r ++ path)).
  { intros i' j' _ Hm E. destruct (IH i' j' ((i', j') :: path)) as (r & Hr & Hc & E2); try (unfold move in Hm; simpl in Hm; lia).
    exists ((i', j') :: r). split; [econstructor; eauto|]. split.
    - rewrite E, <- Hc. reflexivity.
    - rewrite E2. simpl. rewrite <- app_assoc. reflexivity. }
  destruct j as [|j]; cbn [sub_backtrack].
  { apply G; [right; right| |]; try (unfold move; simpl; lia). apply acc_left; auto. }
  assert (N1 : nn (acc i (S j))) by (apply acc_nn'; lia).
  assert (N2 : nn (acc (S i) j)) by (apply acc_nn'; lia).
  assert (N3 : nn (acc i j)) by (apply acc_nn'; lia).
  destruct (argmin3_spec N nn fin L (acc i j) (acc i (S j)) (acc (S i) j) N3 N1 N2) as [(E & A & B)|[(E & A & B)|(E & A & B)]];
    rewrite E; apply G; try (unfold move; simpl; lia); try (right; right; unfold move; simpl; lia);
    rewrite acc_in by auto; f_equal; apply (pymin3_char N nn fin L); auto; apply (leb_refl _ _ _ L); auto.
Qed.

Lemma spath_spec i j p : spath i j p -> exists a, first_is (rev p) (0, a) /\ last_is (rev p) (i, j) /\ linked move (rev p) /\ a <= j.
Proof.
  induction 1 as [j|i j i' j' p H IH Hm].
  - exists j. simpl. unfold first_is, last_is. simpl. auto.
  - destruct IH as (a & F & La & Li & Ha). exists a.
    assert (exists q, p = (i, j) :: q) as (q & ->) by (inversion H; subst; eauto).
    simpl in *. repeat split.
    + apply first_is_app; auto.
    + apply last_is_app. reflexivity.
    + apply linked_app; auto.
    + unfold move in Hm; simpl in Hm; lia.
Qed.
Lemma spec_spath i j a p : first_is (rev p) (0, a) -> last_is (rev p) (i, j) -> linked move (rev p) -> spath i j p.
Proof.
  revert i j. induction p as [|c p IH]; intros i j F La Li; [discriminate|].
  simpl in *. apply last_is_app in La. subst c.
  destruct p as [|[a' b'] p].
  - simpl in *. unfold first_is in F. simpl in F. inversion F; subst. constructor.
  - simpl in *. pose proof (linked_app_inv _ _ _ _ Li) as [Li1 Li2].
    apply sp_step with (i := a') (j := b').
    + apply IH; auto.
      * eapply first_is_app_inv; [|exact F]. destruct (rev p); discriminate.
      * apply last_is_app. reflexivity.
    + auto.
Qed.

Lemma window_spath n a b p : window_path n a b p <-> spath (n - 1) b (rev p) /\ first_is p (0, a).
Proof.
  split.
  - intros (F & La & Li). split; auto. apply spec_spath with (a := a); rewrite rev_involutive; auto.
  - intros [H F]. apply spath_spec in H. rewrite rev_involutive in H. destruct H as (a' & F' & La & Li & _).
    repeat split; auto.
Qed.
Lemma window_le n a b p : window_path n a b p -> a <= b.
Proof.
  intros H. apply window_spath in H. destruct H as [H F]. apply spath_spec in H. rewrite rev_involutive in H.
  destruct H as (a' & F' & La & Li & Ha). unfold first_is in *. congruence.
Qed.

Theorem subseq_best : 0 < l1 -> 0 < l2 ->
  let e := argmin (map (acc (l1 - 1)) (seq 0 l2)) in
  let w := acc (l1 - 1) e in
  nn w /\
  (exists p a, sub_backtrack (l1 + l2) acc (l1 - 1) e [(l1 - 1, e)] = Some p /\ e < l2 /\
     window_path l1 a e p /\ path_cost nadd D p = w) /\
  (forall a b p, b < l2 -> window_path l1 a b p -> nleb w (path_cost nadd D p) = true).
Proof.
  intros H1 H2 e w.
  destruct (argmin_spec N nn fin L (map (acc (l1 - 1)) (seq 0 l2))) as (v & Hv & Hmin).
  { destruct l2; [lia|discriminate]. }
  { rewrite Forall_forall. intros x Hx. apply in_map_iff in Hx. destruct Hx as (j & <- & Hj). apply in_seq in Hj. apply acc_nn'; lia. }
  fold e in Hv.
  assert (He : e < l2).
  { assert (X : nth_error (map (acc (l1 - 1)) (seq 0 l2)) e <> None) by congruence.
    apply nth_error_Some in X. rewrite map_length, seq_length in X. auto. }
  assert (Ev : v = w).
  { rewrite nth_error_map in Hv. assert (X : nth_error (seq 0 l2) e = Some e).
    { rewrite (nth_error_nth' _ 0) by (rewrite seq_length; auto). rewrite seq_nth by auto. reflexivity. }
    rewrite X in Hv. simpl in Hv. unfold w. congruence. }
  subst v. assert (Hw : nn w) by (apply acc_nn'; lia). split; auto. split.
  - destruct (sub_back (l1 - 1) e [(l1 - 1, e)] (l1 + l2)) as (r & Hr & Hc & E); try lia.
    destruct (spath_spec _ _ _ Hr) as (a & F & La & Li & Ha).
    exists (rev r ++ [(l1 - 1, e)]), a. split; auto. split; auto. split; [repeat split; auto|].
    change (rev r ++ [(l1 - 1, e)]) with (rev ((l1 - 1, e) :: r)). rewrite <- rcost_path_cost. auto.
  - intros a b p Hb Hp. apply window_spath in Hp. destruct Hp as [Hp _].
    apply (leb_trans _ _ _ L) with (b := acc (l1 - 1) b); auto; try (apply acc_nn'; lia).
    + rewrite <- (rev_involutive p), <- rcost_path_cost. apply rc_nn'.
    + apply Hmin. apply in_map_iff. exists b. split; auto. apply in_seq. lia.
    + rewrite <- (rev_involutive p), <- rcost_path_cost. apply sub_lower; auto. lia.
Qed.
End Sub.

(** shifting a path to a window *)
Definition shift (a : nat) (p : list cell) : list cell := map (fun c => (fst c, a + snd c)) p.
Definition window {A} (a b : nat) (s : list A) : list A := firstn (b - a + 1) (skipn a s).

Lemma window_nth {A} a b (s : list A) j d : j <= b - a -> nth j (window a b s) d = nth (a + j) s d.
Proof.
  intros H. unfold window.
  assert (F : forall (l : list A) k i, i < k -> nth i (firstn k l) d = nth i l d).
  { intros l. induction l as [|x l IH]; intros k i Hk; [rewrite firstn_nil; auto|].
    destruct k; [lia|]. destruct i; simpl; auto. apply IH. lia. }
  assert (S' : forall a (l : list A) i, nth i (skipn a l) d = nth (a + i) l d).
  { clear. induction a as [|a IH]; intros l i; simpl; auto. destruct l; simpl; auto. destruct i; auto. }
  rewrite F by lia. apply S'.
Qed.
Lemma window_length {A} a b (s : list A) : a <= b < length s -> length (window a b s) = b - a + 1.
Proof. intros H. unfold window. rewrite firstn_length, skipn_length. lia. Qed.
Lemma window_in {A} a b (s : list A) x : In x (window a b s) -> In x s.
Proof.
  unfold window. intros H. rewrite <- (firstn_skipn a s). apply in_or_app. right.
  rewrite <- (firstn_skipn (b - a + 1) (skipn a s)). apply in_or_app. auto.
Qed.

Lemma linked_map {A B} (f : A -> B) (R : A -> A -> Prop) (S : B -> B -> Prop) p : (forall x y, R x y -> S (f x) (f y)) -> linked R p -> linked S (map f p).
Proof.
  intros H. induction p as [|x [|y p] IH]; simpl; auto. intros [H1 H2]. split; auto. apply IH. exact H2.
Qed.
Lemma shift_window n a b p : 0 < n -> a <= b -> warping_path n (b - a + 1) everywhere p -> window_path n a b (shift a p).
Proof.
  intros Hn Hab (F & La & Li & _). unfold shift. repeat split.
  - unfold first_is in *. eapply eq_trans; [apply map_nth_error; exact F|]. simpl. f_equal. f_equal. lia.
  - unfold last_is in *. rewrite map_length. eapply eq_trans; [apply map_nth_error; exact La|]. simpl. f_equal. f_equal. lia.
  - eapply linked_map; [|exact Li]. unfold move. simpl. lia.
Qed.
Lemma linked_ge p c a : linked move (c :: p) -> a <= snd c -> forall x, In x (c :: p) -> a <= snd x.
Proof.
  revert c. induction p as [|y p IH]; intros c Hl Hc x [<-|Hx]; auto; [destruct Hx|].
  simpl in Hl. destruct Hl as [Hm Hl]. apply (IH y); auto. unfold move in Hm. lia.
Qed.
Lemma unshift_linked a (l : list cell) : linked move l -> (forall x, In x l -> a <= snd x) ->
  linked move (map (fun c => (fst c, snd c - a)) l).
Proof.
  induction l as [|x [|y l] IH]; [simpl; auto|simpl; auto|].
  intros [Hm Hl] G. split; [|apply IH; auto; intros z Hz; apply G; simpl in *; tauto].
  pose proof (G x ltac:(simpl; auto)). pose proof (G y ltac:(simpl; auto)). unfold move in *. simpl. lia.
Qed.
Lemma window_shift n a b p : window_path n a b p -> exists q, p = shift a q /\ warping_path n (b - a + 1) everywhere q.
Proof.
  intros H. pose proof (window_le n a b p H) as Hab. destruct H as (F & La & Li).
  exists (map (fun c => (fst c, snd c - a)) p).
  destruct p as [|c p]; [discriminate|]. unfold first_is in F. simpl in F. inversion F; subst c.
  assert (G : forall x, In x ((0, a) :: p) -> a <= snd x) by (apply linked_ge; auto).
  split.
  - unfold shift. rewrite map_map. transitivity (map (fun x => x) ((0, a) :: p)); [symmetry; apply map_id|].
    apply map_ext_in. intros [i j] Hin. apply G in Hin. simpl in *. f_equal. lia.
  - repeat split.
    + unfold first_is. simpl. f_equal. f_equal. lia.
    + unfold last_is in *. rewrite map_length. eapply eq_trans; [apply map_nth_error; exact La|]. simpl. f_equal. f_equal. lia.
    + apply unshift_linked; auto.
Qed.
Lemma shift_cost {N : num} (op : N -> N -> N) (q s : list (list N)) a b p : a <= b ->
  (forall i j, In (i, j) p -> j <= b - a) ->
  path_cost op (local_costs q (window a b s)) p = path_cost op (local_costs q s) (shift a p).
Proof.
  intros Hab H. unfold path_cost, shift. generalize (nzero (n:=N)). induction p as [|[i j] p IH]; intros z; simpl; auto.
  rewrite IH by (intros; apply (H i0); simpl; auto). f_equal. f_equal. unfold local_costs.
  rewrite window_nth; auto. apply (H i). simpl. auto.
Qed.

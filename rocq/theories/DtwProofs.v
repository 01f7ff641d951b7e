(** Facts about DTW and Frechet derived from the dynamic program. *)
From Coq Require Import Bool List Arith ZArith QArith Lia.
From Verif Require Import Num Py Series Masks DtwModel Spec DpProofs.
Import ListNotations.
Local Open Scope nat_scope.

(** ** Masks *)
Lemma fold_set_row sz2 (lo hi : nat -> Z) l m i j :
  fold_left (fun m i => set_row sz2 m (lo i) (hi i) i) l m i j =
  m i j || (existsb (fun k => (k =? i)) l && in_slice sz2 (lo i) (hi i) j).
Proof.
  revert m. induction l as [|a l IH]; intros m; simpl.
  - rewrite orb_false_r. auto.
  - rewrite IH. unfold set_row. rewrite (Nat.eqb_sym a i).
    destruct (i =? a) eqn:E; simpl; auto.
    apply Nat.eqb_eq in E. subst. destruct (in_slice sz2 (lo a) (hi a) j); simpl.
    + rewrite orb_true_r. auto.
    + rewrite !andb_false_r. auto.
Qed.
Lemma fold_set_col sz1 (lo hi : nat -> Z) l m i j :
  fold_left (fun m c => set_col sz1 m (lo c) (hi c) c) l m i j =
  m i j || (existsb (fun k => (k =? j)) l && in_slice sz1 (lo j) (hi j) i).
Proof.
  revert m. induction l as [|a l IH]; intros m; simpl.
  - rewrite orb_false_r. auto.
  - rewrite IH. unfold set_col. rewrite (Nat.eqb_sym a j).
    destruct (j =? a) eqn:E; simpl; auto.
    apply Nat.eqb_eq in E. subst. destruct (in_slice sz1 (lo a) (hi a) i); simpl.
    + rewrite orb_true_r. auto.
    + rewrite !andb_false_r. auto.
Qed.
Lemma existsb_seq n k : k < n -> existsb (fun x => x =? k) (seq 0 n) = true.
Proof. intros. apply existsb_exists. exists k. split; [apply in_seq; lia|apply Nat.eqb_refl]. Qed.

Lemma sakoe_chiba_band n m r i j : (0 <= r)%Z -> i < n -> j < m ->
  sakoe_chiba_mask n m r i j = band n m r i j.
Proof.
  intros Hr Hi Hj. unfold sakoe_chiba_mask, band.
  destruct (m <? n) eqn:E.
  - apply Nat.ltb_lt in E. rewrite fold_set_col, existsb_seq by auto. simpl.
    unfold in_slice, slice_bound.
    repeat match goal with |- context [(?a <? 0)%Z] => destruct (Z.ltb_spec a 0); try lia end.
  - apply Nat.ltb_ge in E. rewrite fold_set_row, existsb_seq by auto. simpl.
    unfold in_slice, slice_bound.
    repeat match goal with |- context [(?a <? 0)%Z] => destruct (Z.ltb_spec a 0); try lia end.
Qed.

(** the staircase path: diagonal, then along the longer side *)
Definition stair (n m : nat) : list cell := map (fun k => (Nat.min k (n - 1), Nat.min k (m - 1))) (seq 0 (Nat.max n m)).
Lemma linked_map_seq {A} (R : A -> A -> Prop) (f : nat -> A) a len :
  (forall k, a <= k -> S k < a + len -> R (f k) (f (S k))) -> linked R (map f (seq a len)).
Proof.
  revert a. induction len as [|len IH]; intros a H; simpl; auto.
  destruct len as [|len]; simpl; auto. split; [apply H; lia|].
  apply (IH (S a)). intros; apply H; lia.
Qed.
Lemma stair_path n m ok : 0 < n -> 0 < m ->
  (forall k, k < Nat.max n m -> ok (Nat.min k (n - 1)) (Nat.min k (m - 1)) = true) ->
  warping_path n m ok (stair n m).
Proof.
  intros Hn Hm Hok. unfold warping_path, first_is, last_is, stair. rewrite map_length, seq_length.
  repeat split.
  - rewrite nth_error_map. destruct (Nat.max n m) eqn:E; [lia|]. reflexivity.
  - rewrite nth_error_map.
    rewrite (nth_error_nth' _ 0) by (rewrite seq_length; lia).
    rewrite seq_nth by lia. cbn [option_map]. apply f_equal, injective_projections; cbn [fst snd]; lia.
  - apply linked_map_seq. intros k _ Hk. unfold move; cbn [fst snd]. lia.
  - intros i j Hin. apply in_map_iff in Hin. destruct Hin as (k & E & Hk). inversion E; subst.
    apply in_seq in Hk. apply Hok. lia.
Qed.
Lemma band_stair n m r k : (0 <= r)%Z -> 0 < n -> 0 < m -> k < Nat.max n m ->
  band n m r (Nat.min k (n - 1)) (Nat.min k (m - 1)) = true.
Proof. intros. unfold band. rewrite andb_true_iff, !Z.leb_le. lia. Qed.
Lemma band_transpose n m r i j : band n m r i j = band m n r j i.
Proof. unfold band. apply eq_true_iff_eq. rewrite !andb_true_iff, !Z.leb_le. lia. Qed.
Lemma band_mono n m r r' i j : (r <= r')%Z -> band n m r i j = true -> band n m r' i j = true.
Proof. unfold band. rewrite !andb_true_iff, !Z.leb_le. lia. Qed.

(** cells of a warping path are inside the matrix *)
Lemma linked_move_bounds p a b : linked move p -> last_is p (a, b) ->
  forall i j, In (i, j) p -> i <= a /\ j <= b.
Proof.
  induction p as [|[x y] p IH]; intros Hl Hla i j Hin; [destruct Hin|].
  destruct p as [|[x' y'] p].
  - unfold last_is in Hla; simpl in Hla. destruct Hin as [E|[]]. inversion E; inversion Hla; subst. lia.
  - simpl in Hl. destruct Hl as [Hm Hl].
    assert (Hla' : last_is ((x', y') :: p) (a, b)).
    { unfold last_is in *. simpl in *. rewrite Nat.sub_0_r. exact Hla. }
    destruct Hin as [E|Hin].
    + inversion E; subst. destruct (IH Hl Hla' x' y') as [A B]; [left; auto|].
      unfold move in Hm; simpl in Hm. lia.
    + apply IH; auto.
Qed.
Lemma wpath_bounds n m ok p : 0 < n -> 0 < m -> warping_path n m ok p ->
  forall i j, In (i, j) p -> i < n /\ j < m.
Proof.
  intros Hn Hm (F & La & Li & Al) i j Hin. destruct (linked_move_bounds p _ _ Li La i j Hin). lia.
Qed.
Lemma wpath_weaken n m ok ok' p : 0 < n -> 0 < m ->
  (forall i j, i < n -> j < m -> ok i j = true -> ok' i j = true) ->
  warping_path n m ok p -> warping_path n m ok' p.
Proof.
  intros Hn Hm H Hp. pose proof (wpath_bounds n m ok p Hn Hm Hp) as Hb.
  destruct Hp as (F & La & Li & Al). repeat split; auto. intros i j Hin. destruct (Hb i j Hin). auto.
Qed.
Definition swap (c : cell) : cell := (snd c, fst c).
Lemma linked_map {A B} (R : A -> A -> Prop) (S : B -> B -> Prop) (f : A -> B) p :
  (forall a b, R a b -> S (f a) (f b)) -> linked R p -> linked S (map f p).
Proof.
  intros H. induction p as [|a [|b p] IH]; simpl; auto. intros [H1 H2]. split; auto. apply IH. exact H2.
Qed.
Lemma wpath_swap n m ok p : warping_path n m ok p -> warping_path m n (fun i j => ok j i) (map swap p).
Proof.
  intros (F & La & Li & Al). unfold warping_path, first_is, last_is in *. rewrite map_length.
  rewrite !nth_error_map, F, La. repeat split; auto.
  - apply (linked_map move); auto. intros [] []. unfold move, swap; simpl; tauto.
  - intros i j Hin. apply in_map_iff in Hin. destruct Hin as ([a b] & E & H). inversion E; subst. auto.
Qed.

Section Laws.
Variable N : num.
Variables nn fin : N -> Prop.
Hypothesis L : num_laws N nn fin.

Lemma add_ge_l d a : nn d -> nn a -> nleb d (nadd d a) = true.
Proof.
  intros Hd Ha. rewrite <- (add_zero _ _ _ L d Hd) at 1.
  apply (add_mono _ _ _ L); auto. apply (nn_zero _ _ _ L). apply (leb_zero _ _ _ L); auto.
Qed.
Lemma comb_laws_dtw : comb_laws N nn comb_dtw.
Proof.
  unfold comb_dtw. constructor.
  - apply (nn_add _ _ _ L).
  - apply (add_mono _ _ _ L).
  - apply (add_inf _ _ _ L).
  - intros a Ha. rewrite (add_comm _ _ _ L); auto. apply (add_inf _ _ _ L); auto. apply (nn_inf _ _ _ L).
  - apply (add_zero _ _ _ L). apply (nn_zero _ _ _ L).
  - apply add_ge_l.
Qed.
Lemma pymax_nmax a b : nn a -> nn b -> pymax a b = nmax a b.
Proof.
  intros Ha Hb. unfold pymax, nmax. rewrite (ltb_leb _ _ _ L) by auto.
  destruct (nleb b a) eqn:E; simpl; destruct (nleb a b) eqn:E2; auto.
  - apply (leb_antisym _ _ _ L); auto.
  - destruct (leb_total _ _ _ L a b Ha Hb); congruence.
Qed.
Lemma nmax_ge_l a b : nn a -> nn b -> nleb a (nmax a b) = true.
Proof. intros. unfold nmax. destruct (nleb a b) eqn:E; auto. apply (leb_refl _ _ _ L); auto. Qed.
Lemma nmax_ge_r a b : nn a -> nn b -> nleb b (nmax a b) = true.
Proof.
  intros Ha Hb. unfold nmax. destruct (nleb a b) eqn:E. apply (leb_refl _ _ _ L); auto.
  destruct (leb_total _ _ _ L a b Ha Hb); congruence.
Qed.
Lemma nmax_nn a b : nn a -> nn b -> nn (nmax a b).
Proof. intros. unfold nmax. destruct (nleb a b); auto. Qed.
Lemma nmax_lub (a b c : N) : nleb a c = true -> nleb b c = true -> nleb (nmax a b) c = true.
Proof. intros. unfold nmax. destruct (nleb a b); auto. Qed.
Lemma comb_laws_frechet : comb_laws N nn comb_frechet.
Proof.
  unfold comb_frechet.
  assert (I : nn (ninf (n:=N))) by apply (nn_inf _ _ _ L).
  assert (Z : nn (nzero (n:=N))) by apply (nn_zero _ _ _ L).
  constructor.
  - intros. rewrite pymax_nmax by auto. apply nmax_nn; auto.
  - intros d a b Hd Ha Hb Hab. rewrite !pymax_nmax by auto. apply nmax_lub; [apply nmax_ge_l; auto|].
    apply (leb_trans _ _ _ L) with (b := b); auto; [apply nmax_nn; auto|apply nmax_ge_r; auto].
  - intros d Hd. rewrite pymax_nmax by auto. unfold nmax. rewrite (leb_inf _ _ _ L); auto.
  - intros a Ha. rewrite pymax_nmax by auto. apply (leb_antisym _ _ _ L); auto.
    + apply nmax_nn; auto.
    + apply (leb_inf _ _ _ L). apply nmax_nn; auto.
    + apply nmax_ge_l; auto.
  - rewrite pymax_nmax by auto. unfold nmax. rewrite (leb_refl _ _ _ L); auto.
  - intros. rewrite pymax_nmax by auto. apply nmax_ge_l; auto.
Qed.

(** *** local costs *)
Lemma local_sq_dist_sq_euclid (x y : list N) : local_sq_dist x y = sq_euclid x y.
Proof.
  unfold local_sq_dist, sq_euclid. generalize (combine x y). intros l. generalize (nzero (n:=N)).
  induction l as [|p l IH]; simpl; intros z; auto.
Qed.
Lemma sq_dists_local (s1 s2 : series N) i j : sq_dists s1 s2 i j = local_costs s1 s2 i j.
Proof. apply local_sq_dist_sq_euclid. Qed.

Lemma fold_add_nn l a : nn a -> (forall x, In x l -> nn x) -> nn (fold_left nadd l a).
Proof.
  revert a. induction l as [|x l IH]; simpl; intros a Ha H; auto. apply IH; auto. apply (nn_add _ _ _ L); auto.
Qed.
Lemma sq_euclid_nn x y : (forall v, In v x -> fin v) -> (forall v, In v y -> fin v) -> nn (sq_euclid x y).
Proof.
  intros Hx Hy. unfold sq_euclid. apply fold_add_nn; [apply (nn_zero _ _ _ L)|].
  intros v Hv. apply in_map_iff in Hv. destruct Hv as ([a b] & E & Hin). subst. simpl.
  apply (sq_nn _ _ _ L); [apply Hx|apply Hy].
  - eapply in_combine_l; eauto.
  - eapply in_combine_r; eauto.
Qed.
Lemma sq_euclid_sym x y : (forall v, In v x -> fin v) -> (forall v, In v y -> fin v) ->
  sq_euclid x y = sq_euclid (N:=N) y x.
Proof.
  intros Hx Hy. unfold sq_euclid. f_equal.
  revert y Hy. induction x as [|a x IH]; intros [|b y] Hy; simpl; auto.
  f_equal; [apply (sq_sym _ _ _ L); [apply Hx|apply Hy]; left; auto|].
  apply IH; intros; [apply Hx|apply Hy]; right; auto.
Qed.
Lemma sq_euclid_diag x : (forall v, In v x -> fin v) -> sq_euclid (N:=N) x x = nzero.
Proof.
  intros Hx. unfold sq_euclid. 
  assert (G : forall l, (forall v, In v l -> v = nzero) -> fold_left nadd l (nzero (n:=N)) = nzero).
  { induction l as [|a l IH]; simpl; intros H; auto.
    rewrite (H a) by auto. rewrite (add_zero _ _ _ L) by apply (nn_zero _ _ _ L). apply IH; auto. }
  apply G. intros v Hv. apply in_map_iff in Hv. destruct Hv as ([a b] & E & Hin). subst; simpl.
  assert (a = b /\ In a x) as [-> Ha].
  { clear -Hin. induction x as [|c x IH]; simpl in Hin; [tauto|]. destruct Hin as [E|Hin].
    - inversion E; subst. split; auto. left; auto.
    - destruct (IH Hin). split; auto. right; auto. }
  apply (sq_diag _ _ _ L). auto.
Qed.
Lemma finite_row d (s : series N) i : finite_series fin d s -> forall v, In v (nth i s []) -> fin v.
Proof.
  intros (_ & _ & H) v Hv. destruct (nth_in_or_default i s []) as [Hin|E].
  - destruct (H _ Hin) as [_ Hf]. apply Hf. exact Hv.
  - rewrite E in Hv. destruct Hv.
Qed.
Lemma local_costs_nn d d' s1 s2 i j : finite_series fin d s1 -> finite_series fin d' s2 ->
  nn (local_costs s1 s2 i j).
Proof. intros H1 H2. apply sq_euclid_nn; eapply finite_row; eauto. Qed.

Lemma finite_not_nan d (s : series N) r : finite_series fin d s -> In r s -> nan_row r = false.
Proof.
  intros (Hd & _ & H) Hin. destruct (H r Hin) as [Hl Hf]. destruct r as [|v r]; simpl in *; [lia|].
  rewrite (fin_notnan _ _ _ L); auto.
Qed.
Lemma ts_size_full (s : series N) : (forall r, In r s -> nan_row r = false) -> ts_size s = length s.
Proof.
  intros H. unfold ts_size. rewrite <- (rev_length s).
  destruct (rev s) as [|r l] eqn:E; auto. simpl. rewrite H; auto.
  apply in_rev. rewrite E. left; auto.
Qed.
Lemma to_time_series_finite d (s : series N) : finite_series fin d s ->
  to_time_series true (Raw2 s) = s.
Proof.
  intros H. unfold to_time_series. simpl. rewrite ts_size_full.
  - apply firstn_all.
  - intros r Hr. eapply finite_not_nan; eauto.
Qed.
Lemma finite_ncols d (s : series N) : finite_series fin d s -> ncols s = d.
Proof. intros (_ & Hne & H). destruct s as [|r s]; [congruence|]. unfold ncols; simpl. apply H. left; auto. Qed.
Lemma finite_len d (s : series N) : finite_series fin d s -> 0 < length s.
Proof. intros (_ & Hne & _). destruct s; [congruence|simpl; lia]. Qed.

Lemma validated_finite {A} d s1 s2 (k : series N -> series N -> res A) :
  finite_series fin d s1 -> finite_series fin d s2 ->
  validated (Raw2 s1) (Raw2 s2) k = k s1 s2.
Proof.
  intros H1 H2. unfold validated.
  rewrite (to_time_series_finite d s1 H1), (to_time_series_finite d s2 H2).
  pose proof (finite_len _ _ H1). pose proof (finite_len _ _ H2).
  destruct (length s1 =? 0) eqn:E1; [apply Nat.eqb_eq in E1; lia|].
  destruct (length s2 =? 0) eqn:E2; [apply Nat.eqb_eq in E2; lia|]. simpl.
  rewrite (finite_ncols d s1 H1), (finite_ncols d s2 H2), Nat.eqb_refl. reflexivity.
Qed.

(** *** costs of paths *)
Lemma path_cost_ext op (D1 D2 : nat -> nat -> N) p : (forall i j, In (i, j) p -> D1 i j = D2 i j) ->
  path_cost op D1 p = path_cost op D2 p.
Proof.
  unfold path_cost. generalize (nzero (n:=N)). induction p as [|[i j] p IH]; simpl; intros z H; auto.
  rewrite (H i j) by auto. apply IH. auto.
Qed.
Lemma path_cost_swap op (D : nat -> nat -> N) p :
  path_cost op (fun i j => D j i) (map swap p) = path_cost op D p.
Proof. unfold path_cost. generalize (nzero (n:=N)). induction p as [|[i j] p IH]; simpl; intros z; auto. Qed.
Definition cost_nn op := forall d a, nn d -> nn a -> nn (op d a : N).
Lemma path_cost_nn op D p : cost_nn op -> (forall i j, In (i, j) p -> nn (D i j)) -> nn (path_cost op D p).
Proof.
  intros Ho. unfold path_cost. assert (Z : nn nzero) by apply (nn_zero _ _ _ L). revert Z.
  generalize (nzero (n:=N)). induction p as [|[i j] p IH]; simpl; intros z Hz H; auto.
Qed.
Lemma path_cost_op_ext op op' D p : cost_nn op -> (forall a b, nn a -> nn b -> op a b = op' a b) ->
  (forall i j, In (i, j) p -> nn (D i j)) -> path_cost op D p = path_cost op' D p.
Proof.
  intros Ho He. unfold path_cost. assert (Z : nn nzero) by apply (nn_zero _ _ _ L). revert Z.
  generalize (nzero (n:=N)). induction p as [|[i j] p IH]; simpl; intros z Hz H; auto.
  rewrite He by auto. apply IH; auto. rewrite <- He by auto. auto.
Qed.
Lemma least_cost_unique (paths : list cell -> Prop) cost v w :
  (forall p, paths p -> nn (cost p)) -> least_cost paths cost v -> least_cost (N:=N) paths cost w -> v = w.
Proof.
  intros Hnn [V1 V2] [W1 W2].
  destruct V2 as [(p & Hp & Ep)|[Hno E]], W2 as [(q & Hq & Eq)|[Hno' E']]; subst.
  - apply (leb_antisym _ _ _ L); auto.
  - exfalso. eapply Hno'; eauto.
  - exfalso. eapply Hno; eauto.
  - auto.
Qed.
Lemma least_cost_mono (P Q : list cell -> Prop) cost v w :
  (forall p, Q p -> nn (cost p)) -> (forall p, P p -> Q p) ->
  least_cost P cost v -> least_cost (N:=N) Q cost w -> nleb w v = true.
Proof.
  intros Hnn Hsub [V1 V2] [W1 W2]. destruct V2 as [(p & Hp & Ep)|[Hno E]].
  - subst. auto.
  - subst. apply (leb_inf _ _ _ L). destruct W2 as [(q & Hq & Eq)|[_ E']]; subst; auto. apply (nn_inf _ _ _ L).
Qed.
Lemma least_cost_nn (P : list cell -> Prop) cost v : (forall p, P p -> nn (cost p)) -> least_cost (N:=N) P cost v -> nn v.
Proof. intros H [_ [(p & Hp & E)|[_ E]]]; subst; auto. apply (nn_inf _ _ _ L). Qed.
Lemma least_cost_ext (P Q : list cell -> Prop) c1 c2 v :
  (forall p, P p <-> Q p) -> (forall p, P p -> c1 p = c2 p) -> least_cost (N:=N) P c1 v -> least_cost Q c2 v.
Proof.
  intros HPQ Hc [A B]. split.
  - intros p Hp. apply HPQ in Hp. rewrite <- Hc by auto. auto.
  - destruct B as [(p & Hp & E)|[Hno E]].
    + left. exists p. split; [apply HPQ; auto|]. rewrite <- Hc; auto.
    + right. split; auto. intros p Hp. apply HPQ in Hp. eapply Hno; eauto.
Qed.
End Laws.

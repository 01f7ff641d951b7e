(** C133-C135: the PyTorch loss. *)
From Coq Require Import Bool List Arith Lia ZArith QArith Reals Lra Permutation.
From Verif Require Import Num NumLaws Py Series Masks DtwModel Dataset Fill Spec SpecDtw DpProofs DtwProofs DtwThms DtwExact
  LimitedThms MaskThms RList PathSum SoftModel SoftThms RealSeries PropDtw GakModel PaaModel PreModel BaryModel
  BaryThms SoftBaryModel PropSoft PropSoftBary TorchLossModel.
Import ListNotations.
Local Open Scope R_scope.

(** ** tables on arbitrary costs *)
Lemma fn_tables gamma n m g r s A : 0 < gamma -> (0 < n)%nat -> (0 < m)%nat -> positive_slope s -> constraint n m g r s A ->
  exists code mask, gc_code g = Ok code /\ compute_mask n m code r s = Ok mask /\
    (forall i j, (i < n)%nat -> (j < m)%nat -> mask i j = A i j) /\
    forall (D : mat xr) (C : nat -> nat -> R),
      (forall i j, (i < n)%nat -> (j < m)%nat -> A i j = true -> D i j = XR (C i j)) ->
      let D' : mat xr := fun i j => if mask i j then D i j else XInf in
      let T := soft_acc0 gamma n m D' mask in
      T (n - 1)%nat (m - 1)%nat = XR (- gamma * ln (total gamma C (all_paths n m A))) /\
      forall garbage i j, (i < n)%nat -> (j < m)%nat ->
        soft_grad gamma n m D' T garbage i j =
        XR (total gamma C (filter (visits i j) (all_paths n m A)) / total gamma C (all_paths n m A)).
Proof.
  intros Hg L1 L2 Hs Hc. destruct (constraint_mask _ _ _ _ _ _ Hc) as (code & mask & E1 & E2 & E3).
  exists code, mask. split; [auto|split; [auto|split; [auto|]]]. intros D C HC D' T.
  assert (E4 : forall i j, (i < n)%nat -> (j < m)%nat -> mask i j = true -> exists p, rpath mask i j p).
  { intros i j Hi Hj Hm. rewrite E3 in Hm by auto.
    destruct (constraint_reach _ _ _ _ _ _ L1 L2 Hs Hc i j Hi Hj Hm) as (p & Hp).
    exists p. eapply rpath_ext; [|exact Hp|exact Hi|exact Hj]. intros; symmetry; auto. }
  assert (HD : forall i j, (i < n)%nat -> (j < m)%nat -> D' i j = if mask i j then XR (C i j) else XInf).
  { intros i j Hi Hj. unfold D'. destruct (mask i j) eqn:E; auto. apply HC; auto. rewrite <- E3; auto. }
  assert (HD' : forall i j, (i < n)%nat -> (j < m)%nat -> mask i j = true -> D' i j = XR (C i j)).
  { intros i j Hi Hj Hm. rewrite HD, Hm by auto. reflexivity. }
  assert (HR : forall i j, (i < n)%nat -> (j < m)%nat -> T i j = value gamma mask C i j).
  { intros i j Hi Hj. apply soft_acc0_value; auto. }
  pose proof (all_paths_enum n m A L1 L2) as Hps.
  assert (Z : psum mask (fun i j => exp (- (C i j / gamma))) (n - 1) (m - 1) = total gamma C (all_paths n m A)).
  { apply psum_mask; auto. }
  assert (P : 0 < total gamma C (all_paths n m A)).
  { apply total_pos. destruct (constraint_feasible _ _ _ _ _ _ L1 L2 Hs Hc) as (p & Hp).
    apply Hps in Hp. intros E. rewrite E in Hp. contradiction. }
  split.
  - rewrite HR by lia. unfold value. rewrite Z. rewrite (proj2 (Rltb_true _ _)) by auto. reflexivity.
  - intros garbage i j Hi Hj. erewrite gibbs_value; eauto; [|rewrite Z; auto].
    rewrite Z. f_equal. f_equal.
    assert (En : enumerates (fun p => warping_path n m mask p /\ visits i j p = true) (filter (visits i j) (all_paths n m A))).
    { apply enumerates_filter. destruct Hps as [ND Hin]. split; auto. intros p. rewrite Hin.
      split; apply wpath_ext; auto. intros; symmetry; auto. }
    unfold total. rewrite (enumerates_rsum _ _ _ _ En (through_enum mask C n m L1 L2 i j Hi Hj)).
    destruct (mask i j) eqn:Em.
    + rewrite <- through_sum; auto; [|pose proof (exp_pos (- (C i j / gamma))); lra].
      apply rsum_map_ext. intros p _. apply pweight_cost. lra.
    + rewrite psum_out by auto. rewrite Rmult_0_l.
      destruct (through_enum mask C n m L1 L2 i j Hi Hj) as [_ Th]. destruct (through mask n m i j) as [|p l]; [reflexivity|].
      exfalso. destruct (proj1 (Th p) (or_introl eq_refl)) as [W V]. apply visits_in in V.
      destruct W as (_ & _ & _ & W). specialize (W _ _ V). congruence.
Qed.

(** ** derivatives along a curve of costs *)
Definition occupancy (gamma : R) (C : nat -> nat -> R) (ps : list (list cell)) (i j : nat) : R :=
  total gamma C (filter (visits i j) ps) / total gamma C ps.
Definition soft_value (gamma : R) (C : nat -> nat -> R) (ps : list (list cell)) : R := - gamma * ln (total gamma C ps).
Lemma path_grid_sum (h : nat -> nat -> R) n m p : NoDup p -> (forall c, In c p -> (fst c < n)%nat /\ (snd c < m)%nat) ->
  rsum (map (fun c => h (fst c) (snd c)) p) =
  rsum (map (fun i => rsum (map (fun j => ind p i j * h i j) (seq 0 m))) (seq 0 n)).
Proof.
  intros ND B.
  rewrite (rsum_map_ext (fun i => rsum (map (fun j => ind p i j * h i j) (seq 0 m)))
             (fun i => rsum (map (fun c => if (fst c =? i)%nat then h i (snd c) else 0) p))).
  - rewrite rsum_swap. apply rsum_map_ext. intros [a b] Hc. cbn [fst snd].
    rewrite (rsum_map_ext _ (fun i => (if (a =? i)%nat then 1 else 0) * h i b)) by (intros i _; destruct (a =? i)%nat; ring).
    symmetry. apply (rsum_single (fun i => h i b)). apply (B _ Hc).
  - intros i _. rewrite (path_row_sum (h i) i m p ND) by (intros c Hc; apply (B c Hc)). rewrite rsum_filter. reflexivity.
Qed.
Lemma deriv_soft gamma n m A ps (C : nat -> nat -> R -> R) (c' : nat -> nat -> R) t :
  0 < gamma -> (0 < n)%nat -> (0 < m)%nat -> enumerates (warping_path n m A) ps -> ps <> [] ->
  (forall i j, (i < n)%nat -> (j < m)%nat -> A i j = true -> derivable_pt_lim (C i j) t (c' i j)) ->
  derivable_pt_lim (fun u => soft_value gamma (fun i j => C i j u) ps) t
    (rsum (map (fun i => rsum (map (fun j => occupancy gamma (fun i j => C i j t) ps i j * c' i j) (seq 0 m))) (seq 0 n))).
Proof.
  intros Hg L1 L2 Hps Hne HC. set (Ct := fun i j => C i j t). pose proof (total_pos gamma Ct ps Hne) as P.
  set (dp := fun p : list cell => rsum (map (fun c => c' (fst c) (snd c)) p)).
  assert (DT : derivable_pt_lim (fun u => total gamma (fun i j => C i j u) ps) t
                 (rsum (map (fun p => gibbs gamma Ct p * (- / gamma * dp p)) ps))).
  { unfold total. apply (deriv_rsum (fun p u => gibbs gamma (fun i j => C i j u) p)). intros p Hp. apply Hps in Hp.
    unfold gibbs. apply deriv_val with (exp (- / gamma * cost Ct p) * (- / gamma * dp p)).
    - f_equal. f_equal. unfold Rdiv. ring.
    - eapply deriv_ext; [|apply (deriv_exp (fun u => - / gamma * cost (fun i j => C i j u) p))].
      + intros u. simpl. f_equal. unfold Rdiv. ring.
      + apply deriv_scal. unfold cost, dp. apply (deriv_rsum (fun c u => C (fst c) (snd c) u)). intros [a b] Hc.
        destruct (wpath_bounds _ _ _ _ L1 L2 Hp) as [_ B]. destruct (B a b Hc). apply HC; auto.
        destruct Hp as (_ & _ & _ & W). apply (W _ _ Hc). }
  unfold soft_value. eapply deriv_val; [|apply deriv_scal; apply deriv_ln; [exact P|exact DT]].
  cbv beta. change (fun i j => C i j t) with Ct.
  transitivity (/ total gamma Ct ps * rsum (map (fun p => gibbs gamma Ct p * dp p) ps)).
  - rewrite (rsum_map_ext (fun p => gibbs gamma Ct p * (- / gamma * dp p)) (fun p => - / gamma * (gibbs gamma Ct p * dp p))) by (intros; ring).
    rewrite rsum_map_scal. field. lra.
  - rewrite (rsum_map_ext (fun p => gibbs gamma Ct p * dp p)
      (fun p => rsum (map (fun i => rsum (map (fun j => gibbs gamma Ct p * ind p i j * c' i j) (seq 0 m))) (seq 0 n)))).
    2: { intros p Hp. apply Hps in Hp. destruct (wpath_bounds _ _ _ _ L1 L2 Hp) as [ND B]. unfold dp.
         rewrite (path_grid_sum c' n m p ND) by (intros [a b] H; apply (B a b H)).
         rewrite <- rsum_map_scal. apply rsum_map_ext. intros i _. rewrite <- rsum_map_scal. apply rsum_map_ext. intros j _. ring. }
    rewrite rsum_swap, <- rsum_map_scal. apply rsum_map_ext. intros i _.
    rewrite rsum_swap, <- rsum_map_scal. apply rsum_map_ext. intros j _. unfold occupancy. rewrite total_visits.
    rewrite (rsum_map_ext _ (fun p => c' i j * (gibbs gamma Ct p * ind p i j))) by (intros; ring).
    rewrite rsum_map_scal. field. lra.
Qed.
(** costs of two curves of series whose time steps move in coordinate [k] only *)
Lemma deriv_costs_k d (X Y : R -> list (list R)) a b k ex ey t :
  (forall u, length (nth a (X u) []) = d) -> (forall u, length (nth b (Y u) []) = d) -> (k < d)%nat ->
  (forall j, (j < d)%nat -> derivable_pt_lim (fun u => entry (X u) a j) t (if (j =? k)%nat then ex else 0)) ->
  (forall j, (j < d)%nat -> derivable_pt_lim (fun u => entry (Y u) b j) t (if (j =? k)%nat then ey else 0)) ->
  derivable_pt_lim (fun u => costs (X u) (Y u) a b) t (2 * (entry (X t) a k - entry (Y t) b k) * (ex - ey)).
Proof.
  intros HX HY Hk DX DY. eapply deriv_ext.
  { intros u. symmetry. unfold costs. apply sqd_seq with (d := d); auto. }
  apply deriv_val with (rsum (map (fun j => (if (k =? j)%nat then 1 else 0) * (2 * (entry (X t) a j - entry (Y t) b j) * (ex - ey))) (seq 0 d))).
  - apply (rsum_single (fun j => 2 * (entry (X t) a j - entry (Y t) b j) * (ex - ey))). auto.
  - apply (deriv_rsum (fun j u => (nth j (nth a (X u) []) 0 - nth j (nth b (Y u) []) 0) * (nth j (nth a (X u) []) 0 - nth j (nth b (Y u) []) 0))).
    intros j Hj. apply in_seq in Hj. destruct Hj as [_ Hj]. simpl in Hj.
    pose proof (derivable_pt_lim_minus _ _ _ _ _ (DX j Hj) (DY j Hj)) as DM.
    eapply deriv_val; [|apply (derivable_pt_lim_mult _ _ _ _ _ DM DM)]. unfold minus_fct, entry.
    rewrite (Nat.eqb_sym j k). destruct (k =? j)%nat; ring.
Qed.
Lemma deriv_entry_set d Z i k a j : real_series d Z -> (i < length Z)%nat -> (k < d)%nat -> (j < d)%nat ->
  derivable_pt_lim (fun u => entry (set_entry Z i k u) a j) (entry Z i k) (if (j =? k)%nat then (if (a =? i)%nat then 1 else 0) else 0).
Proof.
  intros HZ Hi Hk Hj. unfold set_entry.
  assert (Li : length (nth i Z []) = d) by (apply HZ, nth_In; auto).
  destruct (Nat.eqb_spec a i) as [->|Ha].
  - destruct (Nat.eqb_spec j k) as [->|Hjk].
    + eapply deriv_ext; [|apply derivable_pt_lim_id]. intros u. unfold id, entry. rewrite set_nth_nth, Nat.eqb_refl by auto.
      rewrite set_nth_nth, Nat.eqb_refl by lia. reflexivity.
    + eapply deriv_ext; [|apply (derivable_pt_lim_const (entry Z i j))]. intros u. unfold fct_cte, entry.
      rewrite set_nth_nth, Nat.eqb_refl by auto. rewrite set_nth_nth by lia. destruct (Nat.eqb_spec j k); [contradiction|reflexivity].
  - apply deriv_val with 0; [destruct (j =? k)%nat; reflexivity|].
    eapply deriv_ext; [|apply (derivable_pt_lim_const (entry Z a j))]. intros u. unfold fct_cte, entry.
    rewrite set_nth_nth by auto. destruct (Nat.eqb_spec a i); [contradiction|reflexivity].
Qed.
Lemma deriv_entry_const Z a j k t : derivable_pt_lim (fun _ => entry Z a j) t (if (j =? k)%nat then 0 else 0).
Proof. destruct (j =? k)%nat; apply (derivable_pt_lim_const (entry Z a j)). Qed.
Lemma set_entry_same d Z i k : real_series d Z -> (i < length Z)%nat -> (k < d)%nat -> set_entry Z i k (entry Z i k) = Z.
Proof.
  intros HZ Hi Hk. assert (Lr : length (nth i Z []) = d) by (apply HZ, nth_In; auto).
  unfold set_entry, entry. rewrite set_nth_same by lia. apply set_nth_same. auto.
Qed.

(** ** specification vocabulary *)
(** [xs] is the content of a tensor of shape (length xs, l, d) *)
Definition batch_of (l d : nat) (xs : list (list (list R))) : Prop :=
  (0 < l)%nat /\ (0 < d)%nat /\ forall x, In x xs -> real_series d x /\ length x = l.
Definition tensor (l d : nat) (xs : list (list (list R))) : batch := mkBatch l d (map lift xs).
Definition admissible (n m : nat) (g : gc_name) (r : option Z) (s : option Q) : Prop := exists A, constraint n m g r s A.
(** the constraint can be applied to the tables the loss needs *)
Definition applicable (normalize : bool) (lx ly : nat) (g : gc_name) (r : option Z) (s : option Q) : Prop :=
  admissible lx ly g r s /\ (normalize = true -> admissible lx lx g r s /\ admissible ly ly g r s).
(** scalar product of the result with a vector of weights *)
Definition weighted (w : list R) (r : res (list xr)) : R :=
  match r with Ok vs => rsum (map (fun p => fst p * real_of (Ok (snd p))) (combine w vs)) | Err _ => 0 end.
(** series number [b] with coordinate [k] of time step [i] replaced *)
Definition set_in (xs : list (list (list R))) (b i k : nat) (t : R) : list (list (list R)) :=
  set_nth b (set_entry (nth b xs []) i k t) xs.

(** ** the code on batches of real series *)
Lemma batch_len l d xs x : batch_of l d xs -> In x xs -> length x = l. Proof. intros (_ & _ & H) K. apply (H x K). Qed.
Lemma batch_real l d xs x : batch_of l d xs -> In x xs -> real_series d x. Proof. intros (_ & _ & H) K. apply (H x K). Qed.
Lemma combine_same {A B C} (f : A -> B) (h : A -> C) (l : list A) : combine (map f l) (map h l) = map (fun a => (f a, h a)) l.
Proof. induction l as [|a l IH]; simpl; auto. f_equal. apply IH. Qed.

(** the tables of one application on real costs *)
Lemma apply_value gamma nz df g r s n m A (Ds : list (mat xr)) (Cs : list (nat -> nat -> R)) :
  0 < gamma -> (0 < n)%nat -> (0 < m)%nat -> positive_slope s -> constraint n m g r s A ->
  Forall2 (fun D C => forall i j, (i < n)%nat -> (j < m)%nat -> A i j = true -> D i j = XR (C i j)) Ds Cs ->
  exists out, loss_apply (mkLoss gamma nz df g r s) (mkDist n m Ds) = Ok out /\
    fst out = map (fun C => XR (soft_value gamma C (all_paths n m A))) Cs /\
    forall w, Forall2 (fun E wC => forall i j, (i < n)%nat -> (j < m)%nat -> E i j = xmul (fst wC) (XR (occupancy gamma (snd wC) (all_paths n m A) i j)))
      (fn_backward gamma (snd out) w) (combine w Cs).
Proof.
  intros Hg L1 L2 Hs Hc HF. destruct (fn_tables gamma n m g r s A Hg L1 L2 Hs Hc) as (code & mask & E1 & E2 & E3 & HT).
  unfold loss_apply, fn_forward. cbn [l_constraint l_gamma l_radius l_slope d_rows d_cols d_mats]. rewrite E1. cbn [bind]. rewrite E2. cbn [bind].
  destruct (Nat.eqb_spec n 0); [lia|]. destruct (Nat.eqb_spec m 0); [lia|]. cbn [orb].
  eexists. split; [reflexivity|]. cbn [fst snd]. split.
  - rewrite !map_map. induction HF as [|D C Ds Cs H HF IH]; simpl; auto. f_equal; auto. apply (HT D C H).
  - intros w. unfold fn_backward. cbn [fst snd d_rows d_cols d_mats]. revert w.
    induction HF as [|D C Ds Cs H HF IH]; intros [|a w]; simpl; constructor; auto.
    + intros i j Hi Hj. cbn [fst snd]. f_equal. apply (HT D C H); auto.
Qed.

(** gradient of a table with weights [P] in the first and in the second series *)
Definition grad_first (c : R) (P : nat -> nat -> R) (x y : list (list R)) (i k : nat) : R :=
  rsum (map (fun j => c * P i j * (2 * (entry x i k - entry y j k))) (seq 0 (length y))).
Definition grad_second (c : R) (P : nat -> nat -> R) (x y : list (list R)) (j k : nat) : R :=
  - rsum (map (fun i => c * P i j * (2 * (entry x i k - entry y j k))) (seq 0 (length x))).
Lemma fold_sub (f : nat -> R) l a : fold_left (fun g j => xsub g (XR (f j))) l (XR a) = XR (a - rsum (map f l)).
Proof. revert a. induction l as [|x l IH]; intros a; simpl; [f_equal; lra|]. rewrite IH. f_equal. lra. Qed.
Lemma jacobian2_lift d Z x E e : real_series d Z -> real_series d x ->
  (forall i j, (i < length Z)%nat -> (j < length x)%nat -> E i j = XR (e i j)) ->
  jacobian_product2 d (lift Z) (lift x) E =
  lift (tab (length x) d (fun j k => - rsum (map (fun i => e i j * (2 * (entry Z i k - entry x j k))) (seq 0 (length Z))))).
Proof.
  intros HZ Hx HE. unfold jacobian_product2. rewrite !lift_length. symmetry. unfold lift at 1, tab. rewrite map_map. symmetry. apply map_ext_in. intros j Hj. apply in_seq in Hj.
  rewrite map_map. apply map_ext_in. intros k Hk. apply in_seq in Hk.
  etransitivity; [apply fold_ext with (g := fun g i => xsub g (XR (e i j * (2 * (entry Z i k - entry x j k)))))|].
  - intros u i Hi. apply in_seq in Hi. rewrite (lift_entry Z d), (lift_entry x d), HE by (auto; lia). simpl. do 2 f_equal. ring.
  - rewrite fold_sub. f_equal. lra.
Qed.
Lemma first_closed {T} d la lb gamma ps (L : list T) (a b : T -> list (list R)) (c : T -> R) Es :
  (forall q, In q L -> real_series d (a q) /\ length (a q) = la) -> (forall q, In q L -> real_series d (b q) /\ length (b q) = lb) ->
  Forall2 (fun E wC => forall i j, (i < la)%nat -> (j < lb)%nat -> E i j = xmul (fst wC) (XR (occupancy gamma (snd wC) ps i j)))
    Es (combine (map (fun q => XR (c q)) L) (map (fun q => costs (a q) (b q)) L)) ->
  map (fun p => jacobian_product d (fst p) (fst (snd p)) (snd (snd p))) (zip3 (map (fun q => lift (a q)) L) (map (fun q => lift (b q)) L) Es) =
  map (fun q => lift (tab la d (grad_first (c q) (occupancy gamma (costs (a q) (b q)) ps) (a q) (b q)))) L /\
  map (fun p => jacobian_product2 d (fst p) (fst (snd p)) (snd (snd p))) (zip3 (map (fun q => lift (a q)) L) (map (fun q => lift (b q)) L) Es) =
  map (fun q => lift (tab lb d (grad_second (c q) (occupancy gamma (costs (a q) (b q)) ps) (a q) (b q)))) L.
Proof.
  unfold zip3. revert Es. induction L as [|q L IH]; intros Es HA HB HF; simpl in *; [auto|].
  inversion HF as [|E wC Es' l' HE HF' E1 E2]; subst. cbn [fst snd combine map].
  destruct (HA q (or_introl eq_refl)) as [Ra La]. destruct (HB q (or_introl eq_refl)) as [Rb Lb].
  destruct (IH Es') as [I1 I2]; auto.
  assert (HE' : forall i j, (i < length (a q))%nat -> (j < length (b q))%nat -> E i j = XR (c q * occupancy gamma (costs (a q) (b q)) ps i j)).
  { intros i j Hi Hj. rewrite HE by lia. reflexivity. }
  split.
  - rewrite (jacobian_lift d (a q) (b q) E _ Ra Rb HE'). rewrite La. exact (f_equal (cons _) I1).
  - rewrite (jacobian2_lift d (a q) (b q) E _ Ra Rb HE'). rewrite Lb. exact (f_equal (cons _) I2).
Qed.
Lemma add_all_closed {T} l d (F H : T -> nat -> nat -> R) (L : list T) :
  add_all (map (fun q => lift (tab l d (F q))) L) (map (fun q => lift (tab l d (H q))) L) =
  map (fun q => lift (tab l d (fun i k => F q i k + H q i k))) L.
Proof.
  unfold add_all. induction L as [|q L IH]; [reflexivity|]. cbn [map combine fst snd].
  rewrite (add_tab l d (F q) (H q)). exact (f_equal (cons _) IH).
Qed.
Lemma map_nth_seq {A} (l : list A) e : map (fun b => nth b l e) (seq 0 (length l)) = l.
Proof. induction l as [|a l IH]; simpl; auto. f_equal. rewrite <- seq_shift, map_map. exact IH. Qed.

Section Loss.
Variables (gamma : R) (nz : bool) (g : gc_name) (r : option Z) (s : option Q) (lx ly d : nat).
Variables A12 A11 A22 : nat -> nat -> bool.
Hypothesis Hg : 0 < gamma.
Hypothesis Hlx : (0 < lx)%nat.
Hypothesis Hly : (0 < ly)%nat.
Hypothesis Hs : positive_slope s.
Hypothesis H12 : constraint lx ly g r s A12.
Hypothesis H11 : nz = true -> constraint lx lx g r s A11.
Hypothesis H22 : nz = true -> constraint ly ly g r s A22.
Let L := mkLoss gamma nz euclidean_squared_dist g r s.
Let p12 := all_paths lx ly A12.
Let p11 := all_paths lx lx A11.
Let p22 := all_paths ly ly A22.
Definition pair_loss (x y : list (list R)) : R :=
  if nz then soft_value gamma (costs x y) p12 - / 2 * (soft_value gamma (costs x x) p11 + soft_value gamma (costs y y) p22)
  else soft_value gamma (costs x y) p12.

Lemma seq_items la xs : batch_of la d xs -> forall b, In b (seq 0 (length xs)) -> real_series d (nth b xs []) /\ length (nth b xs []) = la.
Proof. intros (_ & _ & H) b Hb. apply in_seq in Hb. apply H, nth_In. lia. Qed.
Lemma items_seq (xs : list (list (list R))) n : length xs = n -> map lift xs = map (fun b => lift (nth b xs [])) (seq 0 n).
Proof. intros <-. rewrite <- (map_map (fun b => nth b xs []) lift), map_nth_seq. reflexivity. Qed.
Lemma dist_closed la lb xs ys n : length xs = n -> length ys = n ->
  euclidean_squared_dist (tensor la d xs) (tensor lb d ys) =
  mkDist la lb (map (fun b => sq_dists (N:=Xnum) (lift (nth b xs [])) (lift (nth b ys []))) (seq 0 n)).
Proof.
  intros Hx Hy. unfold euclidean_squared_dist, tensor. cbn [b_len b_items]. f_equal.
  rewrite (items_seq xs n Hx), (items_seq ys n Hy), combine_same, map_map. reflexivity.
Qed.
Lemma apply_closed la lb A xs ys n df : (0 < la)%nat -> (0 < lb)%nat -> constraint la lb g r s A -> length xs = n -> length ys = n ->
  exists out, loss_apply (mkLoss gamma nz df g r s) (euclidean_squared_dist (tensor la d xs) (tensor lb d ys)) = Ok out /\
    fst out = map (fun b => XR (soft_value gamma (costs (nth b xs []) (nth b ys [])) (all_paths la lb A))) (seq 0 n) /\
    forall w, Forall2 (fun E wC => forall i j, (i < la)%nat -> (j < lb)%nat -> E i j = xmul (fst wC) (XR (occupancy gamma (snd wC) (all_paths la lb A) i j)))
      (fn_backward gamma (snd out) w) (combine w (map (fun b => costs (nth b xs []) (nth b ys [])) (seq 0 n))).
Proof.
  intros Ha Hb Hc Lx Ly. rewrite (dist_closed la lb xs ys n Lx Ly).
  destruct (apply_value gamma nz df g r s la lb A
     (map (fun b => sq_dists (N:=Xnum) (lift (nth b xs [])) (lift (nth b ys []))) (seq 0 n))
     (map (fun b => costs (nth b xs []) (nth b ys [])) (seq 0 n)) Hg Ha Hb Hs Hc) as (out & E & Ev & Eb).
  - induction (seq 0 n) as [|b l IH]; simpl; constructor; auto. intros i j _ _ _. apply sq_dists_lift.
  - exists out. split; [exact E|split; [|exact Eb]]. rewrite Ev, map_map. reflexivity.
Qed.
Lemma forward_closed xs ys : length xs = length ys ->
  loss_forward L (tensor lx d xs) (tensor ly d ys) =
  Ok (map (fun b => XR (pair_loss (nth b xs []) (nth b ys []))) (seq 0 (length xs))).
Proof.
  intros HL. unfold loss_forward, L. cbn [l_dist l_normalize].
  change (b_items (tensor lx d xs)) with (map lift xs). change (b_items (tensor ly d ys)) with (map lift ys).
  change (b_dim (tensor lx d xs)) with d. change (b_dim (tensor ly d ys)) with d.
  rewrite !map_length, HL, !Nat.eqb_refl. cbn [negb].
  destruct (apply_closed lx ly A12 xs ys (length ys) euclidean_squared_dist Hlx Hly H12 HL eq_refl) as (o12 & E12 & V12 & _).
  rewrite E12. cbn [bind]. unfold pair_loss. destruct nz eqn:En.
  - destruct (apply_closed lx lx A11 xs xs (length ys) euclidean_squared_dist Hlx Hlx (H11 eq_refl) HL HL) as (o11 & E11 & V11 & _).
    destruct (apply_closed ly ly A22 ys ys (length ys) euclidean_squared_dist Hly Hly (H22 eq_refl) eq_refl eq_refl) as (o22 & E22 & V22 & _).
    rewrite En in E11, E22. rewrite E11. cbn [bind]. rewrite E22. cbn [bind].
    rewrite V12, V11, V22, !combine_same, map_map. reflexivity.
  - rewrite V12. reflexivity.
Qed.

(** the gradients *)
Definition pair_grad_x (w : R) (x y : list (list R)) (i k : nat) : R :=
  grad_first w (occupancy gamma (costs x y) p12) x y i k +
  (if nz then grad_first (/ 2 * - w) (occupancy gamma (costs x x) p11) x x i k +
              grad_second (/ 2 * - w) (occupancy gamma (costs x x) p11) x x i k else 0).
Definition pair_grad_y (w : R) (x y : list (list R)) (j k : nat) : R :=
  grad_second w (occupancy gamma (costs x y) p12) x y j k +
  (if nz then grad_first (/ 2 * - w) (occupancy gamma (costs y y) p22) y y j k +
              grad_second (/ 2 * - w) (occupancy gamma (costs y y) p22) y y j k else 0).
Lemma backward_closed xs ys w : batch_of lx d xs -> batch_of ly d ys -> length xs = length ys -> length w = length xs ->
  loss_backward L (tensor lx d xs) (tensor ly d ys) (map XR w) =
  Ok (map (fun b => lift (tab lx d (pair_grad_x (nth b w 0) (nth b xs []) (nth b ys [])))) (seq 0 (length xs)),
      map (fun b => lift (tab ly d (pair_grad_y (nth b w 0) (nth b xs []) (nth b ys [])))) (seq 0 (length xs))).
Proof.
  intros Hx Hy HL Hw. unfold loss_backward, L. cbn [l_normalize l_gamma].
  change (b_items (tensor lx d xs)) with (map lift xs). change (b_items (tensor ly d ys)) with (map lift ys).
  change (b_dim (tensor lx d xs)) with d. set (N := length xs) in *.
  rewrite (items_seq xs N eq_refl), (items_seq ys N (eq_sym HL)).
  assert (Ew : map XR w = map (fun b => XR (nth b w 0)) (seq 0 N)).
  { rewrite <- Hw. rewrite <- (map_map (fun b => nth b w 0) XR), map_nth_seq. reflexivity. }
  assert (Hb : forall b, In b (seq 0 N) -> real_series d (nth b ys []) /\ length (nth b ys []) = ly).
  { intros b Hb. apply (seq_items ly ys Hy). rewrite <- HL. exact Hb. }
  destruct (apply_closed lx ly A12 xs ys N euclidean_squared_dist Hlx Hly H12 eq_refl (eq_sym HL)) as (o12 & E12 & _ & B12).
  rewrite E12. cbn [bind].
  specialize (B12 (map XR w)). rewrite Ew in B12 |- *.
  destruct (first_closed d lx ly gamma p12 (seq 0 N) (fun b => nth b xs []) (fun b => nth b ys []) (fun b => nth b w 0) _
              (seq_items lx xs Hx) Hb B12) as [F12 S12].
  unfold pair_grad_x, pair_grad_y. destruct nz eqn:En.
  - destruct (apply_closed lx lx A11 xs xs N euclidean_squared_dist Hlx Hlx (H11 eq_refl) eq_refl eq_refl) as (o11 & E11 & _ & B11).
    destruct (apply_closed ly ly A22 ys ys N euclidean_squared_dist Hly Hly (H22 eq_refl) (eq_sym HL) (eq_sym HL)) as (o22 & E22 & _ & B22).
    rewrite En in E11, E22. rewrite E11. cbn [bind]. rewrite E22. cbn [bind].
    rewrite map_map. change (fun x : nat => xmul (XR (/ 2)) (xopp (XR (nth x w 0)))) with (fun x : nat => XR (/ 2 * - nth x w 0)).
    specialize (B11 (map (fun x : nat => XR (/ 2 * - nth x w 0)) (seq 0 N))).
    specialize (B22 (map (fun x : nat => XR (/ 2 * - nth x w 0)) (seq 0 N))).
    destruct (first_closed d lx lx gamma p11 (seq 0 N) (fun b => nth b xs []) (fun b => nth b xs []) (fun b => / 2 * - nth b w 0) _
                (seq_items lx xs Hx) (seq_items lx xs Hx) B11) as [F11 S11].
    destruct (first_closed d ly ly gamma p22 (seq 0 N) (fun b => nth b ys []) (fun b => nth b ys []) (fun b => / 2 * - nth b w 0) _
                Hb Hb B22) as [F22 S22].
    apply (f_equal (@Ok _)). apply (f_equal2 (@pair _ _)).
    + exact (eq_trans (f_equal2 add_all F12 (eq_trans (f_equal2 add_all F11 S11) (add_all_closed _ _ _ _ _))) (add_all_closed _ _ _ _ _)).
    + exact (eq_trans (f_equal2 add_all S12 (eq_trans (f_equal2 add_all F22 S22) (add_all_closed _ _ _ _ _))) (add_all_closed _ _ _ _ _)).
  - apply (f_equal (@Ok _)). apply (f_equal2 (@pair _ _)).
    + refine (eq_trans F12 _). apply map_ext. intros b. f_equal. apply tab_ext. intros; ring.
    + refine (eq_trans S12 _). apply map_ext. intros b. f_equal. apply tab_ext. intros; ring.
Qed.

Lemma cost_curve n m A (X Y : R -> list (list R)) k ex ey t : (0 < n)%nat -> (0 < m)%nat -> (k < d)%nat ->
  (exists p, warping_path n m A p) ->
  (forall u, real_series d (X u) /\ length (X u) = n) -> (forall u, real_series d (Y u) /\ length (Y u) = m) ->
  (forall a j, (j < d)%nat -> derivable_pt_lim (fun u => entry (X u) a j) t (if (j =? k)%nat then ex a else 0)) ->
  (forall b j, (j < d)%nat -> derivable_pt_lim (fun u => entry (Y u) b j) t (if (j =? k)%nat then ey b else 0)) ->
  derivable_pt_lim (fun u => soft_value gamma (costs (X u) (Y u)) (all_paths n m A)) t
    (rsum (map (fun i => ex i * grad_first 1 (occupancy gamma (costs (X t) (Y t)) (all_paths n m A)) (X t) (Y t) i k) (seq 0 n)) +
     rsum (map (fun j => ey j * grad_second 1 (occupancy gamma (costs (X t) (Y t)) (all_paths n m A)) (X t) (Y t) j k) (seq 0 m))).
Proof.
  intros Hn Hm Hk (p & Hp) HX HY DX DY. pose proof (all_paths_enum n m A Hn Hm) as Hps.
  eapply deriv_val; [|apply (deriv_soft gamma n m A (all_paths n m A) (fun i j u => costs (X u) (Y u) i j)
     (fun i j => 2 * (entry (X t) i k - entry (Y t) j k) * (ex i - ey j)) t Hg Hn Hm Hps)].
  - set (P := occupancy gamma (fun i j => costs (X t) (Y t) i j) (all_paths n m A)).
    change (occupancy gamma (costs (X t) (Y t)) (all_paths n m A)) with P.
    rewrite (rsum_map_ext _ (fun i => ex i * grad_first 1 P (X t) (Y t) i k +
        - rsum (map (fun j => ey j * (P i j * (2 * (entry (X t) i k - entry (Y t) j k)))) (seq 0 m)))).
    + rewrite rsum_map_plus. f_equal. unfold grad_second. rewrite (proj2 (HX t)).
      rewrite (rsum_map_ext (fun i => - rsum (map (fun j => ey j * (P i j * (2 * (entry (X t) i k - entry (Y t) j k)))) (seq 0 m)))
                 (fun i => rsum (map (fun j => ey j * (P i j * (2 * (entry (X t) i k - entry (Y t) j k))) * -1) (seq 0 m)))) by (intros; rewrite rsum_scal_r; ring).
      rewrite rsum_swap. apply rsum_map_ext. intros j _. rewrite rsum_scal_r, rsum_map_scal.
      rewrite (rsum_map_ext (fun i => 1 * P i j * (2 * (entry (X t) i k - entry (Y t) j k))) (fun i => P i j * (2 * (entry (X t) i k - entry (Y t) j k)))) by (intros; ring).
      ring.
    + intros i _. unfold grad_first. rewrite (proj2 (HY t)). rewrite <- rsum_map_scal.
      replace (- rsum (map (fun j => ey j * (P i j * (2 * (entry (X t) i k - entry (Y t) j k)))) (seq 0 m))) with
        (rsum (map (fun j => ey j * (P i j * (2 * (entry (X t) i k - entry (Y t) j k))) * -1) (seq 0 m))) by (rewrite rsum_scal_r; ring).
      rewrite <- rsum_map_plus. apply rsum_map_ext. intros j _. ring.
  - intros E. apply Hps in Hp. rewrite E in Hp. contradiction.
  - intros i j Hi Hj _. apply (deriv_costs_k d X Y i j k (ex i) (ey j) t); auto.
    + intros u. destruct (HX u) as [(_ & _ & H) HL]. apply H, nth_In. lia.
    + intros u. destruct (HY u) as [(_ & _ & H) HL]. apply H, nth_In. lia.
Qed.

Lemma grad_first_scal c P x y i k : grad_first c P x y i k = c * grad_first 1 P x y i k.
Proof. unfold grad_first. rewrite <- rsum_map_scal. apply rsum_map_ext. intros; ring. Qed.
Lemma grad_second_scal c P x y j k : grad_second c P x y j k = c * grad_second 1 P x y j k.
Proof. unfold grad_second. rewrite <- Ropp_mult_distr_r, <- rsum_map_scal. f_equal. apply rsum_map_ext. intros; ring. Qed.
Lemma pick (f : nat -> R) n i : (i < n)%nat -> rsum (map (fun a => (if (a =? i)%nat then 1 else 0) * f a) (seq 0 n)) = f i.
Proof.
  intros H. rewrite (rsum_map_ext _ (fun a => (if (i =? a)%nat then 1 else 0) * f a)) by (intros a _; rewrite Nat.eqb_sym; reflexivity).
  apply (rsum_single f). auto.
Qed.
Lemma pick0 (f : nat -> R) n : rsum (map (fun a => 0 * f a) (seq 0 n)) = 0.
Proof. rewrite rsum_map_scal. ring. Qed.
(** derivative of one term when one or both series move *)
Lemma deriv_first n m A x y i k : (0 < n)%nat -> (0 < m)%nat -> constraint n m g r s A -> (k < d)%nat -> (i < n)%nat ->
  real_series d x -> length x = n -> real_series d y -> length y = m ->
  derivable_pt_lim (fun u => soft_value gamma (costs (set_entry x i k u) y) (all_paths n m A)) (entry x i k)
    (grad_first 1 (occupancy gamma (costs x y) (all_paths n m A)) x y i k).
Proof.
  intros Hn Hm Hc Hk Hi Rx Lx Ry Ly.
  pose proof (cost_curve n m A (fun u => set_entry x i k u) (fun _ => y) k (fun a => if (a =? i)%nat then 1 else 0) (fun _ => 0) (entry x i k)
     Hn Hm Hk (constraint_feasible _ _ _ _ _ _ Hn Hm Hs Hc)) as D. cbv beta in D.
  rewrite (set_entry_same d x i k) in D by (auto; lia). eapply deriv_val; [|apply D].
  - rewrite (pick (fun a => grad_first 1 (occupancy gamma (costs x y) (all_paths n m A)) x y a k)) by auto.
    rewrite (pick0 (fun a => grad_second 1 (occupancy gamma (costs x y) (all_paths n m A)) x y a k)). ring.
  - intros u. destruct (set_entry_real d x i k u Rx) as [H1 H2]; auto; [lia|]. split; auto; lia.
  - auto.
  - intros a j Hj. apply deriv_entry_set with (d := d); auto; lia.
  - intros b j _. apply deriv_entry_const.
Qed.
Lemma deriv_second n m A x y j k : (0 < n)%nat -> (0 < m)%nat -> constraint n m g r s A -> (k < d)%nat -> (j < m)%nat ->
  real_series d x -> length x = n -> real_series d y -> length y = m ->
  derivable_pt_lim (fun u => soft_value gamma (costs x (set_entry y j k u)) (all_paths n m A)) (entry y j k)
    (grad_second 1 (occupancy gamma (costs x y) (all_paths n m A)) x y j k).
Proof.
  intros Hn Hm Hc Hk Hj Rx Lx Ry Ly.
  pose proof (cost_curve n m A (fun _ => x) (fun u => set_entry y j k u) k (fun _ => 0) (fun a => if (a =? j)%nat then 1 else 0) (entry y j k)
     Hn Hm Hk (constraint_feasible _ _ _ _ _ _ Hn Hm Hs Hc)) as D. cbv beta in D.
  rewrite (set_entry_same d y j k) in D by (auto; lia). eapply deriv_val; [|apply D].
  - rewrite (pick (fun a => grad_second 1 (occupancy gamma (costs x y) (all_paths n m A)) x y a k)) by auto.
    rewrite (pick0 (fun a => grad_first 1 (occupancy gamma (costs x y) (all_paths n m A)) x y a k)). ring.
  - auto.
  - intros u. destruct (set_entry_real d y j k u Ry) as [H1 H2]; auto; [lia|]. split; auto; lia.
  - intros b j' _. apply deriv_entry_const.
  - intros a j' Hj'. apply deriv_entry_set with (d := d); auto; lia.
Qed.
Lemma deriv_both n A x i k : (0 < n)%nat -> constraint n n g r s A -> (k < d)%nat -> (i < n)%nat ->
  real_series d x -> length x = n ->
  derivable_pt_lim (fun u => soft_value gamma (costs (set_entry x i k u) (set_entry x i k u)) (all_paths n n A)) (entry x i k)
    (grad_first 1 (occupancy gamma (costs x x) (all_paths n n A)) x x i k +
     grad_second 1 (occupancy gamma (costs x x) (all_paths n n A)) x x i k).
Proof.
  intros Hn Hc Hk Hi Rx Lx.
  pose proof (cost_curve n n A (fun u => set_entry x i k u) (fun u => set_entry x i k u) k
     (fun a => if (a =? i)%nat then 1 else 0) (fun a => if (a =? i)%nat then 1 else 0) (entry x i k)
     Hn Hn Hk (constraint_feasible _ _ _ _ _ _ Hn Hn Hs Hc)) as D. cbv beta in D.
  rewrite (set_entry_same d x i k) in D by (auto; lia).
  rewrite (pick (fun a => grad_first 1 (occupancy gamma (costs x x) (all_paths n n A)) x x a k)) in D by auto.
  rewrite (pick (fun a => grad_second 1 (occupancy gamma (costs x x) (all_paths n n A)) x x a k)) in D by auto.
  assert (HX : forall u, real_series d (set_entry x i k u) /\ length (set_entry x i k u) = n).
  { intros u. destruct (set_entry_real d x i k u Rx) as [H1 H2]; auto; [lia|]. split; auto; lia. }
  apply D; auto; intros a j Hj; apply deriv_entry_set with (d := d); auto; lia.
Qed.
Lemma deriv_pair_x x y i k : (k < d)%nat -> (i < lx)%nat -> real_series d x -> length x = lx -> real_series d y -> length y = ly ->
  forall w, derivable_pt_lim (fun u => w * pair_loss (set_entry x i k u) y) (entry x i k) (pair_grad_x w x y i k).
Proof.
  intros Hk Hi Rx Lx Ry Ly w. pose proof (deriv_first lx ly A12 x y i k Hlx Hly H12 Hk Hi Rx Lx Ry Ly) as D1.
  unfold pair_grad_x, pair_loss. rewrite (grad_first_scal w). destruct nz eqn:En.
  - pose proof (deriv_both lx A11 x i k Hlx (H11 eq_refl) Hk Hi Rx Lx) as D2.
    rewrite (grad_first_scal (/ 2 * - w)), (grad_second_scal (/ 2 * - w)).
    pose proof (deriv_scal (/ 2) _ _ _ (derivable_pt_lim_plus _ _ _ _ _ D2 (derivable_pt_lim_const (soft_value gamma (costs y y) p22) (entry x i k)))) as D3.
    pose proof (deriv_scal w _ _ _ (derivable_pt_lim_minus _ _ _ _ _ D1 D3)) as D4. eapply deriv_val; [|exact D4].
    unfold p12, p11. field.
  - eapply deriv_val; [|apply deriv_scal; exact D1]. unfold p12. ring.
Qed.
Lemma deriv_pair_y x y j k : (k < d)%nat -> (j < ly)%nat -> real_series d x -> length x = lx -> real_series d y -> length y = ly ->
  forall w, derivable_pt_lim (fun u => w * pair_loss x (set_entry y j k u)) (entry y j k) (pair_grad_y w x y j k).
Proof.
  intros Hk Hj Rx Lx Ry Ly w. pose proof (deriv_second lx ly A12 x y j k Hlx Hly H12 Hk Hj Rx Lx Ry Ly) as D1.
  unfold pair_grad_y, pair_loss. rewrite (grad_second_scal w). destruct nz eqn:En.
  - pose proof (deriv_both ly A22 y j k Hly (H22 eq_refl) Hk Hj Ry Ly) as D2.
    rewrite (grad_first_scal (/ 2 * - w)), (grad_second_scal (/ 2 * - w)).
    pose proof (deriv_scal (/ 2) _ _ _ (derivable_pt_lim_plus _ _ _ _ _ (derivable_pt_lim_const (soft_value gamma (costs x x) p11) (entry y j k)) D2)) as D3.
    pose proof (deriv_scal w _ _ _ (derivable_pt_lim_minus _ _ _ _ _ D1 D3)) as D4. eapply deriv_val; [|exact D4].
    unfold p12, p22. field.
  - eapply deriv_val; [|apply deriv_scal; exact D1]. unfold p12. ring.
Qed.
Lemma weighted_closed xs ys w : length xs = length ys -> length w = length xs ->
  weighted w (loss_forward L (tensor lx d xs) (tensor ly d ys)) =
  rsum (map (fun b => nth b w 0 * pair_loss (nth b xs []) (nth b ys [])) (seq 0 (length xs))).
Proof.
  intros HL Hw. rewrite forward_closed by auto. cbn [weighted].
  rewrite <- (map_nth_seq w 0) at 1. rewrite Hw, combine_same, map_map. reflexivity.
Qed.
End Loss.

(** ** C133 *)
(** The loss of a batch is the vector of the values of [soft_dtw] (of
    [soft_dtw_normalized] if [normalize]) of its pairs, for every constraint and on
    either back end of these functions, and every value is a real number. *)
Theorem C133_value : forall be gamma normalize g radius slope lx ly d xs ys,
  0 < gamma -> batch_of lx d xs -> batch_of ly d ys -> length xs = length ys -> positive_slope slope ->
  applicable normalize lx ly g radius slope ->
  exists vs, length vs = length xs /\
    loss_forward (mkLoss gamma normalize euclidean_squared_dist g radius slope) (tensor lx d xs) (tensor ly d ys) = Ok (map XR vs) /\
    forall b, (b < length xs)%nat ->
      (if normalize then soft_dtw_normalized else soft_dtw) be
        (Raw2 (lift (nth b xs []))) (Raw2 (lift (nth b ys []))) gamma g radius slope = Ok (XR (nth b vs 0)).
Proof.
  intros be gamma nz g r s lx ly d xs ys Hg Hx Hy HL Hs ((A12 & H12) & Hn).
  assert (HA : exists A11 A22, nz = true -> constraint lx lx g r s A11 /\ constraint ly ly g r s A22).
  { destruct nz; [|exists everywhere, everywhere; discriminate]. destruct Hn as [(A11 & H1) (A22 & H2)]; auto. exists A11, A22; auto. }
  destruct HA as (A11 & A22 & HA).
  exists (map (fun b => pair_loss gamma nz lx ly A12 A11 A22 (nth b xs []) (nth b ys [])) (seq 0 (length xs))).
  split; [rewrite map_length, seq_length; reflexivity|split].
  - rewrite map_map. apply (forward_closed gamma nz g r s lx ly d A12 A11 A22 Hg (proj1 Hx) (proj1 Hy) Hs H12 (fun E => proj1 (HA E)) (fun E => proj2 (HA E))). auto.
  - intros b Hb. rewrite nth_map_seq by auto.
    assert (Ix : In (nth b xs []) xs) by (apply nth_In; auto). assert (Iy : In (nth b ys []) ys) by (apply nth_In; lia).
    pose proof (batch_real _ _ _ _ Hx Ix) as Rx. pose proof (batch_real _ _ _ _ Hy Iy) as Ry.
    pose proof (batch_len _ _ _ _ Hx Ix) as Lx. pose proof (batch_len _ _ _ _ Hy Iy) as Ly.
    assert (C12 : constraint (length (nth b xs [])) (length (nth b ys [])) g r s A12) by (rewrite Lx, Ly; auto).
    unfold pair_loss. destruct nz.
    + destruct HA as [H11 H22]; auto.
      assert (C11 : constraint (length (nth b xs [])) (length (nth b xs [])) g r s A11) by (rewrite Lx; auto).
      assert (C22 : constraint (length (nth b ys [])) (length (nth b ys [])) g r s A22) by (rewrite Ly; auto).
      destruct (normalized_public be d _ _ gamma g r s A12 A11 A22 Hg Rx Ry Hs C12 C11 C22) as (v12 & v11 & v22 & E12 & E11 & E22 & E).
      rewrite (soft_public be d _ _ gamma g r s A12) in E12 by auto. rewrite (soft_public be d _ _ gamma g r s A11) in E11 by auto.
      rewrite (soft_public be d _ _ gamma g r s A22) in E22 by auto. rewrite Lx, Ly in *.
      injection E12 as E12. injection E11 as E11. injection E22 as E22. rewrite E. unfold soft_value. rewrite E12, E11, E22. do 2 f_equal. field.
    + rewrite (soft_public be d _ _ gamma g r s A12) by auto. rewrite Lx, Ly. reflexivity.
Qed.
Print Assumptions C133_value.
(** With a user's distance function that returns real costs, the loss of a pair is
    -gamma log of the sum over the admissible paths of exp(-cost/gamma): [ps] lists
    every admissible path once. *)
Theorem C133_distance : forall gamma dist g radius slope n m allowed x y Cs ps,
  0 < gamma -> (0 < n)%nat -> (0 < m)%nat -> positive_slope slope -> constraint n m g radius slope allowed ->
  length (b_items x) = length (b_items y) -> b_dim x = b_dim y ->
  dist x y = mkDist n m (map (fun C i j => XR (C i j)) Cs) ->
  enumerates (warping_path n m allowed) ps ->
  loss_forward (mkLoss gamma false dist g radius slope) x y =
  Ok (map (fun C => XR (- gamma * ln (rsum (map (fun p => exp (- (cost C p / gamma))) ps)))) Cs).
Proof.
  intros gamma dist g r s n m A x y Cs ps Hg Hn Hm Hs Hc HL Hd HD Hps. unfold loss_forward. rewrite HL, Hd, !Nat.eqb_refl. cbn [negb l_dist l_normalize].
  rewrite HD. destruct (apply_value gamma false dist g r s n m A (map (fun C i j => XR (C i j)) Cs) Cs Hg Hn Hm Hs Hc) as (out & E & Ev & _).
  { clear. induction Cs; simpl; constructor; auto. }
  rewrite E. cbn [bind]. rewrite Ev. f_equal. apply map_ext. intros C. unfold soft_value.
  rewrite (total_enum gamma C _ _ _ (all_paths_enum n m A Hn Hm) Hps). reflexivity.
Qed.
Print Assumptions C133_distance.
(** Batches of different sizes or dimensions are refused. *)
Theorem C133_shapes : forall L x y, length (b_items x) <> length (b_items y) \/ b_dim x <> b_dim y ->
  loss_forward L x y = Err AssertionError.
Proof.
  intros L x y H. unfold loss_forward. destruct (Nat.eqb_spec (length (b_items x)) (length (b_items y))); cbn [negb]; auto.
  destruct (Nat.eqb_spec (b_dim x) (b_dim y)); cbn [negb]; auto. tauto.
Qed.
Print Assumptions C133_shapes.
Lemma batch_check l d xs : (0 < l)%nat -> (0 < d)%nat ->
  forallb (fun x : list (list R) => (length x =? l)%nat && forallb (fun row : list R => (length row =? d)%nat) x) xs = true -> batch_of l d xs.
Proof.
  intros Hl Hd H. split; [auto|split; [auto|]]. intros x Hx. rewrite forallb_forall in H. specialize (H x Hx). apply andb_true_iff in H.
  destruct H as [H1 H2]. apply Nat.eqb_eq in H1. split; auto. split; auto. split; [destruct x; simpl in *; [lia|discriminate]|].
  intros row Hr. rewrite forallb_forall in H2. apply Nat.eqb_eq, H2. auto.
Qed.
(** two pairs of different series with a band, with normalisation *)
Example C133_instance : 0 < 1 /\ batch_of 2 1 [[[0]; [1]]; [[4]; [2]]] /\ batch_of 3 1 [[[2]; [5]; [1]]; [[0]; [0]; [7]]] /\
  applicable true 2 3 GcSakoeChiba (Some 1%Z) None.
Proof.
  split; [lra|split; [apply batch_check; auto|split; [apply batch_check; auto|]]].
  split; [eexists; simpl; split; [lia|reflexivity]|]. intros _. split; eexists; simpl; (split; [lia|reflexivity]).
Qed.

(** ** C134 *)
Lemma set_in_batch l d xs b i k t : batch_of l d xs -> (b < length xs)%nat -> (i < l)%nat -> (k < d)%nat ->
  batch_of l d (set_in xs b i k t) /\ length (set_in xs b i k t) = length xs.
Proof.
  intros (Hl & Hd & H) Hb Hi Hk. assert (E : length (set_in xs b i k t) = length xs) by (apply set_nth_length; auto).
  split; auto. split; [auto|split; [auto|]]. intros x Hx. destruct (In_nth _ _ [] Hx) as (c & Hc & <-). unfold set_in. rewrite set_nth_nth by auto.
  destruct (H (nth b xs []) (nth_In _ _ Hb)) as [R1 L1]. destruct (c =? b)%nat.
  - destruct (set_entry_real d (nth b xs []) i k t R1) as [A B]; auto; [lia|]. split; auto. lia.
  - apply H, nth_In. lia.
Qed.
(** The gradients autograd accumulates: entry (b, i, k) of the first result is the
    derivative of the weighted sum of the losses in coordinate k of time step i of
    series b of the first batch, and likewise for the second batch.  [w] is the
    gradient arriving at the loss.  For every gamma > 0, constraint, batch size,
    lengths and dimension, with and without normalisation. *)
Theorem C134_gradient : forall gamma normalize g radius slope lx ly d xs ys w,
  0 < gamma -> batch_of lx d xs -> batch_of ly d ys -> length xs = length ys -> length w = length xs -> positive_slope slope ->
  applicable normalize lx ly g radius slope ->
  let L := mkLoss gamma normalize euclidean_squared_dist g radius slope in
  let total xs ys := weighted w (loss_forward L (tensor lx d xs) (tensor ly d ys)) in
  exists gx gy, loss_backward L (tensor lx d xs) (tensor ly d ys) (map XR w) = Ok (map lift gx, map lift gy) /\
    length gx = length xs /\ batch_of lx d gx /\ length gy = length ys /\ batch_of ly d gy /\
    (forall b i k, (b < length xs)%nat -> (i < lx)%nat -> (k < d)%nat ->
       derivable_pt_lim (fun t => total (set_in xs b i k t) ys) (entry (nth b xs []) i k) (entry (nth b gx []) i k)) /\
    (forall b i k, (b < length ys)%nat -> (i < ly)%nat -> (k < d)%nat ->
       derivable_pt_lim (fun t => total xs (set_in ys b i k t)) (entry (nth b ys []) i k) (entry (nth b gy []) i k)).
Proof.
  intros gamma nz g r s lx ly d xs ys w Hg Hx Hy HL Hw Hs ((A12 & H12) & Hn) L total.
  assert (HA : exists A11 A22, nz = true -> constraint lx lx g r s A11 /\ constraint ly ly g r s A22).
  { destruct nz; [|exists everywhere, everywhere; discriminate]. destruct Hn as [(A11 & H1) (A22 & H2)]; auto. exists A11, A22; auto. }
  destruct HA as (A11 & A22 & HA). pose proof (fun E => proj1 (HA E)) as H11. pose proof (fun E => proj2 (HA E)) as H22.
  pose proof (proj1 Hx) as Plx. pose proof (proj1 Hy) as Ply. pose proof (proj1 (proj2 Hx)) as Pd.
  set (GX := fun b => tab lx d (pair_grad_x gamma nz lx ly A12 A11 (nth b w 0) (nth b xs []) (nth b ys []))).
  set (GY := fun b => tab ly d (pair_grad_y gamma nz lx ly A12 A22 (nth b w 0) (nth b xs []) (nth b ys []))).
  assert (TB : forall l F, (0 < l)%nat -> batch_of l d (map (fun b => tab l d (F b)) (seq 0 (length xs)))).
  { intros l F Hl. split; [auto|split; [auto|]]. intros x Hi. apply in_map_iff in Hi. destruct Hi as (b & <- & _).
    split; [split; [auto|split]|apply tab_length].
    - intros E. apply (f_equal (@length _)) in E. rewrite tab_length in E. simpl in E. lia.
    - intros row Hr. apply tab_row in Hr. auto. }
  exists (map GX (seq 0 (length xs))), (map GY (seq 0 (length xs))).
  split; [|split; [|split; [|split; [|split; [|split]]]]].
  - rewrite !map_map. apply (backward_closed gamma nz g r s lx ly d A12 A11 A22 Hg Plx Ply Hs H12 H11 H22); auto.
  - rewrite map_length, seq_length. reflexivity.
  - apply TB; auto.
  - rewrite map_length, seq_length. auto.
  - apply TB; auto.
  - intros b i k Hb Hi Hk. rewrite nth_map_seq by auto. unfold GX. rewrite tab_entry by auto.
    eapply deriv_ext.
    { intros t. symmetry. destruct (set_in_batch lx d xs b i k t Hx Hb Hi Hk) as [_ E]. unfold total.
      apply (weighted_closed gamma nz g r s lx ly d A12 A11 A22 Hg Plx Ply Hs H12 H11 H22); lia. }
    apply deriv_val with (rsum (map (fun c => (if (c =? b)%nat then 1 else 0) * pair_grad_x gamma nz lx ly A12 A11 (nth c w 0) (nth c xs []) (nth c ys []) i k) (seq 0 (length xs)))).
    { apply (pick (fun c => pair_grad_x gamma nz lx ly A12 A11 (nth c w 0) (nth c xs []) (nth c ys []) i k)). auto. }
    eapply deriv_ext; [|apply (deriv_rsum (fun c t => nth c w 0 * pair_loss gamma nz lx ly A12 A11 A22 (nth c (set_in xs b i k t) []) (nth c ys [])))].
    { intros t. cbv beta. destruct (set_in_batch lx d xs b i k t Hx Hb Hi Hk) as [_ E]. rewrite E. reflexivity. }
    intros c Hc. apply in_seq in Hc. unfold set_in. destruct (Nat.eqb_spec c b) as [->|Ne].
    + eapply deriv_ext; [|eapply deriv_val; [|apply (deriv_pair_x gamma nz g r s lx ly d A12 A11 A22 Hg Plx Ply Hs H12 H11 H22 (nth b xs []) (nth b ys []) i k)]]; auto.
      * intros t. cbv beta. rewrite set_nth_nth, Nat.eqb_refl by auto. reflexivity.
      * ring.
      * apply (batch_real _ _ _ _ Hx), nth_In; lia.
      * apply (batch_len _ _ _ _ Hx), nth_In; lia.
      * apply (batch_real _ _ _ _ Hy), nth_In; lia.
      * apply (batch_len _ _ _ _ Hy), nth_In; lia.
    + eapply deriv_ext; [|eapply deriv_val; [|apply (derivable_pt_lim_const (nth c w 0 * pair_loss gamma nz lx ly A12 A11 A22 (nth c xs []) (nth c ys [])))]].
      * intros t. unfold fct_cte. rewrite set_nth_nth by auto. destruct (Nat.eqb_spec c b); [contradiction|reflexivity].
      * ring.
  - intros b i k Hb Hi Hk. rewrite nth_map_seq by lia. unfold GY. rewrite tab_entry by auto.
    eapply deriv_ext.
    { intros t. symmetry. destruct (set_in_batch ly d ys b i k t Hy Hb Hi Hk) as [_ E]. unfold total.
      apply (weighted_closed gamma nz g r s lx ly d A12 A11 A22 Hg Plx Ply Hs H12 H11 H22); lia. }
    apply deriv_val with (rsum (map (fun c => (if (c =? b)%nat then 1 else 0) * pair_grad_y gamma nz lx ly A12 A22 (nth c w 0) (nth c xs []) (nth c ys []) i k) (seq 0 (length xs)))).
    { apply (pick (fun c => pair_grad_y gamma nz lx ly A12 A22 (nth c w 0) (nth c xs []) (nth c ys []) i k)). lia. }
    apply (deriv_rsum (fun c t => nth c w 0 * pair_loss gamma nz lx ly A12 A11 A22 (nth c xs []) (nth c (set_in ys b i k t) []))).
    intros c Hc. apply in_seq in Hc. unfold set_in. destruct (Nat.eqb_spec c b) as [->|Ne].
    + eapply deriv_ext; [|eapply deriv_val; [|apply (deriv_pair_y gamma nz g r s lx ly d A12 A11 A22 Hg Plx Ply Hs H12 H11 H22 (nth b xs []) (nth b ys []) i k)]]; auto.
      * intros t. cbv beta. rewrite set_nth_nth, Nat.eqb_refl by auto. reflexivity.
      * ring.
      * apply (batch_real _ _ _ _ Hx), nth_In; lia.
      * apply (batch_len _ _ _ _ Hx), nth_In; lia.
      * apply (batch_real _ _ _ _ Hy), nth_In; lia.
      * apply (batch_len _ _ _ _ Hy), nth_In; lia.
    + eapply deriv_ext; [|eapply deriv_val; [|apply (derivable_pt_lim_const (nth c w 0 * pair_loss gamma nz lx ly A12 A11 A22 (nth c xs []) (nth c ys [])))]].
      * intros t. unfold fct_cte. rewrite set_nth_nth by auto. destruct (Nat.eqb_spec c b); [contradiction|reflexivity].
      * ring.
Qed.
Print Assumptions C134_gradient.
(** The gradient handed to the user's distance function: entry (i, j) is [w] times the
    derivative of the value in cost (i, j), and zero where no admissible path passes. *)
Definition set_cost (C : nat -> nat -> R) (i j : nat) (t : R) : nat -> nat -> R :=
  fun a b => if (a =? i)%nat && (b =? j)%nat then t else C a b.
Lemma Forall2_len {A B} (P : A -> B -> Prop) l l' : Forall2 P l l' -> length l = length l'.
Proof. induction 1; simpl; auto. Qed.
Theorem C134_distance : forall gamma dist nz g radius slope n m allowed Cs w ps,
  0 < gamma -> (0 < n)%nat -> (0 < m)%nat -> positive_slope slope -> constraint n m g radius slope allowed ->
  length w = length Cs -> enumerates (warping_path n m allowed) ps ->
  exists out, loss_apply (mkLoss gamma nz dist g radius slope) (mkDist n m (map (fun C i j => XR (C i j)) Cs)) = Ok out /\
    length (fn_backward gamma (snd out) (map XR w)) = length Cs /\
    forall b i j, (b < length Cs)%nat -> (i < n)%nat -> (j < m)%nat ->
      exists e, nth b (fn_backward gamma (snd out) (map XR w)) (fun _ _ => XNaN) i j = XR e /\
        (allowed i j = false -> e = 0) /\
        derivable_pt_lim (fun t => nth b w 0 * (- gamma * ln (rsum (map (fun p => exp (- (cost (set_cost (nth b Cs (fun _ _ => 0)) i j t) p / gamma))) ps))))
          (nth b Cs (fun _ _ => 0) i j) e.
Proof.
  intros gamma dist nz g r s n m A Cs w ps Hg Hn Hm Hs Hc Hw Hps.
  destruct (apply_value gamma nz dist g r s n m A (map (fun C i j => XR (C i j)) Cs) Cs Hg Hn Hm Hs Hc) as (out & E & _ & HB).
  { clear. induction Cs; simpl; constructor; auto. }
  exists out. split; [exact E|]. specialize (HB (map XR w)).
  assert (LE : length (fn_backward gamma (snd out) (map XR w)) = length Cs).
  { etransitivity; [exact (Forall2_len _ _ _ HB)|]. rewrite combine_length, map_length. lia. }
  split; auto. intros b i j Hb Hi Hj. set (C := nth b Cs (fun _ _ => 0)).
  exists (nth b w 0 * occupancy gamma C (all_paths n m A) i j). split; [|split].
  - assert (HN : forall Es wCs, Forall2 (fun (E : mat xr) (wC : xr * (nat -> nat -> R)) => forall i j, (i < n)%nat -> (j < m)%nat -> E i j = xmul (fst wC) (XR (occupancy gamma (snd wC) (all_paths n m A) i j))) Es wCs ->
      forall b, (b < length Es)%nat -> nth b Es (fun _ _ => XNaN) i j = xmul (fst (nth b wCs (XNaN, fun _ _ => 0))) (XR (occupancy gamma (snd (nth b wCs (XNaN, fun _ _ => 0))) (all_paths n m A) i j))).
    { clear - Hi Hj. intros Es wCs H. induction H as [|E wC Es wCs H HF IH]; intros [|b] Hb; simpl in *; try lia; auto. apply IH. lia. }
    rewrite (HN _ _ HB b) by lia. rewrite (combine_nth (map XR w)) by (rewrite map_length; auto). cbn [fst snd].
    rewrite (nth_indep _ XNaN (XR 0)) by (rewrite map_length; lia). rewrite (map_nth XR). reflexivity.
  - intros HA. unfold occupancy. replace (filter (visits i j) (all_paths n m A)) with (@nil (list cell)); [unfold total; simpl; unfold Rdiv; ring|].
    pose proof (all_paths_enum n m A Hn Hm) as [_ Hin]. symmetry. destruct (filter (visits i j) (all_paths n m A)) as [|p l] eqn:Ef; auto.
    exfalso. assert (K : In p (filter (visits i j) (all_paths n m A))) by (rewrite Ef; left; auto).
    apply filter_In in K. destruct K as [K1 K2]. apply Hin in K1. apply visits_in in K2. destruct K1 as (_ & _ & _ & W). specialize (W _ _ K2). congruence.
  - apply deriv_scal.
    pose proof (all_paths_enum n m A Hn Hm) as Hen.
    assert (Hne : all_paths n m A <> []).
    { destruct (constraint_feasible _ _ _ _ _ _ Hn Hm Hs Hc) as (p & Hp). apply Hen in Hp. intros E'. rewrite E' in Hp. contradiction. }
    pose proof (deriv_soft gamma n m A (all_paths n m A) (fun a c u => set_cost C i j u a c)
      (fun a c => if (a =? i)%nat && (c =? j)%nat then 1 else 0) (C i j) Hg Hn Hm Hen Hne) as D.
    eapply deriv_ext; [|eapply deriv_val; [|apply D]].
    + intros t. cbv beta. unfold soft_value. rewrite (total_enum gamma _ _ _ _ Hen Hps). reflexivity.
    + assert (EC : forall a c, set_cost C i j (C i j) a c = C a c).
      { intros a c. unfold set_cost. destruct (Nat.eqb_spec a i) as [->|]; cbn [andb]; auto. destruct (Nat.eqb_spec c j) as [->|]; auto. }
      assert (EO : forall a c, occupancy gamma (fun i0 j0 => set_cost C i j (C i j) i0 j0) (all_paths n m A) a c = occupancy gamma C (all_paths n m A) a c).
      { assert (EG : forall p, gibbs gamma (fun i0 j0 => set_cost C i j (C i j) i0 j0) p = gibbs gamma C p).
          { intros p. unfold gibbs, cost. rewrite (rsum_map_ext _ (fun c => C (fst c) (snd c))) by (intros; apply EC). reflexivity. }
        intros a c. unfold occupancy, total. rewrite !(map_ext _ _ EG). reflexivity. }
      rewrite (rsum_map_ext _ (fun a => (if (a =? i)%nat then 1 else 0) * occupancy gamma C (all_paths n m A) a j)).
      * apply (pick (fun a => occupancy gamma C (all_paths n m A) a j)). auto.
      * intros a _. rewrite (rsum_map_ext _ (fun c => (if (c =? j)%nat then 1 else 0) * ((if (a =? i)%nat then 1 else 0) * occupancy gamma C (all_paths n m A) a c))).
        -- apply (pick (fun c => (if (a =? i)%nat then 1 else 0) * occupancy gamma C (all_paths n m A) a c)). auto.
        -- intros c _. rewrite EO. destruct (a =? i)%nat, (c =? j)%nat; cbn [andb]; ring.
    + intros a c Ha Hc' _. unfold set_cost. destruct ((a =? i)%nat && (c =? j)%nat).
      * apply derivable_pt_lim_id.
      * apply derivable_pt_lim_const.
Qed.
Print Assumptions C134_distance.
(** a band that forbids a cell *)
Example C134_instance : constraint 3 3 GcSakoeChiba (Some 1%Z) None (band 3 3 1) /\ band 3 3 1 0%nat 2%nat = false /\
  band 3 3 1 0%nat 1%nat = true /\ enumerates (warping_path 3 3 (band 3 3 1)) (all_paths 3 3 (band 3 3 1)).
Proof. split; [simpl; split; [lia|reflexivity]|split; [reflexivity|split; [reflexivity|apply all_paths_enum; lia]]]. Qed.

(** ** C135 *)
(** the content, after the call, of the tensor the distance function returned *)
Definition tensor_after (out : list xr * (dist_tensor * list (mat xr))) : dist_tensor := fst (snd out).
(** Without constraint the tensor keeps its entries. *)
Theorem C135_unconstrained_partial : forall gamma dist nz n m Ds out,
  loss_apply (mkLoss gamma nz dist GcNone None None) (mkDist n m Ds) = Ok out ->
  d_rows (tensor_after out) = n /\ d_cols (tensor_after out) = m /\
  forall b i j e, (i < n)%nat -> (j < m)%nat -> nth b (d_mats (tensor_after out)) (fun _ _ => e) i j = nth b Ds (fun _ _ => e) i j.
Proof.
  intros gamma dist nz n m Ds out. unfold loss_apply, fn_forward. cbn [l_constraint l_gamma l_radius l_slope d_rows d_cols d_mats gc_code bind].
  cbn [compute_mask bind]. destruct ((n =? 0)%nat || (m =? 0)%nat); [discriminate|]. intros H. injection H as <-. unfold tensor_after. cbn [fst snd d_rows d_cols d_mats].
  split; [auto|split; [auto|]]. intros b i j e Hi Hj. revert b. induction Ds as [|D Ds IH]; intros [|b]; simpl; auto.
Qed.
Print Assumptions C135_unconstrained_partial.
(** With a band, entries of the caller's tensor become infinite: the next loss computed
    from the same tensor without constraint differs from the one before. *)
Theorem C135_refuted : exists (T : dist_tensor) out v v' out1 out2,
  let L g r := mkLoss 1 false (fun _ _ => T) g r None in
  loss_apply (L GcSakoeChiba (Some 0%Z)) T = Ok out /\
  nth 0 (d_mats T) (fun _ _ => XNaN) 0%nat 1%nat = XR 0 /\
  nth 0 (d_mats (tensor_after out)) (fun _ _ => XNaN) 0%nat 1%nat = XInf /\
  loss_apply (L GcNone None) T = Ok out1 /\ fst out1 = [XR v] /\
  loss_apply (L GcNone None) (tensor_after out) = Ok out2 /\ fst out2 = [XR v'] /\ v < v'.
Proof.
  set (T := mkDist 2 2 [fun _ _ => XR 0]).
  assert (G : 0 < 1) by lra.
  destruct (apply_value 1 false (fun _ _ => T) GcNone None None 2 2 everywhere [fun _ _ => XR 0] [fun _ _ => 0] G (le_n_S _ _ (Nat.le_0_l _)) (le_n_S _ _ (Nat.le_0_l _)) I) as (out1 & E1 & V1 & _).
  { reflexivity. }
  { constructor; auto. }
  assert (E0 : exists out, loss_apply (mkLoss 1 false (fun _ _ => T) GcSakoeChiba (Some 0%Z) None) T = Ok out /\
     tensor_after out = mkDist 2 2 [fun i j => if sakoe_chiba_mask 2 2 0 i j then XR 0 else XInf]).
  { eexists. split; reflexivity. }
  destruct E0 as (out & E0 & ET).
  assert (E2 : exists out2, loss_apply (mkLoss 1 false (fun _ _ => T) GcNone None None) (tensor_after out) = Ok out2 /\ fst out2 = [XR 0]).
  { rewrite ET. eexists. split; [reflexivity|]. cbv -[softmin3 IZR Rplus].
    assert (X0 : exp (- (0 / 1)) = 1) by (replace (- (0 / 1)) with 0 by field; apply exp_0).
    assert (SM : forall a b c, good a -> good b -> good c -> wt 1 a + wt 1 b + wt 1 c = 1 -> softmin3 1 a b c = XR 0).
    { intros a b c Ga Gb Gc E. rewrite softmin3_spec by (auto; lra). rewrite E, ln_1. f_equal. ring. }
    rewrite !(SM XInf (XR 0) XInf), !(SM (XR 0) XInf XInf) by (try exact I; simpl; rewrite X0; lra).
    rewrite (SM XInf XInf (XR 0)) by (try exact I; simpl; rewrite X0; lra). do 2 f_equal. ring. }
  destruct E2 as (out2 & E2 & V2).
  exists T, out, (- (1) * ln 3), 0, out1, out2. cbv zeta. split; [exact E0|split; [reflexivity|split; [rewrite ET; reflexivity|split; [exact E1|split; [|split; [exact E2|split; [exact V2|]]]]]]].
  - rewrite V1. cbn [map]. do 2 f_equal. unfold soft_value. f_equal. f_equal. unfold total.
    rewrite (map_ext _ (fun _ => 1)).
    + rewrite rsum_const. change (length (all_paths 2 2 everywhere)) with 3%nat. simpl. ring.
    + intros p. unfold gibbs. transitivity (exp 0); [|apply exp_0]. f_equal. unfold cost. rewrite rsum_const. field.
  - assert (0 < ln 3) by (rewrite <- ln_1; apply ln_increasing; lra). lra.
Qed.
Print Assumptions C135_refuted.

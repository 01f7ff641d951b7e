(** C117, C118: the soft-DTW barycenter. *)
From Coq Require Import Bool List Arith Lia ZArith QArith Reals Lra Permutation.
From Verif Require Import Num NumLaws Py Series Masks DtwModel Dataset Spec SpecDtw DpProofs DtwProofs DtwThms DtwExact
  LimitedThms MaskThms RList PathSum SoftModel SoftThms RealSeries PropDtw GakModel PaaModel PreModel BaryModel
  BaryThms SoftBaryModel PropSoft.
Import ListNotations.
Local Open Scope R_scope.

(** ** specification vocabulary *)
(** coordinate [k] of time step [i], and the series with this coordinate replaced *)
Definition entry (Z : list (list R)) (i k : nat) : R := nth k (nth i Z []) 0.
Definition set_nth {A} (n : nat) (x : A) (l : list A) : list A := firstn n l ++ x :: skipn (S n) l.
Definition set_entry (Z : list (list R)) (i k : nat) (t : R) : list (list R) := set_nth i (set_nth k t (nth i Z [])) Z.
(** the number a call returns *)
Definition real_of (r : res xr) : R := match r with Ok (XR v) => v | _ => 0 end.
(** weighted sum of the soft-DTW values between [Z] and the series *)
Definition objective (gamma : R) (g : gc_name) (radius : option BinNums.Z) (slope : option Q)
    (w : list R) (xs : list (list (list R))) (Z : list (list R)) : R :=
  rsum (map (fun p => fst p * real_of (soft_dtw BNumpy (Raw2 (lift Z)) (Raw2 (lift (snd p))) gamma g radius slope)) (combine w xs)).

(** ** replacing an entry *)
Lemma set_nth_length {A} n (x : A) l : (n < length l)%nat -> length (set_nth n x l) = length l.
Proof. intros H. unfold set_nth. rewrite app_length, firstn_length. cbn [length]. rewrite skipn_length. lia. Qed.
Lemma set_nth_nth {A} n (x : A) l i d : (n < length l)%nat -> nth i (set_nth n x l) d = if (i =? n)%nat then x else nth i l d.
Proof.
  revert n i. induction l as [|a l IH]; intros [|n] [|i] H; simpl in *; try lia; auto.
  - unfold set_nth in IH. rewrite IH by lia. destruct (Nat.eqb_spec i n); auto.
Qed.
Lemma set_nth_same {A} n l (d : A) : (n < length l)%nat -> set_nth n (nth n l d) l = l.
Proof.
  revert n. induction l as [|a l IH]; intros [|n] H; simpl in *; try lia; auto.
  unfold set_nth in *. simpl. f_equal. apply IH. lia.
Qed.
Lemma set_entry_real d Z i k t : real_series d Z -> (i < length Z)%nat -> (k < d)%nat ->
  real_series d (set_entry Z i k t) /\ length (set_entry Z i k t) = length Z.
Proof.
  intros (Hd & Hn & Hr) Hi Hk. assert (L : length (set_entry Z i k t) = length Z) by (apply set_nth_length; auto).
  split; [|exact L]. split; [auto|split].
  - destruct (set_entry Z i k t); [|discriminate]. simpl in L. lia.
  - intros r H. destruct (In_nth _ _ [] H) as (a & Ha & <-). unfold set_entry. rewrite set_nth_nth by auto.
    destruct (Nat.eqb_spec a i) as [->|_].
    + rewrite set_nth_length; rewrite Hr; auto; apply nth_In; auto.
    + apply Hr, nth_In. lia.
Qed.

(** ** derivatives *)
Lemma sqd_seq x y d : length x = d -> length y = d ->
  sqd x y = rsum (map (fun k => (nth k x 0 - nth k y 0) * (nth k x 0 - nth k y 0)) (seq 0 d)).
Proof.
  revert y d. induction x as [|a x IH]; intros [|b y] d Hx Hy; simpl in *; subst; try discriminate; [reflexivity|].
  injection Hy as Hy. cbn [seq map]. rewrite <- seq_shift, map_map. cbn [nth]. change ((a - b) * (a - b) + sqd x y = (a - b) * (a - b) +
    rsum (map (fun k => (nth k x 0 - nth k y 0) * (nth k x 0 - nth k y 0)) (seq 0 (length x)))). f_equal. apply IH; auto.
Qed.
Lemma deriv_rsum {A} (f : A -> R -> R) (f' : A -> R) x l :
  (forall a, In a l -> derivable_pt_lim (f a) x (f' a)) ->
  derivable_pt_lim (fun t => rsum (map (fun a => f a t) l)) x (rsum (map f' l)).
Proof.
  induction l as [|a l IH]; intros H; simpl.
  - apply derivable_pt_lim_const.
  - apply (derivable_pt_lim_plus (f a) (fun t => rsum (map (fun b => f b t) l))); [apply H; left; auto|].
    apply IH. intros; apply H; right; auto.
Qed.
Lemma deriv_ext f g x l : (forall t, f t = g t) -> derivable_pt_lim f x l -> derivable_pt_lim g x l.
Proof.
  intros E H eps He. destruct (H eps He) as (del & Hd). exists del. intros h Hh Hl. rewrite <- !E. auto.
Qed.
Lemma deriv_val f x l l' : l = l' -> derivable_pt_lim f x l -> derivable_pt_lim f x l'.
Proof. intros ->; auto. Qed.
Lemma deriv_sq c x : derivable_pt_lim (fun t => (t - c) * (t - c)) x (2 * (x - c)).
Proof.
  assert (D : derivable_pt_lim (fun t => t - c) x (1 - 0)).
  { apply (derivable_pt_lim_minus (fun t => t) (fun _ => c)); [apply derivable_pt_lim_id|apply derivable_pt_lim_const]. }
  eapply deriv_val; [|apply (derivable_pt_lim_mult _ _ _ _ _ D D)]. ring.
Qed.
(** the cost of one pair of time steps *)
Lemma deriv_costs d Z x i k a b : real_series d Z -> real_series d x -> (i < length Z)%nat -> (k < d)%nat ->
  (a < length Z)%nat -> (b < length x)%nat ->
  derivable_pt_lim (fun t => costs (set_entry Z i k t) x a b) (entry Z i k)
    (if (a =? i)%nat then 2 * (entry Z i k - entry x b k) else 0).
Proof.
  intros HZ Hx Hi Hk Ha Hb. unfold costs. destruct HZ as (Hd & _ & HZ). destruct Hx as (_ & _ & Hx).
  assert (Lb : length (nth b x []) = d) by (apply Hx, nth_In; auto).
  assert (Li : length (nth i Z []) = d) by (apply HZ, nth_In; auto).
  destruct (Nat.eqb_spec a i) as [->|Ne].
  - eapply deriv_ext.
    { intros t. symmetry. unfold set_entry. rewrite set_nth_nth, Nat.eqb_refl by auto. apply sqd_seq with (d := d); auto.
      rewrite set_nth_length; auto. lia. }
    apply deriv_val with (rsum (map (fun j => if (j =? k)%nat then 2 * (entry Z i k - entry x b k) else 0) (seq 0 d))).
    + rewrite (rsum_map_ext _ (fun j => (if (k =? j)%nat then 1 else 0) * (2 * (entry Z i k - entry x b k)))).
      * apply (rsum_single (fun _ => 2 * (entry Z i k - entry x b k))). auto.
      * intros j _. rewrite Nat.eqb_sym. destruct (k =? j)%nat; ring.
    + apply (deriv_rsum (fun j t => (nth j (set_nth k t (nth i Z [])) 0 - nth j (nth b x []) 0) *
                                    (nth j (set_nth k t (nth i Z [])) 0 - nth j (nth b x []) 0))).
      intros j Hj. destruct (Nat.eqb_spec j k) as [->|Nj].
      * eapply deriv_ext; [|apply deriv_sq]. intros t. simpl. rewrite set_nth_nth, Nat.eqb_refl by lia. reflexivity.
      * eapply deriv_ext; [|apply (derivable_pt_lim_const ((nth j (nth i Z []) 0 - nth j (nth b x []) 0) * (nth j (nth i Z []) 0 - nth j (nth b x []) 0)))].
        intros t. unfold fct_cte. rewrite set_nth_nth by lia. destruct (Nat.eqb_spec j k); [contradiction|reflexivity].
  - eapply deriv_ext; [|apply (derivable_pt_lim_const (sqd (nth a Z []) (nth b x [])))].
    intros t. unfold fct_cte, set_entry. rewrite set_nth_nth by auto. destruct (Nat.eqb_spec a i); [contradiction|reflexivity].
Qed.
Lemma wpath_bounds n m A p : (0 < n)%nat -> (0 < m)%nat -> warping_path n m A p ->
  NoDup p /\ forall a b, In (a, b) p -> (a < n)%nat /\ (b < m)%nat.
Proof.
  intros Hn Hm H. split; [apply (wpath_cover n m A p Hn Hm H)|]. intros a b K. apply wpath_rpath in H; auto.
  apply in_rev in K. pose proof (rpath_below _ _ _ _ H _ _ K). lia.
Qed.
(** the cost of a path *)
Lemma deriv_cost d Z x i k A p : real_series d Z -> real_series d x -> (i < length Z)%nat -> (k < d)%nat ->
  warping_path (length Z) (length x) A p ->
  derivable_pt_lim (fun t => cost (costs (set_entry Z i k t) x) p) (entry Z i k)
    (rsum (map (fun j => ind p i j * (2 * (entry Z i k - entry x j k))) (seq 0 (length x)))).
Proof.
  intros HZ Hx Hi Hk Hp. pose proof (real_len _ _ HZ) as L1. pose proof (real_len _ _ Hx) as L2.
  destruct (wpath_bounds _ _ _ _ L1 L2 Hp) as [ND B].
  rewrite (path_row_sum (fun j => 2 * (entry Z i k - entry x j k)) i (length x) p ND) by (intros [a b] H; apply (B a b H)).
  rewrite rsum_filter. unfold cost.
  apply (deriv_rsum (fun c t => costs (set_entry Z i k t) x (fst c) (snd c))).
  intros [a b] H. destruct (B a b H) as [Ba Bb]. apply (deriv_costs d); auto.
Qed.
Lemma deriv_ln f x l : 0 < f x -> derivable_pt_lim f x l -> derivable_pt_lim (fun t => ln (f t)) x (/ f x * l).
Proof. intros H D. apply (derivable_pt_lim_comp f ln); auto. apply derivable_pt_lim_ln; auto. Qed.
Lemma deriv_exp f x l : derivable_pt_lim f x l -> derivable_pt_lim (fun t => exp (f t)) x (exp (f x) * l).
Proof. intros D. apply (derivable_pt_lim_comp f exp); auto. apply derivable_pt_lim_exp. Qed.
Lemma deriv_scal c f x l : derivable_pt_lim f x l -> derivable_pt_lim (fun t => c * f t) x (c * l).
Proof. intros D. apply (derivable_pt_lim_scal f c); auto. Qed.
Lemma rsum_swap {A B} (f : A -> B -> R) l l' :
  rsum (map (fun a => rsum (map (f a) l')) l) = rsum (map (fun b => rsum (map (fun a => f a b) l)) l').
Proof.
  induction l as [|a l IH]; simpl.
  - symmetry. rewrite rsum_const. lra.
  - rewrite IH, rsum_map_plus. reflexivity.
Qed.
Lemma total_visits gamma D ps i j : total gamma D (filter (visits i j) ps) = rsum (map (fun p => gibbs gamma D p * ind p i j) ps).
Proof.
  unfold total. rewrite rsum_filter. apply rsum_map_ext. intros p _. unfold ind, visits.
  match goal with |- context [existsb ?f p] => destruct (existsb f p) end; ring.
Qed.
(** the value *)
Lemma deriv_value gamma d Z x i k A ps : 0 < gamma -> real_series d Z -> real_series d x -> (i < length Z)%nat -> (k < d)%nat ->
  enumerates (warping_path (length Z) (length x) A) ps -> ps <> [] ->
  derivable_pt_lim (fun t => - gamma * ln (total gamma (costs (set_entry Z i k t) x) ps)) (entry Z i k)
    (rsum (map (fun j => total gamma (costs Z x) (filter (visits i j) ps) / total gamma (costs Z x) ps *
                         (2 * (entry Z i k - entry x j k))) (seq 0 (length x)))).
Proof.
  intros Hg HZ Hx Hi Hk Hps Hne.
  assert (Lr : length (nth i Z []) = d) by (apply HZ, nth_In; auto).
  assert (Es : set_entry Z i k (entry Z i k) = Z).
  { unfold set_entry, entry. rewrite set_nth_same by lia. apply set_nth_same. auto. }
  pose proof (total_pos gamma (costs Z x) ps Hne) as P.
  set (dp := fun p => rsum (map (fun j => ind p i j * (2 * (entry Z i k - entry x j k))) (seq 0 (length x)))).
  assert (DT : derivable_pt_lim (fun t => total gamma (costs (set_entry Z i k t) x) ps) (entry Z i k)
                 (rsum (map (fun p => gibbs gamma (costs Z x) p * (- / gamma * dp p)) ps))).
  { unfold total. apply (deriv_rsum (fun p t => gibbs gamma (costs (set_entry Z i k t) x) p)). intros p Hp.
    unfold gibbs. apply deriv_val with (exp (- / gamma * cost (costs (set_entry Z i k (entry Z i k)) x) p) * (- / gamma * dp p)).
    - rewrite Es. f_equal. f_equal. unfold Rdiv. ring.
    - eapply deriv_ext; [|apply (deriv_exp (fun t => - / gamma * cost (costs (set_entry Z i k t) x) p))].
      + intros t. simpl. f_equal. unfold Rdiv. ring.
      + apply deriv_scal. apply (deriv_cost d Z x i k A); auto. apply Hps; auto. }
  eapply deriv_val; [|apply deriv_scal; apply deriv_ln; [|exact DT]].
  - cbv beta. rewrite Es.
    transitivity (/ total gamma (costs Z x) ps * rsum (map (fun p => gibbs gamma (costs Z x) p * dp p) ps)).
    + rewrite (rsum_map_ext (fun p => gibbs gamma (costs Z x) p * (- / gamma * dp p)) (fun p => - / gamma * (gibbs gamma (costs Z x) p * dp p)))
        by (intros; ring).
      rewrite rsum_map_scal. field. lra.
    + unfold dp.
      rewrite (rsum_map_ext _ (fun p => rsum (map (fun j => gibbs gamma (costs Z x) p * (ind p i j * (2 * (entry Z i k - entry x j k)))) (seq 0 (length x)))))
        by (intros; rewrite rsum_map_scal; reflexivity).
      rewrite rsum_swap, <- rsum_map_scal. apply rsum_map_ext. intros j _. rewrite total_visits.
      rewrite (rsum_map_ext _ (fun p => (2 * (entry Z i k - entry x j k)) * (gibbs gamma (costs Z x) p * ind p i j))) by (intros; ring).
      rewrite rsum_map_scal. field. lra.
  - cbv beta. rewrite Es. exact P.
Qed.

(** ** the code *)
Definition tab (m d : nat) (f : nat -> nat -> R) : list (list R) := map (fun i => map (fun k => f i k) (seq 0 d)) (seq 0 m).
Lemma tab_length m d f : length (tab m d f) = m. Proof. unfold tab. rewrite map_length, seq_length. reflexivity. Qed.
Lemma tab_row m d f r : In r (tab m d f) -> length r = d.
Proof. intros H. apply in_map_iff in H. destruct H as (i & <- & _). rewrite map_length, seq_length. reflexivity. Qed.
Lemma nth_map_seq {A} (f : nat -> A) n i (e : A) : (i < n)%nat -> nth i (map f (seq 0 n)) e = f i.
Proof.
  intros H. rewrite (nth_indep _ e (f 0%nat)) by (rewrite map_length, seq_length; auto).
  rewrite (map_nth f). rewrite seq_nth by auto. reflexivity.
Qed.
Lemma tab_entry m d f i k : (i < m)%nat -> (k < d)%nat -> entry (tab m d f) i k = f i k.
Proof. intros Hi Hk. unfold entry, tab. rewrite nth_map_seq by auto. rewrite nth_map_seq; auto. Qed.
Lemma lift_entry Z d i k : real_series d Z -> (i < length Z)%nat -> (k < d)%nat -> nth k (nth i (lift Z) []) XNaN = XR (entry Z i k).
Proof.
  intros HZ Hi Hk. rewrite lift_nth. assert (L : length (nth i Z []) = d) by (apply HZ, nth_In; auto).
  etransitivity; [apply nth_indep with (d' := XR 0); rewrite map_length; change (@length R (nth i Z [])) with (length (nth i Z [])); lia|].
  apply (map_nth XR).
Qed.
Lemma fold_sum (f : nat -> R) l a : fold_left (fun g j => xadd g (XR (f j))) l (XR a) = XR (a + rsum (map f l)).
Proof. revert a. induction l as [|x l IH]; intros a; simpl; [f_equal; lra|]. rewrite IH. f_equal. lra. Qed.
Lemma fold_ext {A B} (f g : A -> B -> A) l a : (forall x b, In b l -> f x b = g x b) -> fold_left f l a = fold_left g l a.
Proof. revert a. induction l as [|x l IH]; intros a H; simpl; auto. rewrite H by (left; auto). apply IH. intros; apply H; right; auto. Qed.
Lemma jacobian_lift d Z x E e : real_series d Z -> real_series d x ->
  (forall i j, (i < length Z)%nat -> (j < length x)%nat -> E i j = XR (e i j)) ->
  jacobian_product d (lift Z) (lift x) E =
  lift (tab (length Z) d (fun i k => rsum (map (fun j => e i j * (2 * (entry Z i k - entry x j k))) (seq 0 (length x))))).
Proof.
  intros HZ Hx HE. unfold jacobian_product. rewrite !lift_length. symmetry. unfold lift at 1, tab. rewrite map_map. symmetry. apply map_ext_in. intros i Hi. apply in_seq in Hi.
  rewrite map_map. apply map_ext_in. intros k Hk. apply in_seq in Hk.
  etransitivity; [apply fold_ext with (g := fun g j => xadd g (XR (e i j * (2 * (entry Z i k - entry x j k)))))|].
  - intros u j Hj. apply in_seq in Hj. rewrite (lift_entry Z d), (lift_entry x d), HE by (auto; lia). simpl. do 2 f_equal. ring.
  - rewrite fold_sum. f_equal. lra.
Qed.

(** one series: value and gradient *)
Definition grad1 (gamma : R) (Z x : list (list R)) (ps : list (list cell)) (i k : nat) : R :=
  rsum (map (fun j => total gamma (costs Z x) (filter (visits i j) ps) / total gamma (costs Z x) ps *
                      (2 * (entry Z i k - entry x j k))) (seq 0 (length x))).
Lemma softdtw_func_value garbage d Z x w gamma g r s code A : 0 < gamma -> real_series d Z -> real_series d x ->
  positive_slope s -> constraint (length Z) (length x) g r s A -> gc_code g = Ok code ->
  let ps := all_paths (length Z) (length x) A in
  softdtw_func d (lift Z) (lift x) (XR w) gamma code r s garbage =
  Ok (XR (w * (- gamma * ln (total gamma (costs Z x) ps))), lift (tab (length Z) d (fun i k => w * grad1 gamma Z x ps i k))).
Proof.
  intros Hg HZ Hx Hs Hc Hcode ps.
  pose proof (real_len _ _ HZ) as L1. pose proof (real_len _ _ Hx) as L2.
  pose proof (all_paths_enum (length Z) (length x) A L1 L2) as Hps. fold ps in Hps.
  destruct (alignment_value BNumpy garbage d Z x gamma g r s A ps Hg HZ Hx Hs Hc Hps) as (E & v & EE & EV & HE).
  rewrite (soft_public BNumpy d Z x gamma g r s A) in EV by auto. fold ps in EV. injection EV as EV.
  unfold soft_dtw_alignment in EE. rewrite (validated_finite Xnum xnn xfin Xlaws d) in EE by (apply lift_finite; auto).
  rewrite Hcode in EE. cbn [bind] in EE. rewrite is_zero_false in EE by auto.
  unfold softdtw_func. destruct (compute_mask (length (lift Z)) (length (lift x)) code r s) as [mask|]; [|discriminate].
  cbn [bind] in *. cbv zeta in *. inversion EE as [[E1 E2]]. cbn [soft_acc0_on] in E1, E2. clear EE.
  apply (f_equal (@Ok (xr * list (list xr)))). apply (f_equal2 (@pair xr (list (list xr)))).
  { etransitivity; [apply (f_equal (xmul (XR w)) (eq_trans E2 (eq_sym EV)))|]. reflexivity. }
  etransitivity; [apply (f_equal (fun u => map (map (xmul (XR w))) (jacobian_product d (lift Z) (lift x) u)) E1)|]. cbv beta.
  rewrite (jacobian_lift d Z x E (fun i j => total gamma (costs Z x) (filter (visits i j) ps) / total gamma (costs Z x) ps)) by auto.
  unfold lift, tab, grad1. rewrite !map_map. apply map_ext. intros i. rewrite !map_map. apply map_ext. intros k. reflexivity.
Qed.

(** adding the results up *)
Lemma combine_map_seq {A B C} (f : nat -> A) (g : nat -> B) (h : A * B -> C) n :
  map h (combine (map f (seq 0 n)) (map g (seq 0 n))) = map (fun i => h (f i, g i)) (seq 0 n).
Proof. generalize 0%nat. induction n as [|n IH]; intros a; simpl; auto. f_equal. apply IH. Qed.
Lemma add_tab m d f h : add_rows (lift (tab m d f)) (lift (tab m d h)) = lift (tab m d (fun i k => f i k + h i k)).
Proof.
  unfold add_rows, lift, tab. rewrite !map_map, combine_map_seq. apply map_ext. intros i. cbn [fst snd].
  rewrite !map_map, combine_map_seq. apply map_ext. intros k. reflexivity.
Qed.
Lemma tab_ext m d f h : (forall i k, (i < m)%nat -> (k < d)%nat -> f i k = h i k) -> tab m d f = tab m d h.
Proof.
  intros H. unfold tab. apply map_ext_in. intros i Hi. apply in_seq in Hi. apply map_ext_in. intros k Hk. apply in_seq in Hk. apply H; lia.
Qed.
Lemma fold_parts {A} (o : A -> R) (G : A -> nat -> nat -> R) m d l a F :
  fold_left (fun (acc p : xr * list (list xr)) => (xadd (fst acc) (fst p), add_rows (snd acc) (snd p)))
    (map (fun i => (XR (o i), lift (tab m d (G i)))) l) (XR a, lift (tab m d F)) =
  (XR (a + rsum (map o l)), lift (tab m d (fun i k => F i k + rsum (map (fun x => G x i k) l)))).
Proof.
  revert a F. induction l as [|x l IH]; intros a F; simpl.
  - f_equal; [f_equal; lra|]. f_equal. apply tab_ext. intros; lra.
  - rewrite (add_tab m d F (G x)). rewrite IH. f_equal; [f_equal; lra|]. f_equal. apply tab_ext. intros; lra.
Qed.
Lemma chunks_concat d (Z : list (list xr)) fuel : (0 < d)%nat -> (forall r, In r Z -> length r = d) -> (length Z <= fuel)%nat ->
  chunks fuel d (concat Z) = Z.
Proof.
  intros Hd. revert fuel. induction Z as [|r Z IH]; intros [|fuel] HZ HL; simpl in *; try lia; auto.
  assert (Lr : length r = d) by (apply HZ; auto). destruct (r ++ concat Z) as [|u v] eqn:E.
  - apply (f_equal (@length _)) in E. rewrite app_length in E. simpl in E. lia.
  - rewrite <- E. f_equal.
    + rewrite firstn_app, Lr, Nat.sub_diag, <- Lr, firstn_all. simpl. apply app_nil_r.
    + rewrite skipn_app, Lr, Nat.sub_diag, <- Lr, skipn_all. simpl. rewrite Lr. apply IH; auto. lia.
Qed.
Lemma concat_len d (Z : list (list xr)) : (forall r, In r Z -> length r = d) -> length (concat Z) = (length Z * d)%nat.
Proof.
  induction Z as [|r Z IH]; intros H; simpl; auto. rewrite app_length, IH, H by (intros; try apply H; simpl; auto). reflexivity.
Qed.
Lemma reshape_concat d (Z : list (list xr)) : (0 < d)%nat -> (forall r, In r Z -> length r = d) -> reshape_rows d (concat Z) = Ok Z.
Proof.
  intros Hd HZ. unfold reshape_rows. destruct (Nat.eqb_spec d 0); [lia|]. rewrite (concat_len d) by auto.
  rewrite Nat.mod_mul by lia. rewrite Nat.eqb_refl. rewrite chunks_concat; auto. nia.
Qed.
Lemma lift_row d Z r : real_series d Z -> In r (lift Z) -> length r = d.
Proof. intros (_ & _ & H) K. apply in_map_iff in K. destruct K as (x & <- & Hx). etransitivity; [apply map_length|]. auto. Qed.
Lemma mapM_ok {A B} (f : A -> res B) (h : A -> B) l : (forall x, In x l -> f x = Ok (h x)) -> mapM f l = Ok (map h l).
Proof.
  induction l as [|x l IH]; intros H; simpl; auto. rewrite (H x) by (left; auto). cbn [bind]. rewrite IH by (intros; apply H; right; auto). reflexivity.
Qed.
Lemma rsum_combine {A} (f : R -> A -> R) w (xs : list A) e : length w = length xs ->
  rsum (map (fun p => f (fst p) (snd p)) (combine w xs)) = rsum (map (fun i => f (nth i w 0) (nth i xs e)) (seq 0 (length xs))).
Proof.
  revert xs. induction w as [|a w IH]; intros [|x xs] H; simpl in *; try discriminate; auto. injection H as H.
  rewrite IH by auto. rewrite <- seq_shift, map_map. reflexivity.
Qed.

Lemma zeros_row (r : list R) n : map (fun _ : xr => XR 0) (map XR r) = map XR (map (fun _ : nat => 0) (seq n (length r))).
Proof. revert n. induction r as [|a r IH]; intros n; simpl; auto. f_equal. apply IH. Qed.
Lemma zeros_tab d (Z : list (list R)) : (forall r, In r Z -> length r = d) ->
  map (map (fun _ : xr => XR 0)) (lift Z) = lift (tab (length Z) d (fun _ _ => 0)).
Proof.
  unfold tab. assert (K : forall n b, (forall r, In r Z -> length r = d) -> map (map (fun _ : xr => XR 0)) (lift Z) =
    lift (map (fun _ => map (fun _ => 0) (seq b d)) (seq n (length Z)))); [|apply K].
  induction Z as [|r Z IH]; intros n b H; [reflexivity|]. cbn [lift map length seq].
  f_equal; [|apply IH; intros; apply H; right; auto].
  rewrite <- (H r) by (left; auto). apply zeros_row.
Qed.

(** ** C117 *)
(** The function given to the optimiser returns the weighted sum of the soft-DTW
    values and its gradient: entry (i, k) of the second result is the derivative of
    the sum in coordinate k of time step i.  For every gamma > 0, weights,
    constraint, lengths and order of the parallel results. *)
Theorem C117_gradient : forall garbage order d Z xs w gamma g radius slope code,
  0 < gamma -> real_series d Z -> xs <> [] -> (forall x, In x xs -> real_series d x) -> length w = length xs ->
  positive_slope slope -> gc_code g = Ok code ->
  (forall x, In x xs -> exists allowed, constraint (length Z) (length x) g radius slope allowed) ->
  Permutation order (seq 0 (length xs)) ->
  (forall x, In x xs -> exists v, soft_dtw BNumpy (Raw2 (lift Z)) (Raw2 (lift x)) gamma g radius slope = Ok (XR v)) /\
  exists G, acc_softdtw_func (concat (lift Z)) (map lift xs) (map XR w) gamma code radius slope order garbage =
            Ok (XR (objective gamma g radius slope w xs Z), map XR (concat G)) /\
    length G = length Z /\ (forall row, In row G -> length row = d) /\
    forall i k, (i < length Z)%nat -> (k < d)%nat ->
      derivable_pt_lim (fun t => objective gamma g radius slope w xs (set_entry Z i k t)) (entry Z i k) (entry G i k).
Proof.
  intros garbage order d Z xs w gamma g r s code Hg HZ Hne Hxs Lw Hs Hcode Hc Hord.
  assert (HA : exists As : list (nat -> nat -> bool), Forall2 (fun x A => constraint (length Z) (length x) g r s A) xs As).
  { clear - Hc. induction xs as [|x xs IH]; [exists []; constructor|].
    destruct (Hc x (or_introl eq_refl)) as (A & H). destruct IH as (As & IH); [intros; apply Hc; right; auto|].
    exists (A :: As). constructor; auto. }
  destruct HA as (As & HA).
  assert (Hn : forall i, (i < length xs)%nat -> constraint (length Z) (length (nth i xs [])) g r s (nth i As everywhere)).
  { clear - HA. induction HA as [|x A xs As H HA IH]; intros [|i] Hi; simpl in *; try lia; auto. apply IH. lia. }
  pose (ps := fun i => all_paths (length Z) (length (nth i xs [])) (nth i As everywhere)).
  assert (Hx : forall i, (i < length xs)%nat -> real_series d (nth i xs [])) by (intros; apply Hxs, nth_In; auto).
  pose proof (real_len _ _ HZ) as L1.
  assert (HV : forall Z' i, real_series d Z' -> length Z' = length Z -> (i < length xs)%nat ->
     soft_dtw BNumpy (Raw2 (lift Z')) (Raw2 (lift (nth i xs []))) gamma g r s =
     Ok (XR (- gamma * ln (total gamma (costs Z' (nth i xs [])) (ps i))))).
  { intros Z' i HZ' HL Hi. unfold ps. rewrite <- HL. apply (soft_public BNumpy d); auto. rewrite HL. auto. }
  assert (HO : forall Z', real_series d Z' -> length Z' = length Z -> objective gamma g r s w xs Z' =
     rsum (map (fun i => nth i w 0 * (- gamma * ln (total gamma (costs Z' (nth i xs [])) (ps i)))) (seq 0 (length xs)))).
  { intros Z' HZ' HL. unfold objective.
    rewrite (rsum_combine (fun a x => a * real_of (soft_dtw BNumpy (Raw2 (lift Z')) (Raw2 (lift x)) gamma g r s)) w xs []) by auto.
    apply rsum_map_ext. intros i Hi. apply in_seq in Hi. rewrite HV by (auto; lia). reflexivity. }
  split.
  { intros x Hi. destruct (In_nth _ _ [] Hi) as (i & Hi' & <-). eexists. apply HV; auto. }
  exists (tab (length Z) d (fun a k => 0 + rsum (map (fun i => nth i w 0 * grad1 gamma Z (nth i xs []) (ps i) a k) order))).
  split; [|split; [apply tab_length|split; [apply tab_row|]]].
  - unfold acc_softdtw_func. destruct xs as [|x0 xs']; [congruence|]. cbn [map].
    assert (Hd0 : ncols (lift x0) = d).
    { destruct (Hxs x0 (or_introl eq_refl)) as (_ & N & K). destruct x0 as [|r0 x0]; [congruence|]. etransitivity; [exact (map_length XR r0)|].
      apply K. left; auto. }
    rewrite Hd0. rewrite reshape_concat; [|apply HZ|intros; eapply lift_row; eauto]. cbn [bind].
    change (lift x0 :: map lift xs') with (map lift (x0 :: xs')). set (xs := x0 :: xs') in *.
    rewrite (mapM_ok _ (fun i => (XR (nth i w 0 * (- gamma * ln (total gamma (costs Z (nth i xs [])) (ps i)))),
               lift (tab (length Z) d (fun a k => nth i w 0 * grad1 gamma Z (nth i xs []) (ps i) a k))))).
    2:{ intros i Hi. apply (Permutation_in _ Hord) in Hi. apply in_seq in Hi.
        change (@nil (list (carrier Xnum))) with (lift []). rewrite (map_nth lift).
        rewrite (nth_indep (map XR w) XNaN (XR 0)) by (rewrite map_length; lia). rewrite (map_nth XR).
        apply (softdtw_func_value (garbage i) d Z (nth i xs []) (nth i w 0) gamma g r s code (nth i As everywhere)); auto;
          try (apply Hx; lia); apply Hn; lia. }
    cbn [bind].
    assert (ES : map (map (fun _ : xr => XR 0)) (lift Z) = lift (tab (length Z) d (fun _ _ => 0))).
    { apply zeros_tab. apply HZ. }
    etransitivity; [apply (f_equal (fun u => Ok (fst (fold_left _ _ (XR 0, u)), concat (snd (fold_left _ _ (XR 0, u))))) ES)|].
    rewrite fold_parts. cbn [fst snd]. apply (f_equal (@Ok (xr * list xr))). f_equal.
    + f_equal. rewrite HO by auto. rewrite Rplus_0_l. apply rsum_perm. apply Permutation_map. exact Hord.
    + unfold lift. rewrite concat_map. reflexivity.
  - intros a k Ha Hk. rewrite tab_entry by auto.
    apply deriv_val with (rsum (map (fun i => nth i w 0 * grad1 gamma Z (nth i xs []) (ps i) a k) (seq 0 (length xs)))).
    { rewrite Rplus_0_l. symmetry. apply rsum_perm. apply Permutation_map. exact Hord. }
    eapply deriv_ext.
    { intros t. symmetry. destruct (set_entry_real d Z a k t HZ Ha Hk) as [R1 R2]. apply HO; auto. }
    apply (deriv_rsum (fun i t => nth i w 0 * (- gamma * ln (total gamma (costs (set_entry Z a k t) (nth i xs [])) (ps i))))).
    intros i Hi. apply in_seq in Hi. apply deriv_scal. unfold grad1.
    pose proof (real_len _ _ (Hx i ltac:(lia))) as L2.
    apply (deriv_value gamma d Z (nth i xs []) a k (nth i As everywhere)); auto; try (apply Hx; lia).
    + apply all_paths_enum; auto.
    + destruct (constraint_feasible _ _ _ _ _ _ L1 L2 Hs (Hn i ltac:(lia))) as (p & Hp).
      apply (all_paths_enum _ _ _ L1 L2) in Hp. intros E. unfold ps in E. rewrite E in Hp. contradiction.
Qed.
Print Assumptions C117_gradient.

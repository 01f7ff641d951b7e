(** C44, C45: the min-max and the mean-variance scalers. *)
From Coq Require Import Bool List Arith Lia Reals Lra.
From Verif Require Import Num NumLaws Py Series RList SoftModel GakModel PaaModel PaaThms PreModel.
Import ListNotations.
Local Open Scope R_scope.

(** ** Specification *)
(** an array of shape [n x sz x d] *)
Definition shape3 (n sz d : nat) (X : array3) : Prop :=
  length X = n /\ forall s, In s X -> length s = sz /\ forall r, In r s -> length r = d.
Definition entry3 (X : array3) (i t k : nat) : xr := nth k (nth t (nth i X []) []) XNaN.
(** every entry is a number or missing *)
Definition numeric (X : array3) : Prop :=
  forall s r x, In s X -> In r s -> In x r -> x = XNaN \/ exists v, x = XR v.
Definition numbers (l : list xr) : list R := flat_map (fun x => match x with XR r => [r] | _ => [] end) l.
(** the values that share their scale with feature [k] of series [i] *)
Definition scope (per_ts per_feat : bool) (n sz d : nat) (X : array3) (i k : nat) : list R :=
  numbers (flat_map (fun i' => flat_map (fun t => map (fun k' => entry3 X i' t k')
                                                   (if per_feat then [k] else seq 0 d)) (seq 0 sz))
                    (if per_ts then [i] else seq 0 n)).
(** the scale is shared *)
Definition shares (per_ts per_feat : bool) (i k i' k' : nat) : Prop :=
  (per_ts = true -> i' = i) /\ (per_feat = true -> k' = k).
Definition mean (l : list R) : R := rsum l / INR (length l).
Definition std_dev (l : list R) : R := sqrt (mean (map (fun v => (v - mean l) * (v - mean l)) l)).

(** ** Lists and entries *)
Ltac norm := unfold array3, series in *; simpl carrier in *.
Lemma mapi_nth {A B} (f : nat -> A -> B) l i a b : (i < length l)%nat -> nth i (mapi f l) b = f i (nth i l a).
Proof.
  intros H. unfold mapi.
  rewrite nth_indep with (d' := (fun p => f (fst p) (snd p)) (0%nat, a)) by (rewrite map_length, combine_length, seq_length; lia).
  rewrite (map_nth (fun p => f (fst p) (snd p))), combine_nth by apply seq_length.
  rewrite seq_nth by auto. reflexivity.
Qed.
Lemma mapi_len {A B} (f : nat -> A -> B) l : length (mapi f l) = length l.
Proof. unfold mapi. rewrite map_length, combine_length, seq_length. lia. Qed.
Lemma shape_series n sz d X i : shape3 n sz d X -> (i < n)%nat -> length (nth i X []) = sz /\ forall r, In r (nth i X []) -> length r = d.
Proof. intros [<- H] Hi. apply H. apply nth_In. auto. Qed.
Lemma shape_row n sz d X i t : shape3 n sz d X -> (i < n)%nat -> (t < sz)%nat -> length (nth t (nth i X []) []) = d.
Proof. intros H Hi Ht. destruct (shape_series n sz d X i H Hi) as [L R]. apply R. apply nth_In. lia. Qed.
Lemma map_entries_entry f n sz d X i t k : shape3 n sz d X -> (i < n)%nat -> (t < sz)%nat -> (k < d)%nat ->
  entry3 (map_entries f X) i t k = f i k (entry3 X i t k).
Proof.
  intros H Hi Ht Hk. unfold entry3, map_entries. destruct (shape_series n sz d X i H Hi) as [L _].
  pose proof (shape_row n sz d X i t H Hi Ht) as L2. destruct H as [H _].
  rewrite (mapi_nth _ X i []) by lia.
  rewrite nth_indep with (d' := mapi (f i) []) by (rewrite map_length; unfold series in *; simpl carrier in *; lia). rewrite map_nth.
  apply mapi_nth. unfold series in *; simpl carrier in *; lia.
Qed.
Lemma map_entries_shape f n sz d X : shape3 n sz d X -> shape3 n sz d (map_entries f X).
Proof.
  intros [H1 H2]. unfold map_entries. split; [rewrite mapi_len; auto|].
  intros s Hs. destruct (In_nth _ _ [] Hs) as (i & Hi & <-). rewrite mapi_len in Hi. rewrite (mapi_nth _ X i []) by auto.
  destruct (H2 (nth i X []) (nth_In _ _ Hi)) as [L R]. split; [rewrite map_length; auto|].
  intros r Hr. apply in_map_iff in Hr. destruct Hr as (r0 & <- & Hr). rewrite mapi_len. auto.
Qed.
Lemma arr_sz_shape n sz d X : shape3 n sz d X -> (0 < n)%nat -> arr_sz X = sz.
Proof. intros [H1 H2] Hn. destruct X as [|s X]; [simpl in H1; lia|]. apply H2. left; auto. Qed.
Lemma arr_d_shape n sz d X : shape3 n sz d X -> (0 < n)%nat -> (0 < sz)%nat -> arr_d X = d.
Proof.
  intros [H1 H2] Hn Hs. destruct X as [|s X]; [simpl in H1; lia|]. destruct (H2 s (or_introl eq_refl)) as [L R].
  unfold arr_d, ncols. simpl. destruct s as [|r s]; [simpl in L; lia|]. apply R. left; auto.
Qed.
Lemma check_arr_shape n sz d X : shape3 n sz d X -> (0 < n)%nat -> (0 < sz)%nat -> check_arr X = Ok X.
Proof.
  intros H Hn Hs. pose proof (arr_sz_shape _ _ _ _ H Hn) as E1. pose proof (arr_d_shape _ _ _ _ H Hn Hs) as E2.
  destruct H as [H1 H2]. unfold check_arr. destruct X as [|s X]; [simpl in H1; lia|].
  replace (forallb _ _) with true; auto. symmetry. apply forallb_forall. intros s' Hs'. rewrite E1, E2.
  destruct (H2 s' Hs') as [L R]. rewrite L, Nat.eqb_refl. apply forallb_forall. intros r Hr. apply Nat.eqb_eq. auto.
Qed.
Lemma concat_nth_seq {A} (l : list (list A)) : concat l = flat_map (fun i => nth i l []) (seq 0 (length l)).
Proof. rewrite flat_map_concat_map. f_equal. rewrite <- (map_id l) at 1. apply (map_nth_seq (fun x => x) l []). Qed.

Lemma list_nth_seq {A} (l : list A) x : l = map (fun i => nth i l x) (seq 0 (length l)).
Proof. rewrite <- (map_id l) at 1. apply (map_nth_seq (fun x => x)). Qed.
Definition cells (per_ts per_feat : bool) (n sz d : nat) (i k : nat) : list (nat * nat * nat) :=
  flat_map (fun i' => flat_map (fun t => map (fun k' => (i', t, k')) (if per_feat then [k] else seq 0 d)) (seq 0 sz))
           (if per_ts then [i] else seq 0 n).
Definition at3 (X : array3) (c : nat * nat * nat) : xr := let '(i, t, k) := c in entry3 X i t k.
Lemma map_flat_map {A B C} (g : B -> C) (f : A -> list B) l : map g (flat_map f l) = flat_map (fun x => map g (f x)) l.
Proof. induction l; simpl; auto. rewrite map_app. f_equal. auto. Qed.
Lemma scope_cells a b n sz d X i k : scope a b n sz d X i k = numbers (map (at3 X) (cells a b n sz d i k)).
Proof.
  unfold scope, cells. f_equal. rewrite map_flat_map. apply flat_map_ext. intros i'.
  rewrite map_flat_map. apply flat_map_ext. intros t. rewrite map_map. apply map_ext. auto.
Qed.
Lemma group_rows (b : bool) n sz d X i k : shape3 n sz d X -> (i < n)%nat ->
  (if b then column k (nth i X []) else concat (nth i X [])) =
  flat_map (fun t => map (fun k' => entry3 X i t k') (if b then [k] else seq 0 d)) (seq 0 sz).
Proof.
  intros H Hi. destruct (shape_series n sz d X i H Hi) as [L R]. destruct b.
  - unfold column. rewrite (map_nth_seq _ _ []). norm. rewrite L. unfold entry3. simpl.
    induction (seq 0 sz); simpl; auto.
  - rewrite concat_nth_seq. norm. rewrite L. rewrite !flat_map_concat_map. f_equal. apply map_ext_in. intros t Ht. apply in_seq in Ht.
    pose proof (shape_row n sz d X i t H Hi ltac:(lia)) as E.
    rewrite (list_nth_seq (nth t (nth i X []) []) XNaN) at 1. norm. rewrite E. reflexivity.
Qed.
Lemma column_app k s s' : column k (s ++ s') = column k s ++ column k s'.
Proof. apply map_app. Qed.
Lemma column_concat k (X : array3) : column k (concat X) = concat (map (column k) X).
Proof. induction X; simpl; auto. rewrite column_app. f_equal. auto. Qed.
Lemma concat_concat {A} (X : list (list (list A))) : concat (concat X) = concat (map (@concat A) X).
Proof. induction X; simpl; auto. rewrite concat_app. f_equal. auto. Qed.
Lemma group_cells a b n sz d X i k : shape3 n sz d X -> (i < n)%nat ->
  group a b X i k = map (at3 X) (cells a b n sz d i k).
Proof.
  intros H Hi. unfold group, cells. 
  rewrite map_flat_map.
  transitivity (flat_map (fun i' => flat_map (fun t => map (fun k' => entry3 X i' t k') (if b then [k] else seq 0 d)) (seq 0 sz))
           (if a then [i] else seq 0 n)).
  2:{ apply flat_map_ext. intros i'. rewrite map_flat_map. apply flat_map_ext. intros t. rewrite map_map. apply map_ext. auto. }
  destruct a.
  - rewrite (group_rows b n sz d X i k H Hi). simpl. rewrite app_nil_r. reflexivity.
  - assert (E : (if b then column k (concat X) else concat (concat X)) = concat (map (fun s : series Xnum => if b then column k s else concat s) X))
      by (destruct b; [apply column_concat|apply concat_concat]).
    rewrite E. rewrite flat_map_concat_map. f_equal. rewrite (map_nth_seq _ X []).
    destruct H as [HL HR]. rewrite HL. apply map_ext_in. intros i' Hi'. apply in_seq in Hi'.
    apply (group_rows b n sz d X i' k (conj HL HR)). lia.
Qed.
Lemma cells_in a b n sz d i k i' t k' : (i < n)%nat -> (k < d)%nat -> 
  In (i', t, k') (cells a b n sz d i k) <-> (i' < n)%nat /\ (t < sz)%nat /\ (k' < d)%nat /\ shares a b i k i' k'.
Proof.
  intros Hi Hk. unfold cells, shares. rewrite in_flat_map. split.
  - intros (x & Hx & H). apply in_flat_map in H. destruct H as (y & Hy & H). apply in_map_iff in H.
    destruct H as (z & E & Hz). injection E as -> -> ->. apply in_seq in Hy.
    assert ((i' < n)%nat /\ (a = true -> i' = i)).
    { destruct a; [destruct Hx as [<-|[]]; auto|apply in_seq in Hx; split; [lia|congruence]]. }
    assert ((k' < d)%nat /\ (b = true -> k' = k)).
    { destruct b; [destruct Hz as [<-|[]]; auto|apply in_seq in Hz; split; [lia|congruence]]. }
    repeat split; try tauto; lia.
  - intros (H1 & H2 & H3 & H4 & H5). exists i'. split.
    + destruct a; [left; symmetry; auto|apply in_seq; lia].
    + apply in_flat_map. exists t. split; [apply in_seq; lia|]. apply in_map_iff. exists k'. split; auto.
      destruct b; [left; symmetry; auto|apply in_seq; lia].
Qed.
Lemma cells_shared a b n sz d i k i' k' : shares a b i k i' k' -> cells a b n sz d i' k' = cells a b n sz d i k.
Proof. intros [H1 H2]. unfold cells. destruct a, b; rewrite ?H1, ?H2 by auto; reflexivity. Qed.
Lemma in_numbers v l : In v (numbers l) <-> In (XR v) l.
Proof.
  unfold numbers. rewrite in_flat_map. split.
  - intros (x & Hx & H). destruct x; simpl in H; try tauto. destruct H as [<-|[]]. auto.
  - intros H. exists (XR v). split; simpl; auto.
Qed.
Lemma entry_numeric n sz d X i t k : shape3 n sz d X -> numeric X -> (i < n)%nat -> (t < sz)%nat -> (k < d)%nat ->
  entry3 X i t k = XNaN \/ exists v, entry3 X i t k = XR v.
Proof.
  intros H HN Hi Ht Hk. pose proof (shape_row n sz d X i t H Hi Ht) as L. destruct (shape_series n sz d X i H Hi) as [L2 _].
  destruct H as [L3 _]. apply (HN (nth i X []) (nth t (nth i X []) []) (entry3 X i t k)).
  - apply nth_In. simpl carrier in *. lia.
  - apply nth_In. simpl carrier in *. lia.
  - apply nth_In. simpl carrier in *. lia.
Qed.
Definition plain (l : list xr) : Prop := forall x, In x l -> x = XNaN \/ exists v, x = XR v.
Lemma group_plain a b n sz d X i k : shape3 n sz d X -> numeric X -> (i < n)%nat -> (k < d)%nat ->
  plain (map (at3 X) (cells a b n sz d i k)).
Proof.
  intros H HN Hi Hk x Hx. apply in_map_iff in Hx. destruct Hx as (((i', t), k') & <- & Hc).
  apply cells_in in Hc; auto. simpl. apply (entry_numeric n sz d); tauto.
Qed.
Lemma in_scope a b n sz d X i t k i' k' v : (i < n)%nat -> (k < d)%nat -> (i' < n)%nat -> (t < sz)%nat -> (k' < d)%nat ->
  shares a b i k i' k' -> entry3 X i' t k' = XR v -> In v (scope a b n sz d X i k).
Proof.
  intros Hi Hk Hi' Ht Hk' Hs E. rewrite scope_cells. apply in_numbers. apply in_map_iff. exists (i', t, k'). split; auto.
  apply cells_in; auto.
Qed.
Lemma scope_in a b n sz d X i k v : (i < n)%nat -> (k < d)%nat -> In v (scope a b n sz d X i k) ->
  exists i' t k', (i' < n)%nat /\ (t < sz)%nat /\ (k' < d)%nat /\ shares a b i k i' k' /\ entry3 X i' t k' = XR v.
Proof.
  intros Hi Hk H. rewrite scope_cells in H. apply in_numbers, in_map_iff in H. destruct H as (((i', t), k') & E & Hc).
  apply cells_in in Hc; auto. exists i', t, k'. repeat split; try tauto. apply Hc. apply Hc.
Qed.

(** ** Reductions *)
Lemma not_nan_numbers l : plain l -> not_nan l = map XR (numbers l).
Proof.
  induction l as [|x l IH]; intros H; auto. assert (Hl : plain l) by (intros y Hy; apply H; right; auto). specialize (IH Hl).
  destruct (H x (or_introl eq_refl)) as [->|[v ->]]; simpl; auto. unfold numbers in *. simpl. rewrite <- IH. reflexivity.
Qed.
Lemma fold_rmin l : forall x, fold_left (fun a b => if xltb b a then b else a) (map XR l) (XR x) = XR (rmin (x :: l)).
Proof.
  assert (A : forall l x, fold_left (fun a b => if xltb b a then b else a) (map XR l) (XR x) =
                        XR (fold_left (fun a b => if Rltb b a then b else a) l x)).
  { induction l0 as [|y l0 IH]; intros x; simpl; auto. destruct (Rltb y x); apply IH. }
  intros x. rewrite A. f_equal. revert x. induction l as [|y l IH]; intros x; auto.
  cbn [fold_left]. rewrite IH. change (rmin (x :: y :: l)) with (Rmin x (rmin (y :: l))).
  assert (G : forall u, rmin (u :: l) = match l with [] => u | _ => Rmin u (rmin l) end) by (intros; destruct l; auto).
  rewrite !G. destruct (Rltb y x) eqn:E.
  - apply Rltb_true in E. destruct l as [|z l]; [rewrite Rmin_right; lra|].
    rewrite Rmin_assoc. rewrite (Rmin_right x y) by lra. auto.
  - apply Rltb_false in E. destruct l as [|z l]; [rewrite Rmin_left; lra|].
    rewrite Rmin_assoc. rewrite (Rmin_left x y) by lra. auto.
Qed.
Lemma fold_rmax l : forall x, fold_left (fun a b => if xltb a b then b else a) (map XR l) (XR x) = XR (rmax (x :: l)).
Proof.
  assert (A : forall l x, fold_left (fun a b => if xltb a b then b else a) (map XR l) (XR x) =
                        XR (fold_left (fun a b => if Rltb a b then b else a) l x)).
  { induction l0 as [|y l0 IH]; intros x; simpl; auto. destruct (Rltb x y); apply IH. }
  intros x. rewrite A. f_equal. revert x. induction l as [|y l IH]; intros x; auto.
  cbn [fold_left]. rewrite IH. change (rmax (x :: y :: l)) with (Rmax x (rmax (y :: l))).
  assert (G : forall u, rmax (u :: l) = match l with [] => u | _ => Rmax u (rmax l) end) by (intros; destruct l; auto).
  rewrite !G. destruct (Rltb x y) eqn:E.
  - apply Rltb_true in E. destruct l as [|z l]; [rewrite Rmax_right; lra|].
    rewrite Rmax_assoc. rewrite (Rmax_right x y) by lra. auto.
  - apply Rltb_false in E. destruct l as [|z l]; [rewrite Rmax_left; lra|].
    rewrite Rmax_assoc. rewrite (Rmax_left x y) by lra. auto.
Qed.
Lemma nanmin_numbers l : plain l -> nanmin l = match numbers l with [] => XNaN | v => XR (rmin v) end.
Proof. intros H. unfold nanmin. rewrite (not_nan_numbers l H). destruct (numbers l); auto. simpl map. apply fold_rmin. Qed.
Lemma nanmax_numbers l : plain l -> nanmax l = match numbers l with [] => XNaN | v => XR (rmax v) end.
Proof. intros H. unfold nanmax. rewrite (not_nan_numbers l H). destruct (numbers l); auto. simpl map. apply fold_rmax. Qed.
Lemma nanmean_numbers l : plain l -> nanmean l = match numbers l with [] => XNaN | v => XR (mean v) end.
Proof.
  intros H. unfold nanmean. rewrite (not_nan_numbers l H). destruct (numbers l) as [|x v] eqn:E.
  - unfold xmean, xsum. simpl. unfold xdiv. destruct (Req_EM_T 0 0); [|lra]. 
    destruct (Rltb 0 0) eqn:E1; [apply Rltb_true in E1; lra|]. auto.
  - rewrite xmean_reals by discriminate. reflexivity.
Qed.
Lemma nanstd_numbers l : plain l -> numbers l <> [] -> nanstd l = XR (std_dev (numbers l)).
Proof.
  intros H Hne. unfold nanstd. rewrite (nanmean_numbers l H), (not_nan_numbers l H).
  destruct (numbers l) as [|x v] eqn:E; [congruence|]. rewrite <- E in *. clear E x v. 
  rewrite map_map. 
  rewrite (map_ext _ (fun w => XR ((w - mean (numbers l)) * (w - mean (numbers l))))) by reflexivity.
  rewrite <- (map_map (fun w => (w - mean (numbers l)) * (w - mean (numbers l))) XR).
  rewrite xmean_reals by (intros E; apply map_eq_nil in E; auto).
  unfold std_dev, mean at 1.
  assert (Hp : 0 <= mean (map (fun v : R => (v - mean (numbers l)) * (v - mean (numbers l))) (numbers l))).
  { unfold mean at 1. apply Rmult_le_pos.
    - apply rsum_nonneg. intros x Hx. apply in_map_iff in Hx. destruct Hx as (y & <- & _). apply Rle_0_sqr.
    - destruct (length _) as [|m]; [simpl; rewrite Rinv_0; lra|]. left. apply Rinv_0_lt_compat. apply lt_0_INR. lia. }
  unfold mean in *. unfold xsqrt. rewrite map_length in *. rewrite (proj2 (Rleb_true _ _) Hp). reflexivity.
Qed.

(** ** C44: min-max scaling *)
Definition mm_affine (p : mm_params) (S0 : list R) (v : R) : R :=
  mm_lo p + (v - rmin S0) * (mm_hi p - mm_lo p) / (if Req_EM_T (rmax S0 - rmin S0) 0 then 1 else rmax S0 - rmin S0).
Lemma mm_value_affine p S0 v : mm_value p (XR (rmin S0)) (XR (rmax S0)) (XR v) = XR (mm_affine p S0 v).
Proof.
  unfold mm_value, mm_affine. cbn [xsub xadd xopp]. unfold xsub. cbn [xadd xopp xmul is_xzero]. unfold is_zero.
  replace (rmax S0 + - rmin S0) with (rmax S0 - rmin S0) by ring.
  destruct (Req_EM_T (rmax S0 - rmin S0) 0) as [E|E].
  - rewrite xdiv_real by lra. simpl. f_equal. lra.
  - rewrite xdiv_real by lra. simpl. f_equal. lra.
Qed.
Lemma mm_value_nan p a b : mm_value p a b XNaN = XNaN.
Proof. unfold mm_value. unfold xsub. cbn [xadd xmul]. unfold xdiv. destruct (if is_xzero _ then _ else _); auto.
  destruct (Req_EM_T r 0); auto. Qed.

Section Scalers.
Variables (n sz d : nat) (X : array3).
Hypotheses (Hn : (0 < n)%nat) (Hsz : (0 < sz)%nat) (HS : shape3 n sz d X) (HN : numeric X).

Lemma mm_entry p st Y i t k : mm_fit p X = Ok st -> mm_transform p st X = Ok Y ->
  (i < n)%nat -> (t < sz)%nat -> (k < d)%nat ->
  entry3 Y i t k = match entry3 X i t k with
                   | XR v => XR (mm_affine p (scope (mm_per_ts p) (mm_per_feat p) n sz d X i k) v)
                   | _ => XNaN end.
Proof.
  intros Ef Et Hi Ht Hk. unfold mm_fit in Ef. rewrite (check_arr_shape n sz d X HS Hn Hsz) in Ef. cbn [bind] in Ef. injection Ef as <-.
  unfold mm_transform in Et. destruct (Rleb (mm_hi p) (mm_lo p)); [discriminate|].
  rewrite (check_arr_shape n sz d X HS Hn Hsz) in Et. cbn [bind mm_d mm_stats] in Et. unfold check_features in Et.
  rewrite Nat.eqb_refl in Et. cbn [bind] in Et. apply (f_equal (fun r => match r with Ok y => y | _ => [] end)) in Et. cbv beta iota in Et.
  rewrite <- Et. rewrite (map_entries_entry _ n sz d) by auto.
  replace (if mm_per_ts p then mm_process p X else mm_process p X) with (mm_process p X) by (destruct (mm_per_ts p); auto).
  unfold mm_process. cbn [fst snd]. set (a := mm_per_ts p). set (b := mm_per_feat p).
  rewrite (group_cells a b n sz d X i k HS Hi). pose proof (group_plain a b n sz d X i k HS HN Hi Hk) as P.
  rewrite (nanmin_numbers _ P), (nanmax_numbers _ P). rewrite <- (scope_cells a b n sz d X i k).
  destruct (entry_numeric n sz d X i t k HS HN Hi Ht Hk) as [E|[v E]]; rewrite E; [apply mm_value_nan|].
  pose proof (in_scope a b n sz d X i t k i k v Hi Hk Hi Ht Hk (conj (fun _ => eq_refl) (fun _ => eq_refl)) E) as Hin.
  destruct (scope a b n sz d X i k) as [|x l] eqn:El; [contradiction|]. apply mm_value_affine.
Qed.
Lemma mm_returns p : mm_lo p < mm_hi p -> exists st Y, mm_fit p X = Ok st /\ mm_transform p st X = Ok Y /\ shape3 n sz d Y.
Proof.
  intros Hr. unfold mm_fit. rewrite (check_arr_shape n sz d X HS Hn Hsz). cbn [bind].
  destruct (Rleb (mm_hi p) (mm_lo p)) eqn:E; [apply Rleb_true in E; lra|].
  eexists. eexists. split; [reflexivity|]. unfold mm_transform. rewrite E.
  rewrite (check_arr_shape n sz d X HS Hn Hsz). cbn [bind mm_d mm_stats]. unfold check_features. rewrite Nat.eqb_refl. cbn [bind].
  split; [reflexivity|]. apply map_entries_shape. auto.
Qed.
Lemma scope_bounds v a b i k : In v (scope a b n sz d X i k) ->
  rmin (scope a b n sz d X i k) <= v <= rmax (scope a b n sz d X i k).
Proof. intros H. split; [apply rmin_le|apply rmax_ge]; auto. Qed.

(** every number ends in the requested range, missing values stay missing, the shape
    is kept; the call does not fail *)
Theorem C44_range p : mm_lo p < mm_hi p ->
  exists st Y, mm_fit p X = Ok st /\ mm_transform p st X = Ok Y /\ shape3 n sz d Y /\
  forall i t k, (i < n)%nat -> (t < sz)%nat -> (k < d)%nat ->
    (entry3 X i t k = XNaN -> entry3 Y i t k = XNaN) /\
    (forall v, entry3 X i t k = XR v -> exists w, entry3 Y i t k = XR w /\ mm_lo p <= w <= mm_hi p).
Proof.
  intros Hr. destruct (mm_returns p Hr) as (st & Y & Ef & Et & Hs). exists st, Y. repeat (split; auto).
  - intros E. rewrite (mm_entry p st Y) by auto. rewrite E. auto.
  - intros v E. rewrite (mm_entry p st Y) by auto. rewrite E. eexists. split; [reflexivity|].
    set (a := mm_per_ts p). set (b := mm_per_feat p).
    pose proof (in_scope a b n sz d X i t k i k v H H1 H H0 H1 (conj (fun _ => eq_refl) (fun _ => eq_refl)) E) as Hin.
    pose proof (scope_bounds v a b i k Hin) as B. unfold mm_affine. set (m := rmin _) in *. set (M := rmax _) in *.
    destruct (Req_EM_T (M - m) 0) as [E0|E0].
    + replace v with m by lra. lra.
    + assert (0 < M - m) by lra. unfold Rdiv.
      assert (Hi0 : 0 < / (M - m)) by (apply Rinv_0_lt_compat; auto).
      assert (A : 0 <= (v - m) * / (M - m) <= 1).
      { split; [apply Rmult_le_pos; lra|]. apply Rmult_le_reg_r with (M - m); [auto|]. rewrite Rmult_assoc, Rinv_l by lra. lra. }
      replace ((v - m) * (mm_hi p - mm_lo p) * / (M - m)) with ((mm_hi p - mm_lo p) * ((v - m) * / (M - m))) by ring.
      nra.
Qed.
(** both bounds are reached as soon as two values in the scope differ *)
Theorem C44_bounds_reached p st Y i k u v : mm_lo p < mm_hi p ->
  mm_fit p X = Ok st -> mm_transform p st X = Ok Y -> (i < n)%nat -> (k < d)%nat ->
  In u (scope (mm_per_ts p) (mm_per_feat p) n sz d X i k) ->
  In v (scope (mm_per_ts p) (mm_per_feat p) n sz d X i k) -> u <> v ->
  In (mm_lo p) (scope (mm_per_ts p) (mm_per_feat p) n sz d Y i k) /\
  In (mm_hi p) (scope (mm_per_ts p) (mm_per_feat p) n sz d Y i k).
Proof.
  intros Hr Ef Et Hi Hk Hu Hv Huv. set (a := mm_per_ts p) in *. set (b := mm_per_feat p) in *.
  set (S0 := scope a b n sz d X i k) in *.
  assert (HM : rmin S0 < rmax S0). { pose proof (scope_bounds u a b i k Hu). pose proof (scope_bounds v a b i k Hv). unfold S0. lra. }
  assert (Hne : S0 <> []) by (intros E; rewrite E in Hu; contradiction).
  assert (G : forall w, In w S0 -> In (mm_affine p S0 w) (scope a b n sz d Y i k)).
  { intros w Hw. destruct (scope_in a b n sz d X i k w Hi Hk Hw) as (i' & t & k' & Hi' & Ht & Hk' & Hsh & E).
    apply (in_scope a b n sz d Y i t k i' k'); auto. rewrite (mm_entry p st Y) by auto. rewrite E. fold a b.
    do 2 f_equal. unfold S0. rewrite !scope_cells. rewrite (cells_shared a b n sz d i k i' k' Hsh). reflexivity. }
  split.
  - replace (mm_lo p) with (mm_affine p S0 (rmin S0)); [apply G; apply rmin_in; auto|].
    unfold mm_affine. unfold Rdiv. replace (rmin S0 - rmin S0) with 0 by ring. ring.
  - replace (mm_hi p) with (mm_affine p S0 (rmax S0)); [apply G; apply rmax_in; auto|].
    unfold mm_affine. destruct (Req_EM_T (rmax S0 - rmin S0) 0); [lra|]. field. lra.
Qed.
(** entries that share their scale keep their order, strictly; a constant scope goes
    to the lower bound *)
Theorem C44_order p st Y i t k i' t' k' v v' : mm_lo p < mm_hi p ->
  mm_fit p X = Ok st -> mm_transform p st X = Ok Y ->
  (i < n)%nat -> (t < sz)%nat -> (k < d)%nat -> (i' < n)%nat -> (t' < sz)%nat -> (k' < d)%nat ->
  shares (mm_per_ts p) (mm_per_feat p) i k i' k' ->
  entry3 X i t k = XR v -> entry3 X i' t' k' = XR v' ->
  exists w w', entry3 Y i t k = XR w /\ entry3 Y i' t' k' = XR w' /\ (v < v' <-> w < w').
Proof.
  intros Hr Ef Et Hi Ht Hk Hi' Ht' Hk' Hsh E E'. rewrite !(mm_entry p st Y) by auto. rewrite E, E'.
  eexists. eexists. split; [reflexivity|]. split; [reflexivity|].
  set (a := mm_per_ts p) in *. set (b := mm_per_feat p) in *.
  pose proof (in_scope a b n sz d X i t k i k v Hi Hk Hi Ht Hk (conj (fun _ => eq_refl) (fun _ => eq_refl)) E) as Hin.
  pose proof (in_scope a b n sz d X i t' k i' k' v' Hi Hk Hi' Ht' Hk' Hsh E') as Hin'.
  replace (scope a b n sz d X i' k') with (scope a b n sz d X i k)
    by (rewrite !scope_cells, (cells_shared a b n sz d i k i' k' Hsh); auto).
  pose proof (scope_bounds v a b i k Hin). pose proof (scope_bounds v' a b i k Hin').
  set (S0 := scope a b n sz d X i k) in *. unfold mm_affine.
  destruct (Req_EM_T (rmax S0 - rmin S0) 0) as [E0|E0]; [assert (v = v') by lra; subst v'; split; intros; lra|].
  assert (P : 0 < (mm_hi p - mm_lo p) / (rmax S0 - rmin S0)) by (apply Rdiv_lt_0_compat; lra).
  unfold Rdiv in *. rewrite !Rmult_assoc. set (c := (mm_hi p - mm_lo p) * / (rmax S0 - rmin S0)) in *. split; intros; nra.
Qed.
Theorem C44_constant p st Y i t k v : mm_lo p < mm_hi p ->
  mm_fit p X = Ok st -> mm_transform p st X = Ok Y -> (i < n)%nat -> (t < sz)%nat -> (k < d)%nat ->
  entry3 X i t k = XR v -> (forall u, In u (scope (mm_per_ts p) (mm_per_feat p) n sz d X i k) -> u = v) ->
  entry3 Y i t k = XR (mm_lo p).
Proof.
  intros Hr Ef Et Hi Ht Hk E HC. rewrite (mm_entry p st Y) by auto. rewrite E.
  set (a := mm_per_ts p) in *. set (b := mm_per_feat p) in *.
  pose proof (in_scope a b n sz d X i t k i k v Hi Hk Hi Ht Hk (conj (fun _ => eq_refl) (fun _ => eq_refl)) E) as Hin.
  assert (Hne : scope a b n sz d X i k <> []) by (intros E0; rewrite E0 in Hin; contradiction).
  f_equal. unfold mm_affine. rewrite (HC _ (rmin_in _ Hne)). unfold Rdiv. replace (v - v) with 0 by ring. ring.
Qed.

(** ** C45 *)
Definition mv_affine (p : mv_params) (S0 : list R) (v : R) : R :=
  (v - mean S0) * mv_std p / (if Req_EM_T (std_dev S0) 0 then 1 else std_dev S0) + mv_mu p.
Lemma mv_entry p st Y i t k : mv_fit p X = Ok st -> mv_transform p st X = Ok Y ->
  (i < n)%nat -> (t < sz)%nat -> (k < d)%nat ->
  entry3 Y i t k = match entry3 X i t k with
                   | XR v => XR (mv_affine p (scope (mv_per_ts p) (mv_per_feat p) n sz d X i k) v)
                   | _ => XNaN end.
Proof.
  intros Ef Et Hi Ht Hk. unfold mv_fit in Ef. rewrite (check_arr_shape n sz d X HS Hn Hsz) in Ef. cbn [bind] in Ef. injection Ef as <-.
  unfold mv_transform in Et.
  rewrite (check_arr_shape n sz d X HS Hn Hsz) in Et. cbn [bind mm_d mm_stats] in Et. unfold check_features in Et.
  rewrite Nat.eqb_refl in Et. cbn [bind] in Et. apply (f_equal (fun r => match r with Ok y => y | _ => [] end)) in Et. cbv beta iota in Et.
  rewrite <- Et. rewrite (map_entries_entry _ n sz d) by auto.
  replace (if mv_per_ts p then mv_process p X else mv_process p X) with (mv_process p X) by (destruct (mv_per_ts p); auto).
  unfold mv_process. cbn [fst snd]. set (a := mv_per_ts p). set (b := mv_per_feat p).
  rewrite (group_cells a b n sz d X i k HS Hi). pose proof (group_plain a b n sz d X i k HS HN Hi Hk) as P.
  destruct (entry_numeric n sz d X i t k HS HN Hi Ht Hk) as [E|[v E]]; rewrite E.
  { unfold mv_value, xsub. cbn [xadd xmul]. unfold xdiv. destruct (if is_xzero _ then _ else _); auto. destruct (Req_EM_T r 0); auto. }
  pose proof (in_scope a b n sz d X i t k i k v Hi Hk Hi Ht Hk (conj (fun _ => eq_refl) (fun _ => eq_refl)) E) as Hin.
  assert (Hne : scope a b n sz d X i k <> []) by (intros E0; rewrite E0 in Hin; contradiction).
  rewrite (nanmean_numbers _ P). rewrite (nanstd_numbers _ P) by (rewrite <- scope_cells; auto).
  rewrite <- (scope_cells a b n sz d X i k). unfold mv_affine.
  destruct (scope a b n sz d X i k) as [|x l] eqn:El; [contradiction|]. rewrite <- El.
  unfold mv_value, xsub. cbn [xadd xopp xmul is_xzero]. unfold is_zero.
  destruct (Req_EM_T (std_dev (scope a b n sz d X i k)) 0) as [E0|E0]; rewrite xdiv_real by lra; reflexivity.
Qed.
Lemma mv_returns p : exists st Y, mv_fit p X = Ok st /\ mv_transform p st X = Ok Y /\ shape3 n sz d Y.
Proof.
  unfold mv_fit. rewrite (check_arr_shape n sz d X HS Hn Hsz). cbn [bind].
  eexists. eexists. split; [reflexivity|]. unfold mv_transform.
  rewrite (check_arr_shape n sz d X HS Hn Hsz). cbn [bind mm_d mm_stats]. unfold check_features. rewrite Nat.eqb_refl. cbn [bind].
  split; [reflexivity|]. apply map_entries_shape. auto.
Qed.
Lemma numbers_map (f : xr -> xr) (g : R -> R) l : plain l -> (forall v, In (XR v) l -> f (XR v) = XR (g v)) -> f XNaN = XNaN ->
  numbers (map f l) = map g (numbers l).
Proof.
  intros P H1 H2. induction l as [|x l IH]; auto.
  assert (Hl : plain l) by (intros y Hy; apply P; right; auto).
  specialize (IH Hl (fun v Hv => H1 v (or_intror Hv))). 
  destruct (P x (or_introl eq_refl)) as [->|[v ->]]; cbn [map].
  - rewrite H2. exact IH.
  - rewrite H1 by (left; auto). unfold numbers in *. simpl. f_equal. exact IH.
Qed.
Lemma mv_scope p st Y i k : mv_fit p X = Ok st -> mv_transform p st X = Ok Y -> (i < n)%nat -> (k < d)%nat ->
  scope (mv_per_ts p) (mv_per_feat p) n sz d Y i k =
  map (mv_affine p (scope (mv_per_ts p) (mv_per_feat p) n sz d X i k)) (scope (mv_per_ts p) (mv_per_feat p) n sz d X i k).
Proof.
  intros Ef Et Hi Hk. set (a := mv_per_ts p). set (b := mv_per_feat p). set (S0 := scope a b n sz d X i k) at 1.
  rewrite !scope_cells.
  rewrite <- (numbers_map (fun x => match x with XR v => XR (mv_affine p S0 v) | _ => XNaN end)); auto; [|apply (group_plain a b n sz d X i k HS HN Hi Hk)].
  rewrite map_map. f_equal. apply map_ext_in. intros ((i', t), k') Hc. apply cells_in in Hc; auto. destruct Hc as (H1 & H2 & H3 & H4).
  unfold at3. rewrite (mv_entry p st Y) by auto. fold a b. unfold S0. rewrite !(scope_cells a b), (cells_shared a b n sz d i k i' k' H4). reflexivity.
Qed.
Lemma mean_affine (c e : R) l : l <> [] -> mean (map (fun v => (v - c) * e) l) = (mean l - c) * e.
Proof.
  intros H. unfold mean. rewrite map_length.
  rewrite (rsum_map_ext _ (fun v => e * v + (- c * e))) by (intros; ring). rewrite rsum_map_plus, rsum_map_scal, map_id, rsum_const.
  assert (INR (length l) <> 0). { apply not_0_INR. destruct l; [congruence|discriminate]. } field. auto.
Qed.
Lemma mean_plus c l : l <> [] -> mean (map (fun v => v + c) l) = mean l + c.
Proof.
  intros H. unfold mean. rewrite map_length. rewrite rsum_map_plus, map_id, rsum_const.
  assert (INR (length l) <> 0). { apply not_0_INR. destruct l; [congruence|discriminate]. } field. auto.
Qed.
Lemma mean_scal c l : mean (map (fun v => c * v) l) = c * mean l.
Proof. unfold mean. rewrite map_length, rsum_map_scal, map_id. unfold Rdiv. ring. Qed.
(** the result of [fit_transform] has, in every scope, mean [mu]; its standard
    deviation is [std] unless the input is constant, in which case all values are [mu] *)
Lemma rsum_zero_all l : (forall x, In x l -> 0 <= x) -> rsum l = 0 -> forall x, In x l -> x = 0.
Proof.
  induction l as [|y l IH]; intros H E x Hx; [contradiction|]. simpl in E.
  assert (0 <= rsum l) by (apply rsum_nonneg; intros; apply H; right; auto). pose proof (H y (or_introl eq_refl)).
  destruct Hx as [<-|Hx]; [lra|]. apply IH; auto; [intros; apply H; right; auto|lra].
Qed.
Lemma std_zero l : l <> [] -> std_dev l = 0 -> forall v, In v l -> v = mean l.
Proof.
  intros Hne E v Hv. unfold std_dev in E.
  assert (HP : 0 < INR (length l)) by (apply lt_0_INR; destruct l; [congruence|simpl; lia]).
  set (q := map _ l) in E. assert (Hq : forall x, In x q -> 0 <= x).
  { intros x Hx. apply in_map_iff in Hx. destruct Hx as (y & <- & _). apply Rle_0_sqr. }
  assert (Lq : length q = length l) by apply map_length.
  assert (Z : mean q = 0). { apply sqrt_eq_0; auto. unfold mean. rewrite Lq. apply Rmult_le_pos; [apply rsum_nonneg; auto|].
    left. apply Rinv_0_lt_compat. auto. }
  assert (Z2 : rsum q = 0). { unfold mean in Z. rewrite Lq in Z. apply Rmult_eq_reg_r with (/ INR (length l)); [unfold Rdiv in Z; rewrite Z; ring|]. 
    apply Rinv_neq_0_compat. lra. }
  pose proof (rsum_zero_all q Hq Z2 ((v - mean l) * (v - mean l)) ltac:(apply in_map_iff; eauto)) as K.
  apply Rsqr_0_uniq in K. lra.
Qed.
Lemma std_const l c : l <> [] -> (forall v, In v l -> v = c) -> mean l = c /\ std_dev l = 0.
Proof.
  intros Hne H. assert (HP : INR (length l) <> 0) by (apply not_0_INR; destruct l; [congruence|discriminate]).
  assert (M : mean l = c). { unfold mean. rewrite <- (map_id l) at 1. rewrite (rsum_map_ext _ (fun _ => c)) by auto. rewrite rsum_const. field. auto. }
  split; auto. unfold std_dev. rewrite M. unfold mean. rewrite (rsum_map_ext _ (fun _ => 0)) by (intros v Hv; rewrite (H v Hv); ring).
  rewrite rsum_const. rewrite map_length. replace (INR (length l) * 0 / INR (length l)) with 0 by (field; auto). apply sqrt_0.
Qed.
Theorem C45_moments p : 0 <= mv_std p ->
  exists st Y, mv_fit p X = Ok st /\ mv_transform p st X = Ok Y /\ shape3 n sz d Y /\
  (forall i t k, (i < n)%nat -> (t < sz)%nat -> (k < d)%nat ->
    (entry3 X i t k = XNaN -> entry3 Y i t k = XNaN) /\
    (forall v, entry3 X i t k = XR v -> exists w, entry3 Y i t k = XR w)) /\
  (forall i k, (i < n)%nat -> (k < d)%nat ->
    let before := scope (mv_per_ts p) (mv_per_feat p) n sz d X i k in
    let after := scope (mv_per_ts p) (mv_per_feat p) n sz d Y i k in
    (before <> [] -> mean after = mv_mu p) /\
    (forall u v, In u before -> In v before -> u <> v -> std_dev after = mv_std p) /\
    ((forall u v, In u before -> In v before -> u = v) -> forall w, In w after -> w = mv_mu p)).
Proof.
  intros Hs. destruct (mv_returns p) as (st & Y & Ef & Et & HSY). exists st, Y. do 3 (split; auto). split; [|intros i k H H0 before after; split; [|split]].
  { intros i t k Hi Ht Hk. split.
    - intros E. rewrite (mv_entry p st Y) by auto. rewrite E. auto.
    - intros v E. rewrite (mv_entry p st Y) by auto. rewrite E. eauto. }
  - intros Hne. unfold after. rewrite (mv_scope p st Y i k) by auto. fold before. unfold mv_affine.
    set (e := mv_std p / (if Req_EM_T (std_dev before) 0 then 1 else std_dev before)).
    rewrite (map_ext _ (fun v => (fun v => v + mv_mu p) ((v - mean before) * e))) by (intros; unfold e, Rdiv; ring).
    rewrite <- (map_map (fun v => (v - mean before) * e) (fun v => v + mv_mu p)).
    rewrite mean_plus by (intros E; apply map_eq_nil in E; auto). rewrite mean_affine by auto. ring.
  - intros u v Hu Hv Huv. unfold after. rewrite (mv_scope p st Y i k) by auto. fold before.
    assert (Hne : before <> []) by (intros E; rewrite E in Hu; contradiction).
    unfold mv_affine. destruct (Req_EM_T (std_dev before) 0) as [E0|E0].
    { exfalso. apply Huv. rewrite (std_zero before Hne E0 u Hu), (std_zero before Hne E0 v Hv). auto. }
    set (e := mv_std p / std_dev before).
    rewrite (map_ext _ (fun v => (fun v => v + mv_mu p) ((v - mean before) * e))) by (intros; unfold e, Rdiv; ring).
    rewrite <- (map_map (fun v => (v - mean before) * e) (fun v => v + mv_mu p)).
    unfold std_dev at 1. rewrite mean_plus by (intros E; apply map_eq_nil in E; auto). rewrite mean_affine by auto.
    rewrite !map_map.
    rewrite (map_ext _ (fun v => (e * e) * ((v - mean before) * (v - mean before)))) by (intros; ring).
    rewrite <- (map_map (fun v => (v - mean before) * (v - mean before)) (fun v => (e * e) * v)).
    rewrite mean_scal. set (q := mean (map _ before)). assert (Eq : std_dev before = sqrt q) by reflexivity.
    assert (Sp : 0 < std_dev before). { pose proof (sqrt_pos q). rewrite <- Eq in H1. lra. }
    rewrite sqrt_mult_alt by apply Rle_0_sqr. rewrite <- Eq. 
    rewrite sqrt_square. { unfold e. field. lra. }
    unfold e. apply Rmult_le_pos; auto. left. apply Rinv_0_lt_compat. auto.
  - intros HC w Hw. unfold after in Hw. rewrite (mv_scope p st Y i k) in Hw by auto. fold before in Hw.
    apply in_map_iff in Hw. destruct Hw as (v & <- & Hv).
    assert (Hne : before <> []) by (intros E; rewrite E in Hv; contradiction).
    destruct (std_const before v Hne) as [M _]; [intros; auto|]. unfold mv_affine. rewrite M. unfold Rdiv. replace (v - v) with 0 by ring. ring.
Qed.
End Scalers.

(** With [per_timeseries=False] the scale is the one learnt by [fit], whatever data is
    transformed later. *)
Theorem C44_training_scale n sz d n' sz' X X' p st :
  (0 < n)%nat -> (0 < sz)%nat -> shape3 n sz d X -> numeric X -> (0 < n')%nat -> (0 < sz')%nat -> shape3 n' sz' d X' ->
  mm_lo p < mm_hi p -> mm_per_ts p = false -> mm_fit p X = Ok st ->
  exists Y, mm_transform p st X' = Ok Y /\
  forall i t k v, (i < n')%nat -> (t < sz')%nat -> (k < d)%nat -> entry3 X' i t k = XR v ->
    let seen := scope false (mm_per_feat p) n sz d X 0 k in
    rmin seen < rmax seen ->
    entry3 Y i t k = XR (mm_lo p + (v - rmin seen) * (mm_hi p - mm_lo p) / (rmax seen - rmin seen)).
Proof.
  intros Hn Hsz HS HN Hn' Hsz' HS' Hr Hp Ef. unfold mm_fit in Ef. rewrite (check_arr_shape n sz d X HS Hn Hsz) in Ef. cbn [bind] in Ef. injection Ef as <-.
  unfold mm_transform. destruct (Rleb (mm_hi p) (mm_lo p)) eqn:E; [apply Rleb_true in E; lra|].
  rewrite (check_arr_shape n' sz' d X' HS' Hn' Hsz'). cbn [bind mm_d mm_stats]. unfold check_features.
  rewrite (arr_d_shape n sz d X), (arr_d_shape n' sz' d X') by auto. rewrite Nat.eqb_refl. cbn [bind]. eexists. split; [reflexivity|].
  intros i t k v Hi Ht Hk Ev. set (seen := scope false (mm_per_feat p) n sz d X 0 k). intros Hlt. rewrite (map_entries_entry _ n' sz' d) by auto. rewrite Ev, Hp. unfold mm_process. cbn [fst snd].
  assert (Eg : group (mm_per_ts p) (mm_per_feat p) X i k = group false (mm_per_feat p) X 0 k) by (rewrite Hp; reflexivity).
  rewrite Eg. rewrite (group_cells false _ n sz d X 0 k HS Hn). pose proof (group_plain false (mm_per_feat p) n sz d X 0 k HS HN Hn Hk) as P.
  rewrite (nanmin_numbers _ P), (nanmax_numbers _ P). rewrite <- scope_cells. fold seen.
  destruct seen as [|x l] eqn:El; [simpl in Hlt; lra|]. rewrite <- El in *. rewrite mm_value_affine. unfold mm_affine.
  destruct (Req_EM_T (rmax seen - rmin seen) 0); [lra|]. reflexivity.
Qed.
(** bad ranges and a changed number of features are rejected *)
Theorem C44_errors n sz d d' X p st X' n' sz' : (0 < n)%nat -> (0 < sz)%nat -> shape3 n sz d X -> mm_fit p X = Ok st ->
  (0 < n')%nat -> (0 < sz')%nat -> shape3 n' sz' d' X' ->
  mm_hi p <= mm_lo p \/ d' <> d -> mm_transform p st X' = Err ValueError.
Proof.
  intros Hn Hsz HS Ef Hn' Hsz' HS' H. unfold mm_transform. destruct (Rleb (mm_hi p) (mm_lo p)) eqn:E; auto.
  destruct H as [H|H]; [apply Rleb_true in H; congruence|].
  rewrite (check_arr_shape n' sz' d' X' HS' Hn' Hsz'). cbn [bind]. unfold check_features.
  unfold mm_fit in Ef. rewrite (check_arr_shape n sz d X HS Hn Hsz) in Ef. cbn [bind] in Ef. injection Ef as <-. cbn [mm_d].
  rewrite (arr_d_shape n sz d X), (arr_d_shape n' sz' d' X') by auto. destruct (Nat.eqb_spec d' d); [congruence|]. reflexivity.
Qed.
Print Assumptions C44_range.
Print Assumptions C44_bounds_reached.
Print Assumptions C44_order.
Print Assumptions C44_constant.
Print Assumptions C44_training_scale.
Print Assumptions C44_errors.
Print Assumptions C45_moments.

(** a dataset with a gap meets the hypotheses *)
Definition ex_scale : array3 := [[[XR 1; XR 5]; [XR 3; XNaN]]; [[XR 2; XR 7]; [XNaN; XNaN]]].
Example scale_nontrivial : shape3 2 2 2 ex_scale /\ numeric ex_scale /\
  In 1 (scope true true 2 2 2 ex_scale 0 0) /\ In 3 (scope true true 2 2 2 ex_scale 0 0) /\
  scope false true 2 2 2 ex_scale 1 1 = [5; 7].
Proof.
  split; [|split; [|split; [|split]]].
  - split; auto. intros s [<-|[<-|[]]]; (split; auto; intros r [<-|[<-|[]]]; auto).
  - intros s r x [<-|[<-|[]]] [<-|[<-|[]]] [<-|[<-|[]]]; eauto.
  - left. auto.
  - right. left. auto.
  - reflexivity.
Qed.

(** C177-C180: how DTW and the discrete Frechet distance change with their arguments.
    Exact reals; multivariate series of any lengths. *)
From Coq Require Import Bool List Arith Lia ZArith QArith Reals Lra Permutation.
From Verif Require Import Num NumLaws Py Series Masks DtwModel Spec SpecDtw DpProofs DtwProofs DtwThms DtwExact
  LimitedThms MaskThms RList PathSum RealSeries PaaThms CyccThms IntSeries PropDtw MetaThms.
Import ListNotations.
Local Open Scope R_scope.

(** ** Specification *)
(** add a vector to every time step, multiply every value, rearrange the features *)
Definition shifted (t : list R) (s : list (list R)) : list (list R) := map (fun x => map (fun p => fst p + snd p) (combine x t)) s.
Definition scaled (a : R) (s : list (list R)) : list (list R) := map (map (fun v => a * v)) s.
Definition rearranged (order : list nat) (s : list (list R)) : list (list R) := map (fun x => map (fun k => nth k x 0) order) s.
(** [f] maps vectors of [d] features to vectors of [d'] features, and multiplies distances by [k] *)
Definition similarity (d d' : nat) (k : R) (f : list R -> list R) : Prop :=
  forall x y, length x = d -> length y = d -> length (f x) = d' /\ sqd (f x) (f y) = k * k * sqd x y.
(** the Euclidean distance between two series of the same length, and the largest of the
    distances between their time steps *)
Definition euclidean (s1 s2 : list (list R)) : R := sqrt (rsum (map (fun t => sqd (nth t s1 []) (nth t s2 [])) (seq 0 (length s1)))).
Definition furthest (s1 s2 : list (list R)) : R := sqrt (rtop (map (fun t => sqd (nth t s1 []) (nth t s2 [])) (seq 0 (length s1)))).
(** drop every time step that equals the next one *)
Definition row_dec (x y : list R) : {x = y} + {x <> y} := list_eq_dec Req_EM_T x y.
Fixpoint condense (s : list (list R)) : list (list R) :=
  match s with
  | [] => []
  | x :: t => match t with
              | [] => [x]
              | y :: _ => if row_dec x y then condense t else x :: condense t
              end
  end.
Notation series_of s := (Raw2 (N:=Xnum) (lift s)) (only parsing).

(** ** lemmas *)
Lemma real_map d d' f s : (0 < d')%nat -> (forall x, length x = d -> length (f x) = d') -> real_series d s -> real_series d' (map f s).
Proof.
  intros Hd Hf (_ & Hne & Hr). split; [auto|]. split; [destruct s; [congruence|discriminate]|].
  intros r Hin. apply in_map_iff in Hin. destruct Hin as (x & <- & Hx). auto.
Qed.
Lemma real_row d s i : real_series d s -> (i < length s)%nat -> length (nth i s []) = d.
Proof. intros (_ & _ & Hr) Hi. apply Hr. apply nth_In. auto. Qed.
Lemma nth_map_in {A B} (f : A -> B) l i x y : (i < length l)%nat -> nth i (map f l) y = f (nth i l x).
Proof. intros H. rewrite (nth_indep (map f l) y (f x)) by (rewrite map_length; auto). apply map_nth. Qed.
Lemma XR_inj a b : XR a = XR b -> a = b. Proof. congruence. Qed.
Lemma Ok_inj {A} (a b : A) : Ok a = Ok b -> a = b. Proof. congruence. Qed.

Section Gen.
Variables (agg : list R -> R) (E : elastic_fun).
Hypothesis L : agg_laws agg.
Hypothesis HE : computes agg E.
Lemma gen_similarity d d' k f s1 s2 g r s A v : real_series d s1 -> real_series d s2 -> positive_slope s ->
  constraint (length s1) (length s2) g r s A -> (0 < d')%nat -> 0 <= k -> similarity d d' k f ->
  E (series_of s1) (series_of s2) g r s = Ok (XR v) -> E (series_of (map f s1)) (series_of (map f s2)) g r s = Ok (XR (k * v)).
Proof.
  intros H1 H2 Hs HC Hd Hk Hf Hv. destruct (HE d s1 s2 g r s A H1 H2 Hs HC) as (w & Ew & Wn & O).
  rewrite Ew in Hv. apply Ok_inj, XR_inj in Hv. subst v.
  assert (R1 : real_series d' (map f s1)) by (apply (real_map d); auto; intros x Hx; apply (Hf x x); auto).
  assert (R2 : real_series d' (map f s2)) by (apply (real_map d); auto; intros x Hx; apply (Hf x x); auto).
  destruct (HE d' (map f s1) (map f s2) g r s A R1 R2 Hs) as (w' & Ew' & _ & O'). { rewrite !map_length. auto. }
  rewrite Ew'. do 2 f_equal. rewrite !map_length in O'.
  assert (O2 : optimum agg (length s1) (length s2) (costs (map f s1) (map f s2)) A (k * k * w)).
  { apply (optimum_scal agg _ _ (costs s1 s2)); auto; try (eapply real_len; eauto); [nra|].
    intros i j Hi Hj. unfold costs. rewrite !(nth_map_in f _ _ []) by auto. apply Hf; eapply real_row; eauto. }
  rewrite (optimum_unique _ _ _ _ _ _ _ O' O2). rewrite sqrt_mult by nra. rewrite sqrt_square by auto. reflexivity.
Qed.
Lemma gen_reverse d s1 s2 g r s A : real_series d s1 -> real_series d s2 -> positive_slope s -> constraint (length s1) (length s2) g r s A ->
  E (series_of (rev s1)) (series_of (rev s2)) g r s = E (series_of s1) (series_of s2) g r s.
Proof.
  intros H1 H2 Hs HC. destruct (HE d s1 s2 g r s A H1 H2 Hs HC) as (w & Ew & Wn & O).
  assert (RR : forall s, real_series d s -> real_series d (rev s)).
  { intros u (Hd & Hne & Hr). split; [auto|]. split.
    - intros K. apply Hne. rewrite <- (rev_involutive u), K. reflexivity.
    - intros x Hx. apply Hr. apply in_rev. auto. }
  destruct (HE d (rev s1) (rev s2) g r s A (RR s1 H1) (RR s2 H2) Hs) as (w' & Ew' & _ & O'). { rewrite !rev_length. auto. }
  rewrite Ew, Ew'. do 3 f_equal. rewrite !rev_length in O'. eapply optimum_unique; [exact O'|].
  pose proof (real_len d s1 H1). pose proof (real_len d s2 H2).
  apply (optimum_turn agg _ _ (costs s1 s2)); auto.
  - eapply constraint_turn; eauto.
  - intros i j Hi Hj. unfold costs. 
    rewrite <- (rev_length s1) at 1. rewrite nth_turn by (rewrite rev_length; auto). rewrite <- (rev_length s2) at 1. rewrite nth_turn by (rewrite rev_length; auto).
    rewrite !rev_involutive. reflexivity.
Qed.
Lemma gen_zero d s1 s2 v : real_series d s1 -> real_series d s2 -> E (series_of s1) (series_of s2) GcNone None None = Ok (XR v) ->
  (v = 0 <-> al eq s1 s2).
Proof.
  intros H1 H2 Hv. destruct (HE d s1 s2 GcNone None None everywhere H1 H2 I eq_refl) as (w & Ew & Wn & [(p & Hp & Ep) O]).
  rewrite Ew in Hv. apply Ok_inj, XR_inj in Hv. subst v.
  pose proof H1 as (_ & N1 & _). pose proof H2 as (_ & N2 & _). pose proof (real_len d s1 H1) as L1. pose proof (real_len d s2 H2) as L2.
  assert (AN : forall p x, In x (along (costs s1 s2) p) -> 0 <= x).
  { intros q x Hx. apply in_map_iff in Hx. destruct Hx as (c & <- & _). apply sqd_nonneg. }
  rewrite <- (wpath_al eq s1 s2 [] [] N1 N2). split.
  - intros Z. apply sqrt_eq_0 in Z; auto. exists p. split; auto. intros i j Hin.
    destruct (wpath_bounds _ _ _ _ L1 L2 Hp i j Hin) as [Hi Hj].
    assert (C : costs s1 s2 i j = 0).
    { apply (agg_zero agg L (along (costs s1 s2) p)); [apply AN|lra|]. apply in_map_iff. exists (i, j). auto. }
    unfold costs, sqd in C. pose proof (real_row d s1 i H1 Hi) as R1. pose proof (real_row d s2 j H2 Hj) as R2.
    revert C R1 R2. generalize (nth i s1 []) (nth j s2 []). clear. revert d.
    induction d as [|d IH]; intros [|a x] [|b y] C R1 R2; try discriminate; auto. simpl in *.
    assert (0 <= rsum (map (fun p => (fst p - snd p) * (fst p - snd p)) (combine x y))) by apply (sqd_nonneg x y).
    assert (a = b) by nra. f_equal; auto. apply IH; [nra|lia|lia].
  - intros (q & Hq & Hc). pose proof (O q Hq) as K.
    rewrite (agg_zeros agg L) in K.
    + assert (w = 0) by lra. subst w. rewrite H. apply sqrt_0.
    + intros x Hx. apply in_map_iff in Hx. destruct Hx as ([i j] & <- & Hin). simpl. unfold costs. rewrite (Hc i j Hin).
      apply (costs_diag s2 j).
Qed.
End Gen.

(** similarities *)
Lemma sqd_shift t x y : length x = length t -> length y = length t ->
  sqd (map (fun p => fst p + snd p) (combine x t)) (map (fun p => fst p + snd p) (combine y t)) = sqd x y.
Proof.
  unfold sqd. revert x y. induction t as [|c t IH]; intros [|a x] [|b y] H1 H2; try discriminate; auto. simpl in *. rewrite IH by lia. f_equal. ring.
Qed.
Lemma sqd_scaled a x y : sqd (map (fun v => a * v) x) (map (fun v => a * v) y) = a * a * sqd x y.
Proof. unfold sqd. revert y. induction x as [|u x IH]; intros [|v y]; simpl; try ring. rewrite IH. ring. Qed.
Lemma sqd_index d x y : length x = d -> length y = d -> sqd x y = rsum (map (fun k => (nth k x 0 - nth k y 0) * (nth k x 0 - nth k y 0)) (seq 0 d)).
Proof.
  unfold sqd. revert x y. induction d as [|d IH]; intros [|a x] [|b y] H1 H2; try discriminate; auto. simpl in *.
  rewrite (IH x y) by lia. f_equal. rewrite <- seq_shift, map_map. reflexivity.
Qed.
Lemma rsum_perm l l' : Permutation l l' -> rsum l = rsum l'.
Proof. induction 1; simpl; lra. Qed.
Lemma sqd_rearranged d order x y : Permutation order (seq 0 d) -> length x = d -> length y = d ->
  sqd (map (fun k => nth k x 0) order) (map (fun k => nth k y 0) order) = sqd x y.
Proof.
  intros P Hx Hy. rewrite (sqd_index d x y) by auto. 
  transitivity (rsum (map (fun k => (nth k x 0 - nth k y 0) * (nth k x 0 - nth k y 0)) order)).
  - unfold sqd. clear. induction order as [|k o IH]; simpl; auto. rewrite IH. reflexivity.
  - apply rsum_perm, Permutation_map, P.
Qed.

(** condensing *)
Definition push (x : list R) (l : list (list R)) : list (list R) :=
  match l with [] => [x] | y :: _ => if row_dec x y then l else x :: l end.
Lemma condense_head x t : exists u, condense (x :: t) = x :: u.
Proof.
  revert x. induction t as [|y t IH]; intros x; [exists []; reflexivity|]. destruct (IH y) as (u & Eu).
  change (condense (x :: y :: t)) with (if row_dec x y then condense (y :: t) else x :: condense (y :: t)).
  destruct (row_dec x y) as [->|]; eauto.
Qed.
Lemma condense_push x t : condense (x :: t) = push x (condense t).
Proof.
  destruct t as [|y t]; [reflexivity|]. destruct (condense_head y t) as (u & Eu).
  change (condense (x :: y :: t)) with (if row_dec x y then condense (y :: t) else x :: condense (y :: t)).
  rewrite Eu. simpl. reflexivity.
Qed.
Lemma push_twice x l : push x (push x l) = push x l.
Proof.
  destruct l as [|y l]; simpl.
  - destruct (row_dec x x); congruence.
  - destruct (row_dec x y) as [->|n]; simpl; [destruct (row_dec y y); congruence|destruct (row_dec x x); congruence].
Qed.
Lemma al_flip {A B} (R : A -> B -> Prop) s t : al R s t -> al (fun b a => R a b) t s.
Proof. induction 1; [apply al_one|apply al_r|apply al_l|apply al_d]; auto. Qed.
Lemma al_condense s : s <> [] -> al eq s (condense s).
Proof.
  induction s as [|x s IH]; intros H; [congruence|]. destruct s as [|y s]; [constructor; auto|].
  specialize (IH ltac:(discriminate)). change (condense (x :: y :: s)) with (if row_dec x y then condense (y :: s) else x :: condense (y :: s)).
  destruct (row_dec x y) as [->|n]; [|apply al_d; auto].
  destruct (condense_head y s) as (u & Eu). rewrite Eu in *. apply al_l; auto.
Qed.
Lemma al_eq s t : s <> [] -> t <> [] -> (al eq s t <-> condense s = condense t).
Proof.
  intros Hs Ht. split.
  - clear. induction 1 as [a b H|a b s t H H0 IH|a b s t H H0 IH|a b s t H H0 IH]; subst; auto.
    + rewrite (condense_push b s), IH, (condense_push b t), push_twice. reflexivity.
    + rewrite (condense_push b t), <- IH, (condense_push b s), push_twice. reflexivity.
    + rewrite !condense_push, IH. reflexivity.
  - intros K. pose proof (al_condense s Hs) as A1. pose proof (al_flip _ _ _ (al_condense t Ht)) as A2. rewrite <- K in A2.
    eapply (al_compose eq (fun b a => a = b) eq); [|apply Nat.lt_succ_diag_r|exact A1|exact A2]. intros; congruence.
Qed.

(** the diagonal *)
Definition diag (k n : nat) : list cell := map (fun t => (t, t)) (seq k n).
Lemma diag_path n A : (0 < n)%nat -> (forall i, A i i = true) -> warping_path n n A (diag 0 n).
Proof.
  intros Hn HA. unfold warping_path, first_is, last_is, diag. rewrite map_length, seq_length, !nth_error_map.
  rewrite !(nth_error_nth' (seq 0 n) 0%nat) by (rewrite seq_length; lia). rewrite !seq_nth by lia. split; [reflexivity|]. split; [reflexivity|]. split.
  - generalize 0%nat. induction n as [|[|n] IH]; intros a; simpl; auto. split; [|apply IH; lia]. unfold move. simpl. lia.
  - intros i j Hin. apply in_map_iff in Hin. destruct Hin as (t & Et & _). inversion Et; subst. auto.
Qed.
Lemma diag_only n p : (0 < n)%nat -> warping_path n n (band n n 0) p -> p = diag 0 n.
Proof.
  intros Hn (F & La & Li & Al).
  assert (D : forall i j, In (i, j) p -> i = j).
  { intros i j Hin. specialize (Al i j Hin). unfold band in Al. apply andb_true_iff in Al. rewrite !Z.leb_le in Al. lia. }
  assert (G : forall p k, (forall i j, In (i, j) p -> i = j) -> linked move p -> first_is p (k, k) -> p = diag k (length p)).
  { clear. induction p as [|[i j] p IH]; intros k HD Hl HF; [reflexivity|]. unfold first_is in HF. simpl in HF. inversion HF; subst i j.
    unfold diag. simpl. f_equal. destruct p as [|[i j] p]; [reflexivity|]. destruct Hl as [Mv Hl].
    pose proof (HD i j ltac:(right; left; auto)). subst j. apply IH; [intros; apply HD; right; auto|auto|].
    unfold move in Mv. simpl in Mv. unfold first_is. simpl. repeat f_equal; lia. }
  assert (E : exists l, p = diag 0 (S l)).
  { pose proof (G p 0%nat D Li F) as E. destruct p as [|c p]; [discriminate|]. exists (length p). exact E. }
  destruct E as (l & ->). unfold last_is, diag in La |- *. rewrite map_length, seq_length, nth_error_map in La.
  rewrite (nth_error_nth' (seq 0 (S l)) 0%nat) in La by (rewrite seq_length; lia). rewrite seq_nth in La by lia. simpl in La. inversion La.
  do 2 f_equal. lia.
Qed.
Lemma along_diag s1 s2 n : along (costs s1 s2) (diag 0 n) = map (fun t => sqd (nth t s1 []) (nth t s2 [])) (seq 0 n).
Proof. unfold along, diag. rewrite map_map. reflexivity. Qed.
Lemma gen_diag agg E d s1 s2 g r s A v : computes agg E -> real_series d s1 -> real_series d s2 -> length s1 = length s2 ->
  not_itakura g s -> positive_slope s -> constraint (length s1) (length s2) g r s A ->
  E (series_of s1) (series_of s2) g r s = Ok (XR v) ->
  v <= sqrt (agg (map (fun t => sqd (nth t s1 []) (nth t s2 [])) (seq 0 (length s1)))) /\
  (r = Some 0%Z -> v = sqrt (agg (map (fun t => sqd (nth t s1 []) (nth t s2 [])) (seq 0 (length s1))))).
Proof.
  intros HE H1 H2 EL HI Hs HC Hv. destruct (HE d s1 s2 g r s A H1 H2 Hs HC) as (w & Ew & Wn & [(p & Hp & Ep) O]).
  rewrite Ew in Hv. apply Ok_inj, XR_inj in Hv. subst v. rewrite <- EL in *. pose proof (real_len d s1 H1) as L1.
  assert (DG := constraint_diag _ _ _ _ _ HI HC). split.
  - apply sqrt_le_1_alt. rewrite <- (along_diag s1 s2). apply O. apply diag_path; auto.
  - intros ->. f_equal. rewrite <- (along_diag s1 s2), <- Ep. do 2 f_equal. apply diag_only; auto.
    assert (A = band (length s1) (length s1) 0); [|subst; auto]. destruct HI as [Hg Hi]. unfold constraint in HC.
    destruct g; try contradiction; try (destruct Hi as [Hi|Hi]; [discriminate|subst s]); try congruence; destruct HC as [_ ->]; reflexivity.
Qed.

(** distances between vectors *)
Lemma minkowski {A} (f g : A -> R) l :
  sqrt (rsum (map (fun x => (f x + g x) * (f x + g x)) l)) <= sqrt (rsum (map (fun x => f x * f x) l)) + sqrt (rsum (map (fun x => g x * g x) l)).
Proof.
  pose proof (cauchy_schwarz f g l) as CS. unfold sq in CS.
  set (P := rsum (map (fun x => f x * g x) l)) in *. set (X := rsum (map (fun x => f x * f x) l)) in *. set (Y := rsum (map (fun x => g x * g x) l)) in *.
  assert (EX : rsum (map (fun x => (f x + g x) * (f x + g x)) l) = X + Y + 2 * P).
  { unfold X, Y, P. clear. induction l as [|a l IH]; simpl; [ring|]. rewrite IH. ring. }
  assert (HX : 0 <= X) by (apply rsum_nonneg; intros v Hv; apply in_map_iff in Hv; destruct Hv as (w & <- & _); apply Rle_0_sqr).
  assert (HY : 0 <= Y) by (apply rsum_nonneg; intros v Hv; apply in_map_iff in Hv; destruct Hv as (w & <- & _); apply Rle_0_sqr).
  rewrite EX. pose proof (sqrt_pos X) as SX. pose proof (sqrt_pos Y) as SY.
  rewrite <- (sqrt_square (sqrt X + sqrt Y)) by lra. apply sqrt_le_1_alt.
  assert (QX := sqrt_sqrt X HX). assert (QY := sqrt_sqrt Y HY).
  assert (P <= sqrt X * sqrt Y).
  { destruct (Rle_dec P 0) as [K|K]; [eapply Rle_trans; [exact K|apply Rmult_le_pos; auto]|].
    apply Rsqr_incr_0_var; [|apply Rmult_le_pos; auto]. unfold Rsqr.
    replace (sqrt X * sqrt Y * (sqrt X * sqrt Y)) with ((sqrt X * sqrt X) * (sqrt Y * sqrt Y)) by ring. rewrite QX, QY. exact CS. }
  nra.
Qed.
Lemma vector_triangle d x y z : length x = d -> length y = d -> length z = d -> sqrt (sqd x z) <= sqrt (sqd x y) + sqrt (sqd y z).
Proof.
  intros Hx Hy Hz. rewrite (sqd_index d x z), (sqd_index d x y), (sqd_index d y z) by auto.
  eapply Rle_trans; [|apply minkowski]. apply Req_le. f_equal. f_equal. apply map_ext. intros k. ring.
Qed.
Lemma euclidean_triangle d x y z : real_series d x -> real_series d y -> real_series d z -> length x = length y -> length y = length z ->
  euclidean x z <= euclidean x y + euclidean y z.
Proof.
  intros Hx Hy Hz E1 E2. unfold euclidean. rewrite <- E1 in *.
  set (a := fun t => sqrt (sqd (nth t x []) (nth t y []))). set (b := fun t => sqrt (sqd (nth t y []) (nth t z []))).
  eapply Rle_trans; [apply sqrt_le_1_alt|eapply Rle_trans; [apply (minkowski a b)|apply Req_le; f_equal; f_equal]].
  - apply rsum_map_le. intros t Ht. apply in_seq in Ht. pose proof (sqd_nonneg (nth t x []) (nth t z [])) as N.
    rewrite <- (sqrt_sqrt _ N) at 1. pose proof (vector_triangle d (nth t x []) (nth t y []) (nth t z []) 
      ltac:(apply (real_row d x); auto; lia) ltac:(apply (real_row d y); auto; lia) ltac:(apply (real_row d z); auto; lia)) as V.
    pose proof (sqrt_pos (sqd (nth t x []) (nth t z []))). fold (a t) (b t) in V. nra.
  - f_equal. apply map_ext. intros t. unfold a. apply sqrt_sqrt, sqd_nonneg.
  - f_equal. apply map_ext. intros t. unfold b. apply sqrt_sqrt, sqd_nonneg.
Qed.
(** the cells of an alignment that reaches the Frechet distance *)
Lemma frechet_al d s1 s2 v : real_series d s1 -> real_series d s2 -> frechet (series_of s1) (series_of s2) GcNone None None = Ok (XR v) ->
  0 <= v /\ forall u, 0 <= u -> (v <= u <-> al (fun x y => length x = d /\ length y = d /\ sqrt (sqd x y) <= u) s1 s2).
Proof.
  intros H1 H2 Hv. destruct (frechet_computes d s1 s2 GcNone None None everywhere H1 H2 I eq_refl) as (w & Ew & Wn & [(p & Hp & Ep) O]).
  rewrite Ew in Hv. apply Ok_inj, XR_inj in Hv. subst v. split; [apply sqrt_pos|]. intros u Hu.
  pose proof H1 as (_ & N1 & _). pose proof H2 as (_ & N2 & _). pose proof (real_len d s1 H1) as L1. pose proof (real_len d s2 H2) as L2.
  rewrite <- (wpath_al _ s1 s2 [] [] N1 N2). split.
  - intros K. exists p. split; auto. intros i j Hin. destruct (wpath_bounds _ _ _ _ L1 L2 Hp i j Hin) as [Hi Hj].
    split; [apply (real_row d s1); auto|]. split; [apply (real_row d s2); auto|]. eapply Rle_trans; [|exact K]. apply sqrt_le_1_alt.
    rewrite <- Ep. apply rtop_ge. apply in_map_iff. exists (i, j). auto.
  - intros (q & Hq & Hc). pose proof (O q Hq) as K. rewrite <- (sqrt_square u) by auto. apply sqrt_le_1_alt. eapply Rle_trans; [exact K|].
    apply rtop_le; [nra|]. intros x Hx. apply in_map_iff in Hx. destruct Hx as ([i j] & <- & Hin). simpl. destruct (Hc i j Hin) as (_ & _ & C).
    unfold costs. pose proof (sqd_nonneg (nth i s1 []) (nth j s2 [])) as N. rewrite <- (sqrt_sqrt _ N). 
    pose proof (sqrt_pos (sqd (nth i s1 []) (nth j s2 []))). nra.
Qed.
Lemma path_len n m A p : (0 < n)%nat -> (0 < m)%nat -> warping_path n m A p -> (length p <= n + m - 1)%nat.
Proof.
  intros Hn Hm Hp. apply (wpath_rpath n m) in Hp; auto. apply rpath_len in Hp. rewrite rev_length in Hp. lia.
Qed.

(** concrete distances of integer series *)
Lemma dtw_int d s1 s2 v : real_series d (zseries s1) -> real_series d (zseries s2) -> (0 <= v)%Z ->
  elastic_generic (N:=Znum) comb_dtw (zlift s1) (zlift s2) 0 None None = Ok (Some v) ->
  dtw (series_of (zseries s1)) (series_of (zseries s2)) GcNone None None = Ok (XR (sqrt (IZR v))).
Proof.
  intros H1 H2 Hv. unfold dtw, elastic. rewrite (validated_finite Xnum xnn xfin Xlaws d) by (apply lift_finite; auto). cbn [gc_code bind].
  unfold elastic_generic.
  assert (LL : forall s, length (lift (zseries s)) = length s /\ length (zlift s) = length s).
  { intros s. unfold lift, zseries, zlift. split; [etransitivity; [apply map_length|]|]; apply map_length. }
  destruct (LL s1) as [A1 B1]. destruct (LL s2) as [A2 B2]. rewrite A1, A2.
  replace (length (zlift s1)) with (length s1) by (symmetry; exact B1). replace (length (zlift s2)) with (length s2) by (symmetry; exact B2).
  destruct (compute_mask _ _ _ _ _) as [mask|e]; cbn [bind]; [|discriminate].
  intros K. apply Ok_inj in K. simpl in K. 
  pose proof (z_acc (length s1) (length s2) _ _ mask (z_dists s1 s2) (length s1 - 1) (length s2 - 1)) as HA. rewrite HA, K. f_equal.
  apply xsqrt_nn. apply IZR_le in Hv. exact Hv.
Qed.
Ltac zreal := split; [lia|]; split; [discriminate|]; intros r Hr; repeat destruct Hr as [<-|Hr]; try contradiction; reflexivity.

(** ** C177: moving, scaling, rearranging and reversing the series *)
Theorem C177_similarity : forall d d' k f s1 s2 g r slope A, real_series d s1 -> real_series d s2 -> positive_slope slope ->
  constraint (length s1) (length s2) g r slope A -> (0 < d')%nat -> 0 <= k -> similarity d d' k f ->
  (exists v, 0 <= v /\ dtw (series_of s1) (series_of s2) g r slope = Ok (XR v) /\
    dtw (series_of (map f s1)) (series_of (map f s2)) g r slope = Ok (XR (k * v))) /\
  (exists v, 0 <= v /\ frechet (series_of s1) (series_of s2) g r slope = Ok (XR v) /\
    frechet (series_of (map f s1)) (series_of (map f s2)) g r slope = Ok (XR (k * v))).
Proof.
  intros d d' k f s1 s2 g r s A H1 H2 Hs HC Hd Hk Hf.
  destruct (dtw_computes d s1 s2 g r s A H1 H2 Hs HC) as (v & Ev & Vn & _). destruct (frechet_computes d s1 s2 g r s A H1 H2 Hs HC) as (w & Ew & Wn & _).
  split; [exists (sqrt v)|exists (sqrt w)]; (split; [apply sqrt_pos|]; split; [auto|]).
  - eapply (gen_similarity rsum dtw sum_laws dtw_computes); eauto.
  - eapply (gen_similarity rtop frechet top_laws frechet_computes); eauto.
Qed.
Print Assumptions C177_similarity.
Lemma by_similarity d d' k f s1 s2 g r s A : real_series d s1 -> real_series d s2 -> positive_slope s ->
  constraint (length s1) (length s2) g r s A -> (0 < d')%nat -> 0 <= k -> similarity d d' k f ->
  exists v w, dtw (series_of s1) (series_of s2) g r s = Ok (XR v) /\ frechet (series_of s1) (series_of s2) g r s = Ok (XR w) /\
    dtw (series_of (map f s1)) (series_of (map f s2)) g r s = Ok (XR (k * v)) /\
    frechet (series_of (map f s1)) (series_of (map f s2)) g r s = Ok (XR (k * w)).
Proof.
  intros H1 H2 Hs HC Hd Hk Hf. destruct (C177_similarity d d' k f s1 s2 g r s A H1 H2 Hs HC Hd Hk Hf) as [(v & _ & V1 & V2) (w & _ & W1 & W2)].
  exists v, w. auto.
Qed.
Theorem C177_shift : forall d t s1 s2 g r slope A, real_series d s1 -> real_series d s2 -> positive_slope slope ->
  constraint (length s1) (length s2) g r slope A -> length t = d ->
  dtw (series_of (shifted t s1)) (series_of (shifted t s2)) g r slope = dtw (series_of s1) (series_of s2) g r slope /\
  frechet (series_of (shifted t s1)) (series_of (shifted t s2)) g r slope = frechet (series_of s1) (series_of s2) g r slope.
Proof.
  intros d t s1 s2 g r s A H1 H2 Hs HC Ht. pose proof H1 as (Hd & _).
  destruct (by_similarity d d 1 (fun x => map (fun p => fst p + snd p) (combine x t)) s1 s2 g r s A H1 H2 Hs HC Hd ltac:(lra)) as (v & w & V1 & W1 & V2 & W2).
  { intros x y Hx Hy. split; [rewrite map_length, combine_length; lia|]. rewrite sqd_shift by lia. ring. }
  unfold shifted. rewrite V1, W1, V2, W2, !Rmult_1_l. auto.
Qed.
Print Assumptions C177_shift.
Theorem C177_scale : forall d a s1 s2 g r slope A, real_series d s1 -> real_series d s2 -> positive_slope slope ->
  constraint (length s1) (length s2) g r slope A ->
  exists v w, dtw (series_of s1) (series_of s2) g r slope = Ok (XR v) /\ frechet (series_of s1) (series_of s2) g r slope = Ok (XR w) /\
  dtw (series_of (scaled a s1)) (series_of (scaled a s2)) g r slope = Ok (XR (Rabs a * v)) /\
  frechet (series_of (scaled a s1)) (series_of (scaled a s2)) g r slope = Ok (XR (Rabs a * w)).
Proof.
  intros d a s1 s2 g r s A H1 H2 Hs HC. pose proof H1 as (Hd & _).
  apply (by_similarity d d (Rabs a) (map (fun v => a * v)) s1 s2 g r s A H1 H2 Hs HC Hd (Rabs_pos a)).
  intros x y Hx Hy. split; [rewrite map_length; auto|]. rewrite sqd_scaled. f_equal. rewrite <- Rabs_mult. symmetry. apply Rabs_pos_eq. apply Rle_0_sqr.
Qed.
Print Assumptions C177_scale.
Theorem C177_features : forall d order s1 s2 g r slope A, real_series d s1 -> real_series d s2 -> positive_slope slope ->
  constraint (length s1) (length s2) g r slope A -> Permutation order (seq 0 d) ->
  dtw (series_of (rearranged order s1)) (series_of (rearranged order s2)) g r slope = dtw (series_of s1) (series_of s2) g r slope /\
  frechet (series_of (rearranged order s1)) (series_of (rearranged order s2)) g r slope = frechet (series_of s1) (series_of s2) g r slope.
Proof.
  intros d o s1 s2 g r s A H1 H2 Hs HC P. pose proof H1 as (Hd & _).
  destruct (by_similarity d d 1 (fun x => map (fun k => nth k x 0) o) s1 s2 g r s A H1 H2 Hs HC Hd ltac:(lra)) as (v & w & V1 & W1 & V2 & W2).
  { intros x y Hx Hy. split; [rewrite map_length; apply Permutation_length in P; rewrite seq_length in P; auto|]. rewrite (sqd_rearranged d) by auto. ring. }
  unfold rearranged. rewrite V1, W1, V2, W2, !Rmult_1_l. auto.
Qed.
Print Assumptions C177_features.
Theorem C177_reverse : forall d s1 s2 g r slope A, real_series d s1 -> real_series d s2 -> positive_slope slope ->
  constraint (length s1) (length s2) g r slope A ->
  dtw (series_of (rev s1)) (series_of (rev s2)) g r slope = dtw (series_of s1) (series_of s2) g r slope /\
  frechet (series_of (rev s1)) (series_of (rev s2)) g r slope = frechet (series_of s1) (series_of s2) g r slope.
Proof.
  intros d s1 s2 g r s A H1 H2 Hs HC. split.
  - eapply (gen_reverse rsum dtw sum_laws dtw_computes); eauto.
  - eapply (gen_reverse rtop frechet top_laws frechet_computes); eauto.
Qed.
Print Assumptions C177_reverse.
(** in particular the masks are unchanged by a half turn *)
Theorem C177_itakura : forall n m s A, (0 < s)%Q -> itakura_mask n m s = Ok A ->
  forall i j, (i < n)%nat -> (j < m)%nat -> A (n - 1 - i)%nat (m - 1 - j)%nat = A i j.
Proof. intros n m s A Hs H i j Hi Hj. eapply itakura_turn; eauto; lia. Qed.
Print Assumptions C177_itakura.
Example C177_nontrivial : exists s1 s2 A, real_series 2 s1 /\ real_series 2 s2 /\ constraint (length s1) (length s2) GcItakura None (Some (3#2)%Q) A /\
  A 0%nat 1%nat = false /\ s1 <> rev s1 /\ rearranged [1; 0]%nat s1 <> s1.
Proof.
  exists (zseries [[0; 1]; [2; 0]; [5; 1]]%Z), (zseries [[1; 1]; [1; 0]; [4; 0]]%Z). eexists. split; [zreal|]. split; [zreal|]. split; [reflexivity|].
  split; [reflexivity|]. split; [intros K; inversion K; lra|]. intros K. inversion K. lra.
Qed.

(** ** C178: DTW and the Euclidean distance *)
Theorem C178_bound : forall d s1 s2 g r slope A v w, real_series d s1 -> real_series d s2 -> length s1 = length s2 ->
  not_itakura g slope -> positive_slope slope -> constraint (length s1) (length s2) g r slope A ->
  dtw (series_of s1) (series_of s2) g r slope = Ok (XR v) -> frechet (series_of s1) (series_of s2) g r slope = Ok (XR w) ->
  v <= euclidean s1 s2 /\ w <= furthest s1 s2.
Proof.
  intros d s1 s2 g r s A v w H1 H2 EL HI Hs HC Hv Hw. split.
  - apply (gen_diag rsum dtw d s1 s2 g r s A v dtw_computes H1 H2 EL HI Hs HC Hv).
  - apply (gen_diag rtop frechet d s1 s2 g r s A w frechet_computes H1 H2 EL HI Hs HC Hw).
Qed.
Print Assumptions C178_bound.
Theorem C178_radius_zero : forall d s1 s2 g slope A, real_series d s1 -> real_series d s2 -> length s1 = length s2 ->
  not_itakura g slope -> positive_slope slope -> constraint (length s1) (length s2) g (Some 0%Z) slope A ->
  dtw (series_of s1) (series_of s2) g (Some 0%Z) slope = Ok (XR (euclidean s1 s2)) /\
  frechet (series_of s1) (series_of s2) g (Some 0%Z) slope = Ok (XR (furthest s1 s2)).
Proof.
  intros d s1 s2 g s A H1 H2 EL HI Hs HC.
  destruct (dtw_computes d s1 s2 g _ s A H1 H2 Hs HC) as (v & Ev & Vn & _). destruct (frechet_computes d s1 s2 g _ s A H1 H2 Hs HC) as (w & Ew & Wn & _).
  split; [rewrite Ev|rewrite Ew]; do 2 f_equal.
  - apply (gen_diag rsum dtw d s1 s2 g _ s A _ dtw_computes H1 H2 EL HI Hs HC Ev). reflexivity.
  - apply (gen_diag rtop frechet d s1 s2 g _ s A _ frechet_computes H1 H2 EL HI Hs HC Ew). reflexivity.
Qed.
Print Assumptions C178_radius_zero.
(** for any lengths and constraint, DTW is at most the Frechet distance times the square root of the longest possible alignment *)
Theorem C178_frechet : forall d s1 s2 g r slope A v w, real_series d s1 -> real_series d s2 -> positive_slope slope ->
  constraint (length s1) (length s2) g r slope A ->
  dtw (series_of s1) (series_of s2) g r slope = Ok (XR v) -> frechet (series_of s1) (series_of s2) g r slope = Ok (XR w) ->
  w <= v <= sqrt (INR (length s1 + length s2 - 1)) * w.
Proof.
  intros d s1 s2 g r s A v w H1 H2 Hs HC Hv Hw.
  destruct (dtw_computes d s1 s2 g r s A H1 H2 Hs HC) as (v2 & Ev & Vn & [(p & Hp & Ep) Ov]). destruct (frechet_computes d s1 s2 g r s A H1 H2 Hs HC) as (w2 & Ew & Wn & [(q & Hq & Eq) Ow]).
  rewrite Ev in Hv. apply Ok_inj, XR_inj in Hv. subst v. rewrite Ew in Hw. apply Ok_inj, XR_inj in Hw. subst w.
  assert (AN : forall p x, In x (along (costs s1 s2) p) -> 0 <= x).
  { intros p' x Hx. apply in_map_iff in Hx. destruct Hx as (c & <- & _). apply sqd_nonneg. }
  split.
  - apply sqrt_le_1_alt. eapply Rle_trans; [apply (Ow p Hp)|]. rewrite <- Ep. apply rtop_le; [apply rsum_nonneg; apply AN|].
    generalize (AN p). generalize (along (costs s1 s2) p). clear. induction l as [|a l IH]; intros HN x Hx; [destruct Hx|]. simpl.
    assert (0 <= a) by (apply HN; left; auto). assert (0 <= rsum l) by (apply rsum_nonneg; intros; apply HN; right; auto).
    destruct Hx as [<-|Hx]; [lra|]. assert (x <= rsum l) by (apply IH; auto; intros; apply HN; right; auto). lra.
  - rewrite <- sqrt_mult by (auto; apply pos_INR). apply sqrt_le_1_alt. eapply Rle_trans; [apply (Ov q Hq)|].
    pose proof (path_len _ _ _ _ (real_len d s1 H1) (real_len d s2 H2) Hq) as PL.
    apply Rle_trans with (INR (length q) * w2); [|apply Rmult_le_compat_r; auto; apply le_INR; auto].
    replace (length q) with (length (along (costs s1 s2) q)) by apply map_length.
    assert (B : forall x, In x (along (costs s1 s2) q) -> x <= w2) by (intros x Hx; rewrite <- Eq; apply rtop_ge; auto).
    revert B. generalize (along (costs s1 s2) q). clear. induction l as [|a l IH]; intros B; [simpl; lra|].
    change (length (a :: l)) with (S (length l)). rewrite S_INR. simpl. pose proof (B a ltac:(left; auto)). pose proof (IH ltac:(intros; apply B; right; auto)). lra.
Qed.
Print Assumptions C178_frechet.
Example C178_nontrivial : exists s1 s2, real_series 1 s1 /\ real_series 1 s2 /\ length s1 = length s2 /\
  constraint (length s1) (length s2) GcSakoeChiba (Some 0%Z) None (band (length s1) (length s2) 0) /\
  dtw (series_of s1) (series_of s2) GcNone None None = Ok (XR (sqrt 1)) /\ euclidean s1 s2 = sqrt 2.
Proof.
  exists (zseries [[0]; [1]; [2]]%Z), (zseries [[0]; [0]; [1]]%Z). split; [zreal|]. split; [zreal|]. split; [reflexivity|]. split; [split; [cbn; lia|reflexivity]|]. split.
  - apply (dtw_int 1 [[0]; [1]; [2]]%Z [[0]; [0]; [1]]%Z 1); [zreal|zreal|lia|vm_compute; reflexivity].
  - unfold euclidean. f_equal. unfold sqd. simpl. ring.
Qed.

(** ** C179: when the distance is zero *)
Theorem C179_zero : forall d s1 s2 v w, real_series d s1 -> real_series d s2 ->
  dtw (series_of s1) (series_of s2) GcNone None None = Ok (XR v) -> frechet (series_of s1) (series_of s2) GcNone None None = Ok (XR w) ->
  (v = 0 <-> condense s1 = condense s2) /\ (w = 0 <-> condense s1 = condense s2).
Proof.
  intros d s1 s2 v w H1 H2 Hv Hw. pose proof H1 as (_ & N1 & _). pose proof H2 as (_ & N2 & _).
  rewrite <- (al_eq s1 s2 N1 N2). split.
  - eapply (gen_zero rsum dtw sum_laws dtw_computes); eauto.
  - eapply (gen_zero rtop frechet top_laws frechet_computes); eauto.
Qed.
Print Assumptions C179_zero.
Example C179_nontrivial : exists s1 s2, real_series 1 s1 /\ real_series 1 s2 /\ s1 <> s2 /\
  dtw (series_of s1) (series_of s2) GcNone None None = Ok (XR 0).
Proof.
  exists (zseries [[0]; [1]; [1]; [0]]%Z), (zseries [[0]; [0]; [1]; [0]; [0]]%Z). split; [zreal|]. split; [zreal|]. split; [intros K; inversion K; lra|].
  rewrite <- sqrt_0. apply (dtw_int 1 [[0]; [1]; [1]; [0]]%Z [[0]; [0]; [1]; [0]; [0]]%Z 0); [zreal|zreal|lia|vm_compute; reflexivity].
Qed.

(** ** C180: the triangle inequality *)
Theorem C180_refuted : ~ forall d x y z u v w, real_series d x -> real_series d y -> real_series d z ->
  dtw (series_of x) (series_of z) GcNone None None = Ok (XR u) -> dtw (series_of x) (series_of y) GcNone None None = Ok (XR v) ->
  dtw (series_of y) (series_of z) GcNone None None = Ok (XR w) -> u <= v + w.
Proof.
  intros H.
  specialize (H 1%nat (zseries [[0]]%Z) (zseries [[0]; [1]]%Z) (zseries [[1]; [1]; [1]; [1]; [1]]%Z) (sqrt 5) (sqrt 1) (sqrt 1) ltac:(zreal) ltac:(zreal) ltac:(zreal)
    ltac:(apply (dtw_int 1 _ _ 5); [zreal|zreal|lia|vm_compute; reflexivity])
    ltac:(apply (dtw_int 1 _ _ 1); [zreal|zreal|lia|vm_compute; reflexivity])
    ltac:(apply (dtw_int 1 _ _ 1); [zreal|zreal|lia|vm_compute; reflexivity])).
  rewrite sqrt_1 in H. assert (S5 := sqrt_sqrt 5 ltac:(lra)). pose proof (sqrt_pos 5). nra.
Qed.
Print Assumptions C180_refuted.
Theorem C180_frechet : forall d x y z u v w, real_series d x -> real_series d y -> real_series d z ->
  frechet (series_of x) (series_of z) GcNone None None = Ok (XR u) -> frechet (series_of x) (series_of y) GcNone None None = Ok (XR v) ->
  frechet (series_of y) (series_of z) GcNone None None = Ok (XR w) -> u <= v + w.
Proof.
  intros d x y z u v w Hx Hy Hz Hu Hv Hw.
  destruct (frechet_al d x z u Hx Hz Hu) as [U0 U]. destruct (frechet_al d x y v Hx Hy Hv) as [V0 V]. destruct (frechet_al d y z w Hy Hz Hw) as [W0 W].
  apply U; [lra|]. eapply al_compose; [|apply Nat.lt_succ_diag_r|apply (V v); [auto|apply Rle_refl]|apply (W w); [auto|apply Rle_refl]].
  intros a b c (La & Lb & Hab) (_ & Lc & Hbc). split; [auto|]. split; [auto|]. pose proof (vector_triangle d a b c La Lb Lc). lra.
Qed.
Print Assumptions C180_frechet.
Theorem C180_radius_zero : forall d x y z g slope A, real_series d x -> real_series d y -> real_series d z ->
  length x = length y -> length y = length z -> not_itakura g slope -> positive_slope slope ->
  constraint (length x) (length x) g (Some 0%Z) slope A ->
  exists u v w, dtw (series_of x) (series_of z) g (Some 0%Z) slope = Ok (XR u) /\ dtw (series_of x) (series_of y) g (Some 0%Z) slope = Ok (XR v) /\
  dtw (series_of y) (series_of z) g (Some 0%Z) slope = Ok (XR w) /\ u <= v + w.
Proof.
  intros d x y z g s A Hx Hy Hz E1 E2 HI Hs HC. exists (euclidean x z), (euclidean x y), (euclidean y z).
  split; [|split; [|split]].
  - apply (C178_radius_zero d x z g s A); auto; [congruence|]. rewrite <- E2, <- E1. auto.
  - apply (C178_radius_zero d x y g s A); auto. rewrite <- E1. auto.
  - apply (C178_radius_zero d y z g s A); auto. rewrite <- E2, <- E1. auto.
  - apply (euclidean_triangle d); auto.
Qed.
Print Assumptions C180_radius_zero.
Example C180_nontrivial : exists x y z, real_series 1 x /\ real_series 1 y /\ real_series 1 z /\ length x = length y /\ length y = length z /\
  not_itakura GcSakoeChiba None /\ constraint (length x) (length x) GcSakoeChiba (Some 0%Z) None (band 2 2 0) /\ x <> y /\ y <> z.
Proof.
  exists (zseries [[0]; [1]]%Z), (zseries [[1]; [1]]%Z), (zseries [[2]; [0]]%Z). split; [zreal|]. split; [zreal|]. split; [zreal|]. split; [reflexivity|]. split; [reflexivity|].
  split; [split; [discriminate|left; reflexivity]|]. split; [split; [cbn; lia|reflexivity]|]. split; intros K; inversion K; lra.
Qed.

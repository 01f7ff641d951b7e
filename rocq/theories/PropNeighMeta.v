(** C220: the nearest neighbours under a reordering of the training series and a similarity of all series. *)
From Coq Require Import Bool List Arith Lia ZArith QArith Reals Lra Permutation.
From Verif Require Import Num NumLaws Py Series Masks DtwModel Spec SpecDtw RList RealSeries IntSeries NeighModel PropNeigh PropMeta.
Import ListNotations.
Local Open Scope nat_scope.

(** ** Specification *)
(** entry [i] is entry [nth i o] of [l] *)
Definition taken {A} (o : list nat) (x : A) (l : list A) : list A := map (fun i => nth i l x) o.
(** the number returned by [dtw] or [frechet] *)
Inductive elastic_metric := ByDtw | ByFrechet.
Definition value (m : elastic_metric) (g : gc_name) (r : option Z) (sl : option Q) (x y : list (list R)) : R :=
  match (match m with ByDtw => dtw (series_of x) (series_of y) g r sl | ByFrechet => frechet (series_of x) (series_of y) g r sl end) with
  | Ok (XR v) => v | _ => 0%R end.

(** ** the distances of the [k] nearest are determined *)
Lemma nth_dist row ind t : t < length ind -> nth t (map (fun i => nth i row 0%R) ind) 0%R = nth (nth t ind 0%nat) row 0%R.
Proof.
  intros H. rewrite (nth_indep _ 0%R (nth 0 row 0%R)) by (rewrite map_length; exact H). exact (map_nth (fun i => nth i row 0%R) ind 0 t).
Qed.
Lemma firstn_nth {A} (l : list A) k t x : t < k -> nth t (firstn k l) x = nth t l x.
Proof. revert k t. induction l as [|a l IH]; intros [|k] [|t] H; cbn; auto; try lia. apply IH. lia. Qed.
Lemma nearest_le k row d1 i1 d2 i2 : k_nearest k row d1 i1 -> k_nearest k row d2 i2 -> forall t, t < k -> (nth t d1 0 <= nth t d2 0)%R.
Proof.
  intros (L1 & N1 & B1 & E1 & I1 & M1) (L2 & N2 & B2 & E2 & I2 & M2) t Ht. destruct (Rle_dec (nth t d1 0%R) (nth t d2 0%R)) as [|G]; [assumption|exfalso].
  apply Rnot_le_lt in G. assert (LD1 : length d1 = k) by (rewrite E1, map_length; exact L1). assert (LD2 : length d2 = k) by (rewrite E2, map_length; exact L2).
  assert (V1 : forall t, t < k -> nth t d1 0%R = nth (nth t i1 0%nat) row 0%R) by (intros s Hs; rewrite E1; apply nth_dist; lia).
  assert (V2 : forall t, t < k -> nth t d2 0%R = nth (nth t i2 0%nat) row 0%R) by (intros s Hs; rewrite E2; apply nth_dist; lia).
  assert (INC : incl (firstn (S t) i2) (firstn t i1)).
  { intros p Hp. apply (In_nth _ _ 0) in Hp. destruct Hp as (b & Hb & <-). rewrite firstn_length in Hb. rewrite firstn_nth by lia.
    assert (SM : (nth (nth b i2 0%nat) row 0 < nth t d1 0)%R). { rewrite <- V2 by lia. eapply Rle_lt_trans; [|exact G]. apply I2. lia. }
    destruct (in_dec Nat.eq_dec (nth b i2 0) i1) as [Y|NO].
    - apply (In_nth _ _ 0) in Y. destruct Y as (c & Hc & Ec). rewrite <- Ec. assert (c < t). { destruct (Nat.lt_ge_cases c t); [assumption|exfalso]. assert (Q : (nth t d1 0 <= nth c d1 0)%R) by (apply I1; lia). rewrite (V1 c) in Q by lia. rewrite Ec in Q. lra. }
      rewrite <- (firstn_nth i1 t c 0) by assumption. apply nth_In. rewrite firstn_length. lia.
    - exfalso. assert (Q : (nth (nth t i1 0%nat) row 0 <= nth (nth b i2 0%nat) row 0)%R). { apply M1; [apply nth_In; lia|apply B2, nth_In; lia|exact NO]. }
      rewrite <- V1 in Q by lia. lra. }
  assert (ND : NoDup (firstn (S t) i2)). { rewrite <- (firstn_skipn (S t) i2) in N2. revert N2. generalize (firstn (S t) i2) (skipn (S t) i2). intros a b. induction a as [|x a IH]; [constructor|]. intros H. inversion H as [|? ? X Y]; subst. constructor; [|apply IH, Y]. intros Z. apply X, in_or_app. left. exact Z. }
  pose proof (NoDup_incl_length ND INC) as LL. rewrite !firstn_length in LL. lia.
Qed.
Lemma nearest_dist k row d1 i1 d2 i2 : k_nearest k row d1 i1 -> k_nearest k row d2 i2 -> d1 = d2.
Proof.
  intros H1 H2. assert (L1 : length d1 = k) by (destruct H1 as (A & _ & _ & B & _); rewrite B, map_length; exact A). assert (L2 : length d2 = k) by (destruct H2 as (A & _ & _ & B & _); rewrite B, map_length; exact A).
  apply (nth_ext _ _ 0%R 0%R); [lia|]. intros t Ht. rewrite L1 in Ht. apply Rle_antisym; [exact (nearest_le k row d1 i1 d2 i2 H1 H2 t Ht)|exact (nearest_le k row d2 i2 d1 i1 H2 H1 t Ht)].
Qed.
Lemma nearest_ind k row d1 i1 d2 i2 : NoDup row -> k_nearest k row d1 i1 -> k_nearest k row d2 i2 -> i1 = i2.
Proof.
  intros ND H1 H2. pose proof (nearest_dist k row d1 i1 d2 i2 H1 H2) as E. destruct H1 as (L1 & _ & B1 & E1 & _), H2 as (L2 & _ & B2 & E2 & _).
  apply (nth_ext _ _ 0 0); [lia|]. intros t Ht. apply (proj1 (NoDup_nth row 0%R) ND); [apply B1, nth_In; exact Ht|apply B2, nth_In; lia|].
  rewrite <- !nth_dist by lia. rewrite <- E1, <- E2, E. reflexivity.
Qed.
(** the positions of the reordered row, sent back *)
Lemma nearest_back k c row row' o d' i' : (0 < c)%R -> Permutation o (seq 0 (length row)) -> row' = map (Rmult c) (taken o 0%R row) ->
  k_nearest k row' d' i' -> k_nearest k row (map (fun i => nth i row 0%R) (taken i' 0 o)) (taken i' 0 o) /\ d' = map (Rmult c) (map (fun i => nth i row 0%R) (taken i' 0 o)).
Proof.
  intros Hc HP -> (L & N & B & E & I & M). assert (LO : length o = length row) by (rewrite (Permutation_length HP), seq_length; reflexivity).
  assert (NO : NoDup o) by (eapply Permutation_NoDup; [symmetry; exact HP|apply seq_NoDup]).
  assert (BO : forall i, i < length row -> nth i o 0 < length row). { intros i Hi. assert (In (nth i o 0) (seq 0 (length row))) by (eapply Permutation_in; [exact HP|apply nth_In; lia]). apply in_seq in H. lia. }
  unfold taken in *. rewrite !map_length, LO in *.
  assert (V : forall i, i < length row -> nth i (map (Rmult c) (map (fun i => nth i row 0%R) o)) 0%R = (c * nth (nth i o 0%nat) row 0)%R).
  { intros i Hi. rewrite map_map. rewrite (nth_indep _ 0%R (c * nth 0 row 0)%R) by (rewrite map_length; lia). exact (map_nth (fun j => (c * nth j row 0)%R) o 0 i). }
  assert (ED : d' = map (Rmult c) (map (fun i => nth i row 0%R) (map (fun i => nth i o 0) i'))). { rewrite E, !map_map. apply map_ext_in. intros i Hi. rewrite <- map_map. apply V, B, Hi. }
  split; [|exact ED]. split; [rewrite map_length; exact L|]. split.
  { revert N B. clear -NO LO. induction i' as [|x l IH]; intros N B; [constructor|]. inversion N as [|? ? X Y]; subst. cbn [map]. constructor; [|apply IH; [exact Y|intros; apply B; right; assumption]].
    intros Z. apply in_map_iff in Z. destruct Z as (y & Ey & Hy). apply X. replace x with y; [exact Hy|]. apply (proj1 (NoDup_nth o 0) NO); [rewrite LO; apply B; right; exact Hy|rewrite LO; apply B; left; reflexivity|exact Ey]. }
  split. { intros i Hi. apply in_map_iff in Hi. destruct Hi as (j & <- & Hj). apply BO, B, Hj. }
  split; [reflexivity|]. split.
  { intros a b Hab. rewrite map_length in Hab. specialize (I a b). rewrite ED, !map_length in I. rewrite map_length in Hab. specialize (I Hab).
    assert (Q : forall t, nth t (map (Rmult c) (map (fun i => nth i row 0%R) (map (fun i => nth i o 0) i'))) 0%R = (c * nth t (map (fun i => nth i row 0%R) (map (fun i => nth i o 0%nat) i')) 0)%R).
    { intros t. rewrite <- (Rmult_0_r c) at 1. apply map_nth. }
    rewrite !Q in I. apply Rmult_le_reg_l in I; assumption. }
  intros i j Hi Hj NJ. apply in_map_iff in Hi. destruct Hi as (a & <- & Ha).
  assert (Jo : In j o) by (eapply Permutation_in; [symmetry; exact HP|apply in_seq; lia]). apply (In_nth _ _ 0) in Jo. destruct Jo as (b & Hb & <-). rewrite LO in Hb.
  specialize (M a b Ha Hb). rewrite (V a (B a Ha)), (V b Hb) in M. apply Rmult_le_reg_l with c; [exact Hc|]. apply M. intros Z. apply NJ. apply in_map_iff. exists b. auto.
Qed.

(** ** C220 *)
Lemma value_similar m d d' k f g r sl A x y : real_series d x -> real_series d y -> positive_slope sl -> constraint (length x) (length y) g r sl A ->
  (0 < d')%nat -> (0 <= k)%R -> similarity d d' k f -> value m g r sl (map f x) (map f y) = (k * value m g r sl x y)%R.
Proof.
  intros Hx Hy Hs HC Hd Hk Hf. destruct (C177_similarity d d' k f x y g r sl A Hx Hy Hs HC Hd Hk Hf) as ((v & _ & V1 & V2) & (w & _ & W1 & W2)).
  unfold value. destruct m; [rewrite V1, V2|rewrite W1, W2]; reflexivity.
Qed.
(** Let the training series be reordered by [o] and all series, queries included, be moved by a similarity of factor [c].  The distances
    returned are multiplied by [c]; if the distances of a query to the training series are different, the neighbours are the same series.
    numpy may break ties differently in the two searches. *)
Theorem C220_search np np' m g r sl d d' c f train X o k :
  numpy_ok np -> numpy_ok np' -> 1 <= k -> train <> [] -> Permutation o (seq 0 (length train)) ->
  (forall x, In x train \/ In x X -> real_series d x) -> positive_slope sl ->
  (forall x y, In x X -> In y train -> exists A, constraint (length x) (length y) g r sl A) -> 0 < d' -> (0 < c)%R -> similarity d d' c f ->
  exists out out', clf_kneighbors np (value m g r sl) train d (Some X) k = Ok out /\
    clf_kneighbors np' (value m g r sl) (taken o [] (map (map f) train)) d' (Some (map (map f) X)) k = Ok out' /\
    length out = length X /\ length out' = length X /\
    forall q, q < length X ->
      fst (nth q out' ([], [])) = map (Rmult c) (fst (nth q out ([], []))) /\
      (NoDup (map (value m g r sl (nth q X [])) train) -> taken (snd (nth q out' ([], []))) 0 o = snd (nth q out ([], []))).
Proof.
  intros HN HN' Hk Ht HP HR Hs HC Hd Hc Hf.
  assert (LO : length o = length train) by (rewrite (Permutation_length HP), seq_length; reflexivity).
  assert (Ht' : taken o [] (map (map f) train) <> []). { intros Z. apply (f_equal (@length _)) in Z. unfold taken in Z. rewrite map_length, LO in Z. destruct train; [congruence|discriminate]. }
  destruct (C92_query np (value m g r sl) train d X k HN Hk Ht) as (out & E & L & H).
  destruct (C92_query np' (value m g r sl) (taken o [] (map (map f) train)) d' (map (map f) X) k HN' Hk Ht') as (out' & E' & L' & H').
  rewrite map_length in L', H'. exists out, out'. split; [exact E|]. split; [exact E'|]. split; [exact L|]. split; [exact L'|]. intros q Hq.
  specialize (H q Hq). specialize (H' q Hq). set (x := nth q X []) in *. assert (Ix : In x X) by (apply nth_In, Hq).
  replace (nth q (map (map f) X) []) with (map f x) in H' by (symmetry; exact (map_nth (map f) X [] q)).
  replace (length (taken o [] (map (map f) train))) with (length train) in H' by (unfold taken; rewrite map_length; auto).
  set (row := map (value m g r sl x) train) in *. assert (LR : length row = length train) by apply map_length.
  assert (ER : map (value m g r sl (map f x)) (taken o [] (map (map f) train)) = map (Rmult c) (taken o 0%R row)).
  { unfold taken. rewrite !map_map. apply map_ext_in. intros i Hi. apply (Permutation_in _ HP) in Hi. apply in_seq in Hi. assert (Hi' : i < length train) by lia.
    replace (nth i (map (map f) train) []) with (map f (nth i train [])) by (symmetry; exact (map_nth (map f) train [] i)).
    assert (Iy : In (nth i train []) train) by (apply nth_In, Hi'). destruct (HC x _ Ix Iy) as (A & HA).
    rewrite (value_similar m d d' c f g r sl A x (nth i train [])); auto; [|lra]. f_equal. unfold row. rewrite (nth_indep _ 0%R (value m g r sl x [])) by (rewrite map_length; exact Hi'). symmetry. apply map_nth. }
  rewrite ER in H'. rewrite <- LR in HP. destruct (nearest_back _ c row _ o _ _ Hc HP eq_refl H') as (B & ED). split.
  - rewrite ED. f_equal. exact (nearest_dist _ _ _ _ _ _ B H).
  - intros ND. exact (nearest_ind _ _ _ _ _ _ ND B H).
Qed.
Print Assumptions C220_search.
(** a case: two training series of lengths 2 and 1, swapped, in another unit and from another origin *)
Definition nb_train : list (list (list R)) := [zseries [[0]; [1]]%Z; zseries [[5]]%Z].
Definition nb_query : list (list R) := zseries [[1]; [1]]%Z.
Definition nb_move (x : list R) : list R := map (fun v => 2 * v + 7)%R x.
Lemma nb_values : map (value ByDtw GcNone None None nb_query) nb_train = [sqrt 1; sqrt 32].
Proof.
  unfold nb_train. cbn [map]. unfold value, nb_query.
  rewrite (dtw_int 1 [[1]; [1]]%Z [[0]; [1]]%Z 1); [|zreal|zreal|lia|vm_compute; reflexivity].
  rewrite (dtw_int 1 [[1]; [1]]%Z [[5]]%Z 32); [|zreal|zreal|lia|vm_compute; reflexivity]. reflexivity.
Qed.
Example C220_nontrivial : numpy_ok {| argpart := fun row _ => sort_idx row; argsort := sort_idx |} /\
  Permutation [1; 0] (seq 0 (length nb_train)) /\ (forall x, In x nb_train \/ In x [nb_query] -> real_series 1 x) /\
  (forall x y, In x [nb_query] -> In y nb_train -> exists A, constraint (length x) (length y) GcNone None None A) /\
  similarity 1 1 2 nb_move /\ NoDup (map (value ByDtw GcNone None None nb_query) nb_train).
Proof.
  split; [apply numpy_exists|]. split; [apply perm_swap|].
  split. { intros x [[<-|[<-|[]]]|[<-|[]]]; zreal. }
  split. { intros x y _ _. exists everywhere. reflexivity. }
  split. { intros x y Hx Hy. destruct x as [|a [|]]; try discriminate. destruct y as [|b [|]]; try discriminate. split; [reflexivity|]. unfold sqd, nb_move. cbn. ring. }
  rewrite nb_values. constructor; [|constructor; [intros []|constructor]]. intros [E|[]]. apply sqrt_inj in E; lra.
Qed.

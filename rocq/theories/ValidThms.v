(** NaN padding and the partition of inputs into accepted and rejected ones. *)
From Coq Require Import Bool List Arith ZArith QArith Lia.
From Verif Require Import Num Py Series Masks DtwModel Spec SpecDtw DpProofs DtwProofs DtwThms MaskThms.
Import ListNotations.
Local Open Scope nat_scope.

Section V.
Variable N : num.
Lemma skip_nan_app (p s : list (list N)) : (forall r, In r p -> nan_row r = true) ->
  skip_nan (p ++ s) = skip_nan s.
Proof. induction p as [|r p IH]; simpl; intros H; auto. rewrite H by auto. apply IH; auto. Qed.
Lemma ts_size_pad (s pad : series N) : (forall r, In r pad -> nan_row r = true) ->
  ts_size (s ++ pad) = ts_size s.
Proof.
  intros H. unfold ts_size. rewrite rev_app_distr, skip_nan_app; [reflexivity|].
  intros r Hr. apply H. apply in_rev. auto.
Qed.
Lemma skip_nan_suffix (s : list (list N)) : exists p, s = p ++ skip_nan s /\ (forall r, In r p -> nan_row r = true).
Proof.
  induction s as [|r s IH]; simpl.
  - exists []. split; [reflexivity|intros r []].
  - destruct (nan_row r) eqn:E.
    + destruct IH as (p & Hp & Hn). exists (r :: p). split; [simpl; congruence|].
      intros x [<-|Hx]; auto.
    + exists []. split; [reflexivity|intros x []].
Qed.
Lemma ts_size_le (s : series N) : ts_size s <= length s.
Proof.
  unfold ts_size. destruct (skip_nan_suffix (rev s)) as (p & Hp & _).
  apply (f_equal (@length _)) in Hp. rewrite app_length, rev_length in Hp. lia.
Qed.
Lemma to_time_series_pad (s pad : series N) : (forall r, In r pad -> nan_row r = true) ->
  to_time_series true (Raw2 (s ++ pad)) = to_time_series true (Raw2 s).
Proof.
  intros H. unfold to_time_series. simpl. rewrite ts_size_pad by auto.
  rewrite firstn_app. pose proof (ts_size_le s).
  replace (ts_size s - length s) with 0 by lia. simpl. apply app_nil_r.
Qed.
Lemma to_time_series_pad1 (s pad : list N) : (forall x, In x pad -> nisnan x = true) ->
  to_time_series true (Raw1 (s ++ pad)) = to_time_series true (Raw1 s).
Proof.
  intros H. unfold to_time_series. simpl. rewrite map_app.
  apply (to_time_series_pad (map (fun v => [v]) s)). intros r Hr. apply in_map_iff in Hr.
  destruct Hr as (x & <- & Hx). simpl. rewrite H; auto.
Qed.
(** what remains: the series itself up to its last row that is not all NaN *)
Lemma to_time_series_decomp (s : series N) : exists pad,
  s = to_time_series true (Raw2 s) ++ pad /\ (forall r, In r pad -> nan_row r = true) /\
  (forall r l, to_time_series true (Raw2 s) = l ++ [r] -> nan_row r = false).
Proof.
  unfold to_time_series. simpl. unfold ts_size.
  destruct (skip_nan_suffix (rev s)) as (p & Hp & Hn).
  assert (E : s = rev (skip_nan (rev s)) ++ rev p).
  { rewrite <- rev_app_distr, <- Hp, rev_involutive. reflexivity. }
  assert (F : firstn (length (skip_nan (rev s))) s = rev (skip_nan (rev s))).
  { rewrite E at 2. rewrite firstn_app, rev_length, Nat.sub_diag, <- (rev_length (skip_nan (rev s))), firstn_all.
    simpl. apply app_nil_r. }
  rewrite F. exists (rev p). split; [exact E|]. split.
  - intros r Hr. apply Hn, in_rev. auto.
  - intros r l El. assert (S0 : skip_nan (rev s) = r :: rev l).
    { rewrite <- (rev_involutive (skip_nan (rev s))), El, rev_app_distr. reflexivity. }
    clear -S0. induction (rev s) as [|x t IH]; simpl in S0; [discriminate|].
    destruct (nan_row x) eqn:E; auto. inversion S0; subst. auto.
Qed.

Lemma validated_pad {A} (s1 p1 s2 p2 : series N) (k : series N -> series N -> res A) :
  (forall r, In r p1 -> nan_row r = true) -> (forall r, In r p2 -> nan_row r = true) ->
  validated (Raw2 (s1 ++ p1)) (Raw2 (s2 ++ p2)) k = validated (Raw2 s1) (Raw2 s2) k.
Proof. intros H1 H2. unfold validated. rewrite !to_time_series_pad by auto. reflexivity. Qed.

(** *** the error partition *)
Definition all_nan (x : raw N) : Prop := forall r, In r (reshape x) -> nan_row r = true.
Definition features (x : raw N) : nat := length (hd [] (reshape x)).

Lemma stripped_nil (x : raw N) : length (to_time_series true x) = 0 <-> all_nan x.
Proof.
  unfold all_nan, to_time_series. cbv zeta.
  destruct (to_time_series_decomp (reshape x)) as (pad & E & Hp & _). unfold to_time_series in E. simpl in E.
  split.
  - intros H. apply length_zero_iff_nil in H. rewrite H in E. simpl in E. rewrite E. exact Hp.
  - intros H. rewrite firstn_length. unfold ts_size.
    assert (skip_nan (rev (reshape x)) = []).
    { assert (G : forall l, (forall r, In r l -> nan_row (N:=N) r = true) -> skip_nan l = []).
      { induction l as [|r l IH]; simpl; intros G; auto. rewrite G by auto. apply IH; auto. }
      apply G. intros r Hr. apply H, in_rev. auto. }
    rewrite H0. simpl. lia.
Qed.
Lemma stripped_ncols (x : raw N) : ~ all_nan x -> ncols (to_time_series true x) = features x.
Proof.
  intros H. destruct (to_time_series true x) as [|r l] eqn:E.
  - exfalso. apply H. apply stripped_nil. rewrite E. reflexivity.
  - unfold ncols, features. simpl. unfold to_time_series in E.
    destruct (reshape x) as [|r' l']; [rewrite firstn_nil in E; discriminate|].
    destruct (ts_size (r' :: l')); simpl in E; [discriminate|]. inversion E; subst. reflexivity.
Qed.

Lemma validated_cases {A} x1 x2 (k : series N -> series N -> res A) :
  ((all_nan x1 \/ all_nan x2 \/ features x1 <> features x2) /\ validated x1 x2 k = Err ValueError) \/
  (~ all_nan x1 /\ ~ all_nan x2 /\ features x1 = features x2 /\
   validated x1 x2 k = k (to_time_series true x1) (to_time_series true x2)).
Proof.
  unfold validated.
  destruct (length (to_time_series true x1) =? 0) eqn:E1.
  { left. split; auto. left. apply stripped_nil. apply Nat.eqb_eq. auto. }
  destruct (length (to_time_series true x2) =? 0) eqn:E2.
  { left. split; auto. right; left. apply stripped_nil. apply Nat.eqb_eq. auto. }
  apply Nat.eqb_neq in E1, E2.
  assert (H1 : ~ all_nan x1) by (rewrite <- stripped_nil; auto).
  assert (H2 : ~ all_nan x2) by (rewrite <- stripped_nil; auto).
  rewrite !stripped_ncols by auto. simpl.
  destruct (features x1 =? features x2) eqn:E; simpl.
  - apply Nat.eqb_eq in E. right. auto.
  - apply Nat.eqb_neq in E. left. auto.
Qed.

(** the Itakura parallelogram leaves a row or a column empty *)
Definition itakura_infeasible (n m : nat) (s : Q) : Prop :=
  ~ (s == 0)%Q /\ 0 < m /\
  ((exists i, i < n /\ forall j, j < m -> mask_from_bounds n m (itakura_lower n m s) (itakura_upper n m s) i j = false) \/
   (exists j, j < m /\ forall i, i < n -> mask_from_bounds n m (itakura_lower n m s) (itakura_upper n m s) i j = false)).
Lemma not_rows_ok n m mk : rows_ok n m mk = false <-> exists i, i < n /\ forall j, j < m -> mk i j = false.
Proof.
  unfold rows_ok. split.
  - intros H. assert (G : forall l, forallb (fun i => existsb (fun j => mk i j) (seq 0 m)) l = false ->
        exists i, In i l /\ existsb (fun j => mk i j) (seq 0 m) = false).
    { induction l as [|a l IH]; simpl; [discriminate|]. destruct (existsb _ _) eqn:E; simpl; intros G.
      - destruct (IH G) as (i & Hi & E'). eauto.
      - exists a. auto. }
    destruct (G _ H) as (i & Hi & E). apply in_seq in Hi. exists i. split; [lia|].
    intros j Hj. destruct (mk i j) eqn:Em; auto. exfalso.
    assert (existsb (fun j => mk i j) (seq 0 m) = true); [|congruence].
    apply existsb_exists. exists j. split; auto. apply in_seq; lia.
  - intros (i & Hi & H). destruct (forallb _ _) eqn:E; auto. exfalso.
    change (rows_ok n m mk = true) in E. rewrite rows_ok_spec in E. destruct (E i Hi) as (j & Hj & X).
    rewrite H in X by auto. discriminate.
Qed.
Lemma not_cols_ok n m mk : cols_ok n m mk = false <-> exists j, j < m /\ forall i, i < n -> mk i j = false.
Proof.
  assert (E : cols_ok n m mk = rows_ok m n (fun j i => mk i j)) by reflexivity.
  rewrite E. apply not_rows_ok.
Qed.
Lemma itakura_infeasible_iff n m s : 0 < m ->
  itakura_mask n m s = Err RuntimeWarningExn <-> itakura_infeasible n m s.
Proof.
  intros Hm. unfold itakura_mask, itakura_infeasible, checked_mask.
  destruct (Qeq_bool s 0) eqn:E0.
  { apply Qeq_bool_eq in E0. split; [discriminate|tauto]. }
  apply Qeq_bool_neq in E0.
  destruct (m =? 0) eqn:Em; [apply Nat.eqb_eq in Em; lia|].
  rewrite <- not_rows_ok, <- not_cols_ok.
  destruct (rows_ok n m _); destruct (cols_ok n m _); simpl; split; intros H; try discriminate; auto.
  destruct H as (_ & _ & [H|H]); discriminate.
Qed.
Lemma itakura_errors n m s e : 0 < m -> itakura_mask n m s = Err e ->
  (e = ZeroDivisionError /\ (s == 0)%Q) \/ (e = RuntimeWarningExn /\ itakura_infeasible n m s).
Proof.
  intros Hm H. pose proof (itakura_infeasible_iff n m s Hm) as I.
  unfold itakura_mask, checked_mask in *.
  destruct (Qeq_bool s 0) eqn:E0; [inversion H; left; split; auto; apply Qeq_bool_eq; auto|].
  destruct (m =? 0) eqn:Em; [apply Nat.eqb_eq in Em; lia|].
  destruct (_ && _); inversion H; subst. right. split; auto. apply I. reflexivity.
Qed.

(** which Itakura slope, if any, the arguments select *)
Definition itakura_selected (g : gc_name) (radius : option Z) (slope : option Q) (s : Q) : Prop :=
  (g = GcItakura /\ s = or_default slope 2%Q) \/
  ((g = GcNone \/ g = GcEmpty) /\ radius = None /\ slope = Some s).
Definition ambiguous (g : gc_name) (radius : option Z) (slope : option Q) : Prop :=
  (g = GcNone \/ g = GcEmpty) /\ radius <> None /\ slope <> None.

(** the five possible outcomes of a call, in terms of the arguments *)
Definition rejected_input (x1 x2 : raw N) : Prop :=
  all_nan x1 \/ all_nan x2 \/ features x1 <> features x2.
Definition bad_mask (x1 x2 : raw N) g radius slope (e : exn) : Prop :=
  ~ rejected_input x1 x2 /\
  ((g = GcOther /\ e = KeyError) \/
   (ambiguous g radius slope /\ e = RuntimeWarningExn) \/
   exists s, itakura_selected g radius slope s /\
     itakura_mask (length (to_time_series true x1)) (length (to_time_series true x2)) s = Err e).

Lemma itakura_mask_exns n m s e : 0 < m -> itakura_mask n m s = Err e -> e = ZeroDivisionError \/ e = RuntimeWarningExn.
Proof. intros Hm H. apply itakura_errors in H; auto. tauto. Qed.
Lemma itakura_zero n m s : 0 < m -> itakura_mask n m s = Err ZeroDivisionError <-> (s == 0)%Q.
Proof.
  intros Hm. split.
  - intros H. apply itakura_errors in H; auto. destruct H as [H|[H _]]; [tauto|discriminate].
  - intros H. unfold itakura_mask. apply Qeq_eq_bool in H. rewrite H. reflexivity.
Qed.

Lemma mask_outcome n m g radius slope e : 0 < m ->
  (do code <- gc_code g ;; compute_mask n m code radius slope) = Err e <->
  ((g = GcOther /\ e = KeyError) \/
   (ambiguous g radius slope /\ e = RuntimeWarningExn) \/
   exists s, itakura_selected g radius slope s /\ itakura_mask n m s = Err e).
Proof.
  intros Hm. unfold compute_mask, itakura_selected, ambiguous.
  split.
  - destruct g; simpl; [..|intros [= <-]; auto]; destruct radius as [r|], slope as [s|]; simpl; intros H;
    try discriminate;
    try (inversion H; subst; right; left; split; [split; [auto|split; discriminate]|reflexivity]; fail);
    right; right; eexists; (split; [|exact H]); auto.
  - intros [[-> ->]|[[(A & B & C) ->]|(s & [[-> ->]|(A & -> & ->)] & H)]].
    + reflexivity.
    + destruct radius as [r|]; [|congruence]. destruct slope; [|congruence]. destruct A; subst; reflexivity.
    + simpl. destruct radius, slope; exact H.
    + destruct A; subst; simpl; exact H.
Qed.

Lemma outcome_gen {A} (k : series N -> series N -> mask_t -> res A) x1 x2 g radius slope e :
  (forall s1 s2 mk e, length s1 <> 0 -> length s2 <> 0 -> k s1 s2 mk <> Err e) ->
  (validated x1 x2 (fun s1 s2 => do code <- gc_code g ;;
     do mk <- compute_mask (length s1) (length s2) code radius slope ;; k s1 s2 mk) = Err e <->
   (rejected_input x1 x2 /\ e = ValueError) \/ bad_mask x1 x2 g radius slope e).
Proof.
  intros Hk. unfold bad_mask, rejected_input.
  destruct (validated_cases x1 x2 (fun s1 s2 => do code <- gc_code g ;;
     do mk <- compute_mask (length s1) (length s2) code radius slope ;; k s1 s2 mk)) as [[Hr ->]|(H1 & H2 & H3 & ->)].
  - split; [intros [= <-]; auto|]. intros [[_ ->]|[Hn _]]; [reflexivity|contradiction].
  - assert (L1 : length (to_time_series true x1) <> 0) by (rewrite stripped_nil; auto).
    assert (L2 : length (to_time_series true x2) <> 0) by (rewrite stripped_nil; auto).
    rewrite <- mask_outcome by lia.
    destruct (gc_code g) as [code|e0]; simpl.
    + destruct (compute_mask _ _ _ _ _) as [mk|e1]; simpl.
      * split; [intros H; exfalso; exact (Hk _ _ _ _ L1 L2 H)|]. intros [[[X|[X|X]] _]|[_ H]]; try contradiction; discriminate.
      * split; [intros H; right; split; [tauto|congruence]|]. intros [[[X|[X|X]] _]|[_ H]]; try contradiction; congruence.
    + split; [intros H; right; split; [tauto|congruence]|]. intros [[[X|[X|X]] _]|[_ H]]; try contradiction; congruence.
Qed.
Lemma validated_ext {A} (x1 x2 : raw N) (k k' : series N -> series N -> res A) :
  (forall s1 s2, k s1 s2 = k' s1 s2) -> validated x1 x2 k = validated x1 x2 k'.
Proof. intros H. unfold validated. rewrite H. reflexivity. Qed.

Lemma elastic_outcome comb x1 x2 g radius slope e :
  elastic comb x1 x2 g radius slope = Err e <->
   (rejected_input x1 x2 /\ e = ValueError) \/ bad_mask x1 x2 g radius slope e.
Proof.
  rewrite <- (outcome_gen (fun s1 s2 mk =>
    let acc := acc_matrix comb (length s1) (length s2) (sq_dists s1 s2) mk in
    Ok (nsqrt (acc (length s1 - 1) (length s2 - 1))))) by discriminate.
  reflexivity.
Qed.
Lemma elastic_path_outcome comb x1 x2 g radius slope e :
  elastic_path comb x1 x2 g radius slope = Err e <->
   (rejected_input x1 x2 /\ e = ValueError) \/ bad_mask x1 x2 g radius slope e.
Proof.
  rewrite <- (outcome_gen (fun s1 s2 mk =>
    let acc := acc_matrix comb (length s1) (length s2) (sq_dists s1 s2) mk in
    match compute_path (length s1) (length s2) acc with
    | Some p => Ok (p, nsqrt (acc (length s1 - 1) (length s2 - 1)))
    | None => Err OtherError
    end)); [reflexivity|].
  intros s1 s2 mk e' H1 H2. cbv zeta.
  destruct (compute_path_total N (length s1) (length s2) (acc_matrix comb (length s1) (length s2) (sq_dists s1 s2) mk))
    as (p & ->); [lia|lia|discriminate].
Qed.
End V.
Arguments all_nan {N}. Arguments features {N}. Arguments rejected_input {N}. Arguments bad_mask {N}.

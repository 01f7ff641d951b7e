(** Theorems about the public DTW / Frechet functions. *)
From Coq Require Import Bool List Arith ZArith QArith Lia.
From Verif Require Import Num Py Series Masks DtwModel Spec SpecDtw DpProofs DtwProofs.
Import ListNotations.
Local Open Scope nat_scope.

Lemma constraint_mask n m g r s allowed : constraint n m g r s allowed ->
  exists code mask, gc_code g = Ok code /\ compute_mask n m code r s = Ok mask /\
    forall i j, i < n -> j < m -> mask i j = allowed i j.
Proof.
  unfold constraint. intros H.
  destruct g; try contradiction; simpl; eexists.
  - destruct r as [r|], s as [s|]; try contradiction; unfold compute_mask; simpl.
    + destruct H as [Hr ->]. eexists. split; [reflexivity|]. split; [reflexivity|]. simpl.
      intros; apply sakoe_chiba_band; auto.
    + exists allowed. auto.
    + subst. eexists. split; [reflexivity|]. split; [reflexivity|]. auto.
  - destruct r as [r|], s as [s|]; try contradiction; unfold compute_mask; simpl.
    + destruct H as [Hr ->]. eexists. split; [reflexivity|]. split; [reflexivity|]. simpl.
      intros; apply sakoe_chiba_band; auto.
    + exists allowed. auto.
    + subst. eexists. split; [reflexivity|]. split; [reflexivity|]. auto.
  - exists allowed. split; [reflexivity|]. split; [|auto]. unfold compute_mask.
    destruct r as [r|], s as [s|]; simpl in *; auto.
  - destruct H as [Hr ->]. exists (sakoe_chiba_mask n m (or_default r 1%Z)). split; [reflexivity|]. unfold compute_mask.
    destruct r as [r|], s as [s|]; simpl in *; (split; [reflexivity|]);
      intros; apply sakoe_chiba_band; auto.
Qed.

Lemma wpath_ext n m ok ok' p : 0 < n -> 0 < m ->
  (forall i j, i < n -> j < m -> ok i j = ok' i j) ->
  warping_path n m ok p <-> warping_path n m ok' p.
Proof.
  intros Hn Hm H. split; apply wpath_weaken; auto; intros i j Hi Hj; rewrite H by auto; auto.
Qed.

Section Laws.
Variable N : num.
Variables nn fin : N -> Prop.
Hypothesis L : num_laws N nn fin.

Section Comb.
(** [comb] is the code's way to combine, [op] the specification's *)
Variables comb op : N -> N -> N.
Hypothesis CL : comb_laws N nn comb.
Hypothesis Hop : forall a b, nn a -> nn b -> comb a b = op a b.

Lemma comb_cost_nn : cost_nn N nn comb. Proof. intros d a; apply (comb_nn _ _ _ CL). Qed.
Lemma op_cost_nn : cost_nn N nn op.
Proof. intros d a Hd Ha. rewrite <- Hop by auto. apply (comb_nn _ _ _ CL); auto. Qed.

Lemma table_optimal (l1 l2 : nat) (D D0 : mat N) mask allowed :
  0 < l1 -> 0 < l2 -> (forall i j, D i j = D0 i j) ->
  (forall i j, i < l1 -> j < l2 -> allowed i j = true -> nn (D0 i j)) ->
  (forall i j, i < l1 -> j < l2 -> mask i j = allowed i j) ->
  least_cost (warping_path l1 l2 allowed) (path_cost op D0)
    (acc_matrix comb l1 l2 D mask (l1 - 1) (l2 - 1)).
Proof.
  intros H1 H2 HD Dnn Hm.
  assert (Dnn' : forall i j, i < l1 -> j < l2 -> mask i j = true -> nn (D i j)).
  { intros i j Hi Hj E. rewrite HD. apply Dnn; auto. rewrite <- Hm; auto. }
  pose proof (acc_least_cost N nn fin L comb CL l1 l2 D mask Dnn' H1 H2) as H.
  eapply least_cost_ext; [| |exact H].
  - intros p. apply wpath_ext; auto.
  - intros p Hp. pose proof (wpath_bounds _ _ _ _ H1 H2 Hp) as Hb. destruct Hp as (_ & _ & _ & Al).
    rewrite (path_cost_op_ext N nn fin L comb op); [apply path_cost_ext; auto|apply comb_cost_nn|auto|].
    intros i j Hin. destruct (Hb i j Hin). apply Dnn'; auto.
Qed.

Lemma table_path (l1 l2 : nat) (D D0 : mat N) mask allowed p :
  0 < l1 -> 0 < l2 -> (forall i j, D i j = D0 i j) ->
  (forall i j, i < l1 -> j < l2 -> allowed i j = true -> nn (D0 i j)) ->
  (forall i j, i < l1 -> j < l2 -> mask i j = allowed i j) ->
  let acc := acc_matrix comb l1 l2 D mask in
  acc (l1 - 1) (l2 - 1) <> ninf -> compute_path l1 l2 acc = Some p ->
  warping_path l1 l2 allowed p /\ path_cost op D0 p = acc (l1 - 1) (l2 - 1).
Proof.
  intros H1 H2 HD Dnn Hm acc Hf Hp.
  assert (Dnn' : forall i j, i < l1 -> j < l2 -> mask i j = true -> nn (D i j)).
  { intros i j Hi Hj E. rewrite HD. apply Dnn; auto. rewrite <- Hm; auto. }
  destruct (compute_path_spec N nn fin L comb CL l1 l2 D mask Dnn' p H1 H2 Hf Hp) as [A B].
  split; [apply (wpath_ext _ _ mask); auto|].
  fold acc in B. rewrite <- B. 
  pose proof (wpath_bounds _ _ _ _ H1 H2 A) as Hb. destruct A as (_ & _ & _ & Al).
  rewrite (path_cost_ext N op D0 D) by auto. symmetry.
  apply (path_cost_op_ext N nn fin L comb op); auto; [apply comb_cost_nn|].
  intros i j Hin. destruct (Hb i j Hin). apply Dnn'; auto.
Qed.

Lemma acc_matrix_ext l1 l2 (D1 D2 : mat N) (m1 m2 : mask_t) :
  (forall i j, i < l1 -> j < l2 -> D1 i j = D2 i j) ->
  (forall i j, i < l1 -> j < l2 -> m1 i j = m2 i j) ->
  acc_matrix comb l1 l2 D1 m1 = acc_matrix comb l1 l2 D2 m2.
Proof.
  intros H Hm. unfold acc_matrix, cum_matrix.
  assert (G : forall l c, (forall x, In x l -> fst x < l1 /\ snd x < l2) ->
     fold_left (cum_step comb D1 m1) l c = fold_left (cum_step comb D2 m2) l c).
  { induction l as [|[a b] l IH]; simpl; intros c Hl; auto.
    destruct (Hl (a, b)) as [A B]; [auto|]. simpl in *. rewrite H, Hm by auto. apply IH. auto. }
  rewrite G; auto. intros [a b] Hin. apply in_row_major in Hin. exact Hin.
Qed.

Variable d : nat.
Variables s1 s2 : series N.
Hypothesis F1 : finite_series fin d s1.
Hypothesis F2 : finite_series fin d s2.
Notation n := (length s1). Notation m := (length s2).

Lemma path_cost_D_nn p : nn (path_cost op (local_costs s1 s2) p).
Proof.
  apply (path_cost_nn N nn fin L); [apply op_cost_nn|]. intros i j _. eapply local_costs_nn; eauto.
Qed.

Lemma elastic_optimal g r s allowed : constraint n m g r s allowed ->
  exists w, elastic comb (Raw2 s1) (Raw2 s2) g r s = Ok (nsqrt w) /\ nn w /\
    least_cost (warping_path n m allowed) (path_cost op (local_costs s1 s2)) w.
Proof.
  intros Hc. destruct (constraint_mask _ _ _ _ _ _ Hc) as (code & mask & E1 & E2 & Hm).
  unfold elastic. rewrite (validated_finite N nn fin L d) by auto. rewrite E1. simpl.
  unfold elastic_generic. rewrite E2. simpl. eexists. split; [reflexivity|].
  match goal with |- nn ?w /\ ?X => assert (H : X) end.
  { apply table_optimal; auto.
    - eapply finite_len; eauto.
    - eapply finite_len; eauto.
    - intros; apply sq_dists_local.
    - intros. eapply local_costs_nn; eauto. }
  split; auto. eapply (least_cost_nn N nn fin L); [|exact H]. intros; apply path_cost_D_nn.
Qed.

Lemma elastic_path_returns g r s allowed : constraint n m g r s allowed ->
  exists p v, elastic_path comb (Raw2 s1) (Raw2 s2) g r s = Ok (p, v).
Proof.
  intros Hc. destruct (constraint_mask _ _ _ _ _ _ Hc) as (code & mask & E1 & E2 & Hm).
  unfold elastic_path. rewrite (validated_finite N nn fin L d) by auto. rewrite E1. simpl.
  unfold elastic_path_generic. rewrite E2. simpl.
  destruct (compute_path_total N n m (acc_matrix comb n m (sq_dists s1 s2) mask)) as (p & Hp);
    [eapply finite_len; eauto|eapply finite_len; eauto|].
  rewrite Hp. eauto.
Qed.

Lemma elastic_path_correct g r s allowed p v : constraint n m g r s allowed ->
  elastic_path comb (Raw2 s1) (Raw2 s2) g r s = Ok (p, v) ->
  elastic comb (Raw2 s1) (Raw2 s2) g r s = Ok v /\
  (v <> ninf -> warping_path n m allowed p /\ v = nsqrt (path_cost op (local_costs s1 s2) p)).
Proof.
  intros Hc. destruct (constraint_mask _ _ _ _ _ _ Hc) as (code & mask & E1 & E2 & Hm).
  unfold elastic_path, elastic. rewrite !(validated_finite N nn fin L d) by auto. rewrite E1. simpl.
  unfold elastic_path_generic, elastic_generic. rewrite E2. simpl.
  destruct (compute_path n m (acc_matrix comb n m (sq_dists s1 s2) mask)) eqn:Hp; [|discriminate].
  intros E. inversion E; subst. split; auto. intros Hv.
  destruct (table_path n m (sq_dists s1 s2) (local_costs s1 s2) mask allowed p) as [A B]; auto.
  - eapply finite_len; eauto.
  - eapply finite_len; eauto.
  - intros; apply sq_dists_local.
  - intros. eapply local_costs_nn; eauto.
  - intros X. apply Hv. rewrite X. apply (sqrt_inf _ _ _ L).
  - split; auto. rewrite B. reflexivity.
Qed.

Lemma elastic_path_full g r s allowed : constraint n m g r s allowed ->
  exists p w, elastic_path comb (Raw2 s1) (Raw2 s2) g r s = Ok (p, nsqrt w) /\ nn w /\
    least_cost (warping_path n m allowed) (path_cost op (local_costs s1 s2)) w /\
    (w <> ninf -> warping_path n m allowed p /\ path_cost op (local_costs s1 s2) p = w).
Proof.
  intros Hc. destruct (constraint_mask _ _ _ _ _ _ Hc) as (code & mask & E1 & E2 & Hm).
  unfold elastic_path. rewrite (validated_finite N nn fin L d) by auto. rewrite E1. simpl.
  unfold elastic_path_generic. rewrite E2. simpl.
  assert (Hn : 0 < n) by (eapply finite_len; eauto).
  assert (Hm' : 0 < m) by (eapply finite_len; eauto).
  destruct (compute_path_total N n m (acc_matrix comb n m (sq_dists s1 s2) mask)) as (p & Hp); auto.
  rewrite Hp. exists p. eexists. split; [reflexivity|].
  match goal with |- nn ?w /\ ?X /\ _ => assert (H : X) end.
  { apply table_optimal; auto; [intros; apply sq_dists_local|]. intros. eapply local_costs_nn; eauto. }
  split; [|split; auto].
  - eapply (least_cost_nn N nn fin L); [|exact H]. intros; apply path_cost_D_nn.
  - intros Hf. apply table_path; auto; [intros; apply sq_dists_local|]. intros. eapply local_costs_nn; eauto.
Qed.

(** from_metric: with a local distance equal to the squared Euclidean one *)
Lemma elastic_path_metric_agrees pairwise g r s allowed p v : constraint n m g r s allowed ->
  (forall i j, i < n -> j < m -> pairwise (nth i s1 []) (nth j s2 []) = sq_euclid (nth i s1 []) (nth j s2 [])) ->
  elastic_path comb (Raw2 s1) (Raw2 s2) g r s = Ok (p, v) ->
  exists w, elastic_path_metric comb pairwise (Raw2 s1) (Raw2 s2) g r s = Ok (p, w) /\ v = nsqrt w.
Proof.
  intros Hc Hpw. destruct (constraint_mask _ _ _ _ _ _ Hc) as (code & mask & E1 & E2 & Hm).
  unfold elastic_path, elastic_path_metric. rewrite !(validated_finite N nn fin L d) by auto.
  rewrite (to_time_series_finite N nn fin L d s1), (to_time_series_finite N nn fin L d s2) by auto.
  unfold elastic_path_precomputed. rewrite E1. simpl.
  unfold elastic_path_generic. rewrite E2. simpl.
  rewrite (acc_matrix_ext n m (fun i j => pairwise (nth i s1 []) (nth j s2 [])) (sq_dists s1 s2) mask mask).
  - destruct (compute_path n m (acc_matrix comb n m (sq_dists s1 s2) mask)) eqn:Hp; [|discriminate].
    intros E. inversion E; subst. eauto.
  - intros. rewrite Hpw by auto. rewrite sq_dists_local. reflexivity.
  - auto.
Qed.
(** ... and with the squared distance matrix itself *)
Lemma elastic_path_precomputed_agrees D g r s allowed p v : constraint n m g r s allowed ->
  (forall i j, i < n -> j < m -> D i j = local_costs s1 s2 i j) ->
  elastic_path comb (Raw2 s1) (Raw2 s2) g r s = Ok (p, v) ->
  exists w, elastic_path_precomputed comb n m D g r s = Ok (p, w) /\ v = nsqrt w.
Proof.
  intros Hc HD. destruct (constraint_mask _ _ _ _ _ _ Hc) as (code & mask & E1 & E2 & Hm).
  unfold elastic_path. rewrite !(validated_finite N nn fin L d) by auto.
  unfold elastic_path_precomputed. rewrite E1. simpl.
  unfold elastic_path_generic. rewrite E2. simpl.
  rewrite (acc_matrix_ext n m D (sq_dists s1 s2) mask mask).
  - destruct (compute_path n m (acc_matrix comb n m (sq_dists s1 s2) mask)) eqn:Hp; [|discriminate].
    intros E. inversion E; subst. eauto.
  - intros. rewrite HD by auto. rewrite sq_dists_local. reflexivity.
  - auto.
Qed.
End Comb.

(** *** symmetry *)
Lemma constraint_transpose n m g r s A : not_itakura g s -> constraint n m g r s A ->
  exists B, constraint m n g r s B /\ forall i j, B i j = A j i.
Proof.
  intros [Hg Hs] H. unfold constraint in *.
  destruct g; try contradiction; try (destruct Hs as [Hs|Hs]; [discriminate|subst]).
  - destruct r as [r|].
    + destruct H as [H ->]. exists (band m n r). split; auto. intros; apply band_transpose.
    + subst. exists everywhere. auto.
  - destruct r as [r|].
    + destruct H as [H ->]. exists (band m n r). split; auto. intros; apply band_transpose.
    + subst. exists everywhere. auto.
  - destruct H as [H ->]. exists (band m n (or_default r 1%Z)). split; auto. intros; apply band_transpose.
Qed.

Lemma least_cost_transpose n m A B op (D E : nat -> nat -> N) w : 0 < n -> 0 < m ->
  (forall i j, B i j = A j i) -> (forall i j, E i j = D j i) ->
  least_cost (warping_path n m A) (path_cost op D) w ->
  least_cost (warping_path m n B) (path_cost op E) w.
Proof.
  intros Hn Hm HB HE.
  assert (T : forall n m A B (D E : nat -> nat -> N) p, 0 < n -> 0 < m ->
     (forall i j, B i j = A j i) -> (forall i j, E i j = D j i) -> warping_path n m A p ->
     warping_path m n B (map swap p) /\ path_cost op E (map swap p) = path_cost op D p).
  { clear. intros n m A B D E p Hn Hm HB HE Hp. split.
    - apply wpath_swap in Hp. apply (wpath_ext _ _ (fun i j => A j i)); auto.
    - rewrite <- (path_cost_swap N op D). apply path_cost_ext. auto. }
  intros [H1 H2]. split.
  - intros p Hp. destruct (T m n B A E D p) as [X Y]; auto. rewrite <- Y. auto.
  - destruct H2 as [(p & Hp & Ec)|[Hno Ew]].
    + left. destruct (T n m A B D E p) as [X Y]; auto. exists (map swap p). split; auto. congruence.
    + right. split; auto. intros p Hp. destruct (T m n B A E D p) as [X Y]; auto. eapply Hno; eauto.
Qed.

Lemma elastic_sym comb op d s1 s2 g r s A :
  comb_laws N nn comb -> (forall a b, nn a -> nn b -> comb a b = op a b) ->
  finite_series fin d s1 -> finite_series fin d s2 ->
  not_itakura g s -> constraint (length s1) (length s2) g r s A ->
  elastic comb (Raw2 s1) (Raw2 s2) g r s = elastic comb (Raw2 s2) (Raw2 s1) g r s.
Proof.
  intros CL Hop F1 F2 Hni HA.
  destruct (constraint_transpose _ _ _ _ _ _ Hni HA) as (B & HB & HAB).
  destruct (elastic_optimal comb op CL Hop d s1 s2 F1 F2 g r s A HA) as (w & E1 & Hw & Hl).
  destruct (elastic_optimal comb op CL Hop d s2 s1 F2 F1 g r s B HB) as (w' & E2 & Hw' & Hl').
  rewrite E1, E2. do 2 f_equal.
  assert (Hl2 : least_cost (warping_path (length s2) (length s1) B) (path_cost op (local_costs s2 s1)) w).
  { eapply least_cost_transpose; [| | | |exact Hl]; auto; try (eapply finite_len; eauto).
    intros i j. apply (sq_euclid_sym N nn fin L); eapply finite_row; eauto. }
  eapply (least_cost_unique N nn fin L); [|exact Hl2|exact Hl'].
  intros p _. eapply (path_cost_D_nn comb op CL Hop); eauto.
Qed.

Lemma elastic_nonneg comb op d s1 s2 g r s A v :
  comb_laws N nn comb -> (forall a b, nn a -> nn b -> comb a b = op a b) ->
  finite_series fin d s1 -> finite_series fin d s2 ->
  constraint (length s1) (length s2) g r s A ->
  elastic comb (Raw2 s1) (Raw2 s2) g r s = Ok v -> nleb nzero v = true.
Proof.
  intros CL Hop F1 F2 HA E.
  destruct (elastic_optimal comb op CL Hop d s1 s2 F1 F2 g r s A HA) as (w & E1 & Hw & Hl).
  rewrite E1 in E. inversion E; subst. apply (leb_zero _ _ _ L). apply (sqrt_nn _ _ _ L); auto.
Qed.

Lemma path_cost_zero op (D : nat -> nat -> N) p : op nzero nzero = nzero ->
  (forall i j, In (i, j) p -> D i j = nzero) -> path_cost op D p = nzero.
Proof.
  intros Hz. unfold path_cost. induction p as [|[i j] p IH]; simpl; intros H; auto.
  rewrite (H i j), Hz by auto. apply IH. auto.
Qed.

Lemma elastic_self comb op d s1 g r s A :
  comb_laws N nn comb -> (forall a b, nn a -> nn b -> comb a b = op a b) ->
  finite_series fin d s1 -> constraint (length s1) (length s1) g r s A ->
  (forall i, i < length s1 -> A i i = true) ->
  elastic comb (Raw2 s1) (Raw2 s1) g r s = Ok nzero.
Proof.
  intros CL Hop F1 HA Hd.
  assert (Zn : nn (nzero (n:=N))) by apply (nn_zero _ _ _ L).
  destruct (elastic_optimal comb op CL Hop d s1 s1 F1 F1 g r s A HA) as (w & E1 & Hw & Hl & _).
  rewrite E1. f_equal.
  pose proof (finite_len N fin d s1 F1) as Hlen.
  assert (Hp : warping_path (length s1) (length s1) A (stair (length s1) (length s1))).
  { apply stair_path; auto. intros k Hk. apply Hd. lia. }
  specialize (Hl _ Hp). rewrite path_cost_zero in Hl.
  - rewrite (leb_antisym _ _ _ L w nzero Hw Zn Hl (leb_zero _ _ _ L w Hw)). apply (sqrt_zero _ _ _ L).
  - rewrite <- Hop by auto. apply (comb_zero _ _ _ CL).
  - intros i j Hin. unfold stair in Hin. apply in_map_iff in Hin. destruct Hin as (k & E & _).
    inversion E; subst. apply (sq_euclid_diag N nn fin L). eapply finite_row; eauto.
Qed.

Lemma constraint_diag n g r s A : not_itakura g s -> constraint n n g r s A -> forall i, A i i = true.
Proof.
  intros [Hg Hs] H i. unfold constraint in H.
  assert (Hb : forall r, (0 <= r)%Z -> band n n r i i = true).
  { intros q Hq. unfold band. rewrite andb_true_iff, !Z.leb_le. lia. }
  destruct g; try contradiction; try (destruct Hs as [Hs|Hs]; [discriminate|subst]).
  - destruct r as [r|]; [destruct H as [H ->]; auto|subst; auto].
  - destruct r as [r|]; [destruct H as [H ->]; auto|subst; auto].
  - destruct H as [H ->]; auto.
Qed.

(** *** enlarging the constraint *)
Lemma elastic_mono comb op d s1 s2 g r s A g' r' s' B v w :
  comb_laws N nn comb -> (forall a b, nn a -> nn b -> comb a b = op a b) ->
  finite_series fin d s1 -> finite_series fin d s2 ->
  constraint (length s1) (length s2) g r s A -> constraint (length s1) (length s2) g' r' s' B ->
  (forall i j, i < length s1 -> j < length s2 -> A i j = true -> B i j = true) ->
  elastic comb (Raw2 s1) (Raw2 s2) g r s = Ok v ->
  elastic comb (Raw2 s1) (Raw2 s2) g' r' s' = Ok w -> nleb w v = true.
Proof.
  intros CL Hop F1 F2 HA HB Hsub Ev Ew.
  destruct (elastic_optimal comb op CL Hop d s1 s2 F1 F2 _ _ _ A HA) as (x & E1 & Hx & Hl).
  destruct (elastic_optimal comb op CL Hop d s1 s2 F1 F2 _ _ _ B HB) as (y & E2 & Hy & Hl').
  rewrite E1 in Ev. rewrite E2 in Ew. inversion Ev; inversion Ew; subst.
  apply (sqrt_mono _ _ _ L); auto.
  eapply (least_cost_mono N nn fin L); [| |exact Hl|exact Hl'].
  - intros p _. eapply (path_cost_D_nn comb op CL Hop); eauto.
  - intros p. apply wpath_weaken; auto; eapply finite_len; eauto.
Qed.

(** *** Frechet below DTW *)
Lemma path_cost_max_sum (D : nat -> nat -> N) p : (forall i j, In (i, j) p -> nn (D i j)) ->
  nleb (path_cost nmax D p) (path_cost nadd D p) = true.
Proof.
  unfold path_cost.
  assert (G : forall a b, nn a -> nn b -> nleb a b = true -> (forall i j, In (i, j) p -> nn (D i j)) ->
    nleb (fold_left (fun acc c => nmax (D (fst c) (snd c)) acc) p a)
         (fold_left (fun acc c => nadd (D (fst c) (snd c)) acc) p b) = true).
  { induction p as [|[i j] p IH]; simpl; intros a b Ha Hb Hab H; auto.
    assert (Hd : nn (D i j)) by auto.
    assert (Hs : nn (nadd (D i j) b)) by (apply (nn_add _ _ _ L); auto).
    apply IH; auto.
    - apply nmax_nn; auto.
    - apply nmax_lub.
      + apply (add_ge_l N nn fin L); auto.
      + apply (leb_trans _ _ _ L) with (b := b); auto.
        rewrite (add_comm _ _ _ L) by auto. apply (add_ge_l N nn fin L); auto. }
  intros H. apply G; auto; try apply (nn_zero _ _ _ L). apply (leb_refl _ _ _ L). apply (nn_zero _ _ _ L).
Qed.

Lemma frechet_op a b : nn a -> nn b -> comb_frechet (N:=N) a b = nmax a b.
Proof. intros; apply (pymax_nmax N nn fin L); auto. Qed.
Lemma dtw_op (a b : N) : nn a -> nn b -> comb_dtw (N:=N) a b = nadd a b.
Proof. reflexivity. Qed.

Lemma frechet_le_dtw_gen d s1 s2 g r s A v w :
  finite_series fin d s1 -> finite_series fin d s2 ->
  constraint (length s1) (length s2) g r s A ->
  frechet (Raw2 s1) (Raw2 s2) g r s = Ok v -> dtw (Raw2 s1) (Raw2 s2) g r s = Ok w ->
  nleb v w = true.
Proof.
  intros F1 F2 HA Ev Ew.
  pose proof (comb_laws_frechet N nn fin L) as CF. pose proof (comb_laws_dtw N nn fin L) as CD.
  destruct (elastic_optimal _ nmax CF frechet_op d s1 s2 F1 F2 _ _ _ A HA) as (x & E1 & Hx & Hl & Hl2).
  destruct (elastic_optimal _ nadd CD dtw_op d s1 s2 F1 F2 _ _ _ A HA) as (y & E2 & Hy & Hl' & Hl2').
  unfold frechet, dtw in *. rewrite E1 in Ev. rewrite E2 in Ew. inversion Ev; inversion Ew; subst.
  apply (sqrt_mono _ _ _ L); auto.
  destruct Hl2' as [(p & Hp & E)|[_ E]].
  - subst y. apply (leb_trans _ _ _ L) with (b := path_cost nmax (local_costs s1 s2) p); auto.
    + eapply (path_cost_D_nn _ nmax CF frechet_op); eauto.
    + apply path_cost_max_sum. intros. eapply local_costs_nn; eauto.
  - subst y. apply (leb_inf _ _ _ L); auto.
Qed.
End Laws.

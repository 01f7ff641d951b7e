(** Properties C10, C11, C40, C41, C74: datasets and cross-distance matrices. *)
From Coq Require Import Bool List Arith ZArith QArith Lia Floats Permutation.
From Verif Require Import Num NumLaws Py Series Masks DtwModel Dataset Spec SpecDtw
  DpProofs DtwProofs DtwThms ValidThms CdistThms PropDtw PropMasks.
Import ListNotations.
Local Open Scope nat_scope.

(** a dataset whose series all have [d] features and at least one row that is not
    entirely NaN; lengths may differ *)
Definition proper {N : num} (d : nat) (ds : list (raw N)) : Prop :=
  forall x, In x ds -> raw_ncols x = d /\ rect d (reshape x) /\ ~ all_nan x.
Definition item {N : num} (ds : list (raw N)) (i : nat) : raw N := nth i ds (Raw2 []).

Section Lemmas.
Variable N : num.
Hypothesis Hnan : nisnan (n:=N) nnan = true.
Lemma proper_uniform d (ds : list (raw N)) : proper d ds -> uniform d ds.
Proof. intros H x Hx. destruct (H x Hx) as (A & B & _). auto. Qed.
Lemma strip_nth d ds out i : uniform (N:=N) d ds -> to_dataset ds = Ok out -> i < length ds ->
  length out = length ds /\ to_time_series true (Raw2 (nth i out [])) = to_time_series true (item ds i).
Proof.
  intros H E Hi. rewrite (to_dataset_ok N d ds H) in E.
  set (f := fun x : raw N => to_time_series true x ++ repeat (repeat nnan d) (max_size ds - length (to_time_series true x))) in *.
  assert (Eo : out = map f ds) by congruence. subst out. rewrite map_length. split; auto.
  rewrite (nth_indep _ [] (f (Raw2 []))) by (rewrite map_length; auto). rewrite map_nth.
  apply strip_padded. auto.
Qed.
Lemma dist_eq comb d ds1 ds2 o1 o2 g c r s i k : proper (N:=N) d ds1 -> proper d ds2 -> gc_code g = Ok c ->
  to_dataset ds1 = Ok o1 -> to_dataset ds2 = Ok o2 -> i < length ds1 -> k < length ds2 ->
  elastic_generic comb (to_time_series true (Raw2 (nth i o1 []))) (to_time_series true (Raw2 (nth k o2 []))) c r s
  = elastic comb (item ds1 i) (item ds2 k) g r s.
Proof.
  intros P1 P2 Hc E1 E2 Hi Hk.
  destruct (strip_nth d ds1 o1 i (proper_uniform _ _ P1) E1 Hi) as [_ ->].
  destruct (strip_nth d ds2 o2 k (proper_uniform _ _ P2) E2 Hk) as [_ ->].
  assert (I1 : In (item ds1 i) ds1) by (apply nth_In; auto).
  assert (I2 : In (item ds2 k) ds2) by (apply nth_In; auto).
  destruct (P1 _ I1) as (_ & R1 & A1). destruct (P2 _ I2) as (_ & R2 & A2).
  rewrite (elastic_public N comb d) by auto. rewrite Hc. reflexivity.
Qed.

Lemma cross_spec comb d ds1 ds2 g c r s j M : proper (N:=N) d ds1 -> proper d ds2 -> gc_code g = Ok c ->
  valid_jobs j (length (row_major (length ds1) (length ds2))) ->
  cdist_elastic comb (Ok c) ds1 (Some ds2) r s j = Ok M ->
  forall i k, i < length ds1 -> k < length ds2 -> elastic comb (item ds1 i) (item ds2 k) g r s = Ok (M i k).
Proof.
  intros P1 P2 Hc Hj E i k Hi Hk. unfold cdist_elastic in E.
  destruct (to_dataset ds1) as [o1|] eqn:E1; [|discriminate]. simpl in E.
  destruct (to_dataset ds2) as [o2|] eqn:E2; [|discriminate]. simpl in E.
  assert (L1 : length o1 = length ds1) by (apply (strip_nth d ds1 o1 i (proper_uniform _ _ P1) E1 Hi)).
  assert (L2 : length o2 = length ds2) by (apply (strip_nth d ds2 o2 k (proper_uniform _ _ P2) E2 Hk)).
  rewrite <- (dist_eq comb d ds1 ds2 o1 o2 g c r s i k) by auto.
  refine (cdist_cross_spec N (series N) _ [] o1 o2 j M _ E i k _ _); rewrite ?L1, ?L2; auto.
Qed.
Lemma cross_returns comb d ds1 ds2 g c r s j : proper (N:=N) d ds1 -> proper d ds2 -> gc_code g = Ok c ->
  valid_jobs j (length (row_major (length ds1) (length ds2))) ->
  (forall i k, i < length ds1 -> k < length ds2 -> exists v, elastic comb (item ds1 i) (item ds2 k) g r s = Ok v) ->
  exists M, cdist_elastic comb (Ok c) ds1 (Some ds2) r s j = Ok M.
Proof.
  intros P1 P2 Hc Hj H. unfold cdist_elastic.
  rewrite (to_dataset_ok N d ds1 (proper_uniform _ _ P1)). cbn [bind].
  rewrite (to_dataset_ok N d ds2 (proper_uniform _ _ P2)). cbn [bind].
  pose proof (to_dataset_ok N d ds1 (proper_uniform _ _ P1)) as E1.
  pose proof (to_dataset_ok N d ds2 (proper_uniform _ _ P2)) as E2.
  match type of E1 with _ = Ok ?o => set (o1 := o) in * end.
  match type of E2 with _ = Ok ?o => set (o2 := o) in * end.
  assert (L1 : @length (series N) o1 = length ds1) by apply map_length.
  assert (L2 : @length (series N) o2 = length ds2) by apply map_length.
  refine (cdist_cross_returns N (series N) _ [] o1 o2 j _ _); rewrite ?L1, ?L2; [exact Hj|].
  intros i k Hi Hk. cbv beta. rewrite (dist_eq comb d ds1 ds2 o1 o2 g c r s i k) by auto. auto.
Qed.
Lemma self_spec comb d ds g c r s j M : proper (N:=N) d ds -> gc_code g = Ok c ->
  valid_jobs j (length (triu (length ds) false)) ->
  cdist_elastic comb (Ok c) ds None r s j = Ok M ->
  (forall i k, i < k -> k < length ds -> elastic comb (item ds i) (item ds k) g r s = Ok (M i k) /\ M k i = M i k) /\
  (forall i, i < length ds -> M i i = nzero).
Proof.
  intros P Hc Hj E. unfold cdist_elastic in E.
  destruct (to_dataset ds) as [o|] eqn:E1; [|discriminate]. simpl in E.
  destruct (Nat.eq_dec (length ds) 0) as [Z|Z]; [split; intros; lia|].
  assert (L : length o = length ds) by (apply (strip_nth d ds o 0 (proper_uniform _ _ P) E1); lia).
  destruct (cdist_self_spec N (series N) _ [] o false j M ltac:(rewrite L; exact Hj) E) as [H1 H2].
  rewrite L in H1, H2. split.
  - intros i k Hik Hk. rewrite <- (dist_eq comb d ds ds o o g c r s i k) by (auto; lia). apply H1; auto.
  - intros i Hi. exact (H2 i Hi).
Qed.
Lemma self_returns comb d ds g c r s j : proper (N:=N) d ds -> gc_code g = Ok c ->
  valid_jobs j (length (triu (length ds) false)) ->
  (forall i k, i < length ds -> k < length ds -> exists v, elastic comb (item ds i) (item ds k) g r s = Ok v) ->
  exists M, cdist_elastic comb (Ok c) ds None r s j = Ok M.
Proof.
  intros P Hc Hj H. unfold cdist_elastic.
  rewrite (to_dataset_ok N d ds (proper_uniform _ _ P)). cbn [bind].
  pose proof (to_dataset_ok N d ds (proper_uniform _ _ P)) as E.
  match type of E with _ = Ok ?o => set (o1 := o) in * end.
  assert (L : @length (series N) o1 = length ds) by apply map_length.
  refine (cdist_self_returns N (series N) _ [] o1 false j _ _); rewrite ?L; [exact Hj|].
  intros i k Hi Hk. cbv beta. rewrite (dist_eq comb d ds ds o1 o1 g c r s i k) by auto. auto.
Qed.
End Lemmas.

(** ** C10 *)
(** Cross matrix: every entry is the pairwise distance, for every constraint and
    every schedule of the workers ([valid_jobs]: sequential, or a permutation of
    the tasks). *)
Theorem C10_cdist_dtw_cross : forall N, nisnan (n:=N) nnan = true ->
  forall d ds1 ds2 g radius slope j M,
  proper (N:=N) d ds1 -> proper d ds2 -> valid_jobs j (length ds1 * length ds2) ->
  cdist_dtw ds1 (Some ds2) g radius slope j = Ok M ->
  forall i k, i < length ds1 -> k < length ds2 ->
  dtw (item ds1 i) (item ds2 k) g radius slope = Ok (M i k).
Proof.
  intros N Hn d ds1 ds2 g r s j M P1 P2 Hj E i k Hi Hk. unfold cdist_dtw in E.
  destruct (gc_code g) as [c|e] eqn:Ec.
  - apply (cross_spec N Hn comb_dtw d ds1 ds2 g c r s j M); auto.
    replace (length (row_major (length ds1) (length ds2))) with (length ds1 * length ds2); auto.
    unfold row_major. rewrite flat_map_concat_map. clear. induction (length ds1) as [|n IH] using nat_ind; [reflexivity|].
    rewrite seq_S, map_app, concat_app, app_length. simpl. rewrite app_nil_r, map_length, seq_length, <- IH. simpl. lia.
  - exfalso. unfold cdist_elastic in E. destruct (to_dataset ds1); [|discriminate]. simpl in E.
    destruct (to_dataset ds2); discriminate.
Qed.
Print Assumptions C10_cdist_dtw_cross.

Lemma row_major_len n m : length (row_major n m) = n * m.
Proof.
  unfold row_major. rewrite flat_map_concat_map. induction n as [|n IH]; [reflexivity|].
  rewrite seq_S, map_app, concat_app, app_length. simpl. rewrite app_nil_r, map_length, seq_length, IH. lia.
Qed.
Lemma triu_len n : length (triu n false) = n * (n - 1) / 2.
Proof.
  assert (G : forall k n, k <= n -> 2 * length (flat_map (fun i => map (fun j => (i, j)) (seq (S i) (n - S i))) (seq (n - k) k)) = k * (k - 1)).
  { clear n. induction k as [|k IH]; intros n Hk; [reflexivity|].
    simpl seq. cbn [flat_map]. rewrite app_length, map_length, seq_length.
    replace (S (n - S k)) with (n - k) by lia. specialize (IH n ltac:(lia)).
    destruct k; simpl in *; nia. }
  specialize (G n n (le_n n)). rewrite Nat.sub_diag in G. unfold triu.
  rewrite <- G. rewrite Nat.mul_comm, Nat.div_mul; [reflexivity|lia].
Qed.

(** it returns whenever all the pairwise calls return *)
Theorem C10_cdist_dtw_cross_returns : forall N, nisnan (n:=N) nnan = true ->
  forall d ds1 ds2 g radius slope j,
  proper (N:=N) d ds1 -> proper d ds2 -> g <> GcOther -> valid_jobs j (length ds1 * length ds2) ->
  (forall i k, i < length ds1 -> k < length ds2 -> exists v, dtw (item ds1 i) (item ds2 k) g radius slope = Ok v) ->
  exists M, cdist_dtw ds1 (Some ds2) g radius slope j = Ok M.
Proof.
  intros N Hn d ds1 ds2 g r s j P1 P2 Hg Hj H. unfold cdist_dtw.
  destruct (gc_code g) as [c|e] eqn:Ec; [|destruct g; try discriminate; congruence].
  apply (cross_returns N Hn comb_dtw d ds1 ds2 g c r s j); auto. rewrite row_major_len. auto.
Qed.
Print Assumptions C10_cdist_dtw_cross_returns.

(** Self matrix, any constraint: upper triangle pairwise, mirrored, zero diagonal. *)
Theorem C10_cdist_dtw_self : forall N, nisnan (n:=N) nnan = true ->
  forall d ds g radius slope j M,
  proper (N:=N) d ds -> valid_jobs j (length ds * (length ds - 1) / 2) ->
  cdist_dtw ds None g radius slope j = Ok M ->
  forall i k, i < length ds -> k < length ds ->
  M i k = M k i /\ M i i = nzero /\
  (i < k -> dtw (item ds i) (item ds k) g radius slope = Ok (M i k)).
Proof.
  intros N Hn d ds g r s j M P Hj E i k Hi Hk. unfold cdist_dtw in E.
  destruct (gc_code g) as [c|e] eqn:Ec.
  - rewrite <- triu_len in Hj.
    destruct (self_spec N Hn comb_dtw d ds g c r s j M P Ec Hj E) as [H1 H2].
    split; [|split; [auto|intros Hik; apply H1; auto]].
    destruct (Nat.lt_trichotomy i k) as [Hik|[->|Hik]]; [symmetry; apply H1; auto|reflexivity|apply H1; auto].
  - exfalso. unfold cdist_elastic in E. destruct (to_dataset ds); discriminate.
Qed.
Print Assumptions C10_cdist_dtw_self.

(** Self matrix, no or Sakoe-Chiba constraint: every entry is the pairwise
    distance, and the call returns. *)
Theorem C10_cdist_dtw_self_pairwise : forall N nn fin, num_laws N nn fin -> nisnan (n:=N) nnan = true ->
  forall d ss g radius slope j,
  (forall s, In s ss -> finite_series fin d s) ->
  not_itakura g slope -> g <> GcOther -> (0 <= or_default radius 1)%Z ->
  valid_jobs j (length ss * (length ss - 1) / 2) ->
  exists M, cdist_dtw (N:=N) (map Raw2 ss) None g radius slope j = Ok M /\
  forall i k, i < length ss -> k < length ss ->
  dtw (Raw2 (nth i ss [])) (Raw2 (nth k ss [])) g radius slope = Ok (M i k).
Proof.
  intros N nn fin L Hn d ss g r s j F Hni Hg Hr Hj.
  assert (P : proper d (map (@Raw2 N) ss)).
  { intros x Hx. apply in_map_iff in Hx. destruct Hx as (t & <- & Ht). destruct (F t Ht) as (Hd & Hne & Hrow). simpl.
    split; [|split].
    - unfold ncols. destruct t as [|a t]; [congruence|]. apply Hrow. left; auto.
    - apply Forall_forall. intros q Hq. apply Hrow. auto.
    - intros Ha. destruct t as [|a t]; [congruence|]. specialize (Ha a (or_introl eq_refl)).
      destruct (Hrow a (or_introl eq_refl)) as [Hl Hf]. destruct a as [|v a]; [simpl in Hl; lia|].
      simpl in Ha. rewrite (fin_notnan _ _ _ L v) in Ha by (apply Hf; left; auto). discriminate. }
  assert (Hc : forall n m, exists A, constraint n m g r s A).
  { intros n m. destruct Hni as [H1 H2]. unfold constraint. destruct g; try congruence.
    - destruct H2 as [|H2]; [discriminate|]. subst. destruct r; eexists; [split; [exact Hr|reflexivity]|reflexivity].
    - destruct H2 as [|H2]; [discriminate|]. subst. destruct r; eexists; [split; [exact Hr|reflexivity]|reflexivity].
    - eexists. split; [exact Hr|reflexivity]. }
  assert (It : forall i, i < length ss -> item (map (@Raw2 N) ss) i = Raw2 (nth i ss [])).
  { intros i Hi. unfold item. exact (map_nth (@Raw2 N) ss [] i). }
  assert (Ret : forall i k, i < length ss -> k < length ss -> exists v, dtw (Raw2 (nth i ss [])) (Raw2 (nth k ss [])) g r s = Ok v).
  { intros i k Hi Hk. destruct (Hc (length (nth i ss [])) (length (nth k ss []))) as (A & HA).
    destruct (C01_dtw_optimal N nn fin L d _ _ g r s A (F _ (nth_In _ _ Hi)) (F _ (nth_In _ _ Hk)) HA) as (w & E & _). eauto. }
  destruct (gc_code g) as [c|e] eqn:Ec; [|destruct g; try discriminate; congruence].
  destruct (self_returns N Hn comb_dtw d (map Raw2 ss) g c r s j P Ec) as (M & E).
  { rewrite triu_len, map_length. auto. }
  { rewrite map_length. intros i k Hi Hk. rewrite !It by auto. apply Ret; auto. }
  exists M. assert (E' : cdist_dtw (map Raw2 ss) None g r s j = Ok M) by (unfold cdist_dtw; rewrite Ec; exact E).
  split; auto. intros i k Hi Hk.
  assert (T := C10_cdist_dtw_self N Hn d (map Raw2 ss) g r s j M P). rewrite map_length in T. specialize (T Hj E').
  destruct (Nat.lt_trichotomy i k) as [Hik|[->|Hik]].
  - destruct (T i k Hi Hk) as (_ & _ & T3). rewrite !It in T3 by auto. auto.
  - destruct (T k k Hi Hk) as (_ & T2 & _). rewrite T2.
    destruct (Hc (length (nth k ss [])) (length (nth k ss []))) as (A & HA).
    apply (C03_dtw_self_zero N nn fin L d (nth k ss []) g r s A (F _ (nth_In _ _ Hk)) Hni HA).
  - destruct (T k i Hk Hi) as (T1 & _ & T3). rewrite <- T1. rewrite !It in T3 by auto. rewrite <- T3 by auto.
    destruct (Hc (length (nth i ss [])) (length (nth k ss []))) as (A & HA).
    apply (C03_dtw_symmetric N nn fin L d _ _ g r s A (F _ (nth_In _ _ Hi)) (F _ (nth_In _ _ Hk)) Hni HA).
Qed.
Print Assumptions C10_cdist_dtw_self_pairwise.

Definition exds : list (series Fnum) := [[[0]; [1]; [2]]; [[1]; [3]]; [[2]; [2]; [2]; [5]]]%float.
Lemma exds_fin : forall s, In s exds -> finite_series (N:=Fnum) ffin 1 s.
Proof. intros s Hs. simpl in Hs. repeat destruct Hs as [<-|Hs]; try contradiction; fin_series. Qed.
Example C10_nontrivial : valid_jobs (Threads [2; 0; 1]) (length exds * (length exds - 1) / 2) /\
  exists M, cdist_dtw (N:=Fnum) (map Raw2 exds) None GcNone (Some 1%Z) None (Threads [2; 0; 1]) = Ok M /\
    M 0 2 = M 2 0 /\ PrimFloat.ltb 3 (M 0 2) = true.
Proof.
  split.
  - simpl. apply perm_trans with [0; 2; 1]; [constructor|]. constructor. constructor.
  - eexists. split; [vm_compute; reflexivity|split; vm_compute; reflexivity].
Qed.

(** ** C11: false.  cdist_frechet passes the constraint name where the mask
    computation expects its code, so every constraint is ignored. *)
Definition fr1 : series Fnum := [[0]; [0]; [0]; [3]]%float.
Definition fr2 : series Fnum := [[0]; [3]; [3]; [3]]%float.
Theorem C11_cdist_frechet_refuted : exists (x1 x2 : raw Fnum) g r M v,
  frechet x1 x2 g r None = Ok v /\ cdist_frechet [x1] (Some [x2]) g r None Sequential = Ok M /\
  PrimFloat.eqb (M 0 0) v = false.
Proof.
  exists (Raw2 fr1), (Raw2 fr2), GcSakoeChiba, (Some 0%Z). eexists. eexists.
  split; [vm_compute; reflexivity|]. split; [vm_compute; reflexivity|]. vm_compute. reflexivity.
Qed.
Print Assumptions C11_cdist_frechet_refuted.
(** What it computes instead: the unconstrained distance, whatever the arguments
    (even an unknown constraint name, and both parameters together). *)
Theorem C11_cdist_frechet_ignores_constraint : forall N, nisnan (n:=N) nnan = true ->
  forall d ds1 ds2 g radius slope j M,
  proper (N:=N) d ds1 -> proper d ds2 -> valid_jobs j (length ds1 * length ds2) ->
  cdist_frechet ds1 (Some ds2) g radius slope j = Ok M ->
  forall i k, i < length ds1 -> k < length ds2 ->
  frechet (item ds1 i) (item ds2 k) GcNone None None = Ok (M i k).
Proof.
  intros N Hn d ds1 ds2 g r s j M P1 P2 Hj E. rewrite <- row_major_len in Hj.
  apply (cross_spec N Hn comb_frechet d ds1 ds2 GcNone 0 None None j M); auto.
  rewrite <- E. unfold cdist_frechet, cdist_elastic, raw_name_as_code.
  destruct (to_dataset ds1) as [o1|]; cbn [bind]; auto. destruct (to_dataset ds2) as [o2|]; cbn [bind]; auto.
  unfold cdist_generic, cdist_cross.
  assert (X : forall l, run_jobs j (fun ij : nat * nat => elastic_generic (N:=N) comb_frechet
      (to_time_series true (Raw2 (nth (fst ij) o1 []))) (to_time_series true (Raw2 (nth (snd ij) o2 []))) 0 None None) l =
    run_jobs j (fun ij => elastic_generic comb_frechet
      (to_time_series true (Raw2 (nth (fst ij) o1 []))) (to_time_series true (Raw2 (nth (snd ij) o2 []))) 3 r s) l).
  { intros l. assert (Ext : forall A B (f f' : A -> res B) l, (forall a, f a = f' a) -> run_jobs j f l = run_jobs j f' l).
    { clear. intros A B f f' l H. destruct j as [|sched]; simpl.
      - induction l as [|a l IH]; simpl; auto. rewrite H, IH. reflexivity.
      - unfold parallel. f_equal. generalize (fun _ : nat => @None B). induction sched as [|k sched IH]; simpl; intros st; auto.
        destruct (nth_error l k); rewrite ?H; [|reflexivity]. destruct (f' a); simpl; auto. }
    apply Ext. intros ij. symmetry. apply code3. }
  rewrite X. reflexivity.
Qed.
Print Assumptions C11_cdist_frechet_ignores_constraint.
Example C11_nontrivial : proper (N:=Fnum) 1 [Raw2 fr1] /\
  frechet (N:=Fnum) (Raw2 fr1) (Raw2 fr2) GcNone None None = Ok 0%float.
Proof.
  split; [|vm_compute; reflexivity]. intros x [<-|[]]. split; [reflexivity|]. split.
  - repeat constructor.
  - intros H. specialize (H _ (or_introl eq_refl)). vm_compute in H. discriminate.
Qed.

(** ** C40 *)
Theorem C40_to_dataset : forall N, nisnan (n:=N) nnan = true -> forall d (ds : list (raw N)),
  ds <> [] -> (forall x, In x ds -> raw_ncols x = d /\ rect d (reshape x)) ->
  exists out len, to_dataset ds = Ok out /\ length out = length ds /\
    (* every series is preserved and followed by NaN rows up to a common length *)
    (forall i, i < length ds -> length (nth i out []) = len /\
       exists pad, nth i out [] = to_time_series true (item ds i) ++ pad /\
                   forall r, In r pad -> r = repeat nnan d) /\
    (* which is the largest true length *)
    (exists i, i < length ds /\ length (to_time_series true (item ds i)) = len) /\
    (* applying it twice is the same as once *)
    to_dataset (map Raw2 out) = Ok out.
Proof.
  intros N Hn d ds Hne H.
  pose proof (to_dataset_ok N d ds H) as E.
  destruct (max_size_spec N ds Hne) as [M1 (x & Hx & Mx)].
  eexists. exists (max_size ds). split; [exact E|]. split; [apply map_length|]. split; [|split].
  - intros i Hi.
    set (f := fun x : raw N => to_time_series true x ++ repeat (repeat nnan d) (max_size ds - length (to_time_series true x))).
    rewrite (nth_indep _ [] (f (Raw2 []))) by (rewrite map_length; auto). rewrite map_nth.
    change (nth i ds (Raw2 [])) with (item ds i). unfold f.
    assert (Hle : length (to_time_series true (item ds i)) <= max_size ds) by (apply M1, nth_In; auto).
    split; [rewrite app_length, repeat_length; lia|].
    eexists. split; [reflexivity|]. intros r Hr. apply repeat_spec in Hr. auto.
  - destruct (In_nth _ _ (Raw2 []) Hx) as (i & Hi & Ei). exists i. split; auto. unfold item. rewrite Ei. auto.
  - apply (to_dataset_idem N d ds _ Hn H E).
Qed.
Print Assumptions C40_to_dataset.
Example C40_nontrivial : nisnan (n:=Fnum) nnan = true /\ nisnan (n:=Xnum) nnan = true /\
  exists out, to_dataset (N:=Fnum) [Raw1 f2; Raw1 (f4 ++ fnan)] = Ok out /\ map (@length _) out = [4; 4].
Proof. repeat split. eexists. split; vm_compute; reflexivity. Qed.

(** ** C41: false.  A 1-feature series is broadcast into a multi-feature dataset. *)
Theorem C41_feature_mismatch_refuted : exists (x1 x2 : raw Fnum) out,
  raw_ncols x1 = 2 /\ raw_ncols x2 = 1 /\ to_dataset [x1; x2] = Ok out /\
  nth 0 (nth 1 out []) [] = [3; 3]%float.
Proof.
  exists (Raw2 ex1), (Raw2 (N:=Fnum) [[3]]%float). eexists.
  split; [reflexivity|]. split; [reflexivity|]. split; [vm_compute; reflexivity|]. reflexivity.
Qed.
Print Assumptions C41_feature_mismatch_refuted.
(** Proved part: any other mismatch is rejected (the first series fixes [d]; a
    series with [d'] features, [d' <> d] and [d' <> 1], raises ValueError). *)
Theorem C41_feature_mismatch_partial : forall N (x0 x : raw N) ds1 ds2 d',
  raw_ncols x0 <> d' -> d' <> 1 -> rect d' (reshape x) -> ~ all_nan x ->
  exists e, to_dataset (x0 :: ds1 ++ x :: ds2) = Err e.
Proof.
  intros N x0 x ds1 ds2 d' H1 H2 HR HA. unfold to_dataset.
  destruct (mapM _ _) as [vs|e] eqn:E; [|eauto]. exfalso.
  apply mapM_spec in E.
  assert (Hin : In x (x0 :: ds1 ++ x :: ds2)) by (right; apply in_or_app; right; left; auto).
  revert E. generalize (max_size (x0 :: ds1 ++ x :: ds2)). intros k E.
  assert (G : exists v, padded (raw_ncols x0) k x = Ok v).
  { clear -E Hin. induction E as [|a b l l' Hab E IH]; [contradiction|]. destruct Hin as [->|Hin]; eauto. }
  destruct G as (v & G). unfold padded in G. cbv zeta in G.
  destruct (to_time_series true x) as [|r l] eqn:Es.
  { apply HA. apply stripped_nil. rewrite Es. reflexivity. }
  assert (Hr : length r = d').
  { pose proof (strip_rect N d' x HR) as R. rewrite Es in R. inversion R; auto. }
  simpl in G. unfold broadcast_row at 1 in G. rewrite Hr in G.
  destruct (d' =? raw_ncols x0) eqn:Ed; [apply Nat.eqb_eq in Ed; lia|].
  destruct r as [|a [|b r]]; simpl in *; try discriminate. lia.
Qed.
Print Assumptions C41_feature_mismatch_partial.
Example C41_nontrivial : exists e, to_dataset (N:=Fnum) [Raw1 f2; Raw2 ex1] = Err e.
Proof. eexists. vm_compute. reflexivity. Qed.

(** ** C74: cdist_dtw does not validate that the two datasets have the same number
    of features, although dtw does. *)
Theorem C74_cdist_feature_mismatch_refuted : exists (x1 x2 : raw Fnum) M,
  dtw x1 x2 GcNone None None = Err ValueError /\
  cdist_dtw [x1] (Some [x2]) GcNone None None Sequential = Ok M /\ M 0 0 = 2%float.
Proof.
  exists (Raw2 (N:=Fnum) [[3]]%float), (Raw2 (N:=Fnum) [[1; 7]]%float). eexists.
  split; [vm_compute; reflexivity|]. split; [vm_compute; reflexivity|]. vm_compute. reflexivity.
Qed.
Print Assumptions C74_cdist_feature_mismatch_refuted.

(** What it computes instead, if the first dataset has no more features than the second: the
    distances to the series of the second dataset cut to the features of the first. *)
Definition no_gaps {N : num} (d : nat) (s : series N) : Prop :=
  0 < d /\ s <> [] /\ forall r, In r s -> length r = d /\ forall v, In v r -> nisnan v = false.
Lemma no_gaps_proper {N : num} d (ss : list (series N)) : (forall s, In s ss -> no_gaps d s) -> proper d (map Raw2 ss).
Proof.
  intros H x Hx. apply in_map_iff in Hx. destruct Hx as (s & <- & Hs). destruct (H s Hs) as (Hd & Hne & Hr). simpl. split; [|split].
  - destruct s as [|a s]; [congruence|]. apply Hr. left; auto.
  - apply Forall_forall. intros q Hq. apply Hr. auto.
  - intros Ha. destruct s as [|a s]; [congruence|]. specialize (Ha a (or_introl eq_refl)). destruct (Hr a (or_introl eq_refl)) as [Hl Hf].
    destruct a as [|v a]; [simpl in Hl; lia|]. simpl in Ha. rewrite (Hf v (or_introl eq_refl)) in Ha. discriminate.
Qed.
Lemma no_gaps_strip {N : num} d (s : series N) : no_gaps d s -> to_time_series true (Raw2 s) = s.
Proof.
  intros (Hd & Hne & Hr). unfold to_time_series. cbn [reshape]. rewrite ts_size_full, firstn_all; auto.
  intros r Hi. destruct (Hr r Hi) as [Hl Hf]. destruct r as [|v r]; [simpl in Hl; lia|]. unfold nan_row. simpl. rewrite (Hf v (or_introl eq_refl)). auto.
Qed.
Lemma no_gaps_cut {N : num} d d' (s : series N) : 0 < d <= d' -> no_gaps d' s -> no_gaps d (map (firstn d) s).
Proof.
  intros Hd (_ & Hne & Hr). split; [lia|]. split; [destruct s; [congruence|discriminate]|]. intros r Hi. apply in_map_iff in Hi. destruct Hi as (q & <- & Hq).
  destruct (Hr q Hq) as [Hl Hf]. split; [rewrite firstn_length; lia|]. intros v Hv. apply Hf. rewrite <- (firstn_skipn d q). apply in_or_app. auto.
Qed.
Lemma combine_cut {A B} (x : list A) : forall (y : list B) d, length x <= d -> combine x (firstn d y) = combine x y.
Proof. induction x as [|a x IH]; intros [|b y] [|d] H; simpl in *; auto; try lia. f_equal. apply IH. lia. Qed.
Lemma sq_dists_cut {N : num} d (s1 s2 : series N) : (forall r, In r s1 -> length r = d) -> forall i k, i < length s1 ->
  sq_dists s1 (map (firstn d) s2) i k = sq_dists s1 s2 i k.
Proof.
  intros H i k Hi. unfold sq_dists, local_sq_dist. replace (nth k (map (firstn d) s2) []) with (firstn d (nth k s2 [])).
  - rewrite combine_cut; auto. rewrite (H (nth i s1 [])); [lia|apply nth_In; auto].
  - rewrite <- (map_nth (firstn d)). rewrite firstn_nil. auto.
Qed.
Lemma elastic_generic_cut {N : num} comb d (s1 s2 : series N) c r s : (forall q, In q s1 -> length q = d) ->
  elastic_generic comb s1 (map (firstn d) s2) c r s = elastic_generic comb s1 s2 c r s.
Proof.
  intros H. unfold elastic_generic. cbv zeta. rewrite map_length. destruct (compute_mask (length s1) (length s2) c r s) as [mask|e]; cbn [bind]; auto.
  f_equal. f_equal. unfold acc_matrix, cum_matrix.
  assert (E : forall l cum, (forall p, In p l -> fst p < length s1) -> fold_left (cum_step comb (sq_dists s1 (map (firstn d) s2)) mask) l cum = fold_left (cum_step comb (sq_dists s1 s2) mask) l cum).
  { induction l as [|[i k] l IH]; intros cum Hl; auto. cbn [fold_left]. rewrite IH by (intros; apply Hl; right; auto). f_equal. unfold cum_step.
    rewrite sq_dists_cut; auto. apply (Hl (i, k)). left; auto. }
  rewrite E; auto. intros [i k] Hp. apply in_row_major' in Hp. apply Hp.
Qed.
Theorem C74_common_features : forall N, nisnan (n:=N) nnan = true ->
  forall d1 d2 ss1 ss2 g radius slope j M, d1 <= d2 ->
  (forall s, In s ss1 -> no_gaps d1 s) -> (forall s, In s ss2 -> no_gaps d2 s) -> valid_jobs j (length ss1 * length ss2) ->
  cdist_dtw (N:=N) (map Raw2 ss1) (Some (map Raw2 ss2)) g radius slope j = Ok M ->
  forall i k, i < length ss1 -> k < length ss2 ->
  dtw (Raw2 (nth i ss1 [])) (Raw2 (map (firstn d1) (nth k ss2 []))) g radius slope = Ok (M i k).
Proof.
  intros N Hn d1 d2 ss1 ss2 g r s j M Hd H1 H2 Hj E i k Hi Hk. unfold cdist_dtw, cdist_elastic in E.
  pose proof (no_gaps_proper d1 ss1 H1) as P1. pose proof (no_gaps_proper d2 ss2 H2) as P2.
  assert (G1 : no_gaps d1 (nth i ss1 [])) by (apply H1, nth_In; auto). assert (G2 : no_gaps d2 (nth k ss2 [])) by (apply H2, nth_In; auto).
  assert (G3 : no_gaps d1 (map (firstn d1) (nth k ss2 []))) by (apply (no_gaps_cut d1 d2); auto; destruct G1; lia).
  destruct (to_dataset (map Raw2 ss1)) as [o1|] eqn:E1; [|discriminate]. simpl in E. destruct (to_dataset (map Raw2 ss2)) as [o2|] eqn:E2; [|discriminate]. simpl in E.
  destruct (gc_code g) as [c|e] eqn:Ec; [|discriminate]. simpl in E.
  assert (M1 : i < length (map (@Raw2 N) ss1)) by (rewrite map_length; auto). assert (M2 : k < length (map (@Raw2 N) ss2)) by (rewrite map_length; auto).
  destruct (strip_nth N Hn d1 _ o1 i (proper_uniform N d1 _ P1) E1 M1) as [L1 S1]. destruct (strip_nth N Hn d2 _ o2 k (proper_uniform N d2 _ P2) E2 M2) as [L2 S2]. rewrite map_length in L1, L2.
  assert (It : forall (ss : list (series N)) q, item (map (@Raw2 N) ss) q = Raw2 (nth q ss [])) by (intros ss q; exact (map_nth (@Raw2 N) ss [] q)).
  rewrite It in S1, S2. rewrite (no_gaps_strip d1 (nth i ss1 [])) in S1 by auto. rewrite (no_gaps_strip d2 (nth k ss2 [])) in S2 by auto.
  assert (F : elastic_generic comb_dtw (to_time_series true (Raw2 (nth i o1 []))) (to_time_series true (Raw2 (nth k o2 []))) c r s = Ok (M i k)).
  { refine (cdist_cross_spec N (series N) (fun a b => elastic_generic comb_dtw (to_time_series true (Raw2 a)) (to_time_series true (Raw2 b)) c r s) [] o1 o2 j M _ E i k _ _); rewrite ?L1, ?L2, ?row_major_len; auto. }
  assert (W : forall q, no_gaps d1 q -> rect d1 (reshape (Raw2 (N:=N) q)) /\ ~ all_nan (Raw2 (N:=N) q)).
  { intros q Hq. destruct (no_gaps_proper d1 [q] ltac:(intros ? [<-|[]]; exact Hq) (Raw2 q) (or_introl eq_refl)) as (_ & A & B). auto. }
  rewrite S1, S2 in F. destruct (W _ G1) as [R1 A1]. destruct (W _ G3) as [R3 A3].
  unfold dtw. rewrite (elastic_public N comb_dtw d1) by auto. rewrite Ec. cbn [bind]. rewrite (no_gaps_strip d1), (no_gaps_strip d1) by auto.
  rewrite (elastic_generic_cut comb_dtw d1); auto. intros q Hq. apply G1. auto.
Qed.
Print Assumptions C74_common_features.
Example C74_nontrivial : no_gaps (N:=Fnum) 1 [[3]; [5]]%float /\ no_gaps (N:=Fnum) 2 [[1; 7]; [5; 8]]%float /\
  exists M, cdist_dtw (N:=Fnum) [Raw2 (N:=Fnum) [[3]; [5]]]%float (Some [Raw2 (N:=Fnum) [[1; 7]; [5; 8]]])%float GcNone None None Sequential = Ok M /\ M 0 0 = 2%float.
Proof.
  split; [|split].
  - split; [lia|]. split; [discriminate|]. intros r [<-|[<-|[]]]; (split; [reflexivity|]; intros v [<-|[]]; reflexivity).
  - split; [lia|]. split; [discriminate|]. intros r [<-|[<-|[]]]; (split; [reflexivity|]; intros v [<-|[<-|[]]]; reflexivity).
  - eexists. split; vm_compute; reflexivity.
Qed.

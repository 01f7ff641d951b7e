(** C128-C132: support vector machines on time series. *)
From Coq Require Import String Bool List Arith Lia ZArith QArith Reals Lra.
From Verif Require Import Num NumLaws Py Series Masks DtwModel Dataset Spec SpecDtw DpProofs DtwProofs DtwThms RList PathSum RealSeries CdistThms CdistGen PropCdist SoftModel SoftThms PropSoft PropSoftCdist GakModel PropGak PaaModel PreModel KernelModel PropKernel SvmModel.
Import ListNotations.
Local Open Scope R_scope.
Local Open Scope string_scope.

(** ** specification *)
(** the bandwidth of the kernel that belongs to a [gamma] hyper-parameter: [gamma = 2 sigma^2],
    where 'auto' stands for the [sigma_gak] of the training set [D] with the draw [idx] *)
Definition bandwidth (gamma : value) (D : list (series Xnum)) (idx : list nat) (sigma : R) : Prop :=
  0 < sigma /\ (gamma = VStr "auto" /\ sigma_gak D idx = Ok sigma \/ exists g, gamma = VNum g /\ g = 2 * (sigma * sigma)).
(** the matrix of [gak] values between two datasets *)
Definition gram (ss1 ss2 : list (list (list R))) (sigma : R) (K : list (list xr)) : Prop :=
  length K = length ss1 /\
  (forall i, (i < length ss1)%nat -> length (nth i K []) = length ss2) /\
  forall i k, (i < length ss1)%nat -> (k < length ss2)%nat ->
    gak (Raw2 (lift (nth i ss1 []))) (Raw2 (lift (nth k ss2 []))) sigma = Ok (nth k (nth i K []) XNaN).
Definition valid_batches (b : batches) (n m pairs : nat) : Prop :=
  valid_jobs (b_pairs b) pairs /\ valid_jobs (b_left b) n /\ valid_jobs (b_right b) m.

(** ** lemmas *)
Lemma rows_length n m M : length (rows n m M) = n. Proof. unfold rows. rewrite map_length, seq_length. auto. Qed.
Lemma rows_row n m M i : (i < n)%nat -> nth i (rows n m M) [] = map (M i) (seq 0 m).
Proof.
  intros Hi. unfold rows. rewrite (nth_indep _ [] (map (M 0%nat) (seq 0 m))) by (rewrite map_length, seq_length; auto).
  rewrite (map_nth (fun i => map (M i) (seq 0 m))), seq_nth by auto. reflexivity.
Qed.
Lemma rows_entry n m M i k : (i < n)%nat -> (k < m)%nat -> nth k (nth i (rows n m M) []) XNaN = M i k.
Proof.
  intros Hi Hk. rewrite rows_row by auto. rewrite (nth_indep _ XNaN (M i 0%nat)) by (rewrite map_length, seq_length; auto).
  rewrite map_nth, seq_nth by auto. reflexivity.
Qed.
Lemma gram_rows ss1 ss2 sigma M :
  (forall i k, (i < length ss1)%nat -> (k < length ss2)%nat -> gak (Raw2 (lift (nth i ss1 []))) (Raw2 (lift (nth k ss2 []))) sigma = Ok (M i k)) ->
  gram ss1 ss2 sigma (rows (length ss1) (length ss2) M).
Proof.
  intros H. split; [apply rows_length|split].
  - intros i Hi. rewrite rows_row by auto. rewrite map_length, seq_length. auto.
  - intros i k Hi Hk. rewrite rows_entry by auto. auto.
Qed.
(** there is only one such matrix *)
Lemma gram_unique ss1 ss2 sigma K K' : gram ss1 ss2 sigma K -> gram ss1 ss2 sigma K' -> K = K'.
Proof.
  intros (A1 & A2 & A3) (B1 & B2 & B3). apply (nth_ext _ _ [] []); [congruence|]. intros i Hi. rewrite A1 in Hi.
  apply (nth_ext _ _ XNaN XNaN); [rewrite A2, B2; auto|]. intros k Hk. rewrite A2 in Hk by auto.
  specialize (A3 i k Hi Hk). specialize (B3 i k Hi Hk). rewrite B3 in A3. injection A3 as ->. reflexivity.
Qed.
Lemma sigma_of_bandwidth gamma D idx sigma : bandwidth gamma D idx sigma ->
  exists g, (if is_str gamma "auto" then do g <- gamma_soft_dtw D idx ;; Ok (VNum g) else Ok gamma) = Ok (VNum g) /\ sigma_of (VNum g) = Ok sigma.
Proof.
  intros (Hs & H). assert (S0 : 0 <= sigma * sigma) by nra. exists (2 * (sigma * sigma)). split.
  - destruct H as [(-> & E)|(g & -> & ->)].
    + cbn [is_str String.eqb]. simpl. unfold gamma_soft_dtw. rewrite E. reflexivity.
    + reflexivity.
  - unfold sigma_of. cbn [number bind]. destruct (Rltb (2 * (sigma * sigma)) 0) eqn:E; [apply Rltb_true in E; lra|].
    f_equal. replace (2 * (sigma * sigma) / 2) with (sigma * sigma) by field. apply sqrt_square. lra.
Qed.
Lemma padded_dataset d ss : (forall s, In s ss -> real_series d s) -> exists o, to_dataset (N:=Xnum) (reals ss) = Ok o /\ length o = length ss /\
  (forall sigma j j1 j2, cdist_gak (map Raw2 o) None sigma j j1 j2 = cdist_gak (reals ss) None sigma j j1 j2).
Proof.
  intros F. pose proof (proper_uniform _ _ _ (lift_proper d ss F)) as U. fold (reals ss) in U.
  destruct (to_datasets_self d (reals ss) U) as (o & E1 & E3). exists o. split; [auto|]. split.
  - rewrite <- (map_length (fun s => Raw2 (lift s)) ss). eapply gen_len; eauto.
  - intros. unfold cdist_gak. rewrite E3. unfold to_datasets. rewrite (to_dataset_idem Xnum d (reals ss) o xnan U E1). reflexivity.
Qed.

(** ** C128: the kernel matrices *)
(** [fit] trains scikit-learn's estimator on the matrix of the [gak] values between the
    training series, and every prediction method gives it the [gak] values between the new
    series and the training series, for one and the same bandwidth, whatever the batches of
    the workers.  On the training series it is the training matrix again. *)
Theorem C128_kernels {A Y W P} (train : kwargs -> list (list xr) -> list Y -> W -> res A) (apply : A -> list (list xr) -> res P)
    call p d ss D (y : list Y) (w : W) idx b sigma e :
  p "kernel" = VStr "gak" -> ss <> [] -> (forall s, In s ss -> real_series d s) -> to_dataset (N:=Xnum) (reals ss) = Ok D ->
  bandwidth (p "gamma") D idx sigma -> valid_batches b 0 0 (length ss * (length ss + 1) / 2)%nat ->
  exists K g, gram ss ss sigma K /\ g = 2 * (sigma * sigma) /\
    (train (call p (VStr "precomputed") (VNum g)) K y w = Err e -> svm_fit train call p (reals ss) y w idx b = Err e) /\
    forall a, train (call p (VStr "precomputed") (VNum g)) K y w = Ok a ->
    exists f, svm_fit train call p (reals ss) y w idx b = Ok f /\ X_fit f = D /\ gamma_ f = VNum g /\ svm_estimator_ f = a /\
      (forall ss' b', ss' <> [] -> (forall s, In s ss' -> real_series d s) ->
         valid_batches b' (length ss') (length ss) (length ss' * length ss)%nat ->
         exists K', gram ss' ss sigma K' /\ svm_predict apply p f (reals ss') b' = apply a K') /\
      (forall b', valid_batches b' (length ss) (length ss) (length ss * length ss)%nat -> svm_predict apply p f (reals ss) b' = apply a K).
Proof.
  intros Hk Hne F ED HB (HJ & _ & _). destruct (padded_dataset d ss F) as (o & Eo & Lo & Ec). rewrite ED in Eo. injection Eo as <-.
  assert (Hs : sigma <> 0) by (destruct HB; lra).
  destruct (C76_cdist_gak_self d ss sigma (b_pairs b) (b_left b) (b_right b) Hs F HJ) as (M & EM & HM).
  destruct (sigma_of_bandwidth _ _ _ _ HB) as (g & Eg & Es).
  assert (Vg : g = 2 * (sigma * sigma)).
  { destruct HB as (H0 & [(Hg & E)|(g' & Hg & E)]); rewrite Hg in Eg; simpl in Eg; [|congruence]. unfold gamma_soft_dtw in Eg. rewrite E in Eg. simpl in Eg. congruence. }
  set (K := rows (length ss) (length ss) M). pose proof (gram_rows ss ss sigma M HM) as GK. fold K in GK.
  assert (EP : preprocess_fit p (reals ss) idx b = Ok (D, VNum g, VStr "precomputed", K)).
  { unfold preprocess_fit. rewrite ED. cbn [bind]. rewrite Hk. change (in_names (VStr "gak") variable_length_metrics) with true.
    change (is_str (VStr "gak") "gak") with true. cbn [negb andb]. rewrite Eg. cbn [bind]. rewrite Es. cbn [bind]. rewrite Ec, EM. cbn [bind]. rewrite Lo. reflexivity. }
  exists K, g. split; [exact GK|]. split; [exact Vg|]. unfold svm_fit. rewrite EP. split.
  { intros E. rewrite E. reflexivity. }
  intros a Ea. rewrite Ea. cbn [bind]. eexists. split; [reflexivity|]. cbn [X_fit gamma_ svm_estimator_]. split; [auto|split; [auto|split; [auto|]]].
  assert (PR : forall ss' b', ss' <> [] -> (forall s, In s ss' -> real_series d s) ->
    valid_batches b' (length ss') (length ss) (length ss' * length ss)%nat ->
    exists K', gram ss' ss sigma K' /\ svm_predict apply p {| X_fit := D; gamma_ := VNum g; svm_estimator_ := a |} (reals ss') b' = apply a K').
  { intros ss' b' Hne' F' (J1 & J2 & J3). destruct (padded_dataset d ss' F') as (o' & Eo' & Lo' & _).
    destruct (C76_cdist_gak_cross d ss' ss sigma (b_pairs b') (b_left b') (b_right b') Hs F' F J1 J2 J3) as (M' & EM' & HM').
    exists (rows (length ss') (length ss) M'). split; [apply gram_rows; auto|].
    unfold svm_predict, preprocess_predict. rewrite Eo'. cbn [bind X_fit gamma_ svm_estimator_]. rewrite Hk.
    change (in_names (VStr "gak") variable_length_metrics) with true. change (is_str (VStr "gak") "gak") with true. cbn [negb andb].
    destruct (first_padded d ss D F Hne ED) as [_ D1]. destruct (first_padded d ss' o' F' Hne' Eo') as [_ D2].
    assert (ED12 : (arr_d o' =? arr_d D)%nat = true).
    { apply Nat.eqb_eq. unfold arr_d. etransitivity; [exact D2|symmetry; exact D1]. }
    rewrite ED12. cbn [negb]. rewrite Es. cbn [bind].
    assert (EC : cdist_gak (map Raw2 o') (Some (map Raw2 D)) sigma (b_pairs b') (b_left b') (b_right b') = Ok M').
    { rewrite <- EM'. unfold cdist_gak, to_datasets.
      pose proof (proper_uniform _ _ _ (lift_proper d ss F)) as U. pose proof (proper_uniform _ _ _ (lift_proper d ss' F')) as U'. fold (reals ss) in U. fold (reals ss') in U'.
      rewrite (to_dataset_idem Xnum d (reals ss') o' xnan U' Eo'), (to_dataset_idem Xnum d (reals ss) D xnan U ED), Eo', ED. reflexivity. }
    rewrite EC. cbn [bind]. rewrite Lo, Lo'. reflexivity. }
  split; [exact PR|]. intros b' HB'. destruct (PR ss b' Hne F HB') as (K' & GK' & E). rewrite E. f_equal. apply (gram_unique ss ss sigma); auto.
Qed.
Print Assumptions C128_kernels.
(** series with another number of features are refused *)
Theorem C128_features {A P} (apply : A -> list (list xr) -> res P) p d d' ss D f ss' b' :
  p "kernel" = VStr "gak" -> ss <> [] -> ss' <> [] -> (forall s, In s ss -> real_series d s) -> (forall s, In s ss' -> real_series d' s) -> d <> d' ->
  to_dataset (N:=Xnum) (reals ss) = Ok D -> X_fit f = D -> svm_predict apply p f (reals ss') b' = Err ValueError.
Proof.
  intros Hk Hne Hne' F F' Hd ED HX. destruct (padded_dataset d' ss' F') as (o' & Eo' & _). unfold svm_predict, preprocess_predict. rewrite Eo', HX, Hk. cbn [bind].
  change (in_names (VStr "gak") variable_length_metrics) with true. cbn [negb andb].
  destruct (first_padded d ss D F Hne ED) as [_ D1]. destruct (first_padded d' ss' o' F' Hne' Eo') as [_ D2].
  assert (E : (arr_d o' =? arr_d D)%nat = false) by (apply Nat.eqb_neq; unfold arr_d; intros E; apply Hd; etransitivity; [symmetry; exact D1|etransitivity; [symmetry; exact E|exact D2]]).
  rewrite E. reflexivity.
Qed.
Print Assumptions C128_features.
(** a training set, bandwidth and batches as in C128_kernels *)
Definition defaults (name : string) : value :=
  if (name =? "kernel")%string then VStr "gak" else if (name =? "gamma")%string then VStr "auto" else VNum 1.
Example C128_instance : let ss := [[[0]; [3]]; [[3]]] in
  (forall s, In s ss -> real_series 1 s) /\ defaults "kernel" = VStr "gak" /\
  exists D, to_dataset (N:=Xnum) (reals ss) = Ok D /\ bandwidth (defaults "gamma") D [0; 1]%nat (3 * sqrt 2) /\
    valid_batches {| b_pairs := Sequential; b_left := Sequential; b_right := Sequential |} 0 0 3.
Proof.
  cbv zeta. split; [|split; [reflexivity|]].
  - intros s [<-|[<-|[]]]; (split; [lia|split; [discriminate|intros r H; simpl in H; intuition (subst; reflexivity)]]).
  - eexists. split; [reflexivity|]. split; [|repeat split].
    split; [pose proof (sqrt_lt_R0 2 ltac:(lra)); lra|]. left. split; [reflexivity|]. unfold sigma_gak.
    vm_compute finite_points. cbn. unfold median. cbn. unfold euclid_pts, rsum. cbn. f_equal.
    match goal with |- (sqrt ?x + _) / 2 * _ = _ => replace x with (3 * 3) by ring end. rewrite sqrt_square by lra.
    replace (1 + 1) with 2 by ring. field.
Qed.

(** ** C129: hyper-parameters reach the estimator that is trained *)
(** keyword arguments of scikit-learn's SVC and SVR that are also hyper-parameters of
    TimeSeriesSVC and TimeSeriesSVR; 'kernel' and 'gamma' are the subject of C128 and C130 *)
Definition svc_names : list string :=
  ["C"; "degree"; "coef0"; "shrinking"; "probability"; "tol"; "cache_size"; "class_weight"; "verbose"; "max_iter"; "decision_function_shape"; "random_state"].
Definition svr_names : list string := ["C"; "degree"; "coef0"; "tol"; "epsilon"; "shrinking"; "cache_size"; "verbose"; "max_iter"].
(** a scikit-learn estimator that only keeps the arguments it is given *)
Definition recorder {Y W} (k : kwargs) (_ : list (list xr)) (_ : list Y) (_ : W) : res kwargs := Ok k.
Lemma fit_records {Y W} call p X (y : list Y) (w : W) idx b f : svm_fit recorder call p X y w idx b = Ok f ->
  exists k g, svm_estimator_ f = call p k g.
Proof.
  unfold svm_fit. destruct (preprocess_fit p X idx b) as [[[[D g] k] K]|e]; [|destruct e; discriminate].
  cbn [bind recorder]. intros H. injection H as <-. cbn. eauto.
Qed.
Theorem C129_svc {Y W} p X (y : list Y) (w : W) idx b f name : svc_fit recorder p X y w idx b = Ok f -> In name svc_names ->
  keyword name (svm_estimator_ f) = Some (p name).
Proof.
  intros H Hn. apply fit_records in H. destruct H as (k & g & ->). simpl in Hn. repeat (destruct Hn as [<-|Hn]; [reflexivity|]). contradiction.
Qed.
Print Assumptions C129_svc.
(** The two parameters that are not handed over as they are: 'kernel' is "precomputed" for "gak", and 'gamma' is the
    bandwidth in use, which is the given one except for "auto". *)
Theorem C129_kernel_gamma {Y W} p X (y : list Y) (w : W) idx b : forall f, (svc_fit recorder p X y w idx b = Ok f \/ svr_fit recorder p X y w idx b = Ok f) ->
  keyword "kernel" (svm_estimator_ f) = Some (if is_str (p "kernel") "gak" then VStr "precomputed" else p "kernel") /\
  keyword "gamma" (svm_estimator_ f) = Some (gamma_ f) /\ (p "gamma" <> VStr "auto" -> gamma_ f = p "gamma").
Proof.
  assert (G : forall call f, svm_fit recorder call p X y w idx b = Ok f ->
    svm_estimator_ f = call p (if is_str (p "kernel") "gak" then VStr "precomputed" else p "kernel") (gamma_ f) /\ (p "gamma" <> VStr "auto" -> gamma_ f = p "gamma")).
  { intros call f. unfold svm_fit, preprocess_fit. destruct (to_dataset X) as [D|e]; cbn [bind]; [|destruct e; discriminate].
    set (v := in_names (p "kernel") variable_length_metrics). assert (Hv : is_str (p "kernel") "gak" = true -> v = true).
    { unfold v, is_str. destruct (p "kernel") as [?|?|k|?| |?]; try discriminate. intros E. apply String.eqb_eq in E. subst k. reflexivity. }
    destruct (negb v && negb (all_finite D))%bool; [discriminate|].
    assert (Hg : forall g, (if is_str (p "gamma") "auto" then do g <- gamma_soft_dtw D idx ;; Ok (VNum g) else Ok (p "gamma")) = Ok g -> p "gamma" <> VStr "auto" -> g = p "gamma").
    { intros g. unfold is_str. destruct (p "gamma") as [?|?|k|?| |?]; try (intros E; injection E; auto; fail). destruct (String.eqb_spec k "auto") as [->|N]; [congruence|intros E; injection E; auto]. }
    destruct (if is_str (p "gamma") "auto" then _ else _) as [g|e]; cbn [bind]; [|destruct e; discriminate]. specialize (Hg g eq_refl).
    destruct v.
    - destruct (is_str (p "kernel") "gak"); [|discriminate]. destruct (sigma_of g) as [t|e]; cbn [bind]; [|destruct e; discriminate].
      destruct (cdist_gak _ _ _ _ _ _) as [M|e]; cbn [bind recorder]; [|destruct e; discriminate]. intros H. injection H as <-. cbn. auto.
    - destruct (is_str (p "kernel") "gak"); [specialize (Hv eq_refl); discriminate|]. cbn [recorder bind]. intros H. injection H as <-. cbn. auto. }
  intros f [H|H]; apply G in H; destruct H as [-> H]; (split; [reflexivity|split; [reflexivity|exact H]]).
Qed.
Print Assumptions C129_kernel_gamma.
(** what is missing: 'epsilon' *)
Theorem C129_svr_partial {Y W} p X (y : list Y) (w : W) idx b f name : svr_fit recorder p X y w idx b = Ok f -> In name svr_names -> name <> "epsilon" ->
  keyword name (svm_estimator_ f) = Some (p name).
Proof.
  intros H Hn Ne. apply fit_records in H. destruct H as (k & g & ->). simpl in Hn.
  repeat (destruct Hn as [<-|Hn]; [try reflexivity; exfalso; apply Ne; reflexivity|]). contradiction.
Qed.
Print Assumptions C129_svr_partial.
(** FALSE as stated: TimeSeriesSVR does not pass 'epsilon' on, and fits the same model
    whatever it is *)
Theorem C129_epsilon_refuted :
  (~ forall p (X : list (raw Xnum)) (y : list R) (w : unit) idx b f name, svr_fit recorder p X y w idx b = Ok f -> In name svr_names ->
       keyword name (svm_estimator_ f) = Some (p name)) /\
  forall A Y W (train : kwargs -> list (list xr) -> list Y -> W -> res A) p p' X y w idx b,
    (forall name, name <> "epsilon" -> p name = p' name) -> svr_fit train p X y w idx b = svr_fit train p' X y w idx b.
Proof.
  split.
  - intros H. set (p := fun name => if (name =? "kernel")%string then VStr "rbf" else VNum 1).
    specialize (H p [@Raw2 Xnum [[XR 0]]] [0] tt [] {| b_pairs := Sequential; b_left := Sequential; b_right := Sequential |}).
    assert (E : exists f, svr_fit recorder p [@Raw2 Xnum [[XR 0]]] [0] tt [] {| b_pairs := Sequential; b_left := Sequential; b_right := Sequential |} = Ok f /\ keyword "epsilon" (svm_estimator_ f) = None).
    { eexists. split; [reflexivity|]. reflexivity. }
    destruct E as (f & E & N). specialize (H f "epsilon" E). rewrite N in H. assert (I : In "epsilon" svr_names) by (simpl; tauto). specialize (H I). discriminate.
  - intros A Y W train p p' X y w idx b H. unfold svr_fit, svm_fit, preprocess_fit, svr_call.
    rewrite !(H "kernel") by discriminate. rewrite !(H "gamma") by discriminate. rewrite (H "C"), (H "degree"), (H "coef0"), (H "shrinking"), (H "tol"), (H "cache_size"), (H "verbose"), (H "max_iter") by discriminate.
    reflexivity.
Qed.
Print Assumptions C129_epsilon_refuted.

(** ** C130: [gamma="auto"] with the kernels of scikit-learn *)
(** the value used is [2 * sigma_gak(X) ** 2] for every kernel *)
Theorem C130_value_partial {Y W} call p X D (y : list Y) (w : W) idx b f s : p "gamma" = VStr "auto" -> to_dataset (N:=Xnum) X = Ok D -> sigma_gak D idx = Ok s ->
  svm_fit recorder call p X y w idx b = Ok f -> gamma_ f = VNum (2 * (s * s)) /\ exists k, svm_estimator_ f = call p k (VNum (2 * (s * s))).
Proof.
  intros Hg ED Es. unfold svm_fit, preprocess_fit. rewrite ED, Hg. cbn [bind]. change (is_str (VStr "auto") "auto") with true. unfold gamma_soft_dtw. rewrite Es. cbn [bind].
  set (v := in_names (p "kernel") variable_length_metrics). destruct (negb v && negb (all_finite D))%bool; [discriminate|]. destruct v.
  - destruct (is_str (p "kernel") "gak"); [|discriminate]. destruct (sigma_of _) as [t|e]; cbn [bind]; [|destruct e; discriminate].
    destruct (cdist_gak _ _ _ _ _ _) as [M|e]; cbn [bind recorder]; [|destruct e; discriminate]. intros H. injection H as <-. cbn. eauto.
  - cbn [recorder bind]. intros H. injection H as <-. cbn. eauto.
Qed.
Print Assumptions C130_value_partial.
(** all points equal: [sigma_gak] is 0 for every draw *)
Lemma median_zero l : (forall x, In x l -> x = 0) -> median l = 0.
Proof.
  intros H. assert (I : forall x l, (forall y, In y l -> y = 0) -> x = 0 -> forall y, In y (insert_r x l) -> y = 0).
  { intros x l0. induction l0 as [|a l0 IH]; intros H0 Hx y; simpl; [intuition congruence|].
    destruct (Rltb a x); simpl; (intros [Ey|Hy]; [rewrite <- Ey|]); [apply H0; left; auto|apply IH; auto; intros z Hz; apply H0; right; auto|exact Hx|apply H0; exact Hy]. }
  assert (S : forall y, In y (sort_r l) -> y = 0).
  { induction l as [|a l IH]; simpl; [tauto|]. apply I; [apply IH; intros; apply H; right; auto|apply H; left; auto]. }
  unfold median. assert (N : forall k, nth k (sort_r l) 0 = 0).
  { intros k. destruct (lt_dec k (length (sort_r l))); [apply S, nth_In; auto|apply nth_overflow; lia]. }
  rewrite !N. lra.
Qed.
Lemma euclid_self a : euclid_pts a a = 0.
Proof.
  unfold euclid_pts. replace (rsum _) with 0; [apply sqrt_0|]. induction a as [|x a IH]; [reflexivity|]. cbn [combine map fst snd]. unfold rsum in *. simpl. rewrite <- IH. ring.
Qed.
Lemma pdist_const a l : (forall x, In x l -> x = a) -> forall y, In y (pdist l) -> y = 0.
Proof.
  induction l as [|x l IH]; intros H y; simpl; [tauto|]. intros Hy. apply in_app_or in Hy. destruct Hy as [Hy|Hy].
  - apply in_map_iff in Hy. destruct Hy as (z & <- & Hz). rewrite (H z), (H x); [apply euclid_self|left; auto|right; auto].
  - apply IH; auto. intros z Hz. apply H. right. auto.
Qed.
Lemma sigma_const D a idx : finite_points D <> [] -> (forall x, In x (finite_points D) -> x = a) -> (forall i, In i idx -> (i < length (finite_points D))%nat) ->
  sigma_gak D idx = Ok 0.
Proof.
  intros Hne H Hi. unfold sigma_gak. destruct (finite_points D) as [|q l] eqn:E; [congruence|]. rewrite <- E in *. f_equal. rewrite median_zero; [ring|].
  apply (pdist_const a). intros x Hx. apply in_map_iff in Hx. destruct Hx as (i & <- & Hin). apply H. apply nth_In. auto.
Qed.
(** FALSE as stated: the documentation promises [1 / n_features]; on a constant series the
    kernel 'rbf' is given [gamma = 0], for every draw *)
Theorem C130_refuted :
  ~ forall p (X : list (raw Xnum)) D (y : list R) (w : unit) idx b f,
    p "kernel" = VStr "rbf" -> p "gamma" = VStr "auto" -> to_dataset (N:=Xnum) X = Ok D ->
    idx <> [] -> (forall i, In i idx -> (i < length (finite_points D))%nat) ->
    svc_fit recorder p X y w idx b = Ok f ->
    keyword "gamma" (svm_estimator_ f) = Some (VNum (1 / INR (arr_d D))) \/ keyword "gamma" (svm_estimator_ f) = Some (VNum (1 / INR (sizes D * arr_d D))).
Proof.
  intros H. set (p := fun name => if (name =? "kernel")%string then VStr "rbf" else if (name =? "gamma")%string then VStr "auto" else VNum 1).
  set (X := [@Raw2 Xnum [[XR 1]; [XR 1]]] : list (raw Xnum)). set (D := [[[XR 1]; [XR 1]]] : list (series Xnum)).
  set (b := {| b_pairs := Sequential; b_left := Sequential; b_right := Sequential |}).
  assert (Es : sigma_gak D [0%nat; 1%nat] = Ok 0).
  { apply (sigma_const D [1]); [discriminate|simpl; intuition congruence|simpl; intuition lia]. }
  assert (E : exists f, svc_fit recorder p X [0; 1] tt [0%nat; 1%nat] b = Ok f).
  { unfold svc_fit, svm_fit, preprocess_fit. change (to_dataset X) with (Ok D). cbn [bind]. change (is_str (p "gamma") "auto") with true. unfold gamma_soft_dtw. rewrite Es. eexists. reflexivity. }
  destruct E as (f & E). specialize (H p X D [0; 1] tt [0%nat; 1%nat] b f eq_refl eq_refl eq_refl ltac:(discriminate) ltac:(simpl; intuition lia) E).
  destruct (C130_value_partial svc_call p X D [0; 1] tt [0%nat; 1%nat] b f 0 eq_refl eq_refl Es E) as (_ & k & Ek). rewrite Ek in H. cbn in H.
  destruct H as [H|H]; injection H as H; lra.
Qed.
Print Assumptions C130_refuted.

(** ** C131: [support_vectors_] *)
Lemma skipn_plus {T} a n (l : list T) : skipn (a + n) l = skipn n (skipn a l).
Proof. revert l. induction a as [|a IH]; intros [|x l]; cbn; auto. destruct n; auto. Qed.
Lemma take_spec {T} (X : list T) ids d : (forall i, In i ids -> (i < length X)%nat) -> take X ids = Ok (map (fun i => nth i X d) ids).
Proof.
  induction ids as [|i ids IH]; intros H; [reflexivity|]. cbn [take map]. rewrite (nth_error_nth' X d) by (apply H; left; auto). rewrite IH by (intros; apply H; right; auto). reflexivity.
Qed.
(** one list per class; class after class they are the training series listed by [support_] *)
Theorem C131_support_vectors {T} (X : list T) support n_support d :
  (forall i, In i support -> (i < length X)%nat) -> list_sum n_support = length support ->
  exists sv, support_vectors X support n_support = Ok sv /\ map (@length T) sv = n_support /\ List.concat sv = map (fun i => nth i X d) support /\
    svr_support_vectors X support = Ok (List.concat sv).
Proof.
  intros H Hs. unfold support_vectors, svr_support_vectors.
  assert (G : forall ns a, (a + list_sum ns = length support)%nat ->
    exists sv, support_vectors_from X support ns a = Ok sv /\ map (@length T) sv = ns /\ List.concat sv = map (fun i => nth i X d) (skipn a support)).
  { induction ns as [|n ns IH]; intros a Ha; cbn [support_vectors_from].
    - simpl in Ha. exists []. split; [reflexivity|split; [reflexivity|]]. rewrite skipn_all2 by lia. reflexivity.
    - simpl in Ha. destruct (IH (a + n)%nat ltac:(lia)) as (sv & E1 & E2 & E3). rewrite (take_spec X _ d).
      2:{ intros i Hi. apply H. rewrite <- (firstn_skipn a support). apply in_or_app. right. rewrite <- (firstn_skipn n (skipn a support)). apply in_or_app. left. exact Hi. }
      cbn [bind]. rewrite E1. cbn [bind]. eexists. split; [reflexivity|]. cbn [map List.concat]. split.
      + f_equal; auto. rewrite map_length, firstn_length, skipn_length. lia.
      + rewrite E3, <- map_app. f_equal. rewrite (skipn_plus a n support). apply firstn_skipn. }
  destruct (G n_support 0%nat Hs) as (sv & E1 & E2 & E3). exists sv. split; [auto|split; [auto|split; [auto|]]]. rewrite (take_spec X _ d) by auto. f_equal. auto.
Qed.
Print Assumptions C131_support_vectors.
Example C131_instance : support_vectors [10; 20; 30; 40]%nat [2; 0; 3]%nat [1; 2]%nat = Ok [[30]; [10; 40]]%nat.
Proof. reflexivity. Qed.

(** ** C132: a zero bandwidth is reported as a RuntimeError *)
Theorem C132_zero_gamma {A Y W} (train : kwargs -> list (list xr) -> list Y -> W -> res A) call p d ss y w idx b D :
  p "kernel" = VStr "gak" -> (forall s, In s ss -> real_series d s) -> to_dataset (N:=Xnum) (reals ss) = Ok D ->
  p "gamma" = VNum 0 \/ p "gamma" = VStr "auto" /\ sigma_gak D idx = Ok 0 ->
  svm_fit train call p (reals ss) y w idx b = Err RuntimeError.
Proof.
  intros Hk F ED Hg. destruct (padded_dataset d ss F) as (o & Eo & Lo & Ec). rewrite ED in Eo. injection Eo as <-. unfold svm_fit.
  assert (EP : preprocess_fit p (reals ss) idx b = Err ZeroDivisionError).
  { unfold preprocess_fit. rewrite ED. cbn [bind]. rewrite Hk. change (in_names (VStr "gak") variable_length_metrics) with true. change (is_str (VStr "gak") "gak") with true. cbn [negb andb].
    assert (Eg : (if is_str (p "gamma") "auto" then do g <- gamma_soft_dtw D idx ;; Ok (VNum g) else Ok (p "gamma")) = Ok (VNum 0)).
    { destruct Hg as [->|(-> & E)]; [reflexivity|]. simpl. unfold gamma_soft_dtw. rewrite E. cbn [bind]. do 2 f_equal. ring. }
    rewrite Eg. cbn [bind]. unfold sigma_of. cbn [number bind]. destruct (Rltb 0 0) eqn:E0; [apply Rltb_true in E0; lra|].
    cbn [bind]. replace (0 / 2) with 0 by field. rewrite sqrt_0. unfold cdist_gak, to_datasets.
    pose proof (proper_uniform _ _ _ (lift_proper d ss F)) as U. fold (reals ss) in U. rewrite (to_dataset_idem Xnum d (reals ss) D xnan U ED). cbn [bind].
    replace (is_zero 0) with true; [reflexivity|]. symmetry. unfold is_zero. destruct (Req_EM_T 0 0); auto; contradiction. }
  rewrite EP. reflexivity.
Qed.
Print Assumptions C132_zero_gamma.
(** in particular when all points of the training set are equal, for every draw *)
Theorem C132_constant {A Y W} (train : kwargs -> list (list xr) -> list Y -> W -> res A) call p d ss y w idx b D a :
  p "kernel" = VStr "gak" -> p "gamma" = VStr "auto" -> (forall s, In s ss -> real_series d s) -> to_dataset (N:=Xnum) (reals ss) = Ok D ->
  finite_points D <> [] -> (forall x, In x (finite_points D) -> x = a) -> (forall i, In i idx -> (i < length (finite_points D))%nat) ->
  svm_fit train call p (reals ss) y w idx b = Err RuntimeError.
Proof. intros Hk Hg F ED Hne H Hi. apply (C132_zero_gamma train call p d ss y w idx b D); auto. right. split; auto. apply (sigma_const D a); auto. Qed.
Print Assumptions C132_constant.
Example C132_instance : let ss := [[[5]; [5]]; [[5]]] in (forall s, In s ss -> real_series 1 s) /\
  exists D, to_dataset (N:=Xnum) (reals ss) = Ok D /\ finite_points D = [[5]; [5]; [5]].
Proof.
  cbv zeta. split; [intros s [<-|[<-|[]]]; (split; [lia|split; [discriminate|intros r H; simpl in H; intuition (subst; reflexivity)]])|].
  eexists. split; reflexivity.
Qed.

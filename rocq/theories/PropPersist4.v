(** C66: fitted estimators can be saved and are fitted after loading. *)
From Coq Require Import Bool List Arith ZArith Lia Ascii String.
From Verif Require Import Num Py PersistModel PropPersist PropPersist2.
Import ListNotations.
Local Open Scope string_scope.
Local Open Scope list_scope.
Local Open Scope nat_scope.

Lemma has_In l s : has l s = true <-> In s l.
Proof. unfold has. rewrite existsb_exists. split; [intros (x & Hx & E); apply String.eqb_eq in E; subst; auto|intros H; exists s; split; auto; apply String.eqb_refl]. Qed.
Lemma all_has l names : forallb (has l) names = true <-> incl names l.
Proof. rewrite forallb_forall. split; intros H x Hx; [apply has_In; auto|apply has_In, H; auto]. Qed.
(** The general rule: an estimator that checks for the attributes [names] and saves the attributes that end with an underscore (and
    the attributes [more]) is fitted after loading if and only if each name it checks is one that is saved. *)
Theorem C66_rule e names more attrs : e_check e = AllOf names -> e_params e = Rule more -> incl names attrs -> incl more attrs ->
  exists attrs', reload e attrs = Ok attrs' /\ (is_fitted e attrs' = Ok true <-> forall n, In n names -> In n more \/ saved_name n = true).
Proof.
  intros EC EP HN HM. exists (filter saved_name attrs ++ more). unfold reload, is_fitted, model_params. rewrite EC, EP. apply all_has in HN, HM. rewrite HN, HM. cbn [bind]. split; auto. apply all_has in HN.
  destruct (forallb (has (filter saved_name attrs ++ more)) names) eqn:E.
  - apply all_has in E. split; auto. intros _ n Hn. apply E in Hn. apply in_app_iff in Hn. rewrite filter_In in Hn. tauto.
  - split; [discriminate|]. intros H. exfalso. enough (forallb (has (filter saved_name attrs ++ more)) names = true) by congruence. apply all_has. intros n Hn. apply in_or_app. rewrite filter_In. destruct (H n Hn); auto.
Qed.
Print Assumptions C66_rule.
(** The estimators for which it works, whatever other attributes they have *)
Theorem C66_classes_partial e attrs :
  In e [kernel_kmeans; ts_kmeans; kshape; dbscan; paa; sax true; sax false; one_d_sax true; one_d_sax false; kneighbors true; kneighbors false; knn_classifier true; learning_shapelets] ->
  incl (e_fit e) attrs -> exists attrs', is_fitted e attrs = Ok true /\ reload e attrs = Ok attrs' /\ is_fitted e attrs' = Ok true.
Proof.
  intros He HI. assert (R : forall names more, e_check e = AllOf names -> e_params e = Rule more -> forallb (has (e_fit e)) names = true -> forallb (has (e_fit e)) more = true -> forallb (fun n => has more n || saved_name n) names = true ->
    exists attrs', is_fitted e attrs = Ok true /\ reload e attrs = Ok attrs' /\ is_fitted e attrs' = Ok true).
  { intros names more EC EP N M S. apply all_has in N, M. destruct (C66_rule e names more attrs EC EP (incl_tran N HI) (incl_tran M HI)) as (attrs' & E1 & E2). exists attrs'. split; [|split; auto].
    - unfold is_fitted. rewrite EC. replace (forallb (has attrs) names) with true; auto. symmetry. apply all_has. eapply incl_tran; eauto.
    - apply E2. intros n Hn. rewrite forallb_forall in S. apply S in Hn. apply orb_true_iff in Hn. rewrite has_In in Hn. auto. }
  assert (F : forall names ns, e_check e = AllOf names -> e_params e = Fixed ns -> forallb (has (e_fit e)) ns = true -> forallb (has ns) names = true ->
    exists attrs', is_fitted e attrs = Ok true /\ reload e attrs = Ok attrs' /\ is_fitted e attrs' = Ok true).
  { intros names ns EC EP N M. apply all_has in N, M. exists ns. unfold reload, is_fitted, model_params. rewrite EC, EP.
    assert (A : forallb (has attrs) names = true) by (apply all_has; eapply incl_tran; [|exact HI]; eapply incl_tran; eauto). assert (B : forallb (has attrs) ns = true) by (apply all_has; eapply incl_tran; eauto). apply all_has in M. rewrite A, B. cbn [bind]. rewrite M. auto. }
  cbn [In] in He. repeat destruct He as [<-|He]; try destruct He; try (eapply R; [reflexivity|reflexivity|reflexivity|reflexivity|reflexivity]); try (eapply F; [reflexivity|reflexivity|reflexivity|reflexivity]).
  (* dbscan *)
  exists (filter saved_name attrs ++ []). unfold reload, is_fitted, model_params. cbn [e_check e_params dbscan].
  assert (L : In "labels_" attrs) by (apply HI; cbn; auto). assert (A : existsb saved_name attrs = true) by (apply existsb_exists; exists "labels_"; split; auto). rewrite A. cbn [bind forallb]. split; auto. split; auto.
  assert (B : existsb saved_name (filter saved_name attrs ++ []) = true) by (apply existsb_exists; exists "labels_"; split; auto; apply in_or_app; left; apply filter_In; auto). rewrite B. auto.
Qed.
Print Assumptions C66_classes_partial.
(** The others: a matrix profile is saved but not fitted after loading; VARIMA, AutoVARIMA and the nearest-neighbour regressor can
    never be saved, and the nearest-neighbour classifier not with a metric such as "euclidean": NotFittedError. *)
Theorem C66_refuted attrs :
  (incl (e_fit matrix_profile) attrs -> exists attrs', is_fitted matrix_profile attrs = Ok true /\ reload matrix_profile attrs = Ok attrs' /\ is_fitted matrix_profile attrs' = Err NotFittedError) /\
  (forall e ts, In e [varima; knn_regressor ts] -> reload e attrs = Err NotFittedError) /\
  (~ In "_ts_fit" attrs -> incl (e_fit (knn_classifier false)) attrs -> reload (knn_classifier false) attrs = Err NotFittedError).
Proof.
  split; [|split].
  - intros HI. destruct (C66_rule matrix_profile ["_X_fit_dims"] [] attrs eq_refl eq_refl) as (attrs' & E & S); [intros x [<-|[]]; apply HI; cbn; auto|intros x []|]. exists attrs'. split; [|split; auto].
    + unfold is_fitted. cbn [e_check matrix_profile]. replace (forallb (has attrs) ["_X_fit_dims"]) with true; auto. symmetry. apply all_has. intros x [<-|[]]. apply HI. cbn. auto.
    + unfold is_fitted in *. cbn [e_check matrix_profile] in *. destruct (forallb _ _); auto. exfalso. destruct S as (S & _). destruct (S eq_refl "_X_fit_dims" (or_introl eq_refl)) as [[]|Q]. discriminate.
  - intros e ts [<-|[<-|[]]]; reflexivity.
  - intros N _. unfold reload, is_fitted. cbn [e_check knn_classifier forallb]. destruct (has attrs "_ts_fit") eqn:E; [apply has_In in E; tauto|]. auto.
Qed.
Print Assumptions C66_refuted.
(** KernelKMeans with a kernel other than "gak" has [sigma_gak_ = None] (kmeans.py l.350): it cannot be saved as HDF5.  So with any
    attribute that is None: only the hyper-parameters are converted. *)
Theorem C66_none_refuted exists_ hyper params k : lookup k params = Some VNone -> exists e, to_hdf5 exists_ hyper params = Err e.
Proof.
  intros L. unfold to_hdf5, save_dict. destruct exists_; [eauto|]. unfold package. cbn [dicts_to_group item_to_group]. match goal with |- context [dicts_to_group ?p (none_to_str hyper) []] => destruct (dicts_to_group p (none_to_str hyper) []) as [f|e] end; cbn [bind]; eauto.
  match goal with |- context [dicts_to_group ?p params f] => destruct (bad_item params k VNone L I p f) as (e & ->) end. cbn. eauto.
Qed.
Print Assumptions C66_none_refuted.
Example C66_none_instance : exists hyper params, savable_dict hyper /\ lookup (KStr "kernel") hyper = Some (VStr "rbf") /\ lookup (KStr "sigma_gak_") params = Some VNone /\ to_hdf5 false hyper params = Err TypeError.
Proof.
  exists (DCons (KStr "kernel") (VStr "rbf") DNil), (DCons (KStr "_X_fit") (VArr [1; 1; 1] (AInt [0%Z])) (DCons (KStr "sigma_gak_") VNone DNil)). split; [|repeat split].
  cbn. split; [exists "kernel"; split; auto; apply simple_str; auto; discriminate|]. split; [tauto|]. split; auto. right. split; [reflexivity|discriminate].
Qed.

(** Properties C12-C16: NaN padding, error partition, constraint arguments and
    Itakura masks. *)
From Coq Require Import Bool List Arith ZArith QArith Lia Floats.
From Verif Require Import Num NumLaws Py Series Masks DtwModel Spec SpecDtw
  DpProofs DtwProofs DtwThms MaskThms ValidThms PropDtw.
Import ListNotations.
Local Open Scope nat_scope.

Definition f4 : list (carrier Fnum) := [0; 1; 2; 3]%float.
Definition f8 : list (carrier Fnum) := [0; 0; 1; 1; 2; 2; 3; 3]%float.
Definition fnan : list (carrier Fnum) := [nan; nan]%float.
Definition f2 : list (carrier Fnum) := [0; 1]%float.

(** ** C12 (dtw, frechet and their paths; the other metrics are in later files) *)
Definition all_nan_rows {N : num} (p : list (list N)) : Prop :=
  forall r x, In r p -> In x r -> nisnan x = true.
Lemma all_nan_rows_ok {N : num} (p : list (list N)) : all_nan_rows p -> forall r, In r p -> nan_row r = true.
Proof. intros H r Hr. unfold nan_row. apply forallb_forall. intros x Hx. eapply H; eauto. Qed.

Theorem C12_nan_padding_dtw : forall (N : num) s1 s2 p1 p2 g radius slope,
  all_nan_rows (N:=N) p1 -> all_nan_rows p2 ->
  dtw (Raw2 (s1 ++ p1)) (Raw2 (s2 ++ p2)) g radius slope = dtw (Raw2 s1) (Raw2 s2) g radius slope /\
  dtw_path (Raw2 (s1 ++ p1)) (Raw2 (s2 ++ p2)) g radius slope = dtw_path (Raw2 s1) (Raw2 s2) g radius slope.
Proof.
  intros N s1 s2 p1 p2 g r s H1 H2.
  split; exact (validated_pad N s1 p1 s2 p2 _ (all_nan_rows_ok _ H1) (all_nan_rows_ok _ H2)).
Qed.
Print Assumptions C12_nan_padding_dtw.
Theorem C12_nan_padding_frechet : forall (N : num) s1 s2 p1 p2 g radius slope,
  all_nan_rows (N:=N) p1 -> all_nan_rows p2 ->
  frechet (Raw2 (s1 ++ p1)) (Raw2 (s2 ++ p2)) g radius slope = frechet (Raw2 s1) (Raw2 s2) g radius slope /\
  frechet_path (Raw2 (s1 ++ p1)) (Raw2 (s2 ++ p2)) g radius slope = frechet_path (Raw2 s1) (Raw2 s2) g radius slope.
Proof.
  intros N s1 s2 p1 p2 g r s H1 H2.
  split; exact (validated_pad N s1 p1 s2 p2 _ (all_nan_rows_ok _ H1) (all_nan_rows_ok _ H2)).
Qed.
Print Assumptions C12_nan_padding_frechet.
Example C12_nontrivial : all_nan_rows (N:=Fnum) [fnan; fnan] /\
  dtw (N:=Fnum) (Raw2 (ex1 ++ [fnan; fnan])) (Raw2 ex2) GcNone (Some 1%Z) None = Ok 3%float.
Proof.
  split; [|vm_compute; reflexivity]. intros r x Hr Hx. simpl in Hr.
  repeat destruct Hr as [<-|Hr]; try contradiction; simpl in Hx; repeat destruct Hx as [<-|Hx]; try contradiction; reflexivity.
Qed.

(** ** C13: every exception of dtw / dtw_path, as an exact condition on the input *)
Theorem C13_dtw_errors : forall (N : num) (x1 x2 : raw N) g radius slope e,
  dtw x1 x2 g radius slope = Err e <->
  (* a series without any row that is not all NaN, or different feature counts *)
  ((all_nan x1 \/ all_nan x2 \/ features x1 <> features x2) /\ e = ValueError) \/
  (~ (all_nan x1 \/ all_nan x2 \/ features x1 <> features x2) /\
   ((g = GcOther /\ e = KeyError) \/
    ((g = GcNone \/ g = GcEmpty) /\ radius <> None /\ slope <> None /\ e = RuntimeWarningExn) \/
    exists s, itakura_selected g radius slope s /\
      itakura_mask (length (to_time_series true x1)) (length (to_time_series true x2)) s = Err e)).
Proof.
  intros. unfold dtw. rewrite elastic_outcome. unfold bad_mask, rejected_input, ambiguous. tauto.
Qed.
Print Assumptions C13_dtw_errors.
Theorem C13_dtw_path_errors : forall (N : num) (x1 x2 : raw N) g radius slope e,
  dtw_path x1 x2 g radius slope = Err e <-> dtw x1 x2 g radius slope = Err e.
Proof. intros. unfold dtw, dtw_path. rewrite elastic_outcome, elastic_path_outcome. reflexivity. Qed.
Print Assumptions C13_dtw_path_errors.
(** the Itakura mask raises RuntimeWarning exactly when a row or a column of the
    parallelogram is empty, and ZeroDivisionError exactly for a zero slope *)
Theorem C13_itakura_errors : forall n m s e, 0 < n -> 0 < m ->
  itakura_mask n m s = Err e <->
  ((s == 0)%Q /\ e = ZeroDivisionError) \/ (itakura_infeasible n m s /\ e = RuntimeWarningExn).
Proof.
  intros n m s e Hn Hm. split.
  - intros H. apply itakura_errors in H; auto. tauto.
  - intros [[H ->]|[H ->]]; [apply itakura_zero|apply itakura_infeasible_iff]; auto.
Qed.
Print Assumptions C13_itakura_errors.
Example C13_nontrivial :
  dtw (N:=Fnum) (Raw2 ex1) (Raw1 f2) GcNone None None = Err ValueError /\
  dtw (N:=Fnum) (Raw1 f2) (Raw1 fnan) GcNone None None = Err ValueError /\
  dtw (N:=Fnum) (Raw2 ex1) (Raw2 ex2) GcOther None None = Err KeyError /\
  dtw (N:=Fnum) (Raw2 ex1) (Raw2 ex2) GcNone (Some 1%Z) (Some 2%Q) = Err RuntimeWarningExn /\
  dtw (N:=Fnum) (Raw1 f8) (Raw1 f2) GcItakura None (Some (1#2)) = Err RuntimeWarningExn.
Proof. repeat split; vm_compute; reflexivity. Qed.

(** ** C14: false as documented.  With both parameters and no constraint name the
    call raises for every valid pair of series, instead of using no constraint. *)
Theorem C14_refuted : exists (x1 x2 : raw Fnum) r s,
  dtw x1 x2 GcNone None None = Ok 3%float /\
  dtw x1 x2 GcNone (Some r) (Some s) = Err RuntimeWarningExn.
Proof. exists (Raw2 ex1), (Raw2 ex2), 1%Z, 2%Q. split; vm_compute; reflexivity. Qed.
Print Assumptions C14_refuted.
Theorem C14_both_parameters_raise : forall (N : num) (x1 x2 : raw N) g r s,
  g = GcNone \/ g = GcEmpty -> ~ all_nan x1 -> ~ all_nan x2 -> features x1 = features x2 ->
  dtw x1 x2 g (Some r) (Some s) = Err RuntimeWarningExn.
Proof.
  intros N x1 x2 g r s Hg H1 H2 H3. apply C13_dtw_errors. right. split; [tauto|].
  right. left. repeat split; auto; discriminate.
Qed.
Print Assumptions C14_both_parameters_raise.
(** with a constraint name, the parameter of the other constraint is ignored *)
Theorem C14_name_selects_parameter : forall (N : num) (x1 x2 : raw N) r s s' r',
  dtw x1 x2 GcSakoeChiba r s = dtw x1 x2 GcSakoeChiba r s' /\
  dtw x1 x2 GcItakura r s = dtw x1 x2 GcItakura r' s.
Proof.
  intros. split; unfold dtw, elastic; apply validated_ext; intros; unfold elastic_generic, compute_mask; simpl;
  destruct r, s; try destruct s'; try destruct r'; reflexivity.
Qed.
Print Assumptions C14_name_selects_parameter.
Example C14_nontrivial : ~ all_nan (N:=Fnum) (Raw2 ex1) /\ features (N:=Fnum) (Raw2 ex1) = 2.
Proof.
  split; [|reflexivity]. intros H. assert (X : nan_row (N:=Fnum) [0; 1]%float = true) by (apply H; left; reflexivity).
  vm_compute in X. discriminate.
Qed.

(** ** C15 *)
Theorem C15_itakura_mask_feasible : forall n m s mk, 0 < n -> 0 < m -> (0 < s)%Q ->
  itakura_mask n m s = Ok mk -> exists p, warping_path n m mk p.
Proof. exact itakura_mask_feasible. Qed.
Print Assumptions C15_itakura_mask_feasible.
Example C15_nontrivial : exists mk, itakura_mask 4 6 2 = Ok mk /\ mk 0 5 = false /\ mk 2 3 = true.
Proof. eexists. split; [vm_compute; reflexivity|split; vm_compute; reflexivity]. Qed.

(** ** C16: false as stated.  In exact rational arithmetic already, a mask exists
    for sizes (4,8) but the call with the sizes exchanged raises; and even for
    equal lengths a slope exists whose mask is not symmetric. *)
Theorem C16_itakura_symmetric_refuted : exists n m s mk,
  0 < n /\ 0 < m /\ (0 < s)%Q /\ itakura_mask n m s = Ok mk /\ itakura_mask m n s = Err RuntimeWarningExn.
Proof.
  exists 4, 8, (199#100), (mask_from_bounds 4 8 (itakura_lower 4 8 (199#100)) (itakura_upper 4 8 (199#100))).
  repeat split; try lia; vm_compute; reflexivity.
Qed.
Print Assumptions C16_itakura_symmetric_refuted.
Theorem C16_itakura_equal_lengths_refuted : exists n s mk i j,
  itakura_mask n n s = Ok mk /\ i < n /\ j < n /\ mk i j = true /\ mk j i = false.
Proof.
  exists 5, (997#500), (mask_from_bounds 5 5 (itakura_lower 5 5 (997#500)) (itakura_upper 5 5 (997#500))), 1, 2.
  repeat split; try lia; vm_compute; reflexivity.
Qed.
Print Assumptions C16_itakura_equal_lengths_refuted.
Theorem C16_itakura_dtw_refuted : exists x1 x2 : raw Fnum, exists s v,
  dtw x1 x2 GcItakura None (Some s) = Ok v /\ dtw x2 x1 GcItakura None (Some s) = Err RuntimeWarningExn.
Proof.
  exists (Raw1 (N:=Fnum) f4), (Raw1 (N:=Fnum) f8), (199#100). eexists. split; vm_compute; reflexivity.
Qed.
Print Assumptions C16_itakura_dtw_refuted.
(** Proved part: equal lengths and an integer slope.  Missing: nothing more holds
    in general (see the two refutations). *)
Theorem C16_itakura_symmetric_partial : forall n k, 0 < n -> (1 <= k < 200)%Z ->
  exists mk, itakura_mask n n (inject_Z k) = Ok mk /\
    forall i j, i < n -> j < n -> mk i j = mk j i.
Proof.
  intros n k Hn Hk. destruct (square_mask n k Hn Hk) as (mk & E & H). exists mk. split; auto.
  intros i j Hi Hj. pose proof (H i j Hi Hj) as A. pose proof (H j i Hj Hi) as B.
  apply eq_true_iff_eq. rewrite A, B. unfold parallelogram. lia.
Qed.
Print Assumptions C16_itakura_symmetric_partial.

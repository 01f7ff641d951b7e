(** C181-C183: support vector machines through histories of calls. *)
From Coq Require Import String Bool List Arith Lia ZArith QArith Reals Lra.
From Verif Require Import Num NumLaws Py Series Masks DtwModel Dataset Spec SpecDtw DpProofs DtwProofs DtwThms RList PathSum RealSeries CdistThms CdistGen PropCdist SoftModel SoftThms PropSoft PropSoftCdist GakModel PropGak PaaModel PreModel KernelModel PropKernel SvmModel PropSvm SvmStateModel.
Import ListNotations.
Local Open Scope R_scope.
Local Open Scope string_scope.

(** ** Specification *)
(** calls after a [fit] that leave the kernel alone: predictions, and [set_params] with the same kernel *)
Definition keeps_kernel {Y W} (k : value) (l : list (@svm_call Y W)) : Prop :=
  forall c, In c l -> match c with SFit _ _ _ _ _ => False | SPredict _ _ _ => True | SSet p => p "kernel" = k end.
Definition with_kernel (p : params) (k : string) : params := fun name => if (name =? "kernel")%string then VStr k else p name.
(** an array that [fit] refuses: series of different numbers of features (or none), or missing values for a kernel of scikit-learn *)
Definition refused (p : params) (X : list (raw Xnum)) : Prop :=
  match to_dataset (N:=Xnum) X with
  | Err _ => True
  | Ok D => in_names (p "kernel") variable_length_metrics = false /\ all_finite D = false
  end.

(** ** lemmas *)
Section L.
Context {A Y W P : Type} (train : kwargs -> list (list xr) -> list Y -> W -> res A) (apply : A -> list (list xr) -> res P)
        (call : params -> value -> value -> kwargs).
Lemma pre_fit_ok X idx b (s : svm A) D g k K : preprocess_fit (o_params s) X idx b = Ok (D, g, k, K) ->
  o_preprocess_fit X idx b s = (set_kernel (set_gamma (set_X s D) g) k, Ok K).
Proof.
  unfold preprocess_fit, o_preprocess_fit. destruct (to_dataset X) as [D'|e]; cbn [bind]; [|discriminate].
  destruct (negb _ && negb _)%bool; [discriminate|].
  destruct (if is_str (o_params s "gamma") "auto" then _ else _) as [g'|e]; cbn [bind]; [|discriminate].
  destruct (in_names _ _).
  - destruct (is_str _ _); [|discriminate]. destruct (sigma_of g') as [sg|e]; cbn [bind]; [|discriminate].
    destruct (cdist_gak _ _ _ _ _ _) as [M|e]; cbn [bind]; [|discriminate]. intros H. injection H as <- <- <- <-. reflexivity.
  - intros H. injection H as <- <- <- <-. reflexivity.
Qed.
Lemma pre_fit_err X idx b (s : svm A) e : preprocess_fit (o_params s) X idx b = Err e -> exists t, o_preprocess_fit X idx b s = (t, Err e).
Proof.
  unfold preprocess_fit, o_preprocess_fit. destruct (to_dataset X) as [D'|e']; cbn [bind]; [|intros H; injection H as <-; eauto].
  destruct (negb _ && negb _)%bool; [intros H; injection H as <-; eauto|].
  destruct (if is_str (o_params s "gamma") "auto" then _ else _) as [g'|e']; cbn [bind]; [|intros H; injection H as <-; eauto].
  destruct (in_names _ _); [|discriminate].
  destruct (is_str _ _); [|intros H; injection H as <-; eauto]. destruct (sigma_of g') as [sg|e']; cbn [bind]; [|intros H; injection H as <-; eauto].
  destruct (cdist_gak _ _ _ _ _ _) as [M|e']; cbn [bind]; [discriminate|intros H; injection H as <-; eauto].
Qed.
Lemma fit_ok X y w idx b (s : svm A) f : svm_fit train call (o_params s) X y w idx b = Ok f ->
  exists k, o_fit train call X y w idx b s =
    ({| o_params := o_params s; o_X := Some (X_fit f); o_gamma := Some (gamma_ f); o_kernel := Some k; o_svm := Some (Some (svm_estimator_ f)); o_nfeat := Some (arr_d (X_fit f)) |}, Ok tt).
Proof.
  unfold svm_fit. destruct (preprocess_fit (o_params s) X idx b) as [[[[D g] k] K]|e] eqn:E; [|destruct e; discriminate].
  intros H. exists k. unfold o_fit. rewrite (pre_fit_ok _ _ _ _ _ _ _ _ E). cbn. destruct (train _ K y w) as [a|e]; [|discriminate].
  cbn [bind] in H. injection H as <-. reflexivity.
Qed.
Lemma fit_err X y w idx b (s : svm A) e : svm_fit train call (o_params s) X y w idx b = Err e -> snd (o_fit train call X y w idx b s) = Err e.
Proof.
  unfold svm_fit, o_fit. destruct (preprocess_fit (o_params s) X idx b) as [[[[D g] k] K]|e'] eqn:E.
  - rewrite (pre_fit_ok _ _ _ _ _ _ _ _ E). cbn. destruct (train _ K y w) as [a|e']; cbn [bind]; [discriminate|]. intros H. injection H as <-. reflexivity.
  - destruct (pre_fit_err _ _ _ _ _ E) as (t & Et). rewrite Et. intros H. destruct e'; injection H as <-; reflexivity.
Qed.
(** what a prediction reads *)
Definition same_reads (s t : svm A) : Prop :=
  o_params s "kernel" = o_params t "kernel" /\ o_X s = o_X t /\ o_gamma s = o_gamma t /\ o_svm s = o_svm t.
Lemma predict_reads keep X b s t : same_reads s t -> snd (o_predict apply keep X b s) = snd (o_predict apply keep X b t).
Proof.
  intros (Ek & EX & Eg & Es). unfold o_predict, o_preprocess_predict. rewrite Ek, EX, Es.
  destruct (to_dataset X) as [D|e]; [|reflexivity]. destruct (negb _ && negb _)%bool; [reflexivity|].
  destruct (o_svm t) as [o|] eqn:Et; [|reflexivity]. destruct (o_X t) as [DX|]; [|reflexivity].
  destruct (negb (_ =? _)%nat); [reflexivity|]. destruct (negb _ && negb _)%bool; [reflexivity|]. destruct (in_names _ _).
  - destruct (is_str _ _); [|reflexivity]. cbn [set_kernel o_gamma]. rewrite Eg. destruct (o_gamma t) as [g|]; [|reflexivity].
    destruct (sigma_of g) as [sg|e]; cbn [bind]; [|reflexivity]. destruct (cdist_gak _ _ _ _ _ _) as [M|e]; cbn [bind]; [|reflexivity].
    cbn. rewrite Es, Et. destruct o; [|reflexivity]. destruct (apply _ _); reflexivity.
  - cbn. rewrite Es, Et. destruct o; [|reflexivity]. destruct (apply _ _); reflexivity.
Qed.
Lemma predict_keeps keep X b s : let t := fst (o_predict apply keep X b s) in o_params t = o_params s /\ o_X t = o_X s /\ o_gamma t = o_gamma s /\ o_svm t = o_svm s.
Proof.
  cbv zeta. unfold o_predict, o_preprocess_predict. destruct (to_dataset X) as [D|e]; [|auto]. destruct (negb _ && negb _)%bool; [auto|].
  destruct (o_svm s) as [o|] eqn:Es; [|auto]. destruct (o_X s) as [DX|] eqn:EX; [|auto].
  destruct (negb (_ =? _)%nat); [auto|]. destruct (negb _ && negb _)%bool; [auto|]. destruct (in_names _ _).
  - destruct (is_str _ _); [|auto]. cbn [set_kernel o_gamma]. destruct (o_gamma s) as [g|] eqn:Eg; [|cbn; auto].
    destruct (sigma_of g) as [sg|e]; cbn [bind]; [|cbn; auto]. destruct (cdist_gak _ _ _ _ _ _) as [M|e]; cbn [bind]; [|cbn; auto].
    cbn. rewrite Es. destruct o; [|cbn; auto]. destruct (apply _ _); destruct keep; cbn; auto.
  - cbn. rewrite Es. destruct o; [|cbn; auto]. destruct (apply _ _); destruct keep; cbn; auto.
Qed.
Lemma run_keeps k l : keeps_kernel k l -> forall s, o_params s "kernel" = k -> same_reads (svm_run train apply call l s) s.
Proof.
  induction l as [|c l IH]; intros Hl s Hk; [repeat split|]. cbn [svm_run fold_left].
  assert (St : same_reads (svm_step train apply call c s) s).
  { specialize (Hl c ltac:(left; auto)). destruct c as [X y w idx b|keep X b|p]; [contradiction| |].
    - cbn. destruct (predict_keeps keep X b s) as (E1 & E2 & E3 & E4). repeat split; auto. rewrite E1. reflexivity.
    - cbn. repeat split. cbn. congruence. }
  destruct (IH (fun c Hc => Hl c (or_intror Hc)) (svm_step train apply call c s)) as (R1 & R2 & R3 & R4).
  { destruct St as (E & _). congruence. }
  destruct St as (E1 & E2 & E3 & E4). unfold svm_run in *. repeat split; congruence.
Qed.
Lemma predict_fitted keep X b p f k n : 
  snd (o_predict apply keep X b {| o_params := p; o_X := Some (X_fit f); o_gamma := Some (gamma_ f); o_kernel := k; o_svm := Some (Some (svm_estimator_ f)); o_nfeat := n |}) = svm_predict apply p f X b.
Proof.
  unfold o_predict, o_preprocess_predict, svm_predict, preprocess_predict. cbn. destruct (to_dataset X) as [D|e]; [|reflexivity]. cbn [bind].
  destruct (negb _ && negb _)%bool; [reflexivity|]. destruct (negb (_ =? _)%nat); [reflexivity|]. destruct (negb _ && negb _)%bool; [reflexivity|]. destruct (in_names _ _).
  - destruct (is_str _ _); [|reflexivity]. destruct (sigma_of _) as [sg|e]; cbn [bind]; [|reflexivity]. destruct (cdist_gak _ _ _ _ _ _) as [M|e]; cbn [bind]; [|reflexivity].
    cbn. destruct (apply _ _); destruct keep; reflexivity.
  - cbn. destruct (apply _ _); destruct keep; reflexivity.
Qed.
End L.

(** ** C181: the answers belong to the last successful fit *)
(** Whatever was called before - including calls that failed - a successful [fit] gives an object that answers like
    a new one fitted on the same data with the same parameters, also after further predictions and changes of other
    parameters than the kernel; and [fit] succeeds or fails as on a new object. *)
Theorem C181_last_fit {A Y W P} (train : kwargs -> list (list xr) -> list Y -> W -> res A) (apply : A -> list (list xr) -> res P) call p0 before X y w idx b :
  let s := svm_run train apply call before (svm_new p0) in
  let new := svm_new (o_params s) in
  snd (o_fit train call X y w idx b s) = snd (o_fit train call X y w idx b new) /\
  (snd (o_fit train call X y w idx b s) = Ok tt ->
   forall after keep X' b', keeps_kernel (o_params s "kernel") after ->
   snd (o_predict apply keep X' b' (svm_run train apply call after (fst (o_fit train call X y w idx b s)))) =
   snd (o_predict apply keep X' b' (fst (o_fit train call X y w idx b new)))).
Proof.
  cbv zeta. set (s := svm_run train apply call before (svm_new p0)).
  destruct (svm_fit train call (o_params s) X y w idx b) as [f|e] eqn:E.
  - destruct (fit_ok train call X y w idx b s f E) as (k & Ef). destruct (fit_ok train call X y w idx b (svm_new (o_params s)) f E) as (k' & Ef').
    rewrite Ef, Ef'. cbn [fst snd]. split; [reflexivity|]. intros _ after keep X' b' HK. apply predict_reads.
    match goal with |- same_reads (svm_run _ _ _ _ ?st) _ => pose proof (run_keeps train apply call _ after HK st eq_refl) as (R1 & R2 & R3 & R4) end.
    repeat split; assumption.
  - rewrite (fit_err train call X y w idx b s e E), (fit_err train call X y w idx b (svm_new (o_params s)) e E). split; [reflexivity|discriminate].
Qed.
Print Assumptions C181_last_fit.
(** these answers are the ones of C128 *)
Theorem C181_answers {A Y W P} (train : kwargs -> list (list xr) -> list Y -> W -> res A) (apply : A -> list (list xr) -> res P) call p X y w idx b f keep X' b' :
  svm_fit train call p X y w idx b = Ok f ->
  snd (o_fit train call X y w idx b (svm_new p)) = Ok tt /\
  snd (o_predict apply keep X' b' (fst (o_fit train call X y w idx b (svm_new p)))) = svm_predict apply p f X' b'.
Proof.
  intros E. destruct (fit_ok train call X y w idx b (svm_new p) f E) as (k & Ef). rewrite Ef. cbn [fst snd]. split; [reflexivity|]. apply predict_fitted.
Qed.
Print Assumptions C181_answers.

(** ** C182: failed calls *)
(** a failed or successful prediction changes no later answer, and no later fit *)
Theorem C182_predict {A Y W P} (train : kwargs -> list (list xr) -> list Y -> W -> res A) (apply : A -> list (list xr) -> res P) call keep X b keep' X' b' (y : list Y) (w : W) idx s :
  snd (o_predict apply keep' X' b' (fst (o_predict apply keep X b s))) = snd (o_predict apply keep' X' b' s) /\
  snd (o_fit train call X' y w idx b' (fst (o_predict apply keep X b s))) = snd (o_fit train call X' y w idx b' s).
Proof.
  destruct (predict_keeps apply keep X b s) as (E1 & E2 & E3 & E4). split.
  - apply predict_reads. repeat split; auto. rewrite E1. reflexivity.
  - destruct (svm_fit train call (o_params s) X' y w idx b') as [f|e] eqn:E.
    + destruct (fit_ok train call X' y w idx b' s f E) as (k & ->).
      assert (E' : svm_fit train call (o_params (fst (o_predict apply keep X b s))) X' y w idx b' = Ok f) by (rewrite E1; exact E).
      destruct (fit_ok train call X' y w idx b' _ f E') as (k' & ->). reflexivity.
    + rewrite (fit_err train call X' y w idx b' s e E). apply fit_err. rewrite E1. exact E.
Qed.
Print Assumptions C182_predict.
(** an array that [fit] refuses changes nothing at all *)
Theorem C182_refused_array {A Y W} (train : kwargs -> list (list xr) -> list Y -> W -> res A) call X y w idx b s : refused (o_params s) X ->
  exists e, o_fit train call X y w idx b s = (s, Err e).
Proof.
  unfold refused, o_fit, o_preprocess_fit. destruct (to_dataset X) as [D|e].
  - intros [-> ->]. cbn. eauto.
  - intros _. destruct e; eauto.
Qed.
Print Assumptions C182_refused_array.
(** A [fit] that is refused for its kernel has replaced the training series: from then on the old estimator gets the
    kernel values between the new series and the series of the refused call. *)
Theorem C182_mixed {A Y W P} (train : kwargs -> list (list xr) -> list Y -> W -> res A) (apply : A -> list (list xr) -> res P) call d ss D (y : list Y) (w : W) idx b sigma k (s : svm A) a :
  o_svm s = Some (Some a) -> o_params s "kernel" = VStr k -> In k variable_length_metrics -> k <> "gak" ->
  ss <> [] -> (forall x, In x ss -> real_series d x) -> to_dataset (N:=Xnum) (reals ss) = Ok D -> bandwidth (o_params s "gamma") D idx sigma ->
  snd (o_fit train call (reals ss) y w idx b s) = Err AssertionError /\
  forall keep ss' b', ss' <> [] -> (forall x, In x ss' -> real_series d x) -> valid_batches b' (length ss') (length ss) (length ss' * length ss)%nat ->
    exists K', gram ss' ss sigma K' /\
    snd (o_predict apply keep (reals ss') b' (set_params (fst (o_fit train call (reals ss) y w idx b s)) (with_kernel (o_params s) "gak"))) = apply a K'.
Proof.
  intros Ha Hk Hin Hng Hne F ED HB. destruct (sigma_of_bandwidth _ _ _ _ HB) as (g & Eg & Es).
  assert (EV : in_names (VStr k) variable_length_metrics = true).
  { cbn [in_names]. apply existsb_exists. exists k. split; [auto|apply String.eqb_refl]. }
  assert (EG : is_str (VStr k) "gak" = false) by (cbn [is_str]; apply String.eqb_neq; auto).
  assert (Ef : o_fit train call (reals ss) y w idx b s = (set_gamma (set_X s D) (VNum g), Err AssertionError)).
  { unfold o_fit, o_preprocess_fit. rewrite ED, Hk, EV. cbn [negb andb]. rewrite Eg. rewrite EG. reflexivity. }
  rewrite Ef. cbn [fst snd]. split; [reflexivity|]. intros keep ss' b' Hne' F' HB'.
  set (p := with_kernel (o_params s) "gak").
  assert (HB2 : bandwidth (p "gamma") D idx sigma) by exact HB.
  destruct (C128_kernels (fun (_ : kwargs) (_ : list (list xr)) (_ : list Y) (_ : W) => Ok a) apply call p d ss D y w idx 
    {| b_pairs := Sequential; b_left := Sequential; b_right := Sequential |} sigma ValueError eq_refl Hne F ED HB2) as (K & g' & _ & Eg' & _ & H).
  { repeat split. }
  destruct (H a eq_refl) as (f & _ & EX & EGm & EA & HP & _). destruct (HP ss' b' Hne' F' HB') as (K' & HK' & EP).
  exists K'. split; [exact HK'|]. rewrite <- EP. rewrite <- (predict_fitted apply keep (reals ss') b' p f None None).
  apply predict_reads. rewrite EX, EGm, EA. repeat split; cbn; auto.
  assert (G2 : g = g').
  { destruct HB as (H0 & [(Hg & E)|(g2 & Hg & E)]); rewrite Hg in Eg; simpl in Eg; [unfold gamma_soft_dtw in Eg; rewrite E in Eg; simpl in Eg|]; congruence. }
  rewrite G2. reflexivity.
Qed.
Print Assumptions C182_mixed.
(** After a [fit] that scikit-learn refuses (say, for labels of a single class) nothing can be predicted, although the
    object had been fitted before. *)
Theorem C182_untrained {A Y W P} (train : kwargs -> list (list xr) -> list Y -> W -> res A) (apply : A -> list (list xr) -> res P) call X y w idx b (s : svm A) e D g k K :
  preprocess_fit (o_params s) X idx b = Ok (D, g, k, K) -> train (call (o_params s) k g) K y w = Err e ->
  snd (o_fit train call X y w idx b s) = Err e /\
  forall keep X' b', exists e', snd (o_predict apply keep X' b' (fst (o_fit train call X y w idx b s))) = Err e'.
Proof.
  intros E Et. unfold o_fit. rewrite (pre_fit_ok _ _ _ _ _ _ _ _ E). cbn. rewrite Et. cbn. split; [reflexivity|]. intros keep X' b'.
  unfold o_predict, o_preprocess_predict. destruct (to_dataset X') as [D'|e']; [|eexists; reflexivity].
  repeat match goal with |- context [if ?c then _ else _] => destruct c; cbn [set_svm set_nfeat set_kernel set_gamma set_X o_params o_X o_gamma o_kernel o_svm fst snd]; try (eexists; reflexivity) end.
  all: destruct (sigma_of g) as [sg|e'']; cbn [bind]; [|eexists; reflexivity]; destruct (cdist_gak _ _ _ _ _ _) as [M|e'']; cbn [bind]; eexists; reflexivity.
Qed.
Print Assumptions C182_untrained.
(** an estimator that keeps the number of series it was trained on, and shows the matrix it is given *)
Definition counter (k : kwargs) (K : list (list xr)) (y : list nat) (w : unit) : res nat := Ok (length K).
Definition viewer (a : nat) (K : list (list xr)) : res (nat * list (list xr)) := Ok (a, K).
Definition seq_b : batches := {| b_pairs := Sequential; b_left := Sequential; b_right := Sequential |}.
Definition two : list (list (list R)) := [[[5]; [7]]; [[1]; [2]]].
Definition one : list (list (list R)) := [[[5]; [7]]].
Definition gamma_two (name : string) : value := if (name =? "kernel")%string then VStr "gak" else if (name =? "gamma")%string then VNum 2 else VNum 1.
Lemma two_real : forall x, In x two -> real_series 1 x.
Proof. intros s [<-|[<-|[]]]; (split; [lia|split; [discriminate|intros r H; simpl in H; intuition (subst; reflexivity)]]). Qed.
Lemma one_real : forall x, In x one -> real_series 1 x.
Proof. intros s [<-|[]]; (split; [lia|split; [discriminate|intros r H; simpl in H; intuition (subst; reflexivity)]]). Qed.
Lemma gamma_two_band p D : p "gamma" = VNum 2 -> bandwidth (p "gamma") D [] 1.
Proof. intros E. split; [lra|]. right. exists 2. split; [auto|lra]. Qed.
Lemma fitted_two : exists k D, to_dataset (N:=Xnum) (reals two) = Ok D /\ fst (o_fit counter svc_call (reals two) [0; 1]%nat tt [] seq_b (svm_new gamma_two)) =
  {| o_params := gamma_two; o_X := Some D; o_gamma := Some (VNum 2); o_kernel := Some k; o_svm := Some (Some 2%nat); o_nfeat := Some 1%nat |} /\
  snd (o_fit counter svc_call (reals two) [0; 1]%nat tt [] seq_b (svm_new gamma_two)) = Ok tt /\
  forall keep ss' b', ss' <> [] -> (forall x, In x ss' -> real_series 1 x) -> valid_batches b' (length ss') 2 (length ss' * 2)%nat ->
   exists K', gram ss' two 1 K' /\ snd (o_predict viewer keep (reals ss') b' (fst (o_fit counter svc_call (reals two) [0; 1]%nat tt [] seq_b (svm_new gamma_two)))) = Ok (2%nat, K').
Proof.
  destruct (padded_dataset 1 two two_real) as (D & ED & LD & _).
  destruct (C128_kernels counter viewer svc_call gamma_two 1 two D [0; 1]%nat tt [] seq_b 1 ValueError eq_refl ltac:(discriminate) two_real ED (gamma_two_band gamma_two D eq_refl))
    as (K & g & GK & Eg & _ & H). { repeat split. }
  assert (LK : counter (svc_call gamma_two (VStr "precomputed") (VNum g)) K [0; 1]%nat tt = Ok 2%nat) by (unfold counter; destruct GK as (-> & _); reflexivity).
  destruct (H 2%nat LK) as (f & Ef & EX & EG & EA & HP & _).
  destruct (fit_ok counter svc_call (reals two) [0; 1]%nat tt [] seq_b (svm_new gamma_two) f Ef) as (k & E). exists k, D. rewrite E. cbn [fst snd].
  rewrite EX, EG, EA. split; [exact ED|]. split.
  - assert (ND : arr_d D = 1%nat) by (destruct (first_padded 1 two D two_real ltac:(discriminate) ED) as [_ D1]; exact D1). rewrite ND, Eg. repeat f_equal. lra.
  - split; [reflexivity|]. intros keep ss' b' Hne' F' HB'. destruct (HP ss' b' Hne' F' HB') as (K' & GK' & EP). exists K'. split; [auto|].
    pose proof (predict_fitted viewer keep (reals ss') b' gamma_two f (Some k) (Some (arr_d D))) as PF. rewrite EX, EG, EA in PF.
    etransitivity; [exact PF|]. rewrite EP. reflexivity.
Qed.
Theorem C182_refuted : ~ forall A Y W P (train : kwargs -> list (list xr) -> list Y -> W -> res A) (apply : A -> list (list xr) -> res P) call p0 before p X y w idx b e keep X' b' p',
  let s := set_params (svm_run train apply call before (svm_new p0)) p in
  snd (o_fit train call X y w idx b s) = Err e ->
  snd (o_predict apply keep X' b' (set_params (fst (o_fit train call X y w idx b s)) p')) = snd (o_predict apply keep X' b' (set_params s p')).
Proof.
  intros H. destruct fitted_two as (k & D & ED & E2 & _ & HP).
  specialize (H nat nat unit _ counter viewer svc_call gamma_two [SFit (reals two) [0; 1]%nat tt [] seq_b] (with_kernel gamma_two "dtw") (reals one) [0]%nat tt [] seq_b
    AssertionError false (reals one) seq_b gamma_two).
  cbv zeta in H. cbn [svm_run fold_left svm_step] in H.
  destruct (padded_dataset 1 one one_real) as (D1 & ED1 & _ & _).
  destruct (HP false one seq_b ltac:(discriminate) one_real ltac:(repeat split)) as (K & GK & EK).
  set (s1 := fst (o_fit counter svc_call (reals two) [0; 1]%nat tt [] seq_b (svm_new gamma_two))) in *.
  destruct (C182_mixed counter viewer svc_call 1 one D1 [0]%nat tt [] seq_b 1 "dtw" (set_params s1 (with_kernel gamma_two "dtw")) 2%nat) as (EF & EP); auto.
  { rewrite E2. reflexivity. }
  { right. left. reflexivity. }
  { discriminate. }
  { discriminate. }
  { apply one_real. }
  { apply gamma_two_band. reflexivity. }
  specialize (H EF). destruct (EP false one seq_b ltac:(discriminate) one_real ltac:(repeat split)) as (K' & GK' & EK').
  assert (W1 : snd (o_predict viewer false (reals one) seq_b (set_params (fst (o_fit counter svc_call (reals one) [0]%nat tt [] seq_b (set_params s1 (with_kernel gamma_two "dtw")))) gamma_two)) = Ok (2%nat, K')).
  { change (Ok (2%nat, K')) with (viewer 2%nat K'). rewrite <- EK'. apply predict_reads. repeat split. }
  assert (W2 : snd (o_predict viewer false (reals one) seq_b (set_params (set_params s1 (with_kernel gamma_two "dtw")) gamma_two)) = Ok (2%nat, K)).
  { rewrite <- EK. apply predict_reads. rewrite E2. repeat split. }
  rewrite W1, W2 in H. injection H as H. destruct GK as (_ & L2 & _). destruct GK' as (_ & L1 & _).
  specialize (L1 0%nat ltac:(cbn; lia)). specialize (L2 0%nat ltac:(cbn; lia)). rewrite H in L1. rewrite L1 in L2. discriminate.
Qed.
Print Assumptions C182_refuted.

(** ** C183: parameters changed after [fit] *)
(** all but the kernel wait for the next [fit] *)
Theorem C183_others {A P} (apply : A -> list (list xr) -> res P) keep X b s p : p "kernel" = o_params s "kernel" ->
  snd (o_predict apply keep X b (set_params s p)) = snd (o_predict apply keep X b s).
Proof. intros E. apply predict_reads. repeat split. cbn. auto. Qed.
Print Assumptions C183_others.
(** FALSE as stated: with another kernel, predictions hand the estimator trained on a kernel matrix the values of the series *)
Theorem C183_kernel {A P} (apply : A -> list (list xr) -> res P) keep X b s p D DX a : 
  o_svm s = Some (Some a) -> o_X s = Some DX -> in_names (p "kernel") variable_length_metrics = false -> to_dataset (N:=Xnum) X = Ok D -> all_finite D = true ->
  arr_d D = arr_d DX -> sizes D = sizes DX ->
  snd (o_predict apply keep X b (set_params s p)) = apply a (map (@List.concat xr) D).
Proof.
  intros Ha HX Hk ED Hf Hd Hs. unfold o_predict, o_preprocess_predict. cbn. rewrite ED, Hk, Hf, Ha, HX, Hd, Hs, !Nat.eqb_refl. cbn. rewrite Ha.
  destruct (apply _ _); destruct keep; reflexivity.
Qed.
Print Assumptions C183_kernel.
Theorem C183_refuted : ~ forall A Y W P (train : kwargs -> list (list xr) -> list Y -> W -> res A) (apply : A -> list (list xr) -> res P) call p0 X y w idx b keep X' b' p,
  snd (o_fit train call X y w idx b (svm_new p0)) = Ok tt ->
  let s := fst (o_fit train call X y w idx b (svm_new p0)) in
  snd (o_predict apply keep X' b' (set_params s p)) = snd (o_predict apply keep X' b' s).
Proof.
  intros H. destruct fitted_two as (k & D & ED & E2 & EO & HP).
  specialize (H nat nat unit _ counter viewer svc_call gamma_two (reals two) [0; 1]%nat tt [] seq_b false (reals one) seq_b (with_kernel gamma_two "rbf") EO).
  cbv zeta in H. destruct (HP false one seq_b ltac:(discriminate) one_real ltac:(repeat split)) as (K & GK & EK).
  rewrite EK in H. 
  assert (ED1 : to_dataset (N:=Xnum) (reals one) = Ok [[[XR 5]; [XR 7]]]) by reflexivity.
  assert (ED' : D = [[[XR 5]; [XR 7]]; [[XR 1]; [XR 2]]]) by (assert (Q : to_dataset (N:=Xnum) (reals two) = Ok [[[XR 5]; [XR 7]]; [[XR 1]; [XR 2]]]) by reflexivity; congruence).
  rewrite (C183_kernel viewer false (reals one) seq_b _ (with_kernel gamma_two "rbf") [[[XR 5]; [XR 7]]] D 2%nat) in H; auto.
  - injection H as H. destruct GK as (_ & _ & G). specialize (G 0%nat 0%nat ltac:(cbn; lia) ltac:(cbn; lia)). rewrite <- H in G. cbn in G.
    assert (RO : real_series 1 [[5]; [7]]) by (apply one_real; left; reflexivity).
    pose proof (C32_gak_normalised 1 [[5]; [7]] [[5]; [7]] 1 ltac:(lra) RO RO) as (_ & _ & S1).
    cbn in S1. rewrite S1 in G. injection G as G. lra.
  - rewrite E2. reflexivity.
  - rewrite E2. reflexivity.
  - rewrite ED'. reflexivity.
  - rewrite ED'. reflexivity.
Qed.
Print Assumptions C183_refuted.
(** a history as in C181: two fits, one of them refused, predictions, other parameters *)
Example C181_nontrivial : exists after : list (@svm_call nat unit), after <> [] /\ keeps_kernel (gamma_two "kernel") after /\
  snd (o_fit counter svc_call (reals two) [0; 1]%nat tt [] seq_b
    (svm_run counter viewer svc_call [SFit (reals one) [0]%nat tt [] seq_b; SSet (with_kernel gamma_two "dtw"); SFit (reals two) [0; 1]%nat tt [] seq_b; SSet gamma_two; SPredict false (reals one) seq_b] (svm_new gamma_two))) = Ok tt.
Proof.
  exists [SPredict false (reals one) seq_b; SSet (fun name => if (name =? "C")%string then VNum 7 else gamma_two name)]. split; [discriminate|]. split.
  - intros c [<-|[<-|[]]]; cbn; auto.
  - destruct (C181_last_fit counter viewer svc_call gamma_two [SFit (reals one) [0]%nat tt [] seq_b; SSet (with_kernel gamma_two "dtw"); SFit (reals two) [0; 1]%nat tt [] seq_b; SSet gamma_two; SPredict false (reals one) seq_b]
      (reals two) [0; 1]%nat tt [] seq_b) as (E & _). cbv zeta in E. etransitivity; [exact E|]. destruct fitted_two as (k & D & ED & E2 & EO & HP).
    etransitivity; [|exact EO]. f_equal. f_equal. f_equal.
    destruct (predict_keeps viewer false (reals one) seq_b (svm_run counter viewer svc_call [SFit (reals one) [0]%nat tt [] seq_b; SSet (with_kernel gamma_two "dtw"); SFit (reals two) [0; 1]%nat tt [] seq_b; SSet gamma_two] (svm_new gamma_two))) as (E1 & _).
    exact E1.
Qed.

(** C150: series of one time step.  There soft-DTW of a series with itself is zero and the seeding repeats no centre. *)
From Coq Require Import Bool List Arith Lia ZArith QArith Reals Lra.
From Verif Require Import Num NumLaws Py Series Masks DtwModel Spec SpecDtw RList RealSeries PaaModel PaaThms PreModel PropScale PropResample PropCtw
  GakModel SoftModel Dataset DpProofs DtwProofs ValidThms CdistThms PropCdist CdistGen PathSum SoftThms PropDtw PropSoft PropSoftCdist
  BaryModel BaryThms BaryReal PropBary ClusterModel ClusterThms PropCluster PropCluster2 KInitModel PropKInit.
Import ListNotations.
Local Open Scope R_scope.

Lemma sqd_zero : forall x y, length x = length y -> sqd x y = 0 -> x = y.
Proof.
  unfold sqd. induction x as [|a x IH]; intros [|b y] L Z; try discriminate; [reflexivity|]. cbn [combine map] in Z.
  change (rsum (?h :: ?t)) with (h + rsum t) in Z. cbn [fst snd] in Z.
  assert (N : 0 <= rsum (map (fun p => (fst p - snd p) * (fst p - snd p)) (combine x y))) by (apply rsum_nonneg; intros v I; apply in_map_iff in I; destruct I as (p & <- & _); apply Rle_0_sqr).
  pose proof (Rle_0_sqr (a - b)) as Q. unfold Rsqr in Q. f_equal; [|apply IH; [injection L; auto|lra]].
  assert (E : (a - b) * (a - b) = 0) by lra. apply Rsqr_0_uniq in E. lra.
Qed.
Lemma soft_one_step d gamma a b : 0 < gamma -> real_series d [a] -> real_series d [b] ->
  soft_dtw BNumpy (Raw2 (lift [a])) (Raw2 (lift [b])) gamma GcNone None None = Ok (XR (sqd a b)).
Proof.
  intros Hg Ha Hb. rewrite (soft_public BNumpy d [a] [b] gamma GcNone None None everywhere Hg Ha Hb I eq_refl). do 2 f_equal. rewrite total_psum by lra. cbn [length Nat.sub].
  rewrite psum_rec. unfold everywhere at 1. cbn [bsum]. unfold costs. cbn [nth]. unfold bsum. cbv iota beta.
  replace (exp (- (sqd a b / gamma)) * _) with (exp (- (sqd a b / gamma))) by lra. rewrite ln_exp. field. lra.
Qed.
(** pairwise different series of one time step, positive draws, at most as many clusters as series, no global constraint: the initial centres
    are pairwise different series.  Missing for C150: longer series, for which it is false ([C150_repeats_refuted]). *)
Theorem C150_one_step_partial d gamma xs u K first : 0 < gamma -> (forall x, In x xs -> real_series d x /\ length x = 1%nat) -> NoDup xs ->
  (forall c t, 0 < u c t < 1) -> (0 < K <= length xs)%nat -> (first < length xs)%nat ->
  exists centres, kpp_softdtw gamma None None None (map lift xs) u K first = Ok (map lift centres) /\
    length centres = K /\ NoDup centres /\ forall x, In x centres -> In x xs.
Proof.
  intros Hg Hx ND Hu HK Hf. set (Dr := fun i j => sqd (nth 0 (nth i xs []) []) (nth 0 (nth j xs []) [])).
  assert (H1 : forall i, (i < length xs)%nat -> exists a, nth i xs [] = [a] /\ real_series d [a]).
  { intros i Hi. destruct (Hx _ (nth_In xs [] Hi)) as (R & L). destruct (nth i xs []) as [|a [|]]; try discriminate. exists a. auto. }
  assert (HD : forall i j, (i < length xs)%nat -> (j < length xs)%nat ->
     soft_dtw BNumpy (Raw2 (lift (nth i xs []))) (Raw2 (lift (nth j xs []))) gamma (name_or_none None) None None = Ok (XR (Dr i j))).
  { intros i j Hi Hj. unfold Dr. destruct (H1 i Hi) as (a & -> & Ra), (H1 j Hj) as (b & -> & Rb). cbn [nth]. apply (soft_one_step d); auto. }
  assert (HZ : forall i j, (i < length xs)%nat -> (j < length xs)%nat -> Dr i j = 0 -> i = j).
  { intros i j Hi Hj Z. apply (proj1 (NoDup_nth xs []) ND i j Hi Hj). unfold Dr in Z. destruct (H1 i Hi) as (a & Ea & Ra), (H1 j Hj) as (b & Eb & Rb). rewrite Ea, Eb in *. cbn [nth] in Z. f_equal. apply sqd_zero; [|exact Z].
    destruct Ra as (_ & _ & Ra), Rb as (_ & _ & Rb). rewrite (Ra a), (Rb b); [reflexivity|left; reflexivity|left; reflexivity]. }
  assert (HS : forall i, Dr i i = 0).
  { intros i. unfold Dr, sqd. generalize (nth 0 (nth i xs []) []). intros l. induction l as [|v l IH]; [reflexivity|]. cbn [combine map]. change (rsum (?h :: ?t)) with (h + rsum t). rewrite IH. cbn [fst snd]. lra. }
  destruct (C148_softdtw d 1 xs gamma None None None u K first Dr Hg (fun x I => proj1 (Hx x I)) HD ltac:(intros c t; specialize (Hu c t); lra) ltac:(lia) Hf) as (ids & E & LI & S).
  assert (PAD : forall x, In x xs -> pad_to d 1 x = lift x) by (intros x I; destruct (Hx x I) as (_ & L); unfold pad_to; rewrite L; cbn [Nat.sub repeat]; apply app_nil_r).
  rewrite (map_ext_in _ _ _ PAD) in E. exists (map (fun i => nth i xs []) ids).
  assert (IN : forall i, In i ids -> (i < length xs)%nat) by apply S.
  split; [rewrite E, map_map; f_equal; apply map_ext_in; intros i I; apply PAD; apply nth_In; auto|].
  split; [rewrite map_length; exact LI|]. split.
  2:{ intros x I. apply in_map_iff in I. destruct I as (i & <- & I). apply nth_In. auto. }
  assert (INN : forall k, (k < K)%nat -> (nth k ids 0 < length xs)%nat) by (intros k Hk; apply IN; apply nth_In; lia).
  assert (NI : forall c c', (c' < c < K)%nat -> nth c' ids 0%nat <> nth c ids 0%nat).
  { intros c c' Hc. destruct (seeding_apart Dr (length xs) _ u first ids c Hu S ltac:(lia)) as [H|H].
    - intros Q. apply (H c'); [lia|]. rewrite Q. apply HS.
    - exfalso. assert (INC : incl (seq 0 (length xs)) (map (fun c' => nth c' ids 0%nat) (seq 0 c))).
      { intros j I. apply in_seq in I. destruct (H j ltac:(lia)) as (b & Hb & Z). apply HZ in Z; [|apply INN; lia|lia]. subst j. apply (in_map (fun c' => nth c' ids 0%nat)). apply in_seq. lia. }
      apply NoDup_incl_length in INC; [|apply seq_NoDup]. rewrite map_length, !seq_length in INC. lia. }
  apply (NoDup_nth _ []). rewrite map_length, LI. intros a b Ha Hb Q.
  assert (NM : forall k, (k < K)%nat -> nth k (map (fun i => nth i xs []) ids) [] = nth (nth k ids 0%nat) xs []).
  { intros k Hk. rewrite (nth_indep _ [] (nth 0 xs [])) by (rewrite map_length; lia). apply (map_nth (fun i => nth i xs [])). }
  rewrite !NM in Q by lia.
  apply (proj1 (NoDup_nth xs []) ND) in Q; [|apply INN; lia|apply INN; lia].
  destruct (lt_eq_lt_dec a b) as [[H|H]|H]; [|exact H|]; exfalso; [apply (NI b a)|apply (NI a b)]; auto; lia.
Qed.
Print Assumptions C150_one_step_partial.
(** the hypotheses are met *)
Example C150_one_step_case : exists centres, kpp_softdtw 1 None None None (map lift [[[0]]; [[1]]; [[3]]]) (fun _ _ => 1 / 2) 2 0 = Ok (map lift centres) /\
  length centres = 2%nat /\ NoDup centres /\ forall x, In x centres -> In x [[[0]]; [[1]]; [[3]]].
Proof.
  apply (C150_one_step_partial 1); [lra| | |intros; lra|cbn; lia|cbn; lia].
  - intros x [<-|[<-|[<-|[]]]]; (split; [split; [lia|split; [discriminate|intros y [<-|[]]; reflexivity]]|reflexivity]).
  - repeat constructor; cbn; intuition; repeat match goal with H : [_] = [_] |- _ => injection H; clear H; intros end; lra.
Qed.

(** C89, C90: what KShape.fit reports. *)
From Coq Require Import Bool List Arith Lia ZArith Reals Lra.
From Verif Require Import Num NumLaws Py RList PaaThms RealSeries CyccModel CyccThms PropCycc KernelModel PropKernel2 KshapeModel PropKshape.
Import ListNotations.
Local Open Scope R_scope.

(** ** Specification *)
(** the eigenvector routine returns vectors that are not constant (for sz >= 2 numpy's eigh does: the matrix
    annihilates constant vectors, so an eigenvector of a positive eigenvalue is orthogonal to them) *)
Definition nonconstant_eig (p : ks_params) (sz : nat) : Prop := forall M, length M = sz -> nonconstant sz (ks_eig p M).
(** norm of a standardised series *)
Definition unit_norm (sz d : nat) : R := sqrt (INR sz * INR d).
Definition mean_sq (l : list R) : R := rsum (map (fun v => v * v) l) / INR (length l).

(** ** a standardised series without constant feature has norm sqrt (sz d) *)
Lemma std_nonzero l a b : (a < length l)%nat -> (b < length l)%nat -> nth a l 0 <> nth b l 0 -> std_r l <> 0.
Proof.
  intros Ha Hb H E. unfold std_r in E. set (m := mean_r l) in *. assert (L : 0 < INR (length l)) by (apply lt_0_INR; lia).
  assert (S0 : rsum (map (fun x => (x - m) * (x - m)) l) = 0).
  { apply sqrt_eq_0 in E.
    - unfold mean_r in E. rewrite map_length in E. unfold Rdiv in E. apply Rmult_integral in E. destruct E as [E|E]; auto.
      exfalso. apply Rinv_0_lt_compat in L. lra.
    - unfold mean_r. rewrite map_length. apply Rmult_le_pos; [|left; apply Rinv_0_lt_compat; auto]. apply rsum_nonneg. intros x Hx. apply in_map_iff in Hx.
      destruct Hx as (y & <- & _). apply Rle_0_sqr. }
  assert (Z : forall x, In x l -> x = m).
  { clearbody m. clear -S0. induction l as [|y l IH]; [contradiction|]. cbn [map] in S0. match type of S0 with rsum (?a :: ?q) = 0 => change (a + rsum q = 0) in S0 end.
    assert (0 <= rsum (map (fun x => (x - m) * (x - m)) l)). { apply rsum_nonneg. intros x Hx. apply in_map_iff in Hx. destruct Hx as (z & <- & _). apply Rle_0_sqr. }
    pose proof (Rle_0_sqr (y - m)) as Q. unfold Rsqr in Q. assert ((y - m) * (y - m) = 0) by lra. assert (rsum (map (fun x => (x - m) * (x - m)) l) = 0) by lra.
    intros x [<-|Hx]; [apply Rmult_integral in H0; lra|auto]. }
  apply H. rewrite (Z (nth a l 0)), (Z (nth b l 0)) by (apply nth_In; auto). reflexivity.
Qed.
Lemma std_sq l : (0 < length l)%nat -> std_r l * std_r l = rsum (map (fun x => (x - mean_r l) * (x - mean_r l)) l) / INR (length l).
Proof.
  intros H. unfold std_r. set (m := mean_r l). clearbody m. unfold mean_r. rewrite map_length. apply sqrt_sqrt. apply Rmult_le_pos; [|left; apply Rinv_0_lt_compat, lt_0_INR; auto].
  apply rsum_nonneg. intros x Hx. apply in_map_iff in Hx. destruct Hx as (y & <- & _). apply Rle_0_sqr.
Qed.
Lemma frob_standardise d s : (forall k, (k < d)%nat -> std_r (col_of k s) <> 0) -> (0 < length s)%nat -> frob (standardise d s) = unit_norm (length s) d.
Proof.
  intros H Hs. unfold frob, unit_norm, standardise. f_equal. rewrite map_map.
  assert (E : forall r, rsum (map (fun x => x * x) (map (fun k => (nth k r 0 - mean_r (col_of k s)) / scale_of (col_of k s)) (seq 0 d))) =
    rsum (map (fun k => (nth k r 0 - mean_r (col_of k s)) * (nth k r 0 - mean_r (col_of k s)) * (/ (std_r (col_of k s) * std_r (col_of k s)))) (seq 0 d))).
  { intros r. rewrite map_map. apply rsum_map_ext. intros k Hk. apply in_seq in Hk. unfold scale_of. specialize (H k ltac:(lia)). destruct Req_EM_T; [contradiction|]. field. auto. }
  rewrite (rsum_map_ext _ _ s (fun r _ => E r)). rewrite rsum_swap.
  rewrite (rsum_map_ext _ (fun _ => INR (length s)) (seq 0 d)).
  - rewrite rsum_const, seq_length. ring.
  - intros k Hk. apply in_seq in Hk. specialize (H k ltac:(lia)). rewrite rsum_scal_r.
    assert (L : 0 < INR (length s)) by (apply lt_0_INR; auto).
    assert (Q : std_r (col_of k s) * std_r (col_of k s) = rsum (map (fun r => (nth k r 0 - mean_r (col_of k s)) * (nth k r 0 - mean_r (col_of k s))) s) / INR (length s)).
    { rewrite std_sq by (unfold col_of; rewrite map_length; auto). set (m := mean_r (col_of k s)). unfold col_of. rewrite map_map, map_length. reflexivity. }
    assert (NZ : std_r (col_of k s) * std_r (col_of k s) <> 0) by (apply Rmult_integral_contrapositive; auto).
    apply (Rmult_eq_reg_r (std_r (col_of k s) * std_r (col_of k s))); auto. rewrite Rmult_assoc, Rinv_l, Rmult_1_r by auto. rewrite Q. field. lra.
Qed.

Section Fit.
Context (p : ks_params) (sz d : nat) (junk : nat -> R) (X : list rseries).
Hypothesis Hsz : (0 < sz)%nat.
Hypothesis Heig : nonconstant_eig p sz.
Let K := ks_clusters p.
(** a set of [K] centres of the norm of standardised series *)
Definition good (C : list rseries) : Prop := length C = K /\ forall c, In c C -> frob c = unit_norm sz d.
Lemma good_norms C : good C -> map frob C = repeat (unit_norm sz d) K.
Proof.
  intros [<- H]. induction C as [|c C IH]; auto. cbn [map length repeat]. rewrite H by (left; auto). f_equal. apply IH. intros. apply H. right. auto.
Qed.
Lemma signed_nth mu Xp a : nth a (signed mu Xp) 0 = nth a mu 0 \/ nth a (signed mu Xp) 0 = - nth a mu 0.
Proof.
  unfold signed. destruct (Rltb _ _); auto. right. replace 0 with (0 * -1) at 1 by ring. rewrite (map_nth (fun x => x * -1)). ring.
Qed.
Lemma signed_nonconstant mu Xp : nonconstant sz mu -> nonconstant sz (signed mu Xp).
Proof.
  intros (a & b & Ha & Hb & N). exists a, b. split; auto. split; auto. unfold signed. destruct (Rltb _ _); auto.
  replace 0 with (0 * -1) by ring. rewrite !(map_nth (fun x => x * -1)). rewrite ?Rmult_0_l in *. lra.
Qed.
Lemma update_good s : good (ks_centers (ks_update p sz d X s)) /\ ks_norms_c (ks_update p sz d X s) = map frob (ks_centers (ks_update p sz d X s)) /\
  ks_norms (ks_update p sz d X s) = ks_norms s.
Proof.
  unfold ks_update. cbn. split; [|auto]. split; [rewrite map_length, seq_length; auto|]. intros c Hc. apply in_map_iff in Hc. destruct Hc as (k & <- & Hk).
  assert (L : length (shape_extraction p sz d X s k) = sz) by (unfold shape_extraction; rewrite map_length, seq_length; auto).
  rewrite frob_standardise; [rewrite L; reflexivity| |lia]. intros f Hf. unfold shape_extraction.
  set (Xp := y_shifted _ _ _ _ _).
  assert (C : col_of f (map (fun t => map (fun mu => nth t mu 0) (map (fun f => signed (ks_eig p (shape_matrix sz f Xp)) Xp) (seq 0 d))) (seq 0 sz)) =
    map (fun t => nth t (signed (ks_eig p (shape_matrix sz f Xp)) Xp) 0) (seq 0 sz)).
  { unfold col_of. rewrite map_map. apply map_ext. intros t. rewrite map_map. rewrite (map_seq_nth_gen (fun f0 => nth t (signed (ks_eig p (shape_matrix sz f0 Xp)) Xp) 0)) by auto. reflexivity. }
  rewrite C. assert (N : nonconstant sz (signed (ks_eig p (shape_matrix sz f Xp)) Xp)).
  { apply signed_nonconstant, Heig. unfold shape_matrix. rewrite map_length, seq_length. auto. }
  destruct N as (a & b & Ha & Hb & N). apply (std_nonzero _ a b); rewrite ?map_length, ?seq_length; auto. rewrite !map_seq_nth_gen by auto. auto.
Qed.
(** labels and inertia of a set of good centres *)
Definition rows (C : list rseries) : list (list R) :=
  cross_dists d junk {| ks_labels := []; ks_inertia := None; ks_centers := C; ks_norms := map frob X; ks_norms_c := map frob C; ks_iter := 0 |} X.
Definition settled (s : ks_state) : Prop :=
  good (ks_centers s) /\ ks_norms_c s = map frob (ks_centers s) /\ ks_norms s = map frob X /\
  ks_labels s = map rargmin (rows (ks_centers s)) /\ covers (ks_labels s) K = true /\
  ks_inertia s = Some (ks_compute_inertia (rows (ks_centers s)) (ks_labels s)).
Lemma cross_rows s : ks_norms_c s = map frob (ks_centers s) -> ks_norms s = map frob X -> cross_dists d junk s X = rows (ks_centers s).
Proof. intros E1 E2. unfold rows, cross_dists. cbn. rewrite E1, E2. reflexivity. Qed.
Lemma assign_ok s s' : ks_assign p d junk X s = (s', Ok tt) -> good (ks_centers s) -> ks_norms_c s = map frob (ks_centers s) -> ks_norms s = map frob X ->
  settled s' /\ ks_centers s' = ks_centers s.
Proof.
  intros H G E1 E2. unfold ks_assign in H. rewrite (cross_rows s E1 E2) in H. destruct (covers (map rargmin (rows (ks_centers s))) (ks_clusters p)) eqn:EC; [|discriminate].
  injection H as <-. split; [|reflexivity]. unfold settled. cbn. split; [auto|]. split; [auto|]. split; [auto|]. split; [reflexivity|]. split; [exact EC|reflexivity].
Qed.
Lemma assign_norms s s' r : ks_assign p d junk X s = (s', r) -> ks_norms s' = ks_norms s /\ ks_centers s' = ks_centers s /\ ks_norms_c s' = ks_norms_c s.
Proof. unfold ks_assign. destruct (covers _ _); intros H; injection H as <- <-; cbn; auto. Qed.
Lemma settled_iter n s : settled s -> settled (put_iter n s). Proof. intros H. exact H. Qed.
Lemma loop_settled : forall more it old s s', ks_norms s = map frob X -> (old <> None -> settled s) -> (more = 0%nat -> settled s) ->
  ks_loop p sz d junk X it more old s = (s', Ok tt) -> settled s'.
Proof.
  induction more as [|more IH]; intros it old s s' HN HO HZ H.
  - cbn in H. injection H as <-. apply settled_iter. auto.
  - cbn [ks_loop] in H. destruct (update_good s) as (G & E1 & E2). destruct (ks_assign p d junk X (ks_update p sz d X s)) as [s1 [[]|e]] eqn:EA; [|discriminate].
    destruct (assign_ok _ _ EA G E1 ltac:(congruence)) as [S1 C1].
    destruct (match old with Some o => _ | None => _ end) eqn:EO.
    + destruct old as [o|]; [|discriminate]. assert (S0 : settled s) by (apply HO; discriminate).
      destruct (ks_assign p d junk X (put_centers (ks_centers s) (ks_norms_c s1) s1)) as [s2 [[]|e]] eqn:EB; [|discriminate]. injection H as <-.
      destruct S0 as (G0 & _ & N0 & _). destruct S1 as (G1 & N1 & N1' & _).
      apply settled_iter. apply (assign_ok _ s2 EB); cbn; auto. rewrite N1, (good_norms _ G1), (good_norms _ G0). reflexivity.
    + apply (IH _ _ _ _ (proj1 (proj2 (proj2 S1))) (fun _ => S1) (fun _ => S1) H).
Qed.
(** the loop never fails with anything but an empty cluster, and keeps the training norms and good centres *)
Definition keeps (s : ks_state) : Prop := ks_norms s = map frob X /\ good (ks_centers s).
Lemma loop_keeps : forall more it old s s' r, keeps s -> ks_loop p sz d junk X it more old s = (s', r) -> keeps s' /\ (r = Ok tt \/ r = Err EmptyClusterError).
Proof.
  assert (AE : forall s s' r, ks_assign p d junk X s = (s', r) -> r = Ok tt \/ r = Err EmptyClusterError).
  { intros s s' r. unfold ks_assign. destruct (covers _ _); intros H; injection H as <- <-; auto. }
  induction more as [|more IH]; intros it old s s' r [K1 K2] H.
  - cbn in H. injection H as <- <-. split; [split; auto|auto].
  - cbn [ks_loop] in H. destruct (update_good s) as (G & E1 & E2). destruct (ks_assign p d junk X (ks_update p sz d X s)) as [s1 r1] eqn:EA.
    destruct (assign_norms _ _ _ EA) as (A1 & A2 & A3). destruct (AE _ _ _ EA) as [->| ->].
    + assert (KS1 : keeps s1) by (split; [congruence|rewrite A2; auto]).
      destruct (match old with Some o => _ | None => _ end).
      * destruct (ks_assign p d junk X (put_centers (ks_centers s) (ks_norms_c s1) s1)) as [s2 r2] eqn:EB. destruct (assign_norms _ _ _ EB) as (B1 & B2 & B3). cbn in B1, B2.
        assert (KS2 : keeps s2) by (destruct KS1; split; [congruence|rewrite B2; auto]).
        destruct (AE _ _ _ EB) as [->| ->]; injection H as <- <-; split; auto.
      * apply (IH _ _ _ _ _ KS1 H).
    + injection H as <- <-. split; [|auto]. split; [congruence|rewrite A2; auto].
Qed.
Lemma one_init_settled C0 s s' r : (0 < ks_max_iter p)%nat -> ks_norms s = map frob X -> good C0 -> ks_one_init p sz d junk X C0 s = (s', r) ->
  keeps s' /\ (r = Err EmptyClusterError \/ r = Ok tt /\ settled s').
Proof.
  intros HM HN HC H. unfold ks_one_init in H.
  destruct (ks_assign p d junk X (put_centers C0 (map frob C0) s)) as [s1 r1] eqn:EA. destruct (assign_norms _ _ _ EA) as (A1 & A2 & A3). cbn in A1, A2, A3.
  assert (KS1 : keeps s1) by (split; [congruence|rewrite A2; auto]).
  destruct r1 as [[]|e].
  - destruct (Nat.eqb_spec (ks_max_iter p) 0) as [E0|E0]; [lia|]. destruct (loop_keeps _ _ _ _ _ _ KS1 H) as [KS [->| ->]]; split; auto. right. split; auto.
    eapply (loop_settled _ _ _ _ _ (proj1 KS1)); [| |exact H]; [congruence|lia].
  - injection H as <- <-. split; auto. left. unfold ks_assign in EA. destruct (covers _ _); [discriminate|]. injection EA as _ <-. reflexivity.
Qed.
Definition best_ok (b : option (list rseries * R * nat)) : Prop :=
  match b with None => True | Some (C, v, _) => good C /\ covers (map rargmin (rows C)) K = true /\ v = ks_compute_inertia (rows C) (map rargmin (rows C)) end.
Lemma attempts_ok init : (0 < ks_max_iter p)%nat -> (forall a, good (init a)) -> forall remaining n ok best s s' r,
  ks_norms s = map frob X -> (best <> None -> keeps s) -> best_ok best -> ks_attempts p sz d junk X init n remaining ok best s = (s', r) ->
  exists b, r = Ok b /\ best_ok b /\ (b <> None -> keeps s').
Proof.
  intros HM HI. induction remaining as [|remaining IH]; intros n ok best s s' r HN HK HB H; cbn [ks_attempts] in H.
  - injection H as <- <-. eauto.
  - destruct (ks_n_init p <=? ok)%nat; [injection H as <- <-; eauto|].
    destruct (ks_one_init p sz d junk X (init n) s) as [s1 r1] eqn:E1. destruct (one_init_settled _ _ _ _ HM HN (HI n) E1) as [K1 [->|[-> S1]]].
    + eapply IH; [apply K1| |exact HB|exact H]. auto.
    + eapply IH; [apply K1| | |exact H]; auto. destruct S1 as (G & _ & _ & L & C & V). rewrite V. 
      assert (B1 : forall i, best_ok (Some (ks_centers s1, ks_compute_inertia (rows (ks_centers s1)) (ks_labels s1), i))).
      { intros i. cbn. rewrite <- L. auto. }
      destruct best as [[[bC bv] bi]|]; [|apply B1]. destruct (Rltb _ _); [apply B1|exact HB].
Qed.
Lemma fit_ok init array s b : (0 < ks_max_iter p)%nat -> (forall a, good (init a)) -> ks_fit p sz d junk array init X = (s, b) ->
  (b = Ok false) \/ (b = Ok true /\ good (ks_centers s) /\ ks_norms_c s = map frob (ks_centers s) /\ ks_labels s = map rargmin (rows (ks_centers s)) /\
     covers (ks_labels s) K = true /\ ks_inertia s = Some (ks_compute_inertia (rows (ks_centers s)) (ks_labels s))).
Proof.
  intros HM HI H. unfold ks_fit in H.
  destruct (ks_attempts p sz d junk X init 0 _ 0 None (ks_fresh X)) as [s1 r] eqn:EA.
  destruct (attempts_ok init HM HI _ _ _ _ (ks_fresh X) _ _ eq_refl (fun N => match N eq_refl with end) I EA) as (b1 & -> & B1 & K1).
  destruct b1 as [[[C v] it]|]; [|injection H as <- <-; auto]. right. destruct (K1 ltac:(discriminate)) as [KN KG]. destruct B1 as (GC & CC & EV).
  cbn [ks_norms_c put_centers ks_centers] in H.
  destruct (ks_assign p d junk X _) as [s2 r2] eqn:E2.
  assert (EN : map frob (ks_centers s1) = map frob C) by (rewrite (good_norms _ KG), (good_norms _ GC); auto).
  destruct (assign_norms _ _ _ E2) as (A1 & A2 & A3). cbn in A1, A2, A3.
  assert (R2 : r2 = Ok tt).
  { unfold ks_assign in E2. rewrite cross_rows in E2; [|cbn; auto|cbn; auto]. cbn [ks_centers put_centers] in E2. unfold K in CC. rewrite CC in E2. injection E2 as _ <-. reflexivity. }
  subst r2. destruct (assign_ok _ _ E2 GC ltac:(cbn; auto) ltac:(cbn; auto)) as [S2 C2]. cbn in C2. injection H as <- <-. destruct S2 as (G2 & N2 & _ & L2 & V2 & I2).
  split; auto. cbn. split; [auto|]. split; [auto|]. split; [auto|]. split; [auto|]. rewrite C2, EV, L2, C2. reflexivity.
Qed.
(** ** one more iteration *)
Definition le_inertia (a b : ks_state) : Prop := exists v w, ks_inertia a = Some v /\ ks_inertia b = Some w /\ v <= w.
Lemma settled_same a b : settled a -> settled b -> ks_centers a = ks_centers b -> ks_inertia a = ks_inertia b.
Proof. intros (_ & _ & _ & La & _ & Ia) (_ & _ & _ & Lb & _ & Ib) E. rewrite Ia, Ib, La, Lb, E. reflexivity. Qed.
Lemma loop_prefix : forall more it old s s2, ks_norms s = map frob X -> (old <> None -> settled s /\ old = ks_inertia s) -> (more = 0%nat -> old <> None) ->
  ks_loop p sz d junk X it (S more) old s = (s2, Ok tt) -> exists s1, ks_loop p sz d junk X it more old s = (s1, Ok tt) /\ le_inertia s2 s1.
Proof.
  induction more as [|more IH]; intros it old s s2 HN HO HZ H.
  - destruct (HO (HZ eq_refl)) as [S0 EO]. exists (put_iter it s). split; [reflexivity|].
    assert (S2 : settled s2) by (apply (loop_settled _ _ _ _ _ HN (fun _ => S0) (fun _ => S0) H)).
    pose proof S0 as (G0 & N0 & NX0 & L0 & C0 & I0). pose proof S2 as (_ & _ & _ & _ & _ & I2).
    exists (ks_compute_inertia (rows (ks_centers s2)) (ks_labels s2)), (ks_compute_inertia (rows (ks_centers s)) (ks_labels s)). split; [auto|]. split; [exact I0|].
    cbn [ks_loop] in H. destruct (update_good s) as (G & E1 & E2). destruct (ks_assign p d junk X (ks_update p sz d X s)) as [s1 [[]|e]] eqn:EA; [|discriminate].
    destruct (assign_ok _ _ EA G E1 ltac:(congruence)) as [S1 C1]. pose proof S1 as (G1 & N1 & NX1 & _ & _ & I1).
    rewrite EO, I0, I1 in H. destruct (_ || _)%bool eqn:ES in H.
    + destruct (ks_assign p d junk X (put_centers (ks_centers s) (ks_norms_c s1) s1)) as [s3 [[]|e]] eqn:EB; [|discriminate]. injection H as <-.
      destruct (assign_norms _ _ _ EB) as (_ & B2 & _). cbn in B2. pose proof (settled_same _ _ S2 S0 B2) as Q. rewrite I2, I0 in Q. injection Q as Q. apply Req_le. exact Q.
    + cbn in H. injection H as <-. cbn [put_iter ks_inertia ks_centers ks_labels]. apply orb_false_iff in ES. destruct ES as [_ ES]. apply Rltb_false in ES. lra.
  - cbn [ks_loop] in H |- *. destruct (update_good s) as (G & E1 & E2).
    destruct (ks_assign p d junk X (ks_update p sz d X s)) as [s1 [[]|e]] eqn:EA; [|discriminate].
    destruct (assign_ok _ _ EA G E1 ltac:(congruence)) as [S1 C1].
    destruct (match old with Some o => _ | None => _ end) eqn:EO.
    + exists s2. split; auto. destruct old as [o|]; [|discriminate]. destruct (HO ltac:(discriminate)) as [S0 _].
      destruct (ks_assign p d junk X (put_centers (ks_centers s) (ks_norms_c s1) s1)) as [s3 [[]|e]] eqn:EB; [|discriminate]. injection H as <-.
      unfold ks_assign in EB. destruct (covers _ _) in EB; [|discriminate]. injection EB as <-. cbn. eexists. eexists. split; [reflexivity|]. split; [reflexivity|]. lra.
    + assert (I1 : ks_inertia s1 <> None) by (destruct S1 as (_ & _ & _ & _ & _ & ->); discriminate).
      apply (IH _ _ _ _ (proj1 (proj2 (proj2 S1))) (fun _ => conj S1 eq_refl) (fun _ => I1) H).
Qed.
Lemma le_inertia_trans a b c : le_inertia a b -> le_inertia b c -> le_inertia a c.
Proof. intros (v & w & E1 & E2 & L) (w' & x & E3 & E4 & L'). exists v, x. rewrite E2 in E3. injection E3 as <-. split; auto. split; auto. lra. Qed.
Lemma loop_more j : forall it s s2 more, ks_norms s = map frob X -> (0 < more)%nat ->
  ks_loop p sz d junk X it (j + more) None s = (s2, Ok tt) -> exists s1, ks_loop p sz d junk X it more None s = (s1, Ok tt) /\ le_inertia s2 s1.
Proof.
  induction j as [|j IH]; intros it s s2 more HN HM H.
  - cbn [Nat.add] in H. exists s2. split; auto. assert (HZ : more = 0%nat -> settled s) by (intros; lia).
    destruct (loop_settled _ _ _ _ _ HN (fun N => match N eq_refl with end) HZ H) as (_ & _ & _ & _ & _ & I2).
    eexists. eexists. split; [exact I2|]. split; [exact I2|]. lra.
  - cbn [Nat.add] in H. assert (HZ : (j + more)%nat = 0%nat -> @None R <> None) by (intros; lia).
    destruct (loop_prefix _ _ _ _ _ HN (fun N => match N eq_refl with end) HZ H) as (s1 & H1 & L1).
    destruct (IH _ _ _ _ HN HM H1) as (s0 & H0 & L0). exists s0. split; auto. apply (le_inertia_trans _ _ _ L1 L0).
Qed.
End Fit.

(** ** C89 *)
Lemma rows_nth d junk X C i : (i < length X)%nat -> nth i (rows d junk X C) [] = map (fun j => sbd d (nth i X []) (nth j C [])) (seq 0 (length C)).
Proof.
  intros Hi. unfold rows. rewrite cross_dists_nth by auto. cbn [ks_norms ks_norms_c ks_centers].
  assert (P : forall s, 0 <= frob s) by (intros; apply sqrt_pos).
  rewrite !fill_keep by (intros x Hx; apply in_map_iff in Hx; destruct Hx as (y & <- & _); auto).
  apply map_ext_in. intros j Hj. apply in_seq in Hj. rewrite read_in by (rewrite map_length; auto). unfold sbd.
  rewrite !(nth_indep _ 0 (frob [])) by (rewrite map_length; lia). rewrite !map_nth, !l2norm_frob. reflexivity.
Qed.
Lemma rows_length d junk X C : length (rows d junk X C) = length X.
Proof. unfold rows. apply cross_dists_length. Qed.
(** attempts starting from centres of norm sqrt(sz d), as any standardised series without constant feature has, and an eigenvector
    routine that does not return constant vectors: fit does not raise, and when it finds a clustering, the labels are those of the
    nearest reported centre (first one on ties), no cluster is empty, and the inertia is the mean squared distance to them. *)
Theorem C89_reported_partial p sz d junk array init X : (0 < sz)%nat -> (0 < ks_max_iter p)%nat -> nonconstant_eig p sz -> (0 < ks_clusters p)%nat ->
  (forall a, length (init a) = ks_clusters p /\ forall c, In c (init a) -> l2norm c = sqrt (INR sz * INR d)) ->
  forall s r, ks_fit p sz d junk array init X = (s, r) ->
  r = Ok false \/
  (r = Ok true /\ length (ks_centers s) = ks_clusters p /\ length (ks_labels s) = length X /\
   (forall i, (i < length X)%nat -> first_least (ks_clusters p) (fun j => sbd d (nth i X []) (nth j (ks_centers s) [])) (nth i (ks_labels s) 0%nat)) /\
   (forall j, (j < ks_clusters p)%nat -> In j (ks_labels s)) /\
   ks_inertia s = Some (mean_sq (map (fun i => sbd d (nth i X []) (nth (nth i (ks_labels s) 0%nat) (ks_centers s) [])) (seq 0 (length X))))).
Proof.
  intros Hsz HM HE HK HI s r H.
  assert (HI' : forall a, good p sz d (init a)). { intros a. destruct (HI a) as [L N]. split; auto. intros c Hc. rewrite <- l2norm_frob. apply N. auto. }
  destruct (fit_ok p sz d junk X Hsz HE init array s r HM HI' H) as [->|(-> & [GL GN] & _ & EL & CV & EI)]; auto.
  right. split; auto. split; auto. assert (LL : length (ks_labels s) = length X) by (rewrite EL, map_length, rows_length; auto). split; auto.
  assert (FL : forall i, (i < length X)%nat -> first_least (ks_clusters p) (fun j => sbd d (nth i X []) (nth j (ks_centers s) [])) (nth i (ks_labels s) 0%nat)).
  { intros i Hi. rewrite EL, nth_map_rargmin, rows_nth, GL by auto. apply rargmin_first_least. auto. }
  split; auto. split; [apply covers_iff; auto|].
  rewrite EI. f_equal. unfold ks_compute_inertia, mean_sq. rewrite rows_length, map_length, seq_length. f_equal. rewrite map_map. f_equal.
  apply nth_ext with (d := 0) (d' := 0); [rewrite !map_length, combine_length, rows_length, seq_length, LL; lia|].
  intros i Hi. rewrite map_length, combine_length, rows_length, LL, Nat.min_id in Hi.
  rewrite map_seq_nth_gen by auto. set (g := fun q : list R * nat => _). rewrite (nth_indep _ 0 (g ([], 0%nat))) by (rewrite map_length, combine_length, rows_length, LL; lia).
  rewrite map_nth, combine_nth by (rewrite rows_length; auto). unfold g. cbn [fst snd]. rewrite rows_nth by auto.
  destruct (FL i Hi) as [B _]. rewrite map_seq_nth_gen by (rewrite GL; auto). reflexivity.
Qed.
Print Assumptions C89_reported_partial.

(** ** C90 *)
Definition with_iter (m : nat) (p : ks_params) : ks_params :=
  {| ks_clusters := ks_clusters p; ks_max_iter := m; ks_tol := ks_tol p; ks_n_init := ks_n_init p; ks_eig := ks_eig p |}.
Lemma loop_with m p sz d junk X : forall more it old s, ks_loop (with_iter m p) sz d junk X it more old s = ks_loop p sz d junk X it more old s.
Proof.
  induction more as [|more IH]; intros it old s; [reflexivity|]. cbn [ks_loop]. unfold ks_assign, ks_update, shape_extraction.
  cbn [with_iter ks_clusters ks_eig ks_tol]. repeat match goal with |- (match ?x with (_, _) => _ end) = _ => destruct x as [? [|]]; auto end.
  rewrite IH. reflexivity.
Qed.
Lemma fit_single p sz d junk C0 X : (0 < sz)%nat -> nonconstant_eig p sz -> (0 < ks_n_init p)%nat -> (0 < ks_max_iter p)%nat -> good p sz d C0 ->
  (exists s1 s, ks_one_init p sz d junk X C0 (ks_fresh X) = (s1, Ok tt) /\ ks_fit p sz d junk true (fun _ => C0) X = (s, Ok true) /\ ks_inertia s = ks_inertia s1) \/
  (exists s1 s, ks_one_init p sz d junk X C0 (ks_fresh X) = (s1, Err EmptyClusterError) /\ ks_fit p sz d junk true (fun _ => C0) X = (s, Ok false)).
Proof.
  intros Hsz HE HN HM GC. destruct (ks_one_init p sz d junk X C0 (ks_fresh X)) as [s1 r1] eqn:E1.
  destruct (one_init_settled p sz d junk X Hsz HE C0 (ks_fresh X) s1 r1 HM eq_refl GC E1) as [K1 [->|[-> S1]]]; [right|left].
  - exists s1. eexists. split; auto. unfold ks_fit. cbn [ks_attempts]. destruct (Nat.leb_spec (ks_n_init p) 0); [lia|]. rewrite E1. reflexivity.
  - exists s1. destruct (ks_fit p sz d junk true (fun _ => C0) X) as [s r] eqn:EF. exists s. split; auto.
    pose proof (fit_ok p sz d junk X Hsz HE (fun _ => C0) true s r HM (fun _ => GC) EF) as Q.
    unfold ks_fit in EF. cbn [ks_attempts] in EF. destruct (Nat.leb_spec (ks_n_init p) 0); [lia|]. rewrite E1 in EF.
    destruct S1 as (_ & _ & _ & _ & _ & I1). rewrite I1 in EF. destruct (ks_assign _ _ _ _ _) as [s2 [[]|e]] in EF; injection EF as <- <-.
    + split; auto.
    + destruct Q as [Q|[Q _]]; discriminate.
Qed.
Definition inertia_le (a b : ks_state) : Prop := exists v w, ks_inertia a = Some v /\ ks_inertia b = Some w /\ v <= w.
(** a fit from given centres: allowing more iterations never makes the reported inertia larger, and if the longer fit finds a
    clustering so does the shorter *)
Theorem C90_more_iterations p sz d junk C0 X m m' : (0 < sz)%nat -> nonconstant_eig p sz -> (0 < ks_n_init p)%nat ->
  length C0 = ks_clusters p -> (forall c, In c C0 -> l2norm c = sqrt (INR sz * INR d)) -> (0 < m <= m')%nat ->
  forall s', ks_fit (with_iter m' p) sz d junk true (fun _ => C0) X = (s', Ok true) ->
  exists s, ks_fit (with_iter m p) sz d junk true (fun _ => C0) X = (s, Ok true) /\ inertia_le s' s.
Proof.
  intros Hsz HE HN HL HC [Hm Hm'] s' H.
  assert (GC : good p sz d C0). { split; auto. intros c Hc. rewrite <- l2norm_frob. auto. }
  assert (Z : forall k, (0 < k)%nat -> (exists s1 s, ks_one_init (with_iter k p) sz d junk X C0 (ks_fresh X) = (s1, Ok tt) /\ ks_fit (with_iter k p) sz d junk true (fun _ => C0) X = (s, Ok true) /\ ks_inertia s = ks_inertia s1) \/
    (exists s1 s, ks_one_init (with_iter k p) sz d junk X C0 (ks_fresh X) = (s1, Err EmptyClusterError) /\ ks_fit (with_iter k p) sz d junk true (fun _ => C0) X = (s, Ok false))).
  { intros k Hk. apply fit_single; auto. }
  assert (W : forall k, (0 < k)%nat -> ks_one_init (with_iter k p) sz d junk X C0 (ks_fresh X) =
     match ks_assign p d junk X (put_centers C0 (map frob C0) (ks_fresh X)) with
     | (s, Err e) => (s, Err e) | (s, Ok _) => ks_loop p sz d junk X 0 k None s end).
  { intros k Hk. unfold ks_one_init. unfold ks_assign. cbn [with_iter ks_clusters ks_max_iter]. destruct (covers _ _); auto.
    destruct (Nat.eqb_spec k 0); [lia|]. apply loop_with. }
  destruct (Z m' ltac:(lia)) as [(s1' & s0' & O' & F' & I')|(s1' & s0' & O' & F')]; rewrite F' in H; [|discriminate]. injection H as ->.
  rewrite W in O' by lia. destruct (ks_assign p d junk X (put_centers C0 (map frob C0) (ks_fresh X))) as [sa [[]|e]] eqn:EA; [|discriminate].
  destruct (assign_norms _ _ _ _ _ _ _ EA) as (A1 & _ & _). replace m' with ((m' - m) + m)%nat in O' by lia.
  destruct (loop_more p sz d junk X Hsz HE (m' - m) 0 sa s1' m A1 Hm O') as (s1 & O & (v & w & V & W' & L)).
  destruct (Z m Hm) as [(s2 & s & O2 & F2 & I2)|(s2 & s & O2 & F2)]; rewrite W, O in O2 by lia; [|discriminate]. injection O2 as <-.
  exists s. split; auto. exists v, w. rewrite I', I2. auto.
Qed.
Print Assumptions C90_more_iterations.

(** ** C89 fails when attempts start from series of different norms *)
Definition U (a : R) : rseries := two_pts a (- a).
Lemma cc_U a b n1 n2 : 0 < n1 -> 0 < n2 -> 1 <= n1 * n2 -> normalized_cc 1 (U a) (U b) n1 n2 = [- (a * b) / (n1 * n2); 2 * (a * b) / (n1 * n2); - (a * b) / (n1 * n2)].
Proof.
  intros H1 H2 H. unfold U. rewrite cc_two, !own_norm_keep by lra. cbn [map]. unfold normalize.
  assert (E : Rltb (n1 * n2) (1 / 10 ^ 9) = false) by (apply Rltb_false; lra). rewrite E.
  assert (E1 : a * - b = - (a * b)) by ring. assert (E2 : - a * b = - (a * b)) by ring. assert (E3 : a * b + - a * - b = 2 * (a * b)) by ring. rewrite E1, E2, E3. reflexivity.
Qed.
Lemma rmax_U a b n1 n2 : 0 < n1 -> 0 < n2 -> 1 <= n1 * n2 ->
  (0 < a * b -> rmax (normalized_cc 1 (U a) (U b) n1 n2) = 2 * (a * b) / (n1 * n2)) /\
  (a * b < 0 -> rmax (normalized_cc 1 (U a) (U b) n1 n2) = - (a * b) / (n1 * n2)).
Proof.
  intros H1 H2 H. rewrite cc_U by auto. assert (0 < / (n1 * n2)) by (apply Rinv_0_lt_compat; lra). unfold Rdiv. cbn [rmax].
  split; intros HS; unfold Rmax; repeat destruct (Rle_dec _ _); nra.
Qed.
Lemma frob_U a : 0 <= a -> frob (U a) = a * sqrt 2 /\ frob (U (- a)) = a * sqrt 2.
Proof.
  intros H. unfold U. rewrite !frob_two. replace (a * a + - a * - a) with (2 * (a * a)) by ring. replace (- a * - a + - - a * - - a) with (2 * (a * a)) by ring.
  rewrite sqrt_mult, sqrt_square by nra. split; ring.
Qed.
Definition XU : list rseries := [U 1; U (-1); U 3].
Lemma norms_XU : map frob XU = [sqrt 2; sqrt 2; 3 * sqrt 2].
Proof.
  cbn [map XU]. destruct (frob_U 1 ltac:(lra)) as [E1 E2]. destruct (frob_U 3 ltac:(lra)) as [E3 _]. replace (Ropp 1) with (-1) in E2 by lra.
  rewrite E1, E2, E3, Rmult_1_l. reflexivity.
Qed.
Lemma dists_U junk s b1 b2 n1 n2 : ks_norms s = map frob XU -> ks_centers s = [U b1; U b2] -> ks_norms_c s = [n1; n2] -> 1 <= n1 -> 1 <= n2 ->
  cross_dists 1 junk s XU = map (fun q => map (fun c => 1 - c)
     [rmax (normalized_cc 1 (U (fst q)) (U b1) (snd q) n1); rmax (normalized_cc 1 (U (fst q)) (U b2) (snd q) n2)]) [(1, sqrt 2); (-1, sqrt 2); (3, 3 * sqrt 2)].
Proof.
  intros E1 E2 E3 H1 H2. unfold cross_dists, cdist_ncc_rows. rewrite E1, E2, E3, norms_XU. pose proof sqrt2_bounds as SB.
  rewrite !fill_keep by (intros x Hx; cbn in Hx; intuition; subst; lra). reflexivity.
Qed.
Lemma argmin2 x y : rargmin [x; y] = if Rltb y x then 1%nat else 0%nat.
Proof. reflexivity. Qed.
Lemma labels_U junk s b1 b2 n1 n2 : ks_norms s = map frob XU -> ks_centers s = [U b1; U b2] -> ks_norms_c s = [n1; n2] -> 1 <= n1 -> 1 <= n2 ->
  0 < b1 ->
  (b2 < 0 -> - b2 / n2 > b1 / (2 * n1) -> - b2 / n2 < 2 * b1 / n1 -> map rargmin (cross_dists 1 junk s XU) = [0; 1; 0]%nat) /\
  (b2 < 0 -> - b2 / n2 <= b1 / (2 * n1) -> - b2 / n2 < 2 * b1 / n1 -> map rargmin (cross_dists 1 junk s XU) = [0; 0; 0]%nat) /\
  (0 < b2 -> b2 / n2 = b1 / n1 -> map rargmin (cross_dists 1 junk s XU) = [0; 0; 0]%nat).
Proof.
  intros E1 E2 E3 H1 H2 HB. rewrite (dists_U junk s b1 b2 n1 n2) by auto. pose proof sqrt2_bounds as SB. cbn [map fst snd]. rewrite !argmin2.
  assert (N : forall a n, 0 < a -> 0 < n -> a / n = a * / n) by reflexivity.
  assert (I1 : 0 < / n1) by (apply Rinv_0_lt_compat; lra). assert (I2 : 0 < / n2) by (apply Rinv_0_lt_compat; lra).
  assert (IS : 0 < / sqrt 2) by (apply Rinv_0_lt_compat; lra).
  destruct (rmax_U 1 b1 (sqrt 2) n1) as [A1 _]; [lra|lra|nra|]. destruct (rmax_U (-1) b1 (sqrt 2) n1) as [_ A2]; [lra|lra|nra|].
  destruct (rmax_U 3 b1 (3 * sqrt 2) n1) as [A3 _]; [lra|lra|nra|].
  destruct (rmax_U 1 b2 (sqrt 2) n2) as [B1 C1]; [lra|lra|nra|]. destruct (rmax_U (-1) b2 (sqrt 2) n2) as [B2 C2]; [lra|lra|nra|].
  destruct (rmax_U 3 b2 (3 * sqrt 2) n2) as [B3 C3]; [lra|lra|nra|].
  rewrite A1, A2, A3 by lra.
  set (q := / sqrt 2) in *. set (u := b1 / n1). set (w := b2 / n2). assert (HU : 0 < u) by (apply Rmult_lt_0_compat; lra).
  assert (T1 : 2 * (1 * b1) / (sqrt 2 * n1) = 2 * u * q) by (unfold u, q; field; lra).
  assert (T2 : - (-1 * b1) / (sqrt 2 * n1) = u * q) by (unfold u, q; field; lra).
  assert (T3 : 2 * (3 * b1) / (3 * sqrt 2 * n1) = 2 * u * q) by (unfold u, q; field; lra).
  assert (V1 : 2 * (1 * b2) / (sqrt 2 * n2) = 2 * w * q) by (unfold w, q; field; lra).
  assert (V2 : - (-1 * b2) / (sqrt 2 * n2) = w * q) by (unfold w, q; field; lra).
  assert (V3 : 2 * (3 * b2) / (3 * sqrt 2 * n2) = 2 * w * q) by (unfold w, q; field; lra).
  assert (W1 : - (1 * b2) / (sqrt 2 * n2) = - w * q) by (unfold w, q; field; lra).
  assert (W2 : 2 * (-1 * b2) / (sqrt 2 * n2) = - (2 * w) * q) by (unfold w, q; field; lra).
  assert (W3 : - (3 * b2) / (3 * sqrt 2 * n2) = - w * q) by (unfold w, q; field; lra).
  rewrite T1, T2, T3. replace (- b2 / n2) with (- w) by (unfold w; field; lra). replace (b1 / (2 * n1)) with (u / 2) by (unfold u; field; lra).
  replace (2 * b1 / n1) with (2 * u) by (unfold u; field; lra).
  assert (LT : forall a b, a > b -> Rltb (1 - a * q) (1 - b * q) = true) by (intros; apply Rltb_true; nra).
  assert (LF : forall a b, a <= b -> Rltb (1 - a * q) (1 - b * q) = false) by (intros; apply Rltb_false; nra).
  split; [|split].
  - intros HB2 Q1 Q2. rewrite B2, C1, C3, W1, W2, W3 by lra. rewrite LF, LT by lra. reflexivity.
  - intros HB2 Q1 Q2. rewrite B2, C1, C3, W1, W2, W3 by lra. rewrite LF, LF by lra. reflexivity.
  - intros HB2 Q1. rewrite B1, C2, B3, V1, V2, V3 by lra. rewrite LF, LF by lra. reflexivity.
Qed.
(** numpy.linalg.eigh of a 2x2 matrix that annihilates (1,1): the unit vector along (1,-1) *)
Definition eig_U (M : list (list R)) : list R := [/ sqrt 2; - / sqrt 2].
Lemma shifted_U b l norms : length norms = length l -> (forall i, (i < length l)%nat -> 0 < b * nth i l 0 /\ 1 <= nth i norms 0) -> 1 <= Rabs b ->
  y_shifted 1 (U b) (map U l) (-1) norms = map U l.
Proof.
  intros HL H HB. unfold y_shifted. rewrite map_length.
  assert (PN : forall x, In x norms -> 0 <= x). { intros x Hx. apply (In_nth _ _ 0) in Hx. destruct Hx as (i & Hi & <-). rewrite HL in Hi. destruct (H i Hi). lra. }
  rewrite fill_keep by auto.
  apply nth_ext with (d := []) (d' := []); [rewrite !map_length, seq_length; auto|]. intros i Hi. rewrite map_length, seq_length in Hi.
  rewrite map_seq_nth_gen by auto. rewrite (nth_indep _ [] (U 0)) by (rewrite map_length; auto). rewrite map_nth. destruct (H i Hi) as [P N].
  set (x := nth i l 0) in *. set (n := nth i norms 0) in *.
  assert (F : own_norm (-1) (U b) = Rabs b * sqrt 2).
  { unfold own_norm. rewrite (proj2 (Rltb_true _ _)) by lra. destruct (Rle_lt_dec 0 b) as [Q|Q].
    - rewrite (proj1 (frob_U b Q)), Rabs_pos_eq; auto.
    - rewrite Rabs_left by auto. rewrite <- (proj2 (frob_U (- b) ltac:(lra))). rewrite Ropp_involutive. reflexivity. }
  rewrite F. pose proof sqrt2_bounds as SB. rewrite cc_U; [|nra|lra|].
  - assert (0 < / (Rabs b * sqrt 2 * n)). { apply Rinv_0_lt_compat. assert (0 < Rabs b * sqrt 2) by nra. nra. }
    unfold argmax, argmax_from. unfold Rdiv. rewrite (proj2 (Rltb_true _ _)) by nra. rewrite (proj2 (Rltb_false _ _)) by nra. reflexivity.
  - assert (1 <= Rabs b * sqrt 2) by nra. nra.
Qed.
Lemma std_U a : 0 < a -> standardise 1 (U a) = U 1 /\ standardise 1 (U (- a)) = U (-1).
Proof.
  intros H. unfold U. rewrite !standardise_two by lra. replace (a - - a) with (2 * a) by ring. replace (- a - - - a) with (- (2 * a)) by ring.
  rewrite Rabs_Ropp, Rabs_pos_eq by lra. unfold two_pts.
  assert (E1 : 2 * a / (2 * a) = 1) by (field; lra). assert (E2 : (- a - a) / (2 * a) = -1) by (field; lra).
  assert (E3 : - (2 * a) / (2 * a) = -1) by (field; lra). assert (E4 : (- - a - - a) / (2 * a) = 1) by (field; lra).
  rewrite E1, E2, E3, E4. assert (F1 : Ropp 1 = -1) by lra. assert (F2 : Ropp (-1) = 1) by lra. rewrite F1, F2. auto.
Qed.
Definition hh := / sqrt 2.
Lemma hh_bounds : 0 < hh < 1.
Proof. pose proof sqrt2_bounds. unfold hh. split; [apply Rinv_0_lt_compat; lra|]. rewrite <- Rinv_1. apply Rinv_lt_contravar; lra. Qed.
Lemma term_U sgn x : sqrt (rsum (map (fun p => rsum (map (fun v => (v - sgn * snd p) * (v - sgn * snd p)) (fst p))) (combine (U x) (eig_U [])))) =
  sqrt (2 * ((x - sgn * hh) * (x - sgn * hh))).
Proof. unfold U, two_pts, eig_U. cbn. unfold rsum. cbn. f_equal. fold hh. ring. Qed.
Lemma dist_U sgn l : shape_dist sgn (eig_U []) (map U l) = rsum (map (fun x => sqrt (2 * ((x - sgn * hh) * (x - sgn * hh)))) l).
Proof. unfold shape_dist. rewrite map_map. apply rsum_map_ext. intros x _. apply term_U. Qed.
Lemma signed_U l : (forall x, In x l -> 0 < x) -> signed (eig_U []) (map U l) = eig_U [].
Proof.
  intros H. unfold signed. rewrite !dist_U. rewrite (proj2 (Rltb_false _ _)); auto. apply rsum_map_le. intros x Hx. specialize (H x Hx).
  pose proof hh_bounds. pose proof (Rle_0_sqr (x - 1 * hh)) as S1. pose proof (Rle_0_sqr (x - -1 * hh)) as S2. unfold Rsqr in *. apply sqrt_le_1; nra.
Qed.
Lemma signed_U_neg : signed (eig_U []) (map U [-1]) = [- hh; hh].
Proof.
  unfold signed. rewrite !dist_U. cbn [map]. unfold rsum. cbn [fold_right]. pose proof hh_bounds. rewrite (proj2 (Rltb_true _ _)).
  - unfold eig_U. cbn. fold hh. assert (E1 : hh * -1 = - hh) by ring. assert (E2 : - hh * -1 = hh) by ring. rewrite E1, E2. reflexivity.
  - rewrite !Rplus_0_r. pose proof (Rle_0_sqr (-1 - 1 * hh)) as S1. pose proof (Rle_0_sqr (-1 - -1 * hh)) as S2. unfold Rsqr in *. apply sqrt_lt_1; nra.
Qed.
Definition pU (m n : nat) (tol : R) : ks_params := {| ks_clusters := 2; ks_max_iter := m; ks_tol := tol; ks_n_init := n; ks_eig := eig_U |}.
Lemma update_U m n tol s : ks_norms s = map frob XU -> ks_centers s = [U 1; U (-1)] -> ks_labels s = [0; 1; 0]%nat ->
  ks_centers (ks_update (pU m n tol) 2 1 XU s) = [U 1; U (-1)].
Proof.
  intros E1 E2 E3. pose proof sqrt2_bounds as SB. pose proof hh_bounds as HB.
  unfold ks_update. cbn [pU ks_clusters ks_centers put_centers seq map]. unfold shape_extraction. rewrite E1, E2, E3, norms_XU.
  change (masked [0; 1; 0]%nat 0 XU) with (map U [1; 3]). change (masked [0; 1; 0]%nat 1 XU) with (map U [-1]).
  change (masked [0; 1; 0]%nat 0 [sqrt 2; sqrt 2; 3 * sqrt 2]) with [sqrt 2; 3 * sqrt 2]. change (masked [0; 1; 0]%nat 1 [sqrt 2; sqrt 2; 3 * sqrt 2]) with [sqrt 2].
  cbn [nth]. rewrite !shifted_U; auto.
  - cbn [seq map pU ks_eig]. change (eig_U (shape_matrix 2 0 ?X)) with (eig_U []).
    change (signed (eig_U _) [U 1; U 3]) with (signed (eig_U []) (map U [1; 3])). change (signed (eig_U _) [U (-1)]) with (signed (eig_U []) (map U [-1])).
    rewrite signed_U_neg, signed_U by (intros x [<-|[<-|[]]]; lra). unfold eig_U. cbn [nth]. fold hh.
    change (map (fun r => r) [standardise 1 (U hh); standardise 1 [[- hh]; [hh]]] = [U 1; U (-1)]).
    replace [[- hh]; [hh]] with (U (- hh)). 2: { unfold U, two_pts. rewrite Ropp_involutive. reflexivity. }
    cbn [map]. rewrite (proj1 (std_U hh ltac:(lra))), (proj2 (std_U hh ltac:(lra))). reflexivity.
  - intros i Hi. cbn in Hi. assert (i = 0)%nat as -> by lia. cbn. lra.
  - rewrite Rabs_left by lra. lra.
  - intros i Hi. cbn in Hi. assert (i = 0 \/ i = 1)%nat as [->| ->] by lia; cbn; lra.
  - rewrite Rabs_pos_eq; lra.
Qed.
Lemma norms_U b1 : (b1 = -1 \/ b1 = 3) -> map frob [U 1; U b1] = [sqrt 2; Rabs b1 * sqrt 2].
Proof.
  cbn [map]. destruct (frob_U 1 ltac:(lra)) as [E1 E2]. destruct (frob_U 3 ltac:(lra)) as [E3 _]. replace (Ropp 1) with (-1) in E2 by lra.
  intros [->| ->]; rewrite E1, ?E2, ?E3; [rewrite Rabs_left by lra|rewrite Rabs_pos_eq by lra]; rewrite Rmult_1_l; f_equal; f_equal; ring.
Qed.
Lemma assign_U junk m n tol s : ks_norms s = map frob XU -> ks_centers s = [U 1; U (-1)] -> ks_norms_c s = map frob [U 1; U (-1)] ->
  exists s' v, ks_assign (pU m n tol) 1 junk XU s = (s', Ok tt) /\ ks_norms s' = map frob XU /\ ks_centers s' = [U 1; U (-1)] /\ ks_labels s' = [0; 1; 0]%nat /\ ks_inertia s' = Some v.
Proof.
  intros E1 E2 E3. pose proof sqrt2_bounds as SB. rewrite norms_U in E3 by auto. rewrite Rabs_left in E3 by lra.
  destruct (labels_U junk s 1 (-1) (sqrt 2) (- -1 * sqrt 2)) as (L & _ & _); auto; try lra.
  unfold ks_assign. rewrite L; try lra.
  - cbn [pU ks_clusters covers seq forallb existsb Nat.eqb orb andb]. eexists. eexists. split; [reflexivity|]. split; [exact E1|]. split; [exact E2|]. split; reflexivity.
  - replace (- -1 / (- -1 * sqrt 2)) with (/ sqrt 2) by (field; lra). replace (1 / (2 * sqrt 2)) with (/ 2 * / sqrt 2) by (field; lra).
    assert (0 < / sqrt 2) by (apply Rinv_0_lt_compat; lra). lra.
  - replace (- -1 / (- -1 * sqrt 2)) with (/ sqrt 2) by (field; lra). replace (2 * 1 / sqrt 2) with (2 * / sqrt 2) by (field; lra).
    assert (0 < / sqrt 2) by (apply Rinv_0_lt_compat; lra). lra.
Qed.
Lemma one_U junk n tol s : ks_norms s = map frob XU ->
  exists s' v, ks_one_init (pU 1 n tol) 2 1 junk XU [U 1; U (-1)] s = (s', Ok tt) /\ ks_norms s' = map frob XU /\ ks_centers s' = [U 1; U (-1)] /\ ks_inertia s' = Some v.
Proof.
  intros E. unfold ks_one_init. destruct (assign_U junk 1 n tol (put_centers [U 1; U (-1)] (map frob [U 1; U (-1)]) s)) as (s1 & v1 & A & N & C & L & I); auto.
  rewrite A. cbn [pU ks_max_iter Nat.eqb]. cbn [ks_loop].
  pose proof (update_U 1 n tol s1 N C L) as UC.
  destruct (assign_U junk 1 n tol (ks_update (pU 1 n tol) 2 1 XU s1)) as (s2 & v2 & A2 & N2 & C2 & L2 & I2); auto.
  { change (map frob (ks_centers (ks_update (pU 1 n tol) 2 1 XU s1)) = map frob [U 1; U (-1)]). rewrite UC. reflexivity. }
  rewrite A2. cbn [ks_loop]. eexists. exists v2. split; [reflexivity|]. cbn. auto.
Qed.
Lemma one_U_fail junk n tol s : ks_norms s = map frob XU ->
  exists s', ks_one_init (pU 1 n tol) 2 1 junk XU [U 1; U 3] s = (s', Err EmptyClusterError) /\ ks_norms s' = map frob XU /\ ks_centers s' = [U 1; U 3].
Proof.
  intros E. unfold ks_one_init. pose proof sqrt2_bounds as SB. assert (EN : map frob [U 1; U 3] = [sqrt 2; 3 * sqrt 2]) by (rewrite norms_U, Rabs_pos_eq by lra; auto).
  destruct (labels_U junk (put_centers [U 1; U 3] (map frob [U 1; U 3]) s) 1 3 (sqrt 2) (3 * sqrt 2)) as (_ & _ & L); auto; try lra.
  unfold ks_assign. rewrite L; [|lra|field; lra].
  cbn [pU ks_clusters covers seq forallb existsb Nat.eqb orb andb]. eexists. split; [reflexivity|]. auto.
Qed.
Lemma fails_U junk n tol init best : (forall a, (0 < a)%nat -> init a = [U 1; U 3]) -> forall remaining a ok s, (0 < a)%nat -> (ok < n)%nat -> ks_norms s = map frob XU -> (0 < remaining)%nat ->
  exists s', ks_attempts (pU 1 n tol) 2 1 junk XU init a remaining ok best s = (s', Ok best) /\ ks_norms s' = map frob XU /\ ks_centers s' = [U 1; U 3].
Proof.
  intros HI. induction remaining as [|remaining IH]; intros a ok s Ha Hok HN HR; [lia|]. cbn [ks_attempts pU ks_n_init]. destruct (Nat.leb_spec n ok); [lia|].
  rewrite HI by auto. destruct (one_U_fail junk n tol s HN) as (s1 & -> & N1 & C1).
  destruct remaining as [|remaining]; [|apply (IH (S a) ok s1); auto; lia]. cbn [ks_attempts]. exists s1. auto.
Qed.
Lemma fit_U junk tol init : init 0%nat = [U 1; U (-1)] -> exists s, ks_fit (pU 1 1 tol) 2 1 junk false init XU = (s, Ok true).
Proof.
  intros HI. unfold ks_fit. change (Nat.max (ks_n_init (pU 1 1 tol)) 10) with 10%nat. cbv iota.
  destruct (one_U junk 1 tol (ks_fresh XU) eq_refl) as (s1 & v1 & E1 & N1 & C1 & I1).
  assert (EA : ks_attempts (pU 1 1 tol) 2 1 junk XU init 0 10 0 None (ks_fresh XU) = (s1, Ok (Some ([U 1; U (-1)], v1, ks_iter s1)))).
  { change 10%nat with (S (S 8)). generalize 8%nat. intros k. cbn [ks_attempts]. change (ks_n_init (pU 1 1 tol) <=? 0)%nat with false.
    rewrite HI, E1, I1, C1. reflexivity. }
  rewrite EA, C1. cbv iota beta.
  match goal with |- context [ks_assign _ _ _ _ ?t] => destruct (assign_U junk 1 1 tol t) as (s2 & v2 & A2 & _); auto end. rewrite A2. eauto.
Qed.
(** attempt 0 draws the series (1,-1), (-1,1) and succeeds, the other attempts draw (1,-1), (3,-3) and fail; the norms of these last
    centres are used to assign the series to the best centres, which raises the exception *)
Theorem C89_exception_refuted junk tol : let init a := if (a =? 0)%nat then [U 1; U (-1)] else [U 1; U 3] in
  (exists s, ks_fit (pU 1 1 tol) 2 1 junk false init XU = (s, Ok true)) /\
  (exists s, ks_fit (pU 1 2 tol) 2 1 junk false init XU = (s, Err EmptyClusterError)).
Proof.
  intros init. pose proof sqrt2_bounds as SB. assert (IP : 0 < / sqrt 2) by (apply Rinv_0_lt_compat; lra). split.
  - apply fit_U. reflexivity.
  - unfold ks_fit. change (Nat.max (ks_n_init (pU 1 2 tol)) 10) with 10%nat. cbv iota.
    destruct (one_U junk 2 tol (ks_fresh XU) eq_refl) as (s1 & v1 & E1 & N1 & C1 & I1).
    destruct (fails_U junk 2 tol init (Some ([U 1; U (-1)], v1, ks_iter s1))) with (remaining := 9%nat) (a := 1%nat) (ok := 1%nat) (s := s1) as (s2 & E2 & N2 & C2); auto; try lia.
    { intros a Ha. unfold init. destruct (Nat.eqb_spec a 0); [lia|auto]. }
    assert (EA : ks_attempts (pU 1 2 tol) 2 1 junk XU init 0 10 0 None (ks_fresh XU) = (s2, Ok (Some ([U 1; U (-1)], v1, ks_iter s1)))).
    { rewrite <- E2. change 10%nat with (S 9). generalize 9%nat. intros k. cbn [ks_attempts]. change (ks_n_init (pU 1 2 tol) <=? 0)%nat with false. change (init 0%nat) with [U 1; U (-1)].
      rewrite E1, I1, C1. reflexivity. }
    rewrite EA, C2. cbv iota beta.
    assert (EN : map frob [U 1; U 3] = [sqrt 2; 3 * sqrt 2]) by (rewrite norms_U, Rabs_pos_eq by lra; auto). rewrite EN.
    set (s3 := put_centers [U 1; U (-1)] _ _).
    destruct (labels_U junk s3 1 (-1) (sqrt 2) (3 * sqrt 2)) as (_ & L & _); auto; try lra.
    unfold ks_assign. rewrite L; try lra.
    + eexists. cbn [pU ks_clusters covers seq forallb existsb Nat.eqb orb andb]. reflexivity.
    + replace (- -1 / (3 * sqrt 2)) with (/ 3 * / sqrt 2) by (field; lra). replace (1 / (2 * sqrt 2)) with (/ 2 * / sqrt 2) by (field; lra). lra.
    + replace (- -1 / (3 * sqrt 2)) with (/ 3 * / sqrt 2) by (field; lra). replace (2 * 1 / sqrt 2) with (2 * / sqrt 2) by (field; lra). lra.
Qed.
Print Assumptions C89_exception_refuted.
(** the hypotheses of C89 and C90 are met, by a fit that finds a clustering *)
Example C89_nontrivial junk tol : nonconstant_eig (pU 1 1 tol) 2 /\ (forall c, In c [U 1; U (-1)] -> l2norm c = sqrt (INR 2 * INR 1)) /\
  exists s, ks_fit (pU 1 1 tol) 2 1 junk false (fun _ => [U 1; U (-1)]) XU = (s, Ok true).
Proof.
  pose proof hh_bounds as HB. split; [|split].
  - intros M _. exists 0%nat, 1%nat. split; [lia|]. split; [lia|]. cbn. fold hh. lra.
  - destruct (frob_U 1 ltac:(lra)) as [F1 F2]. replace (INR 2 * INR 1) with 2 by (cbn; ring). replace (Ropp 1) with (-1) in F2 by lra.
    intros c [<-|[<-|[]]]; rewrite l2norm_frob; lra.
  - apply fit_U. reflexivity.
Qed.

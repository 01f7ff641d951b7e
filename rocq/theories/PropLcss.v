(** Properties C23-C26 (LCSS) and the remaining part of C12. *)
From Coq Require Import Floats Bool List Arith ZArith QArith Lia.
From Verif Require Import Num NumLaws Py Series Masks DtwModel Fill VariantModel Spec SpecDtw SpecLcss DpProofs DtwProofs DtwThms
  LcssThms ValidThms PropMasks.
Import ListNotations.
Local Open Scope nat_scope.

(** ** C12, continued *)
Theorem C12_nan_padding_variants : forall (N : num) (s1 s2 p1 p2 : list (list N)),
  all_nan_rows p1 -> all_nan_rows p2 ->
  (forall eps g radius slope, lcss (Raw2 (s1 ++ p1)) (Raw2 (s2 ++ p2)) eps g radius slope = lcss (Raw2 s1) (Raw2 s2) eps g radius slope) /\
  (forall fuel eps g radius slope, lcss_path fuel (Raw2 (s1 ++ p1)) (Raw2 (s2 ++ p2)) eps g radius slope =
      lcss_path fuel (Raw2 s1) (Raw2 s2) eps g radius slope) /\
  (forall L, dtw_limited (Raw2 (s1 ++ p1)) (Raw2 (s2 ++ p2)) L = dtw_limited (Raw2 s1) (Raw2 s2) L) /\
  (forall L, dtw_path_limited (Raw2 (s1 ++ p1)) (Raw2 (s2 ++ p2)) L = dtw_path_limited (Raw2 s1) (Raw2 s2) L) /\
  dtw_subsequence_path (Raw2 (s1 ++ p1)) (Raw2 (s2 ++ p2)) = dtw_subsequence_path (Raw2 s1) (Raw2 s2).
Proof.
  intros N s1 s2 p1 p2 H1 H2.
  pose proof (to_time_series_pad N s1 p1 (all_nan_rows_ok _ H1)) as E1.
  pose proof (to_time_series_pad N s2 p2 (all_nan_rows_ok _ H2)) as E2.
  unfold lcss, lcss_path, dtw_limited, dtw_path_limited, dtw_subsequence_path. rewrite E1, E2. repeat split; reflexivity.
Qed.
Print Assumptions C12_nan_padding_variants.

(** elements [i] of [s1] and [j] of [s2] match: Euclidean distance at most [eps] *)
Definition matching {N : num} (s1 s2 : list (list N)) (eps : N) (i j : nat) : bool :=
  nleb (nsqrt (local_costs s1 s2 i j)) eps.
(** constraints for which LCSS is exact: none, or a Sakoe-Chiba band that is not the
    bare diagonal of a square *)
Definition wide (n m : nat) (allowed : nat -> nat -> bool) : Prop :=
  allowed = everywhere \/ exists r, (0 <= r)%Z /\ allowed = band n m r /\ (r <> 0%Z \/ n <> m).
Definition ratio (k n m : nat) : Q := inject_Z (Z.of_nat k) / inject_Z (Z.of_nat (Nat.min n m)).

Lemma lcss_unfold N nn fin (L : num_laws N nn fin) d s1 s2 eps g radius slope allowed :
  finite_series fin d s1 -> finite_series fin d s2 -> constraint (length s1) (length s2) g radius slope allowed ->
  exists mask, (forall i j, i < length s1 -> j < length s2 -> mask i j = allowed i j) /\
    lcss (Raw2 s1) (Raw2 s2) eps g radius slope =
      Ok (ratio (lcss_table (within s1 s2 eps) mask (length s1) (length s2) (length s1) (length s2)) (length s1) (length s2)) /\
    forall fuel, lcss_path (N:=N) fuel (Raw2 s1) (Raw2 s2) eps g radius slope =
      Ok (match lcss_walk fuel (within s1 s2 eps) mask (lcss_table (within s1 s2 eps) mask (length s1) (length s2))
                  (length s1) (length s2) [] with
          | None => None
          | Some p => Some (p, ratio (lcss_table (within s1 s2 eps) mask (length s1) (length s2) (length s1) (length s2))
                              (length s1) (length s2))
          end).
Proof.
  intros F1 F2 Hc. destruct (constraint_mask _ _ _ _ _ _ Hc) as (code & mask & E1 & E2 & Hm).
  exists mask. split; auto. unfold lcss, lcss_path.
  rewrite (to_time_series_finite N nn fin L d s1 F1), (to_time_series_finite N nn fin L d s2 F2).
  rewrite E1. simpl. rewrite E2. simpl.
  pose proof (finite_len N fin d s1 F1) as P1. pose proof (finite_len N fin d s2 F2) as P2.
  destruct (Nat.eqb_spec (Nat.min (length s1) (length s2)) 0) as [X|X]; [exfalso; revert X P1 P2; clear; lia|].
  split; [reflexivity|]. intros fuel. destruct (lcss_walk _ _ _ _ _ _ _); reflexivity.
Qed.

Lemma within_matching (N : num) (s1 s2 : list (list N)) eps i j : within s1 s2 eps i j = matching s1 s2 eps i j.
Proof. unfold within, matching. rewrite sq_dists_local. reflexivity. Qed.

Lemma wide_longest n m close close' mask allowed : 0 < n -> 0 < m -> wide n m allowed ->
  (forall i j, i < n -> j < m -> mask i j = allowed i j) -> (forall i j, close i j = close' i j) ->
  longest n m (fun i j => allowed i j && close' i j) (lcss_table close mask n m n m).
Proof.
  intros Hn Hm Hw Hmask Hc.
  assert (G : forall lo hi : Z, (lo < hi)%Z -> (forall i j, i < n -> j < m -> (allowed i j = true <-> (lo <= Z.of_nat j - Z.of_nat i <= hi)%Z)) ->
     (lo <= Z.of_nat (m - 1) - Z.of_nat (n - 1) <= hi)%Z ->
     longest n m (fun i j => allowed i j && close' i j) (lcss_table close mask n m n m)).
  { intros lo hi Hlh Hb Hl. eapply longest_ext; [|apply (tab_longest close mask n m lo hi); auto].
    - intros i j Hi Hj. simpl. rewrite Hmask, Hc by auto. reflexivity.
    - intros i j Hi Hj. rewrite Hmask by auto. apply Hb; auto. }
  destruct Hw as [->|(r & Hr & -> & Hne)].
  - apply (G (- Z.of_nat (n + m))%Z (Z.of_nat (n + m))%Z); try lia. intros i j Hi Hj. unfold everywhere. split; auto; lia.
  - apply (G (Z.min 0 (Z.of_nat m - Z.of_nat n) - r)%Z (Z.max 0 (Z.of_nat m - Z.of_nat n) + r)%Z); try lia.
    intros i j Hi Hj. unfold band. rewrite andb_true_iff, !Z.leb_le. tauto.
Qed.

(** ** C23 *)
Theorem C23_lcss_longest : forall N nn fin, num_laws N nn fin ->
  forall d s1 s2 (eps : N) g radius slope allowed,
  finite_series fin d s1 -> finite_series fin d s2 ->
  constraint (length s1) (length s2) g radius slope allowed -> wide (length s1) (length s2) allowed ->
  exists k, lcss (Raw2 s1) (Raw2 s2) eps g radius slope = Ok (ratio k (length s1) (length s2)) /\
    longest (length s1) (length s2) (fun i j => allowed i j && matching s1 s2 eps i j) k.
Proof.
  intros N nn fin L d s1 s2 eps g r s allowed F1 F2 Hc Hw.
  destruct (lcss_unfold N nn fin L d s1 s2 eps g r s allowed F1 F2 Hc) as (mask & Hm & E & _).
  rewrite E. eexists. split; [reflexivity|].
  apply wide_longest; auto; try (eapply finite_len; eauto). intros. apply within_matching.
Qed.
Print Assumptions C23_lcss_longest.

(** For any constraint, Itakura included, the score is that of some common subsequence. *)
Theorem C23_lcss_sound : forall N nn fin, num_laws N nn fin ->
  forall d s1 s2 (eps : N) g radius slope allowed,
  finite_series fin d s1 -> finite_series fin d s2 ->
  constraint (length s1) (length s2) g radius slope allowed ->
  exists p, lcss (Raw2 s1) (Raw2 s2) eps g radius slope = Ok (ratio (length p) (length s1) (length s2)) /\
    chain (length s1) (length s2) (fun i j => allowed i j && matching s1 s2 eps i j) p.
Proof.
  intros N nn fin L d s1 s2 eps g r s allowed F1 F2 Hc.
  destruct (lcss_unfold N nn fin L d s1 s2 eps g r s allowed F1 F2 Hc) as (mask & Hm & E & _).
  destruct (tab_attained (within s1 s2 eps) mask (length s1) (length s2) (length s1) (length s2)) as (p & Hp & Hl); auto.
  exists (rev p). rewrite rev_length, Hl. split; auto. apply dchain_chain.
  eapply dchain_weaken; [|exact Hp]. intros a b Ha Hb. simpl. rewrite Hm, within_matching by auto. auto.
Qed.
Print Assumptions C23_lcss_sound.

Definition w1 : list (list (carrier Fnum)) := [[0]; [0]]%float.
Definition w2 : list (list (carrier Fnum)) := [[0]; [100]]%float.
(** radius 0 on equal lengths: the pair (0,0) matches and lies in the band, yet the score is 0 *)
Theorem C23_lcss_radius_zero_refuted :
  exists (s1 s2 : list (list Fnum)) (eps : Fnum) r,
    finite_series (N:=Fnum) ffin 1 s1 /\ finite_series (N:=Fnum) ffin 1 s2 /\ (0 <= r)%Z /\
    lcss (N:=Fnum) (Raw2 s1) (Raw2 s2) eps GcNone (Some r) None = Ok (ratio 0 (length s1) (length s2)) /\
    longest (length s1) (length s2) (fun i j => band (length s1) (length s2) r i j && matching (N:=Fnum) s1 s2 eps i j) 1.
Proof.
  exists w1, w2, 1%float, 0%Z.
  assert (F : forall s, (s = w1 \/ s = w2) -> finite_series (N:=Fnum) ffin 1 s).
  { intros s Es; destruct Es as [Es|Es]; subst s; (split; [lia|split; [discriminate|]]); simpl; intros r Hr;
    repeat destruct Hr as [<-|Hr]; try contradiction; (split; [reflexivity|]); simpl;
    intros x Hx; repeat destruct Hx as [<-|Hx]; try contradiction; vm_compute; reflexivity. }
  split; [apply F; auto|]. split; [apply F; auto|]. split; [lia|]. split; [vm_compute; reflexivity|]. split.
  - exists [(0, 0)]. split; [|reflexivity]. split; [exact I|]. intros i j [E|[]]. inversion E; subst.
    split; [simpl; lia|]. split; [simpl; lia|]. vm_compute. reflexivity.
  - intros p Hp. destruct p as [|[a b] [|[a' b'] p]]; simpl; try lia. exfalso. destruct Hp as [[[H1 H2] _] Hin].
    simpl in H1, H2. destruct (Hin a' b' ltac:(simpl; auto)) as (A & B & C). simpl in A, B.
    assert (a' = 1 /\ b' = 1) as [-> ->] by lia. vm_compute in C. discriminate.
Qed.
Print Assumptions C23_lcss_radius_zero_refuted.

Example C23_nontrivial : lcss (N:=Fnum) (Raw2 w1) (Raw2 w2) 1%float GcNone (Some 1%Z) None = Ok (ratio 1 2 2) /\
  constraint 2 2 GcNone (Some 1%Z) None (band 2 2 1) /\ wide 2 2 (band 2 2 1).
Proof.
  split; [vm_compute; reflexivity|]. split; [split; [lia|reflexivity]|].
  right. exists 1%Z. repeat split; [lia|left; lia].
Qed.

(** ** C24 *)
Theorem C24_lcss_range : forall N nn fin, num_laws N nn fin ->
  forall d s1 s2 (eps : N) g radius slope allowed,
  finite_series fin d s1 -> finite_series fin d s2 ->
  constraint (length s1) (length s2) g radius slope allowed ->
  exists q, lcss (Raw2 s1) (Raw2 s2) eps g radius slope = Ok q /\ (0 <= q)%Q /\ (q <= 1)%Q.
Proof.
  intros N nn fin L d s1 s2 eps g r s allowed F1 F2 Hc.
  destruct (C23_lcss_sound N nn fin L d s1 s2 eps g r s allowed F1 F2 Hc) as (p & -> & Hp).
  apply chain_len in Hp. eexists. split; [reflexivity|].
  pose proof (finite_len N fin d s1 F1) as P1. pose proof (finite_len N fin d s2 F2) as P2.
  unfold ratio. revert P1 P2 Hp. generalize (length s1) (length s2) (length p). clear. intros n m k Hn Hm Hk.
  assert (Hpos : (0 < inject_Z (Z.of_nat (Nat.min n m)))%Q) by (change 0%Q with (inject_Z 0); rewrite <- Zlt_Qlt; lia).
  split.
  - apply Qle_shift_div_l; auto. rewrite Qmult_0_l. change 0%Q with (inject_Z 0). rewrite <- Zle_Qle. lia.
  - apply Qle_shift_div_r; auto. rewrite Qmult_1_l. rewrite <- Zle_Qle. lia.
Qed.
Print Assumptions C24_lcss_range.

Theorem C24_lcss_symmetric : forall N nn fin, num_laws N nn fin ->
  forall d s1 s2 (eps : N), finite_series fin d s1 -> finite_series fin d s2 ->
  lcss (Raw2 s1) (Raw2 s2) eps GcNone None None = lcss (Raw2 s2) (Raw2 s1) eps GcNone None None.
Proof.
  intros N nn fin L d s1 s2 eps F1 F2.
  destruct (C23_lcss_longest N nn fin L d s1 s2 eps GcNone None None everywhere F1 F2) as (k & -> & Hk); [reflexivity|left; auto|].
  destruct (C23_lcss_longest N nn fin L d s2 s1 eps GcNone None None everywhere F2 F1) as (k' & -> & Hk'); [reflexivity|left; auto|].
  assert (k = k').
  { eapply longest_unique; [exact Hk|]. eapply longest_ext; [|apply longest_swap; exact Hk'].
    intros i j Hi Hj. simpl. unfold everywhere, matching, local_costs. simpl.
    rewrite (sq_euclid_sym N nn fin L); auto; eapply finite_row; eauto. }
  subst. unfold ratio. rewrite Nat.min_comm. reflexivity.
Qed.
Print Assumptions C24_lcss_symmetric.

Theorem C24_lcss_identity : forall N nn fin, num_laws N nn fin ->
  forall d s (eps : N), finite_series fin d s -> nn eps ->
  exists q, lcss (Raw2 s) (Raw2 s) eps GcNone None None = Ok q /\ (q == 1)%Q.
Proof.
  intros N nn fin L d s eps F He.
  destruct (C23_lcss_longest N nn fin L d s s eps GcNone None None everywhere F F) as (k & -> & Hk); [reflexivity|left; auto|].
  exists (ratio k (length s) (length s)). split; auto.
  apply longest_diag in Hk.
  - subst. unfold ratio. rewrite Nat.min_id. field. pose proof (finite_len N fin d s F) as P. revert P.
    generalize (length s). clear. intros n Hn X. change 0%Q with (inject_Z 0) in X. rewrite inject_Z_injective in X. lia.
  - intros i Hi. unfold everywhere, matching, local_costs. simpl.
    rewrite (sq_euclid_diag N nn fin L) by (eapply finite_row; eauto). rewrite (sqrt_zero _ _ _ L). apply (leb_zero _ _ _ L). auto.
Qed.
Print Assumptions C24_lcss_identity.

Theorem C24_lcss_eps_monotone : forall N nn fin, num_laws N nn fin ->
  forall d s1 s2 (eps eps' : N), finite_series fin d s1 -> finite_series fin d s2 -> nn eps -> nn eps' -> nleb eps eps' = true ->
  exists q q', lcss (Raw2 s1) (Raw2 s2) eps GcNone None None = Ok q /\ lcss (Raw2 s1) (Raw2 s2) eps' GcNone None None = Ok q' /\ (q <= q')%Q.
Proof.
  intros N nn fin L d s1 s2 eps eps' F1 F2 He He' Hle.
  destruct (C23_lcss_longest N nn fin L d s1 s2 eps GcNone None None everywhere F1 F2) as (k & -> & Hk); [reflexivity|left; auto|].
  destruct (C23_lcss_longest N nn fin L d s1 s2 eps' GcNone None None everywhere F1 F2) as (k' & -> & Hk'); [reflexivity|left; auto|].
  do 2 eexists. split; [reflexivity|]. split; [reflexivity|].
  assert (Hkk : k <= k').
  { eapply longest_mono; [|exact Hk|exact Hk']. intros i j Hi Hj. unfold everywhere, matching. simpl. intros H.
    eapply (leb_trans _ _ _ L); [| | |exact H|exact Hle]; auto. apply (sqrt_nn _ _ _ L). eapply local_costs_nn; eauto. }
  pose proof (finite_len N fin d s1 F1) as P1. pose proof (finite_len N fin d s2 F2) as P2.
  unfold ratio. revert P1 P2 Hkk. generalize (length s1) (length s2). clear. intros n m Hn Hm Hk.
  unfold Qdiv. apply Qmult_le_compat_r; [rewrite <- Zle_Qle; lia|]. apply Qinv_le_0_compat. change 0%Q with (inject_Z 0). rewrite <- Zle_Qle. lia.
Qed.
Print Assumptions C24_lcss_eps_monotone.
Definition w3 : list (list (carrier Fnum)) := [[0]; [3]; [7]]%float.
Example C24_nontrivial :
  lcss (N:=Fnum) (Raw2 w3) (Raw2 w2) 1%float GcNone None None = Ok (ratio 1 3 2) /\
  lcss (N:=Fnum) (Raw2 w3) (Raw2 w2) 97%float GcNone None None = Ok (ratio 2 3 2).
Proof. split; vm_compute; reflexivity. Qed.

(** ** C25 *)
(** Whatever the constraint, if the loop ends then the path is a common subsequence
    inside the constraint, and the similarity is its length ratio and equals [lcss]. *)
Theorem C25_lcss_path_correct_if_returns_partial : forall N nn fin, num_laws N nn fin ->
  forall d s1 s2 (eps : N) g radius slope allowed fuel p sim,
  finite_series fin d s1 -> finite_series fin d s2 ->
  constraint (length s1) (length s2) g radius slope allowed ->
  lcss_path fuel (Raw2 s1) (Raw2 s2) eps g radius slope = Ok (Some (p, sim)) ->
  chain (length s1) (length s2) (fun i j => allowed i j && matching s1 s2 eps i j) p /\
  sim = ratio (length p) (length s1) (length s2) /\ lcss (Raw2 s1) (Raw2 s2) eps g radius slope = Ok sim.
Proof.
  intros N nn fin L d s1 s2 eps g r s allowed fuel p sim F1 F2 Hc H.
  destruct (lcss_unfold N nn fin L d s1 s2 eps g r s allowed F1 F2 Hc) as (mask & Hm & E & Ep).
  rewrite Ep in H. destruct (lcss_walk _ _ _ _ _ _ _) as [q|] eqn:Ew; [|discriminate].
  assert (X : q = p /\ sim = ratio (lcss_table (within s1 s2 eps) mask (length s1) (length s2) (length s1) (length s2)) (length s1) (length s2))
    by (split; congruence). destruct X as [-> ->].
  apply walk_sound in Ew; auto. destruct Ew as (q & -> & Hq & Hl). rewrite app_nil_r, rev_length, Hl. split; auto.
  apply dchain_chain. eapply dchain_weaken; [|exact Hq]. intros a b Ha Hb. simpl. rewrite Hm, within_matching by auto. auto.
Qed.
Print Assumptions C25_lcss_path_correct_if_returns_partial.

(** Without a constraint the loop ends after at most [n + m] turns, with a longest common subsequence. *)
Theorem C25_lcss_path_unconstrained : forall N nn fin, num_laws N nn fin ->
  forall d s1 s2 (eps : N) fuel, finite_series fin d s1 -> finite_series fin d s2 -> length s1 + length s2 < fuel ->
  exists p sim, lcss_path fuel (Raw2 s1) (Raw2 s2) eps GcNone None None = Ok (Some (p, sim)) /\
    chain (length s1) (length s2) (matching s1 s2 eps) p /\
    longest (length s1) (length s2) (matching s1 s2 eps) (length p) /\
    sim = ratio (length p) (length s1) (length s2).
Proof.
  intros N nn fin L d s1 s2 eps fuel F1 F2 Hf.
  assert (Hc : constraint (length s1) (length s2) GcNone None None everywhere) by reflexivity.
  destruct (lcss_unfold N nn fin L d s1 s2 eps GcNone None None everywhere F1 F2 Hc) as (mask & Hm & E & Ep).
  destruct (walk_total (within s1 s2 eps) mask (length s1) (length s2) fuel (length s1) (length s2) []) as (q & Hq); auto.
  pose proof (Ep fuel) as Epf. rewrite Hq in Epf.
  destruct (C25_lcss_path_correct_if_returns_partial N nn fin L d s1 s2 eps _ _ _ _ _ _ _ F1 F2 Hc Epf) as (A & B & C).
  do 2 eexists. split; [exact Epf|]. split; [exact A|]. split; auto.
  apply walk_sound in Hq; auto. destruct Hq as (r & -> & Hr & Hl). rewrite app_nil_r, rev_length, Hl.
  eapply longest_ext with (ok := fun i j => everywhere i j && matching s1 s2 eps i j); [reflexivity|].
  apply wide_longest; auto; try (eapply finite_len; eauto). left; auto. intros; apply within_matching.
Qed.
Print Assumptions C25_lcss_path_unconstrained.

Definition w4 : list (list (carrier Fnum)) := [[0]; [0]; [0]]%float.
Definition w5 : list (list (carrier Fnum)) := [[100]; [100]; [100]]%float.
(** With radius 1 and no matching pair, the loop walks out of the band and never ends. *)
Theorem C25_lcss_path_terminates_refuted :
  exists (s1 s2 : list (list Fnum)) (eps : Fnum) (r : Z),
    finite_series (N:=Fnum) ffin 1 s1 /\ finite_series (N:=Fnum) ffin 1 s2 /\ (0 <= r)%Z /\
    forall fuel, lcss_path (N:=Fnum) fuel (Raw2 s1) (Raw2 s2) eps GcNone (Some r) None = Ok None.
Proof.
  exists w4, w5, 1%float, 1%Z.
  assert (F : forall s, (s = w4 \/ s = w5) -> finite_series (N:=Fnum) ffin 1 s).
  { intros s Es; destruct Es as [Es|Es]; subst s; (split; [lia|split; [discriminate|]]); simpl; intros r Hr;
    repeat destruct Hr as [<-|Hr]; try contradiction; (split; [reflexivity|]); simpl;
    intros x Hx; repeat destruct Hx as [<-|Hx]; try contradiction; vm_compute; reflexivity. }
  split; [apply F; auto|]. split; [apply F; auto|]. split; [lia|]. intros fuel.
  destruct (lcss_unfold Fnum fnn ffin Flaws 1 w4 w5 1%float GcNone (Some 1%Z) None (band 3 3 1)) as (mask & Hm & _ & Ep);
    [apply F; auto|apply F; auto|split; [lia|reflexivity]|].
  rewrite Ep.
  assert (Hout : forall f, lcss_walk f (within w4 w5 1%float) mask (lcss_table (within w4 w5 1%float) mask 3 3) 3 1 [] = None).
  { intros f. apply walk_stuck. rewrite Hm by (simpl; lia). reflexivity. }
  assert (Hcl : forall i j, i < 3 -> j < 3 -> within w4 w5 1%float i j = false).
  { intros i j Hi Hj. destruct i as [|[|[|i]]]; try lia; destruct j as [|[|[|j]]]; try lia; vm_compute; reflexivity. }
  assert (HT : forall i j, i <= 3 -> j <= 3 -> lcss_table (within w4 w5 1%float) mask 3 3 i j = 0).
  { induction i as [|i IHi]; intros j Hi Hj; [apply tab_top|]. induction j as [|j IHj]; [apply tab_left|].
    rewrite tab_in by lia. rewrite Hcl by lia. rewrite IHi, IHj by lia. destruct (mask i j); reflexivity. }
  change (length w4) with 3. change (length w5) with 3.
  set (T := lcss_table (within w4 w5 1%float) mask 3 3) in *.
  assert (M : mask 2 2 = true /\ mask 2 1 = true) by (split; rewrite Hm by (simpl; lia); reflexivity).
  destruct M as [M1 M2].
  destruct fuel as [|f]; [reflexivity|]. cbn [lcss_walk]. rewrite M1, Hcl, !HT by lia. simpl Nat.ltb. cbv iota.
  destruct f as [|f]; [reflexivity|]. cbn [lcss_walk]. rewrite M2, Hcl, !HT by lia. simpl Nat.ltb. cbv iota.
  rewrite Hout. reflexivity.
Qed.
Print Assumptions C25_lcss_path_terminates_refuted.
Example C25_nontrivial :
  lcss_path (N:=Fnum) 9 (Raw2 w3) (Raw2 w2) 97%float GcNone None None = Ok (Some ([(1, 0); (2, 1)], ratio 2 3 2)).
Proof. vm_compute. reflexivity. Qed.

(** ** C26 *)
(** non-numpy back ends: as for [lcss_path] *)
Theorem C26_from_metric_correct_if_returns_partial : forall (N : num) n m (D : mat N) eps g radius slope allowed fuel p sim,
  0 < n -> 0 < m -> constraint n m g radius slope allowed ->
  lcss_path_precomputed false fuel n m D eps g radius slope = Ok (Some (p, sim)) ->
  chain n m (fun i j => allowed i j && nleb (D i j) eps) p /\ sim = ratio (length p) n m.
Proof.
  intros N n m D eps g r s allowed fuel p sim Hn Hm Hc H.
  destruct (constraint_mask _ _ _ _ _ _ Hc) as (code & mask & E1 & E2 & Hmask).
  unfold lcss_path_precomputed in H. rewrite E1 in H. simpl in H. rewrite E2 in H. simpl in H.
  destruct (lcss_walk _ _ _ _ _ _ _) as [q|] eqn:Ew; [|discriminate].
  destruct (Nat.eqb_spec (Nat.min n m) 0) as [X|X]; [lia|].
  assert (Y : q = p /\ sim = lcss_ratio (lcss_table (fun i j => nleb (D i j) eps) mask n m n m) n m)
    by (split; congruence). destruct Y as [-> ->].
  apply walk_sound in Ew; auto. destruct Ew as (q & -> & Hq & Hl). rewrite app_nil_r, rev_length, Hl. split; auto.
  apply dchain_chain. eapply dchain_weaken; [|exact Hq]. intros a b Ha Hb. simpl. rewrite Hmask by auto. auto.
Qed.
Print Assumptions C26_from_metric_correct_if_returns_partial.

(** every back end, no constraint *)
Theorem C26_from_metric_unconstrained : forall (N : num) compiled n m (D : mat N) eps fuel,
  0 < n -> 0 < m -> n + m < fuel ->
  exists p, lcss_path_precomputed compiled fuel n m D eps GcNone None None = Ok (Some (p, ratio (length p) n m)) /\
    chain n m (fun i j => nleb (D i j) eps) p /\ longest n m (fun i j => nleb (D i j) eps) (length p).
Proof.
  intros N compiled n m D eps fuel Hn Hm Hf.
  assert (Eq : lcss_path_precomputed compiled fuel n m D eps GcNone None None =
     match lcss_walk fuel (fun i j => nleb (D i j) eps) full_mask (lcss_table (fun i j => nleb (D i j) eps) full_mask n m) n m [] with
     | None => Ok None
     | Some p => if Nat.min n m =? 0 then Err ZeroDivisionError
                 else Ok (Some (p, lcss_ratio (lcss_table (fun i j => nleb (D i j) eps) full_mask n m n m) n m))
     end) by (destruct compiled; reflexivity).
  rewrite Eq.
  destruct (walk_total (fun i j => nleb (D i j) eps) full_mask n m fuel n m []) as (q & Hq); auto.
  rewrite Hq. destruct (Nat.eqb_spec (Nat.min n m) 0) as [X|X]; [lia|].
  apply walk_sound in Hq; auto. destruct Hq as (r & -> & Hr & Hl). exists (rev r ++ []). rewrite app_nil_r, rev_length, Hl.
  split; [reflexivity|]. split.
  - apply dchain_chain. eapply dchain_weaken; [|exact Hr]. intros a b Ha Hb. simpl. auto.
  - eapply longest_ext with (ok := fun i j => everywhere i j && nleb (D i j) eps); [reflexivity|].
    apply wide_longest; auto. left; auto.
Qed.
Print Assumptions C26_from_metric_unconstrained.

(** With numpy the walk ignores the mask: the path leaves the band and disagrees with the score. *)
Definition fD : mat (carrier Fnum) := fun i j => if (i =? 2) && (j =? 0) then 0%float else 5%float.
Theorem C26_from_metric_numpy_refuted :
  exists (n m : nat) (D : mat Fnum) (eps : Fnum) (r : Z) i j, (0 <= r)%Z /\
    lcss_path_precomputed (N:=Fnum) true (n + m + 1) n m D eps GcNone (Some r) None = Ok (Some ([(i, j)], ratio 0 n m)) /\
    band n m r i j = false.
Proof. exists 3, 3, fD, 1%float, 1%Z, 2, 0. split; [lia|]. split; vm_compute; reflexivity. Qed.
Print Assumptions C26_from_metric_numpy_refuted.
Example C26_nontrivial : lcss_path_precomputed (N:=Fnum) true 7 3 3 fD 1%float GcNone None None = Ok (Some ([(2, 0)], ratio 1 3 3)).
Proof. vm_compute. reflexivity. Qed.

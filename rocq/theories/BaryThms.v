(** Lemmas on barycenter averaging: weighted means minimise the alignment cost. *)
From Coq Require Import Bool List Arith Lia ZArith QArith Reals Lra.
From Verif Require Import Num NumLaws Py Series Masks DtwModel Spec SpecDtw DpProofs DtwProofs DtwThms
  LimitedThms MaskThms RList PathSum RealSeries PaaModel PaaThms CdistThms PropCtw PreModel PropScale PropResample GakModel SoftModel Dataset BaryModel.
Import ListNotations.
Local Open Scope R_scope.

(** ** weighted means *)
Lemma wmean_least (l : list (R * R)) b : 0 < rsum (map fst l) ->
  let m := rsum (map (fun p => fst p * snd p) l) / rsum (map fst l) in
  rsum (map (fun p => fst p * ((m - snd p) * (m - snd p))) l) <= rsum (map (fun p => fst p * ((b - snd p) * (b - snd p))) l).
Proof.
  intros H m. set (W := rsum (map fst l)) in *. set (WX := rsum (map (fun p => fst p * snd p) l)) in *.
  assert (E : rsum (map (fun p => fst p * ((b - snd p) * (b - snd p))) l) =
     rsum (map (fun p => fst p * ((m - snd p) * (m - snd p))) l) + (b - m) * (b - m) * W).
  { assert (G : forall l', rsum (map (fun p => fst p * ((b - snd p) * (b - snd p))) l') =
      rsum (map (fun p => fst p * ((m - snd p) * (m - snd p))) l') + (b - m) * (b - m) * rsum (map fst l') +
      2 * (b - m) * (m * rsum (map fst l') - rsum (map (fun p => fst p * snd p) l'))).
    { induction l' as [|p l' IH]; simpl; [ring|]. rewrite IH. ring. }
    rewrite G. fold W. fold WX. unfold m. field_simplify; [|lra|lra]. field. lra. }
  rewrite E. pose proof (Rle_0_sqr (b - m)) as K. unfold Rsqr in K. nra.
Qed.

(** an aligned observation: barycenter step, weight, feature vector *)
Definition obs : Type := (nat * (R * list R))%type.
Definition at_step (t : nat) (E : list obs) : list obs := filter (fun e => (fst e =? t)%nat) E.
Definition total (b : list (list R)) (E : list obs) : R :=
  rsum (map (fun e => fst (snd e) * sqd (nth (fst e) b []) (snd (snd e))) E).
Definition wsum (E : list obs) : R := rsum (map (fun e => fst (snd e)) E).
Definition wxsum (k : nat) (E : list obs) : R := rsum (map (fun e => fst (snd e) * nth k (snd (snd e)) 0) E).
Definition mean_bary (n d : nat) (E : list obs) : list (list R) :=
  map (fun t => map (fun k => wxsum k (at_step t E) / wsum (at_step t E)) (seq 0 d)) (seq 0 n).

Lemma sqd_sum d u v : length u = d -> length v = d ->
  sqd u v = rsum (map (fun k => (nth k u 0 - nth k v 0) * (nth k u 0 - nth k v 0)) (seq 0 d)).
Proof.
  intros Hu Hv. subst d. revert v Hv. induction u as [|a u IH]; intros [|b v] Hv; simpl in Hv; try lia; auto.
  cbn [length seq map]. rewrite <- seq_shift, map_map. unfold sqd. simpl. f_equal. apply IH. lia.
Qed.
Lemma rsum_group {A} (f : A -> R) (key : A -> nat) n l : (forall x, In x l -> (key x < n)%nat) ->
  rsum (map f l) = rsum (map (fun t => rsum (map f (filter (fun x => (key x =? t)%nat) l))) (seq 0 n)).
Proof.
  induction l as [|x l IH]; intros H; simpl.
  - symmetry. transitivity (rsum (map (fun _ : nat => 0) (seq 0 n))); [reflexivity|]. rewrite rsum_const. lra.
  - rewrite IH by (intros; apply H; simpl; auto).
    assert (K : (key x < n)%nat) by (apply H; simpl; auto).
    assert (G : rsum (map (fun t => if (key x =? t)%nat then f x else 0) (seq 0 n)) = f x).
    { clear -K. assert (S : forall m a, rsum (map (fun t => if (key x =? t)%nat then f x else 0) (seq a m)) =
         if ((a <=? key x) && (key x <? a + m))%nat then f x else 0).
      { induction m as [|m IH]; intros a; simpl.
        - destruct (Nat.leb_spec a (key x)), (Nat.ltb_spec (key x) (a + 0)); simpl; auto; lia.
        - rewrite IH. destruct (Nat.eqb_spec (key x) a), (Nat.leb_spec (S a) (key x)), (Nat.ltb_spec (key x) (S a + m)),
            (Nat.leb_spec a (key x)), (Nat.ltb_spec (key x) (a + S m)); simpl; try lia; try lra. }
      rewrite S. destruct (Nat.leb_spec 0 (key x)), (Nat.ltb_spec (key x) (0 + n)); simpl; auto; lia. }
    rewrite <- G at 1. rewrite <- rsum_map_plus. apply rsum_map_ext. intros t _.
    destruct (key x =? t)%nat; simpl; lra.
Qed.
Lemma nth_mean_bary n d E t k : (t < n)%nat -> (k < d)%nat ->
  nth k (nth t (mean_bary n d E) []) 0 = wxsum k (at_step t E) / wsum (at_step t E).
Proof. intros Ht Hk. unfold mean_bary. rewrite map_seq_nth by auto. rewrite map_seq_nth by auto. reflexivity. Qed.
Lemma mean_bary_row n d E t : (t < n)%nat -> length (nth t (mean_bary n d E) []) = d.
Proof. intros Ht. unfold mean_bary. rewrite map_seq_nth by auto. rewrite map_length, seq_length. reflexivity. Qed.
Lemma mean_bary_len n d E : length (mean_bary n d E) = n.
Proof. unfold mean_bary. rewrite map_length, seq_length. reflexivity. Qed.

Lemma total_split n d b E : (forall t, (t < n)%nat -> length (nth t b []) = d) ->
  (forall e, In e E -> (fst e < n)%nat /\ length (snd (snd e)) = d) ->
  total b E = rsum (map (fun t => rsum (map (fun k =>
    rsum (map (fun e => fst (snd e) * ((nth k (nth t b []) 0 - nth k (snd (snd e)) 0) * (nth k (nth t b []) 0 - nth k (snd (snd e)) 0)))
      (at_step t E))) (seq 0 d))) (seq 0 n)).
Proof.
  intros Hb HE. unfold total. rewrite (rsum_group _ fst n) by (intros e He; apply HE; auto).
  apply rsum_map_ext. intros t Ht. apply in_seq in Ht. rewrite rsum_swap. apply rsum_map_ext. intros e He.
  apply filter_In in He. destruct He as [He Et]. apply Nat.eqb_eq in Et. rewrite Et.
  rewrite (sqd_sum d) by (try apply Hb; try apply HE; auto; lia). rewrite <- rsum_map_scal. reflexivity.
Qed.
(** the weighted mean at each step minimises the total *)
Lemma mean_bary_least n d b E : (forall t, (t < n)%nat -> length (nth t b []) = d) ->
  (forall e, In e E -> (fst e < n)%nat /\ length (snd (snd e)) = d) ->
  (forall t, (t < n)%nat -> 0 < wsum (at_step t E)) ->
  total (mean_bary n d E) E <= total b E.
Proof.
  intros Hb HE HW. rewrite (total_split n d b) by auto. rewrite (total_split n d (mean_bary n d E)) by (auto; intros; apply mean_bary_row; auto).
  apply rsum_map_le. intros t Ht. apply in_seq in Ht. apply rsum_map_le. intros k Hk. apply in_seq in Hk.
  rewrite nth_mean_bary by lia.
  pose proof (wmean_least (map (fun e => (fst (snd e), nth k (snd (snd e)) 0)) (at_step t E)) (nth k (nth t b []) 0)) as K.
  cbv zeta in K. rewrite !map_map in K. cbn [fst snd] in K. apply K. apply HW. lia.
Qed.

(** ** paths visit every step of both series, each cell once *)
Lemma rpath_cover ok i j p : rpath ok i j p -> (forall t, (t <= i)%nat -> exists u, In (t, u) p) /\
  (forall u, (u <= j)%nat -> exists t, In (t, u) p).
Proof.
  induction 1 as [H0|i j i' j' p Hp [IH1 IH2] Hmv Ho].
  - split; intros t Ht; exists 0%nat; replace t with 0%nat by lia; left; auto.
  - unfold move in Hmv; simpl in Hmv. split.
    + intros t Ht. destruct (Nat.eq_dec t i') as [->|Hn]; [eexists; left; reflexivity|].
      destruct (IH1 t ltac:(lia)) as (u & Hu). exists u. right. auto.
    + intros t Ht. destruct (Nat.eq_dec t j') as [->|Hn]; [eexists; left; reflexivity|].
      destruct (IH2 t ltac:(lia)) as (u & Hu). exists u. right. auto.
Qed.
Lemma rpath_below ok i j p : rpath ok i j p -> forall x y, In (x, y) p -> (x <= i)%nat /\ (y <= j)%nat.
Proof.
  induction 1 as [H0|i j i' j' p Hp IH Hmv Ho]; intros x y [E|Hi].
  - injection E as <- <-. lia.
  - contradiction.
  - injection E as <- <-. lia.
  - apply IH in Hi. unfold move in Hmv; simpl in Hmv. lia.
Qed.
Lemma rpath_nodup ok i j p : rpath ok i j p -> NoDup p.
Proof.
  intros H. induction H as [H0|i j i' j' p Hp IH Hmv Ho].
  - constructor; auto. constructor.
  - constructor; auto. intros K. pose proof (rpath_below _ _ _ _ Hp _ _ K). unfold move in Hmv; simpl in Hmv. lia.
Qed.
Lemma wpath_cover n m ok p : (0 < n)%nat -> (0 < m)%nat -> warping_path n m ok p ->
  (forall t, (t < n)%nat -> exists u, In (t, u) p) /\ (forall u, (u < m)%nat -> exists t, In (t, u) p) /\ NoDup p.
Proof.
  intros Hn Hm H. apply wpath_rpath in H; auto. destruct (rpath_cover _ _ _ _ H) as [A B].
  split; [|split].
  - intros t Ht. destruct (A t ltac:(lia)) as (u & Hu). exists u. apply in_rev. auto.
  - intros t Ht. destruct (B t ltac:(lia)) as (u & Hu). exists u. apply in_rev. auto.
  - apply rpath_nodup in H. apply NoDup_rev in H. rewrite rev_involutive in H. auto.
Qed.

(** ** row sums of the path matrix *)
Definition ind (p : list cell) (i j : nat) : R := if existsb (fun c => (fst c =? i)%nat && (snd c =? j)%nat) p then 1 else 0.
Lemma existsb_cell p i j : existsb (fun c : cell => (fst c =? i)%nat && (snd c =? j)%nat) p = true <-> In (i, j) p.
Proof.
  rewrite existsb_exists. split.
  - intros ([a b] & H & E). apply andb_true_iff in E. rewrite !Nat.eqb_eq in E. simpl in E. destruct E; subst. auto.
  - intros H. exists (i, j). split; auto. simpl. rewrite !Nat.eqb_refl. auto.
Qed.
Lemma ind_cons c p i j : NoDup (c :: p) -> ind (c :: p) i j = (if ((fst c =? i)%nat && (snd c =? j)%nat)%bool then 1 else 0) + ind p i j.
Proof.
  intros H. inversion H as [|c' p' Hc Hp]; subst. unfold ind. simpl.
  destruct ((fst c =? i)%nat && (snd c =? j)%nat)%bool eqn:E; simpl; [|lra].
  match goal with |- context [existsb ?f p] => destruct (existsb f p) eqn:E2 end; [|lra]. apply existsb_cell in E2. apply andb_true_iff in E. rewrite !Nat.eqb_eq in E.
  destruct c as [a b]; simpl in *. destruct E; subst. contradiction.
Qed.
Lemma rsum_single (f : nat -> R) a n : (a < n)%nat -> rsum (map (fun j => (if (a =? j)%nat then 1 else 0) * f j) (seq 0 n)) = f a.
Proof.
  intros H. pose proof (rsum_group (fun x : nat => f x) (fun x => x) n [a]) as G. simpl in G.
  specialize (G ltac:(intros x [<-|[]]; auto)). rewrite Rplus_0_r in G. rewrite G. apply rsum_map_ext. intros t _.
  destruct (Nat.eqb_spec a t); simpl; subst; lra.
Qed.
Lemma path_row_sum (f : nat -> R) i n p : NoDup p -> (forall c, In c p -> (snd c < n)%nat) ->
  rsum (map (fun j => ind p i j * f j) (seq 0 n)) = rsum (map (fun c => f (snd c)) (filter (fun c => (fst c =? i)%nat) p)).
Proof.
  intros ND HB. induction p as [|c p IH].
  - simpl. transitivity (rsum (map (fun _ : nat => 0) (seq 0 n))); [apply rsum_map_ext; intros; unfold ind; simpl; lra|].
    rewrite rsum_const. lra.
  - assert (ND' : NoDup p) by (inversion ND; auto).
    rewrite (rsum_map_ext _ (fun j => (if ((fst c =? i)%nat && (snd c =? j)%nat)%bool then 1 else 0) * f j + ind p i j * f j))
      by (intros; rewrite ind_cons by auto; ring).
    rewrite rsum_map_plus, IH by (auto; intros; apply HB; simpl; auto). cbn [filter].
    destruct (fst c =? i)%nat; simpl.
    + rewrite rsum_single by (apply HB; simpl; auto). reflexivity.
    + rewrite (rsum_map_ext _ (fun _ => 0)) by (intros; lra). rewrite rsum_const. lra.
Qed.

(** ** one alignment *)
(** the cells that [metric_params] allows *)
Definition allows (mp : metric_params) (n m : nat) (A : nat -> nat -> bool) : Prop :=
  match mp_gc mp with
  | KeyAbsent | KeyCode 0 => constraint n m GcNone (mp_radius mp) (mp_slope mp) A
  | KeyCode 1 => constraint n m GcItakura (mp_radius mp) (mp_slope mp) A
  | KeyCode 2 => constraint n m GcSakoeChiba (mp_radius mp) (mp_slope mp) A
  | KeyName _ => A = everywhere
  | _ => False
  end /\ positive_slope (mp_slope mp).
(** [p] is a cheapest allowed path, of cost [v] *)
Definition best_path (s1 s2 : list (list R)) (A : nat -> nat -> bool) (p : list cell) (v : R) : Prop :=
  warping_path (length s1) (length s2) A p /\ cost (costs s1 s2) p = v /\
  forall q, warping_path (length s1) (length s2) A q -> v <= cost (costs s1 s2) q.

Lemma njit_elastic mp d s1 s2 A : real_series d s1 -> real_series d s2 -> allows mp (length s1) (length s2) A ->
  exists g r s, constraint (length s1) (length s2) g r s A /\ positive_slope s /\
    njit_dtw_path mp (lift s1) (lift s2) = elastic_path (N:=Xnum) comb_dtw (Raw2 (lift s1)) (Raw2 (lift s2)) g r s.
Proof.
  intros H1 H2 [HA Hs].
  assert (V : forall g r s, elastic_path (N:=Xnum) comb_dtw (Raw2 (lift s1)) (Raw2 (lift s2)) g r s =
     do code <- gc_code g ;; elastic_path_generic (N:=Xnum) comb_dtw (lift s1) (lift s2) code r s).
  { intros g r s. unfold elastic_path. rewrite (validated_finite Xnum xnn xfin Xlaws d) by (apply lift_finite; auto). reflexivity. }
  unfold njit_dtw_path. destruct mp as [k r s]; simpl in *. destruct k as [|c|g]; simpl in *.
  - exists GcNone, r, s. rewrite V. auto.
  - destruct c as [|[|[|c]]]; try contradiction.
    + exists GcNone, r, s. rewrite V. auto.
    + exists GcItakura, r, s. rewrite V. auto.
    + exists GcSakoeChiba, r, s. rewrite V. auto.
  - exists GcNone, None, None. rewrite V. split; [exact HA|]. split; [exact I|]. unfold elastic_path_generic. simpl.
    destruct r, s; reflexivity.
Qed.
Lemma njit_best mp d s1 s2 A : real_series d s1 -> real_series d s2 -> allows mp (length s1) (length s2) A ->
  exists p v, njit_dtw_path mp (lift s1) (lift s2) = Ok (p, XR (sqrt v)) /\ best_path s1 s2 A p v.
Proof.
  intros H1 H2 HA. destruct (njit_elastic mp d s1 s2 A H1 H2 HA) as (g & r & s & HC & Hs & ->).
  destruct (elastic_path_full Xnum xnn xfin Xlaws _ _ (comb_laws_dtw Xnum xnn xfin Xlaws) (dtw_op Xnum xnn) d (lift s1) (lift s2)
    (lift_finite d s1 H1) (lift_finite d s2 H2) g r s A) as (p & w & E & Hnn & [Hleast Hex] & Hp).
  { rewrite !lift_length. exact HC. }
  rewrite !lift_length in *.
  destruct (constraint_feasible _ _ g r s A (real_len d s1 H1) (real_len d s2 H2) Hs HC) as (p0 & Hp0).
  assert (PC : forall q, path_cost (N:=Xnum) xadd (local_costs (lift s1) (lift s2)) q = XR (cost (costs s1 s2) q)).
  { intros q. rewrite <- path_cost_lift. unfold path_cost. f_equal. 
    apply FunctionalExtensionality.functional_extensionality. intros a.
    apply FunctionalExtensionality.functional_extensionality. intros c. rewrite local_costs_lift. reflexivity. }
  assert (Hw : w <> XInf).
  { intros ->. pose proof (Hleast p0 Hp0) as K. simpl in K. rewrite PC in K. discriminate. }
  destruct (Hp Hw) as [Hwp Hc]. simpl in Hc. rewrite PC in Hc. subst w.
  exists p, (cost (costs s1 s2) p). split.
  - rewrite E. simpl. do 2 f_equal. unfold xsqrt.
    assert (K : 0 <= cost (costs s1 s2) p) by (apply cost_nonneg; intros; apply sqd_nonneg).
    destruct (Rleb 0 (cost (costs s1 s2) p)) eqn:EL; [reflexivity|]. apply Rleb_false in EL. lra.
  - split; auto. split; auto. intros q Hq. pose proof (Hleast q Hq) as K. simpl in K. rewrite PC in K. apply Rleb_true in K. auto.
Qed.

(** Metamorphic properties of the elastic distances: lemmas for [PropMeta.v]. *)
From Coq Require Import Bool List Arith Lia ZArith QArith Reals Lra Permutation.
From Verif Require Import Num NumLaws Py Series Masks DtwModel Spec SpecDtw DpProofs DtwProofs DtwThms DtwExact
  LimitedThms MaskThms RList PathSum RealSeries PropDtw.
Import ListNotations.
Local Open Scope R_scope.

Definition along (D : nat -> nat -> R) (p : list cell) : list R := map (fun c => D (fst c) (snd c)) p.
Definition rtop (l : list R) : R := fold_right Rmax 0 l.

(** ** aggregates of the local costs along a path *)
Record agg_laws (agg : list R -> R) : Prop := {
  agg_rev : forall l, agg (rev l) = agg l;
  agg_scal : forall k l, 0 <= k -> agg (map (fun x => k * x) l) = k * agg l;
  agg_nn : forall l, (forall x, In x l -> 0 <= x) -> 0 <= agg l;
  agg_zero : forall l, (forall x, In x l -> 0 <= x) -> agg l = 0 -> forall x, In x l -> x = 0;
  agg_zeros : forall l, (forall x, In x l -> x = 0) -> agg l = 0 }.
Lemma sum_laws : agg_laws rsum.
Proof.
  split.
  - intros l. induction l as [|a l IH]; simpl; auto. rewrite rsum_app, IH. simpl. lra.
  - intros k l Hk. induction l as [|a l IH]; simpl; [lra|]. rewrite IH. lra.
  - apply rsum_nonneg.
  - intros l H E. induction l as [|a l IH]; intros x Hx; [destruct Hx|]. simpl in E.
    assert (0 <= a) by (apply H; left; auto). assert (0 <= rsum l) by (apply rsum_nonneg; intros; apply H; right; auto).
    destruct Hx as [<-|Hx]; [lra|]. apply IH; auto; [intros; apply H; right; auto|lra].
  - intros l H. induction l as [|a l IH]; simpl; auto. rewrite (H a), IH; [lra| |left; auto]. intros; apply H; right; auto.
Qed.
Lemma rtop_nn l : 0 <= rtop l.
Proof. induction l as [|a l IH]; simpl; [lra|]. eapply Rle_trans; [exact IH|apply Rmax_r]. Qed.
Lemma rtop_ge l x : In x l -> x <= rtop l.
Proof. induction l as [|a l IH]; intros H; [destruct H|]. destruct H as [<-|H]; simpl; [apply Rmax_l|]. eapply Rle_trans; [apply IH; auto|apply Rmax_r]. Qed.
Lemma rtop_le l b : 0 <= b -> (forall x, In x l -> x <= b) -> rtop l <= b.
Proof. intros Hb H. induction l as [|a l IH]; simpl; [auto|]. apply Rmax_lub; [apply H; left; auto|apply IH; intros; apply H; right; auto]. Qed.
Lemma top_laws : agg_laws rtop.
Proof.
  split.
  - intros l. apply Rle_antisym; apply rtop_le; try apply rtop_nn; intros x Hx; apply rtop_ge; [apply in_rev; auto|]. apply -> in_rev. auto.
  - intros k l Hk. induction l as [|a l IH]; simpl; [lra|]. rewrite IH. apply RmaxRmult. auto.
  - intros. apply rtop_nn.
  - intros l H E x Hx. apply Rle_antisym; [rewrite <- E; apply rtop_ge; auto|auto].
  - intros l H. apply Rle_antisym; [|apply rtop_nn]. apply rtop_le; [lra|]. intros x Hx. rewrite (H x); auto. lra.
Qed.

Definition optimum (agg : list R -> R) (n m : nat) (D : nat -> nat -> R) (A : nat -> nat -> bool) (v : R) : Prop :=
  (exists p, warping_path n m A p /\ agg (along D p) = v) /\ forall p, warping_path n m A p -> v <= agg (along D p).
Lemma optimum_unique agg n m D A v w : optimum agg n m D A v -> optimum agg n m D A w -> v = w.
Proof. intros [(p & Hp & E) H] [(q & Hq & E') H']. pose proof (H q Hq). pose proof (H' p Hp). lra. Qed.

(** ** the models compute the optimum *)
Definition elastic_fun : Type := raw Xnum -> raw Xnum -> gc_name -> option Z -> option Q -> res xr.
Definition computes (agg : list R -> R) (E : elastic_fun) : Prop :=
  forall d s1 s2 g r s A, real_series d s1 -> real_series d s2 -> positive_slope s ->
  constraint (length s1) (length s2) g r s A ->
  exists v, E (Raw2 (N:=Xnum) (lift s1)) (Raw2 (N:=Xnum) (lift s2)) g r s = Ok (XR (sqrt v)) /\ 0 <= v /\
    optimum agg (length s1) (length s2) (costs s1 s2) A v.
Lemma cost_fun_lift s1 s2 : local_costs (N:=Xnum) (lift s1) (lift s2) = fun i j => XR (costs s1 s2 i j).
Proof.
  apply FunctionalExtensionality.functional_extensionality. intros i.
  apply FunctionalExtensionality.functional_extensionality. intros j. apply local_costs_lift.
Qed.
Lemma path_max_lift D p : (forall i j, 0 <= D i j) -> path_cost (N:=Xnum) nmax (fun i j => XR (D i j)) p = XR (rtop (along D p)).
Proof.
  intros _. unfold path_cost, along. simpl.
  assert (G : forall p a, 0 <= a -> fold_left (fun acc c => nmax (N:=Xnum) (XR (D (fst c) (snd c))) acc) p (XR a) =
     XR (Rmax a (rtop (map (fun c => D (fst c) (snd c)) p)))).
  { induction p0 as [|c q IH]; intros a Ha; simpl.
    - f_equal. rewrite Rmax_left; auto.
    - match goal with |- fold_left ?f q ?z = _ => assert (E : z = XR (Rmax (D (fst c) (snd c)) a)) end.
      { unfold nmax. simpl. destruct (Rleb (D (fst c) (snd c)) a) eqn:L.
        - apply Rleb_true in L. rewrite Rmax_right; auto.
        - apply Rleb_false in L. rewrite Rmax_left by lra. auto. }
      rewrite E, IH by (eapply Rle_trans; [exact Ha|apply Rmax_r]). f_equal.
      rewrite (Rmax_comm (D _ _) a), Rmax_assoc. reflexivity. }
  rewrite G by lra. f_equal. apply Rmax_right. apply rtop_nn.
Qed.
Lemma xsqrt_nn v : 0 <= v -> nsqrt (n:=Xnum) (XR v) = XR (sqrt v).
Proof. intros H. simpl. unfold xsqrt. destruct (Rleb 0 v) eqn:E; auto. apply Rleb_false in E. lra. Qed.
Lemma computes_gen agg (E : elastic_fun) op : (forall l, (forall x, In x l -> 0 <= x) -> 0 <= agg l) ->
  (forall D p, (forall i j, 0 <= D i j) -> path_cost (N:=Xnum) op (fun i j => XR (D i j)) p = XR (agg (along D p))) ->
  (forall d s1 s2 g radius slope allowed,
    finite_series (N:=Xnum) xfin d s1 -> finite_series (N:=Xnum) xfin d s2 ->
    constraint (length s1) (length s2) g radius slope allowed ->
    exists w : Xnum, E (Raw2 s1) (Raw2 s2) g radius slope = Ok (nsqrt w) /\
      least_cost (warping_path (length s1) (length s2) allowed) (path_cost op (local_costs s1 s2)) w) ->
  computes agg E.
Proof.
  intros Hnn Hop HE d s1 s2 g r s A H1 H2 Hs HC.
  destruct (HE d (lift s1) (lift s2) g r s A (lift_finite d s1 H1) (lift_finite d s2 H2)) as (w & Ew & Hl & Hr).
  { rewrite !lift_length. exact HC. }
  rewrite !lift_length in *. rewrite cost_fun_lift in *.
  assert (P : forall p, path_cost (N:=Xnum) op (fun i j => XR (costs s1 s2 i j)) p = XR (agg (along (costs s1 s2) p))).
  { intros p. apply Hop. intros; apply sqd_nonneg. }
  assert (N0 : forall p, 0 <= agg (along (costs s1 s2) p)).
  { intros p. apply Hnn. intros x Hx. apply in_map_iff in Hx. destruct Hx as (c & <- & _). apply sqd_nonneg. }
  destruct (constraint_feasible _ _ g r s A (real_len d s1 H1) (real_len d s2 H2) Hs HC) as (p0 & Hp0).
  destruct Hr as [(p & Hp & Ep)|[Hno _]]; [|exfalso; eapply Hno; eauto].
  rewrite P in Ep. subst w. exists (agg (along (costs s1 s2) p)). split; [|split; [auto|split; [eauto|]]].
  - rewrite Ew. f_equal. apply xsqrt_nn. auto.
  - intros q Hq. pose proof (Hl q Hq) as K. rewrite P in K. simpl in K. apply Rleb_true in K. auto.
Qed.
Lemma dtw_computes : computes rsum dtw.
Proof.
  apply (computes_gen rsum dtw xadd); [apply rsum_nonneg| |].
  - intros D p _. exact (path_cost_lift D p).
  - intros d s1 s2 g r s A. apply (C01_dtw_optimal Xnum xnn xfin Xlaws).
Qed.
Lemma frechet_computes : computes rtop frechet.
Proof.
  apply (computes_gen rtop frechet (nmax (N:=Xnum))); [intros; apply rtop_nn| |].
  - intros D p H. exact (path_max_lift D p H).
  - intros d s1 s2 g r s A. apply (C07_frechet_optimal Xnum xnn xfin Xlaws).
Qed.

(** ** reversing time *)
Definition turn (n m : nat) (c : cell) : cell := (n - 1 - fst c, m - 1 - snd c)%nat.
Lemma linked_snoc {A} (R : A -> A -> Prop) p a b : linked R (p ++ [a]) -> R a b -> linked R (p ++ [a; b]).
Proof. intros H1 H2. replace (p ++ [a; b]) with ((p ++ [a]) ++ [b]) by (rewrite <- app_assoc; reflexivity). apply linked_app; auto. Qed.
Lemma linked_rev {A} (R : A -> A -> Prop) p : linked R p -> linked (fun a b => R b a) (rev p).
Proof.
  induction p as [|a p IH]; intros H; [exact I|]. destruct p as [|b p]; [exact I|]. destruct H as [H1 H2].
  specialize (IH H2). simpl in IH |- *. rewrite <- app_assoc. simpl. apply linked_snoc; auto.
Qed.
Lemma first_rev {A} (p : list A) a : last_is p a -> first_is (rev p) a.
Proof.
  unfold first_is, last_is. intros H. assert (L : (0 < length p)%nat). { destruct p; [discriminate|simpl; lia]. }
  assert (a = nth (length p - 1) p a) by (symmetry; apply nth_error_nth; auto).
  rewrite (nth_error_nth' (rev p) a) by (rewrite rev_length; auto). rewrite rev_nth by auto. f_equal. symmetry. exact H0.
Qed.
Lemma last_rev {A} (p : list A) a : first_is p a -> last_is (rev p) a.
Proof.
  unfold first_is, last_is. intros H. assert (L : (0 < length p)%nat). { destruct p; [discriminate|simpl; lia]. }
  assert (a = nth 0 p a) by (symmetry; apply nth_error_nth; auto).
  rewrite rev_length, (nth_error_nth' (rev p) a) by (rewrite rev_length; lia). rewrite rev_nth by lia. f_equal. rewrite H0 at 2. f_equal. lia.
Qed.
Lemma turn_path n m A B p : (0 < n)%nat -> (0 < m)%nat ->
  (forall i j, (i < n)%nat -> (j < m)%nat -> A i j = true -> B (n - 1 - i)%nat (m - 1 - j)%nat = true) ->
  warping_path n m A p -> warping_path n m B (map (turn n m) (rev p)).
Proof.
  intros Hn Hm HB Hp. pose proof (wpath_bounds n m A p Hn Hm Hp) as Hb. destruct Hp as (F & La & Li & Al). split; [|split; [|split]].
  - apply first_rev in La. unfold first_is in *. rewrite nth_error_map, La. simpl. unfold turn. simpl. f_equal. f_equal; lia.
  - apply last_rev in F. unfold last_is in *. rewrite map_length, nth_error_map, F. simpl. unfold turn. simpl. f_equal. f_equal; lia.
  - apply linked_rev in Li.
    assert (G : forall q, (forall i j, In (i, j) q -> (i < n)%nat /\ (j < m)%nat) -> linked (fun a b => move b a) q -> linked move (map (turn n m) q)).
    { induction q as [|a [|b q] IH]; intros Hq L; [exact I|exact I|]. destruct L as [L1 L2]. split; [|apply IH; auto; intros; apply Hq; right; auto].
      destruct a as [i j], b as [i' j']. destruct (Hq i j ltac:(left; auto)). destruct (Hq i' j' ltac:(right; left; auto)).
      unfold move, turn in *. simpl in *. lia. }
    apply G; auto. intros i j Hin. apply Hb. apply in_rev. auto.
  - intros i j Hin. apply in_map_iff in Hin. destruct Hin as ([a b] & E & Hin). apply in_rev in Hin. inversion E; subst. destruct (Hb a b Hin). apply HB; auto.
Qed.
Lemma nth_turn {A} (l : list A) i d : (i < length l)%nat -> nth (length l - 1 - i) l d = nth i (rev l) d.
Proof. intros H. rewrite rev_nth by auto. f_equal. lia. Qed.
Lemma optimum_turn agg n m D E A v : agg_laws agg -> (0 < n)%nat -> (0 < m)%nat ->
  (forall i j, (i < n)%nat -> (j < m)%nat -> A (n - 1 - i)%nat (m - 1 - j)%nat = A i j) ->
  (forall i j, (i < n)%nat -> (j < m)%nat -> E (n - 1 - i)%nat (m - 1 - j)%nat = D i j) ->
  optimum agg n m D A v -> optimum agg n m E A v.
Proof.
  intros L Hn Hm HA HE [(p & Hp & Ep) H].
  assert (C : forall D E p, (forall i j, (i < n)%nat -> (j < m)%nat -> E (n - 1 - i)%nat (m - 1 - j)%nat = D i j) ->
     warping_path n m A p -> agg (along E (map (turn n m) (rev p))) = agg (along D p)).
  { clear -L Hn Hm. intros D E p HE Hp. pose proof (wpath_bounds n m A p Hn Hm Hp) as Hb.
    rewrite <- (agg_rev agg L (along D p)). f_equal. unfold along. rewrite map_map, <- map_rev. apply map_ext_in.
    intros [i j] Hin. apply in_rev in Hin. destruct (Hb i j Hin). simpl. apply HE; auto. }
  assert (TP : forall p, warping_path n m A p -> warping_path n m A (map (turn n m) (rev p))).
  { intros q Hq. apply (turn_path n m A A); auto. intros i j Hi Hj HT. rewrite HA; auto. }
  split.
  - exists (map (turn n m) (rev p)). split; [apply TP; auto|]. rewrite (C D E); auto.
  - intros q Hq. rewrite <- (C E D q); [apply H, TP; auto| |auto].
    intros i j Hi Hj. rewrite <- HE by lia. f_equal; lia.
Qed.

(** the Itakura mask is unchanged by a half turn *)
Lemma int_sub_Q a b : inject_Z (a - b) == inject_Z a - inject_Z b.
Proof. unfold Z.sub. rewrite inject_Z_plus, inject_Z_opp. reflexivity. Qed.
Lemma itakura_turn n m s A i j : (0 < n)%nat -> (0 < m)%nat -> (0 < s)%Q -> itakura_mask n m s = Ok A ->
  (i < n)%nat -> (j < m)%nat -> A (n - 1 - i)%nat (m - 1 - j)%nat = A i j.
Proof.
  intros Hn Hm Hs H Hi Hj. unfold itakura_mask in H. destruct (Qeq_bool s 0); [discriminate|]. destruct (m =? 0)%nat; [discriminate|].
  assert (SP : forall i j, (i < n)%nat -> (j < m)%nat -> A i j = true <-> (itakura_lower n m s j <= Z.of_nat i < itakura_upper n m s j)%Z).
  { intros a b Ha Hb. apply (mk_spec n m (itakura_lower n m s) (itakura_upper n m s)); auto.
    - intros; apply ita_lower_nn; auto.
    - intros k Hk. pose proof (ita_upper_pos n m s Hn Hm Hs A H k Hk). lia. }
  assert (LU : forall i j, (i < n)%nat -> (j < m)%nat ->
    (itakura_lower n m s (m - 1 - j) <= Z.of_nat (n - 1 - i))%Z <-> (Z.of_nat i < itakura_upper n m s j)%Z).
  { clear - Hn Hm Hs. intros i j Hi Hj. unfold itakura_lower, itakura_upper. cbv zeta. rewrite ceiling_le, Qmax_le, floor_lt1, Qmin_ge.
    set (qn := inject_Z (Z.of_nat n)). set (qm := inject_Z (Z.of_nat m)). set (lo := (1 / s * (qn / qm))%Q). set (hi := (s * (qn / qm))%Q).
    set (qi := inject_Z (Z.of_nat i)). set (qj := inject_Z (Z.of_nat j)).
    assert (Ei : inject_Z (Z.of_nat (n - 1 - i)) == qn - 1 - qi).
    { rewrite !Nat2Z.inj_sub, !int_sub_Q by lia. reflexivity. }
    assert (Ej : inject_Z (Z.of_nat (m - 1 - j)) == qm - 1 - qj).
    { rewrite !Nat2Z.inj_sub, !int_sub_Q by lia. reflexivity. }
    assert (En : inject_Z (Z.of_nat n - 1) == qn - 1) by (rewrite int_sub_Q; reflexivity).
    assert (R1 : round2 (lo * inject_Z (Z.of_nat (m - 1 - j))) == qn - 1 - round2 (qn - 1 - lo * (qm - 1) + lo * qj)).
    { assert (K := round2_int_sub (Z.of_nat n - 1) (qn - 1 - lo * (qm - 1) + lo * qj)). eapply Qeq_trans; [eapply Qeq_trans; [|exact K]|rewrite En; apply Qeq_refl]. apply round2_Qeq. rewrite Ej, En. ring. }
    assert (R2 : round2 (qn - 1 - hi * (qm - 1) + hi * inject_Z (Z.of_nat (m - 1 - j))) == qn - 1 - round2 (hi * qj)).
    { assert (K := round2_int_sub (Z.of_nat n - 1) (hi * qj)). eapply Qeq_trans; [eapply Qeq_trans; [|exact K]|rewrite En; apply Qeq_refl]. apply round2_Qeq. rewrite Ej, En. ring. }
    split; intros [K1 K2]; split; Lqa.lra. }
  assert (I : A (n - 1 - i)%nat (m - 1 - j)%nat = true <-> A i j = true).
  { rewrite !SP by lia. rewrite (LU i j) by auto.
    pose proof (LU (n - 1 - i)%nat (m - 1 - j)%nat ltac:(lia) ltac:(lia)) as K.
    replace (m - 1 - (m - 1 - j))%nat with j in K by lia. replace (n - 1 - (n - 1 - i))%nat with i in K by lia. tauto. }
  destruct (A i j), (A (n - 1 - i)%nat (m - 1 - j)%nat); auto; destruct I as [I1 I2]; [apply I2|symmetry; apply I1]; reflexivity.
Qed.
Lemma band_turn n m r i j : (i < n)%nat -> (j < m)%nat -> band n m r (n - 1 - i) (m - 1 - j) = band n m r i j.
Proof.
  intros Hi Hj. unfold band. rewrite !Nat2Z.inj_sub by lia.
  repeat match goal with |- context [(?a <=? ?b)%Z] => destruct (Z.leb_spec a b) end; simpl; auto; lia.
Qed.
Lemma constraint_turn n m g r s A : (0 < n)%nat -> (0 < m)%nat -> positive_slope s -> constraint n m g r s A ->
  forall i j, (i < n)%nat -> (j < m)%nat -> A (n - 1 - i)%nat (m - 1 - j)%nat = A i j.
Proof.
  intros Hn Hm Hs H i j Hi Hj.
  assert (Hs2 : (0 < or_default s 2)%Q) by (destruct s; simpl in *; auto; reflexivity).
  unfold constraint in H. destruct g; try contradiction.
  - destruct r as [r|], s as [s|]; try contradiction.
    + destruct H as [_ ->]. apply band_turn; auto.
    + eapply itakura_turn; eauto.
    + subst. reflexivity.
  - destruct r as [r|], s as [s|]; try contradiction.
    + destruct H as [_ ->]. apply band_turn; auto.
    + eapply itakura_turn; eauto.
    + subst. reflexivity.
  - eapply itakura_turn; eauto.
  - destruct H as [_ ->]. apply band_turn; auto.
Qed.

(** ** mapping the feature vectors *)
Lemma optimum_scal agg n m D E A k v : agg_laws agg -> (0 < n)%nat -> (0 < m)%nat -> 0 <= k ->
  (forall i j, (i < n)%nat -> (j < m)%nat -> E i j = k * D i j) -> optimum agg n m D A v -> optimum agg n m E A (k * v).
Proof.
  intros L Hn Hm Hk HE [(p & Hp & Ep) H].
  assert (C : forall p, warping_path n m A p -> agg (along E p) = k * agg (along D p)).
  { intros q Hq. pose proof (wpath_bounds n m A q Hn Hm Hq) as Hb. rewrite <- (agg_scal agg L k) by auto. f_equal. unfold along. rewrite map_map.
    apply map_ext_in. intros [i j] Hin. destruct (Hb i j Hin). apply HE; auto. }
  split; [exists p; split; [auto|]; rewrite C, Ep; auto|]. intros q Hq. rewrite C by auto. apply Rmult_le_compat_l; auto.
Qed.

(** ** alignments without indices *)
Section Al.
Context {A B : Type} (R : A -> B -> Prop).
Inductive al : list A -> list B -> Prop :=
| al_one a b : R a b -> al [a] [b]
| al_l a b s t : R a b -> al s (b :: t) -> al (a :: s) (b :: t)
| al_r a b s t : R a b -> al (a :: s) t -> al (a :: s) (b :: t)
| al_d a b s t : R a b -> al s t -> al (a :: s) (b :: t).
Lemma al_ne s t : al s t -> s <> [] /\ t <> [].
Proof. destruct 1; split; discriminate. Qed.
(** every cell of [p] is a pair of related elements; [p] starts at [(i, j)] and goes to the end *)
Lemma path_al p : forall s t i j n m, first_is p (i, j) -> last_is p (n - 1, m - 1)%nat -> linked move p ->
  (forall a b, In (a, b) p -> (i <= a < n)%nat /\ (j <= b < m)%nat /\ exists x y, nth_error s (a - i) = Some x /\ nth_error t (b - j) = Some y /\ R x y) ->
  (length s = n - i)%nat -> (length t = m - j)%nat -> al s t.
Proof.
  induction p as [|[i0 j0] p IH]; intros s t i j n m F La Li Hc Ls Lt; [discriminate|].
  unfold first_is in F. simpl in F. inversion F; subst i0 j0; clear F.
  destruct (Hc i j ltac:(left; auto)) as (Hi & Hj & x & y & Ex & Ey & Hxy). rewrite Nat.sub_diag in Ex, Ey.
  destruct s as [|a s]; [discriminate|]. destruct t as [|b t]; [discriminate|]. simpl in Ex, Ey. inversion Ex; inversion Ey; subst a b; clear Ex Ey. simpl in Ls, Lt.
  destruct p as [|[i1 j1] p].
  - unfold last_is in La. simpl in La. inversion La. assert (length s = 0%nat) by lia. assert (length t = 0%nat) by lia.
    destruct s, t; try discriminate. constructor. auto.
  - destruct Li as [Mv Li]. assert (La' : last_is ((i1, j1) :: p) (n - 1, m - 1)%nat).
    { unfold last_is in *. simpl in *. rewrite Nat.sub_0_r. auto. }
    assert (HM : forall a b, In (a, b) ((i1, j1) :: p) -> (i1 <= a)%nat /\ (j1 <= b)%nat).
    { clear - Li. revert i1 j1 Li. induction p as [|[i2 j2] p IHp]; intros i1 j1 Li a b Hin.
      - destruct Hin as [E|[]]. inversion E; lia.
      - destruct Hin as [E|Hin]; [inversion E; lia|]. destruct Li as [Mv Li]. destruct (IHp i2 j2 Li a b Hin). unfold move in Mv. simpl in Mv. lia. }
    unfold move in Mv. simpl in Mv. destruct Mv as [[-> ->]|[[-> ->]|[-> ->]]].
    + apply al_l; auto. apply (IH s (y :: t) (S i) j n m); [reflexivity|auto|auto| |lia|simpl; lia].
      intros a b Hin. destruct (HM a b Hin). destruct (Hc a b ltac:(right; auto)) as (? & ? & u & v & Eu & Ev & Huv).
      split; [lia|]. split; [lia|]. exists u, v. split; [|auto]. replace (a - i)%nat with (S (a - S i)) in Eu by lia. exact Eu.
    + apply al_r; auto. apply (IH (x :: s) t i (S j) n m); [reflexivity|auto|auto| |simpl; lia|lia].
      intros a b Hin. destruct (HM a b Hin). destruct (Hc a b ltac:(right; auto)) as (? & ? & u & v & Eu & Ev & Huv).
      split; [lia|]. split; [lia|]. exists u, v. split; [auto|]. split; [|auto]. replace (b - j)%nat with (S (b - S j)) in Ev by lia. exact Ev.
    + apply al_d; auto. apply (IH s t (S i) (S j) n m); [reflexivity|auto|auto| |lia|lia].
      intros a b Hin. destruct (HM a b Hin). destruct (Hc a b ltac:(right; auto)) as (? & ? & u & v & Eu & Ev & Huv).
      split; [lia|]. split; [lia|]. exists u, v. replace (a - i)%nat with (S (a - S i)) in Eu by lia.
      replace (b - j)%nat with (S (b - S j)) in Ev by lia. auto.
Qed.
Lemma al_path s t : al s t -> forall i j n m, (length s = n - i)%nat -> (length t = m - j)%nat -> 
  exists p, first_is p (i, j) /\ last_is p (n - 1, m - 1)%nat /\ linked move p /\
    forall a b, In (a, b) p -> (i <= a)%nat /\ (j <= b)%nat /\ exists x y, nth_error s (a - i) = Some x /\ nth_error t (b - j) = Some y /\ R x y.
Proof.
  induction 1 as [a b H|a b s t H H0 IH|a b s t H H0 IH|a b s t H H0 IH]; intros i j n m Ls Lt; simpl in Ls, Lt.
  - exists [(i, j)]. split; [reflexivity|]. split; [unfold last_is; simpl; do 2 f_equal; lia|]. split; [exact I|].
    intros a' b' [E|[]]. inversion E; subst. rewrite !Nat.sub_diag. split; [lia|]. split; [lia|]. exists a, b. auto.
  - destruct (IH (S i) j n m ltac:(lia) ltac:(simpl; lia)) as (p & F & La & Li & Hc). exists ((i, j) :: p). split; [reflexivity|].
    destruct p as [|c p]; [discriminate|]. unfold first_is in F. simpl in F. inversion F; subst c. split; [|split].
    + unfold last_is in *. simpl in *. rewrite Nat.sub_0_r in La. auto.
    + split; auto. unfold move. simpl. lia.
    + intros a' b' [E|Hin].
      * inversion E; subst. rewrite !Nat.sub_diag. split; [lia|]. split; [lia|]. exists a, b. auto.
      * destruct (Hc a' b' Hin) as (? & ? & x & y & Ex & Ey & Hxy). split; [lia|]. split; [lia|]. exists x, y. split; auto. replace (a' - i)%nat with (S (a' - S i)) by lia. exact Ex.
  - destruct (IH i (S j) n m ltac:(simpl; lia) ltac:(lia)) as (p & F & La & Li & Hc). exists ((i, j) :: p). split; [reflexivity|].
    destruct p as [|c p]; [discriminate|]. unfold first_is in F. simpl in F. inversion F; subst c. split; [|split].
    + unfold last_is in *. simpl in *. rewrite Nat.sub_0_r in La. auto.
    + split; auto. unfold move. simpl. lia.
    + intros a' b' [E|Hin].
      * inversion E; subst. rewrite !Nat.sub_diag. split; [lia|]. split; [lia|]. exists a, b. auto.
      * destruct (Hc a' b' Hin) as (? & ? & x & y & Ex & Ey & Hxy). split; [lia|]. split; [lia|]. exists x, y. split; auto. split; auto. replace (b' - j)%nat with (S (b' - S j)) by lia. exact Ey.
  - destruct (IH (S i) (S j) n m ltac:(lia) ltac:(lia)) as (p & F & La & Li & Hc). exists ((i, j) :: p). split; [reflexivity|].
    destruct p as [|c p]; [discriminate|]. unfold first_is in F. simpl in F. inversion F; subst c. split; [|split].
    + unfold last_is in *. simpl in *. rewrite Nat.sub_0_r in La. auto.
    + split; auto. unfold move. simpl. lia.
    + intros a' b' [E|Hin].
      * inversion E; subst. rewrite !Nat.sub_diag. split; [lia|]. split; [lia|]. exists a, b. auto.
      * destruct (Hc a' b' Hin) as (? & ? & x & y & Ex & Ey & Hxy). split; [lia|]. split; [lia|]. exists x, y. replace (a' - i)%nat with (S (a' - S i)) by lia. replace (b' - j)%nat with (S (b' - S j)) by lia. auto.
Qed.
End Al.
Lemma wpath_al {A B} (R : A -> B -> Prop) s t x0 y0 : s <> [] -> t <> [] ->
  (exists p, warping_path (length s) (length t) everywhere p /\ forall i j, In (i, j) p -> R (nth i s x0) (nth j t y0)) <-> al R s t.
Proof.
  intros Hs Ht. assert (Ls : (0 < length s)%nat) by (destruct s; [congruence|simpl; lia]). assert (Lt : (0 < length t)%nat) by (destruct t; [congruence|simpl; lia]).
  split.
  - intros (p & Hp & Hc). pose proof (wpath_bounds _ _ _ _ Ls Lt Hp) as Hb. destruct Hp as (F & La & Li & _).
    apply (path_al R p s t 0 0 (length s) (length t)); auto; try lia. intros a b Hin. destruct (Hb a b Hin). split; [lia|]. split; [lia|].
    exists (nth a s x0), (nth b t y0). rewrite !Nat.sub_0_r. split; [apply nth_error_nth'; auto|]. split; [apply nth_error_nth'; auto|auto].
  - intros H. destruct (al_path R s t H 0 0 (length s) (length t)) as (p & F & La & Li & Hc); try lia.
    exists p. split; [repeat split; auto|]. intros i j Hin. destruct (Hc i j Hin) as (_ & _ & x & y & Ex & Ey & Hxy). rewrite !Nat.sub_0_r in Ex, Ey.
    rewrite (nth_error_nth s i x0 Ex), (nth_error_nth t j y0 Ey). auto.
Qed.
Lemma al_compose {A B C} (R : A -> B -> Prop) (S : B -> C -> Prop) (T : A -> C -> Prop) :
  (forall a b c, R a b -> S b c -> T a c) ->
  forall k s t u, (length s + length t + length u < k)%nat -> al R s t -> al S t u -> al T s u.
Proof.
  intros HT. induction k as [|k IH]; intros s t u Hk H1 H2; [lia|].
  inversion H1 as [a b Hab|a b s' t' Hab H1'|a b s' t' Hab H1'|a b s' t' Hab H1']; subst;
  inversion H2 as [b' c Hbc|b' c t'' u' Hbc H2'|b' c t'' u' Hbc H2'|b' c t'' u' Hbc H2']; subst; simpl in Hk;
  try (apply al_ne in H1'; destruct H1' as [? ?]; congruence); try (apply al_ne in H2'; destruct H2' as [? ?]; congruence).
  all: assert (HTac : T a c) by eauto.
  all: first [ apply al_one; exact HTac
    | apply al_l; [exact HTac|]; eapply IH; [|exact H1'|exact H2]; simpl; lia
    | apply al_r; [exact HTac|]; eapply IH; [|exact H1|exact H2']; simpl; lia
    | apply al_d; [exact HTac|]; eapply IH; [|exact H1'|exact H2']; simpl; lia
    | apply al_l; [exact HTac|]; eapply IH; [|exact H1'|exact H2']; simpl; lia
    | apply al_r; [exact HTac|]; eapply IH; [|exact H1'|exact H2']; simpl; lia
    | eapply IH; [|exact H1'|exact H2']; simpl; lia ].
Qed.

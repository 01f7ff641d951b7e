(** C125-C127: density-based clustering. *)
From Coq Require Import Permutation FunctionalExtensionality Bool List Arith Lia ZArith QArith Reals Lra.
From Verif Require Import Num NumLaws Py Series Masks DtwModel Dataset Spec SpecDtw DpProofs DtwProofs DtwThms RList PathSum RealSeries CdistThms CdistGen PropCdist PropDtw SoftModel SoftThms PropSoft PropSoftCdist PaaModel PreModel DbscanModel.
Import ListNotations.
Local Open Scope nat_scope.

(** ** the search, for any neighbourhoods *)
Section Search.
Context (n : nat) (core : nat -> bool) (nb : nat -> list nat).
Hypothesis Hnb : forall i v, i < n -> In v (nb i) -> v < n.

(** [k] is reached from [i] through core samples *)
Inductive from : nat -> nat -> Prop :=
| from_refl i : from i i
| from_step i j k : core i = true -> In j (nb i) -> from j k -> from i k.

Definition waiting (lab : labelling) : nat := list_sum (map (fun i => if unlabelled lab i then length (nb i) else 0) (seq 0 n)).
Lemma waiting_set lab i c : i < n -> lab i = None -> waiting (set_label lab i c) + length (nb i) = waiting lab.
Proof.
  intros Hi Hl. unfold waiting.
  assert (G : forall a m, (a <= i < a + m -> list_sum (map (fun k => if unlabelled (set_label lab i c) k then length (nb k) else 0) (seq a m)) + length (nb i) =
                            list_sum (map (fun k => if unlabelled lab k then length (nb k) else 0) (seq a m))) /\
                          (i < a \/ a + m <= i -> list_sum (map (fun k => if unlabelled (set_label lab i c) k then length (nb k) else 0) (seq a m)) =
                            list_sum (map (fun k => if unlabelled lab k then length (nb k) else 0) (seq a m)))).
  { intros a m. revert a. induction m as [|m IH]; intros a; [split; intros; [lia|reflexivity]|]. cbn [seq map]. destruct (IH (S a)) as [I1 I2].
    change (list_sum (?x :: ?l)) with (x + list_sum l). split; intros Ha.
    - destruct (Nat.eq_dec i a) as [->|Na].
      + rewrite I2 by lia. assert (Q1 : unlabelled (set_label lab a c) a = false) by (unfold unlabelled, set_label; rewrite Nat.eqb_refl; reflexivity).
        assert (Q2 : unlabelled lab a = true) by (unfold unlabelled; rewrite Hl; reflexivity). rewrite Q1, Q2. lia.
      + assert (E : unlabelled (set_label lab i c) a = unlabelled lab a) by (unfold unlabelled, set_label; destruct (Nat.eqb_spec a i); [lia|reflexivity]).
        rewrite E. specialize (I1 ltac:(lia)). lia.
    - assert (E : unlabelled (set_label lab i c) a = unlabelled lab a) by (unfold unlabelled, set_label; destruct (Nat.eqb_spec a i); [lia|reflexivity]).
      rewrite E, I2 by lia. reflexivity. }
  apply G. lia.
Qed.
Lemma filter_len {A} (f : A -> bool) l : length (filter f l) <= length l.
Proof. induction l as [|a l IH]; simpl; [lia|]. destruct (f a); simpl; lia. Qed.
Lemma set_same lab i c : set_label lab i c i = Some c.
Proof. unfold set_label. rewrite Nat.eqb_refl. reflexivity. Qed.
Lemma set_other lab i c k : k <> i -> set_label lab i c k = lab k.
Proof. unfold set_label. destruct (Nat.eqb_spec k i); [contradiction|reflexivity]. Qed.
Lemma unlabelled_none lab i : unlabelled lab i = true <-> lab i = None.
Proof. unfold unlabelled. destruct (lab i); split; intros; auto; discriminate. Qed.

Lemma expand_spec fuel : forall c work lab, (forall i, In i work -> i < n) -> length work + waiting lab <= fuel ->
  let lab' := expand fuel core nb c work lab in
  (forall i x, lab i = Some x -> lab' i = Some x) /\
  (forall i x, lab' i = Some x -> lab i = Some x \/ (x = c /\ lab i = None /\ exists s, In s work /\ from s i)) /\
  (forall i, In i work -> lab' i <> None) /\
  (forall k v, k < n -> core k = true -> lab k = None -> lab' k <> None -> In v (nb k) -> lab' v <> None).
Proof.
  induction fuel as [|fuel IH]; intros c work lab Hw Hm.
  - destruct work; [|simpl in Hm; lia]. simpl. split; [auto|split; [auto|split; [contradiction|]]]. intros k v _ _ E N. congruence.
  - destruct work as [|i stack]; [simpl; split; [auto|split; [auto|split; [contradiction|]]]; intros k v _ _ E N; congruence|].
    cbn [expand]. destruct (unlabelled lab i) eqn:U.
    + apply unlabelled_none in U. cbv zeta. set (lab1 := set_label lab i c).
      set (work1 := if core i then rev (filter (unlabelled lab1) (nb i)) ++ stack else stack).
      assert (Hi : i < n) by (apply Hw; left; reflexivity).
      assert (H1 : forall k, In k work1 -> k < n).
      { intros k Hk. unfold work1 in Hk. destruct (core i); [|apply Hw; right; auto]. apply in_app_or in Hk. destruct Hk as [Hk|Hk].
        - apply in_rev, filter_In in Hk. apply (Hnb i); tauto.
        - apply Hw. right. auto. }
      assert (H2 : length work1 + waiting lab1 <= fuel).
      { pose proof (waiting_set lab i c Hi U) as E. fold lab1 in E. cbn [length] in Hm. unfold work1. destruct (core i); [|lia].
        rewrite app_length, rev_length. pose proof (filter_len (unlabelled lab1) (nb i)). lia. }
      destruct (IH c work1 lab1 H1 H2) as (A & B & C & D). cbv zeta in A, B, C, D. set (lab' := expand fuel core nb c work1 lab1) in *. clearbody lab'.
      assert (A1 : forall k x, lab k = Some x -> lab1 k = Some x).
      { intros k x E. unfold lab1. rewrite set_other; auto. intros ->. congruence. }
      split; [|split; [|split]].
      * intros k x E. auto.
      * intros k x E. destruct (B k x E) as [E1|(-> & E1 & s & Hs & F)].
        -- destruct (Nat.eq_dec k i) as [->|N].
           ++ right. unfold lab1 in E1. rewrite set_same in E1. injection E1 as <-. split; [reflexivity|split; [auto|]]. exists i. split; [left; auto|constructor].
           ++ left. unfold lab1 in E1. rewrite set_other in E1; auto.
        -- right. assert (Nk : k <> i) by (intros ->; unfold lab1 in E1; rewrite set_same in E1; discriminate).
           split; [reflexivity|split; [unfold lab1 in E1; rewrite set_other in E1; auto|]].
           unfold work1 in Hs. destruct (core i) eqn:Ci; [|exists s; split; [right; auto|auto]].
           apply in_app_or in Hs. destruct Hs as [Hs|Hs]; [|exists s; split; [right; auto|auto]].
           apply in_rev, filter_In in Hs. exists i. split; [left; auto|]. eapply from_step; [auto|apply Hs|auto].
      * intros k [<-|Hk].
        -- rewrite (A i c); [discriminate|]. apply set_same.
        -- apply C. unfold work1. destruct (core i); [apply in_or_app; right|]; auto.
      * intros k v Hk Ck E N Hv. destruct (Nat.eq_dec k i) as [->|Nk].
        -- destruct (lab1 v) as [y|] eqn:Ev; [rewrite (A v y Ev); discriminate|]. apply C. unfold work1. rewrite Ck. apply in_or_app. left.
           apply -> in_rev. apply filter_In. split; auto. apply unlabelled_none. auto.
        -- apply (D k v); auto. unfold lab1. rewrite set_other; auto.
    + destruct (IH c stack lab) as (A & B & C & D); [intros k Hk; apply Hw; right; auto|simpl in Hm; lia|].
      cbv zeta in A, B, C, D. split; [auto|split; [|split]].
      * intros k x E. destruct (B k x E) as [E1|(-> & E1 & s & Hs & F)]; auto. right. split; [auto|split; [auto|]]. exists s. split; [right; auto|auto].
      * intros k [<-|Hk]; [|auto]. unfold unlabelled in U. destruct (lab i) as [x|] eqn:E; [|discriminate]. rewrite (A i x E). discriminate.
      * auto.
Qed.

(** what holds when the samples before [m] have been considered *)
Definition searched (m : nat) (lab : labelling) (starts : list nat) : Prop :=
  (forall i x, lab i = Some x -> x < length starts) /\
  (forall i, i < m -> core i = true -> lab i <> None) /\
  (forall k v x, k < n -> core k = true -> lab k = Some x -> In v (nb k) -> exists y, y <= x /\ lab v = Some y) /\
  (forall c, c < length starts -> let s := nth c starts 0 in
     s < m /\ core s = true /\ lab s = Some c /\ forall i, lab i = Some c -> from s i /\ (core i = true -> s <= i)) /\
  (forall c c', c < c' < length starts -> nth c starts 0 < nth c' starts 0).
Lemma scan_spec fuel : iterations n nb <= fuel -> forall m a lab starts, a + m = n -> searched a lab starts ->
  exists starts', searched n (scan fuel core nb (seq a m) lab (length starts)) starts'.
Proof.
  intros Hf. induction m as [|m IH]; intros a lab starts Ha HS.
  - simpl. replace n with a by lia. eauto.
  - cbn [seq scan]. destruct HS as (S1 & S2 & S3 & S4 & S5). destruct (negb (unlabelled lab a) || negb (core a)) eqn:Q.
    + apply (IH (S a) lab starts); [lia|]. split; [auto|split; [|split; [auto|split; [|auto]]]].
      * intros i Hi Ci. destruct (Nat.eq_dec i a) as [->|N]; [|apply S2; auto; lia]. rewrite Ci in Q. cbn in Q. rewrite orb_false_r in Q.
        unfold unlabelled in Q. destruct (lab a); [discriminate|discriminate].
      * intros c Hc. destruct (S4 c Hc) as (A & B). split; [lia|auto].
    + apply orb_false_iff in Q. destruct Q as [Q1 Q2]. apply negb_false_iff in Q1, Q2. apply unlabelled_none in Q1.
      assert (HW : length [a] + waiting lab <= fuel).
      { unfold iterations in Hf. cbn [length]. apply Nat.le_trans with (2 := Hf). apply le_n_S. unfold waiting. clear.
        induction (seq 0 n) as [|i l IH]; simpl; [lia|]. destruct (unlabelled lab i); lia. }
      destruct (expand_spec fuel (length starts) [a] lab ltac:(intros i [<-|[]]; lia) HW) as (A & B & C & D). cbv zeta in A, B, C, D.
      set (lab' := expand fuel core nb (length starts) [a] lab) in *. clearbody lab'.
      replace (S (length starts)) with (length (starts ++ [a])) by (rewrite app_length; simpl; lia).
      apply (IH (S a) lab' (starts ++ [a])); [lia|].
      assert (EN : forall c, c < length starts -> nth c (starts ++ [a]) 0 = nth c starts 0) by (intros; apply app_nth1; auto).
      assert (EA : nth (length starts) (starts ++ [a]) 0 = a) by (rewrite app_nth2, Nat.sub_diag by lia; reflexivity).
      assert (La : lab' a = Some (length starts)).
      { destruct (lab' a) as [x|] eqn:E; [|exfalso; apply (C a); [left; auto|auto]]. destruct (B a x E) as [E1|(-> & _)]; [congruence|reflexivity]. }
      split; [|split; [|split; [|split]]].
      * intros i x E. rewrite app_length. simpl. destruct (B i x E) as [E1|(-> & _)]; [specialize (S1 i x E1); lia|lia].
      * intros i Hi Ci. destruct (Nat.eq_dec i a) as [->|N]; [congruence|]. destruct (lab i) as [x|] eqn:E; [rewrite (A i x E); discriminate|].
        exfalso. apply (S2 i); auto. lia.
      * intros k v x Hk Ck E Hv. destruct (B k x E) as [E1|(-> & E1 & _)].
        -- destruct (S3 k v x Hk Ck E1 Hv) as (y & Hy & Ey). eauto.
        -- assert (Nv : lab' v <> None) by (apply (D k v); auto; congruence). destruct (lab' v) as [y|] eqn:Ev; [|contradiction].
           exists y. split; [|auto]. destruct (B v y Ev) as [E2|(-> & _)]; [specialize (S1 v y E2); lia|lia].
      * intros c Hc. rewrite app_length in Hc. simpl in Hc. destruct (Nat.eq_dec c (length starts)) as [->|Nc].
        -- rewrite EA. split; [lia|split; [auto|split; [auto|]]]. intros i E. destruct (B i _ E) as [E1|(_ & E1 & s & [<-|[]] & F)].
           ++ specialize (S1 i _ E1). lia.
           ++ split; auto. intros Ci. destruct (Nat.le_gt_cases a i) as [|Hlt]; auto. exfalso. apply (S2 i); auto.
        -- rewrite EN by lia. destruct (S4 c ltac:(lia)) as (P1 & P2 & P3 & P4). split; [lia|split; [auto|split; [auto|]]].
           intros i E. destruct (B i c E) as [E1|(-> & _)]; [auto|lia].
      * intros c c' Hc. rewrite app_length in Hc. simpl in Hc. destruct (Nat.eq_dec c' (length starts)) as [->|Nc].
        -- rewrite EA, EN by lia. apply (S4 c). lia.
        -- rewrite !EN by lia. apply S5. lia.
Qed.
Lemma inner_spec : exists starts, searched n (dbscan_inner n core nb) starts.
Proof.
  unfold dbscan_inner. apply (scan_spec (iterations n nb) (le_n _) n 0 (fun _ => None) []); [lia|].
  split; [discriminate|split; [lia|split; [discriminate|split; simpl; lia]]].
Qed.
End Search.

(** ** specification: density-based clusters of [n] samples with distances [Dr] *)
Section Spec.
Context (n : nat) (Dr : nat -> nat -> R) (eps : R) (min_ts : Z).
Definition near (i j : nat) : Prop := i < n /\ j < n /\ (Dr i j <= eps)%R.
(** number of samples within [eps] of [i], itself included if it is *)
Definition density (i : nat) : nat := length (filter (fun j => if Rle_dec (Dr i j) eps then true else false) (seq 0 n)).
Definition is_core (i : nat) : Prop := i < n /\ (min_ts <= Z.of_nat (density i))%Z.
(** a chain of core samples, each near the previous one *)
Inductive linked : nat -> nat -> Prop :=
| linked_refl i : is_core i -> linked i i
| linked_step i j k : linked i j -> near j k -> is_core k -> linked i k.
Definition clustered (out : dbscan_result) : Prop :=
  let label i := nth i (ts_labels out) (-2)%Z in
  length (ts_labels out) = n /\
  (* the core samples, in increasing order *)
  (forall i, In i (core_ts_indices out) <-> is_core i) /\
  (forall a b, a < b < length (core_ts_indices out) -> nth a (core_ts_indices out) 0 < nth b (core_ts_indices out) 0) /\
  (* core samples are clustered, together exactly when they are linked *)
  (forall i, is_core i -> (0 <= label i)%Z) /\
  (forall i j, is_core i -> is_core j -> (label i = label j <-> linked i j)) /\
  (* other samples are noise when they are near no core sample, and belong otherwise to
     the first cluster with a core sample near them *)
  (forall j, j < n -> ~ is_core j -> (label j = -1)%Z <-> ~ exists i, is_core i /\ near i j) /\
  (forall i j, j < n -> ~ is_core j -> is_core i -> near i j ->
     (label j <= label i)%Z /\ exists i', is_core i' /\ near i' j /\ label i' = label j) /\
  (* clusters are numbered from 0, in the order of their first core sample *)
  (forall i c, is_core i -> (0 <= c < label i)%Z -> exists i', i' < i /\ is_core i' /\ label i' = c).
End Spec.

(** ** C125 *)
Lemma filter_sorted (f : nat -> bool) m a : let l := filter f (seq a m) in forall x y, x < y < length l -> nth x l 0 < nth y l 0.
Proof.
  revert a. induction m as [|m IH]; intros a; simpl; [intros; lia|]. specialize (IH (S a)). cbv zeta in IH.
  destruct (f a); [|exact IH]. intros [|x] [|y] H; simpl in *; try lia.
  - assert (I : In (nth y (filter f (seq (S a) m)) 0) (seq (S a) m)).
    { assert (In (nth y (filter f (seq (S a) m)) 0) (filter f (seq (S a) m))) by (apply nth_In; lia). apply filter_In in H0. tauto. }
    apply in_seq in I. lia.
  - apply IH. lia.
Qed.
Lemma near_refl_core_last core nb s j : from core nb s j -> s <> j -> exists k, core k = true /\ from core nb s k /\ In j (nb k).
Proof.
  induction 1 as [i|i j k Ci Hj F IH]; intros N; [contradiction|]. destruct (Nat.eq_dec j k) as [->|Njk].
  - exists i. split; [auto|split; [constructor|auto]].
  - destruct (IH Njk) as (q & Cq & Fq & Iq). exists q. split; [auto|split; [|auto]]. econstructor; eauto.
Qed.
Theorem C125_clusters n Dr D eps min_ts :
  (forall i j, i < n -> j < n -> D i j = XR (Dr i j) /\ (0 <= Dr i j)%R /\ Dr i j = Dr j i) ->
  exists out, dbscan_fit n D eps min_ts = Ok out /\ clustered n Dr eps min_ts out.
Proof.
  intros HD. unfold dbscan_fit, radius_neighbors.
  assert (EF : forallb (fun i => forallb (fun j => nonneg (D i j)) (seq 0 n)) (seq 0 n) = true).
  { apply forallb_forall. intros i Hi. apply in_seq in Hi. apply forallb_forall. intros j Hj. apply in_seq in Hj.
    destruct (HD i j ltac:(lia) ltac:(lia)) as (-> & H0 & _). simpl. destruct (Rle_dec 0 (Dr i j)); [reflexivity|contradiction]. }
  rewrite EF. cbn [bind]. set (nb := fun i => filter (fun j => at_most eps (D i j)) (seq 0 n)).
  set (core := fun i => (min_ts <=? Z.of_nat (length (filter (fun j => at_most eps (D i j)) (seq 0 n))))%Z).
  assert (NB : forall i j, i < n -> (In j (nb i) <-> near n Dr eps i j)).
  { intros i j Hi. unfold nb, near. rewrite filter_In, in_seq. split.
    - intros [Hj H]. destruct (HD i j ltac:(lia) ltac:(lia)) as (E & _ & _). rewrite E in H. simpl in H. destruct (Rle_dec (Dr i j) eps); [|discriminate].
      repeat split; auto; lia.
    - intros (_ & Hj & H). split; [lia|]. destruct (HD i j ltac:(lia) ltac:(lia)) as (-> & _ & _). simpl. destruct (Rle_dec (Dr i j) eps); [reflexivity|contradiction]. }
  assert (CO : forall i, i < n -> (core i = true <-> is_core n Dr eps min_ts i)).
  { intros i Hi. unfold core, is_core, density. change (filter (fun j => at_most eps (D i j)) (seq 0 n)) with (nb i). rewrite Z.leb_le.
    assert (E : nb i = filter (fun j => if Rle_dec (Dr i j) eps then true else false) (seq 0 n)).
    { unfold nb. apply filter_ext_in. intros j Hj. apply in_seq in Hj. destruct (HD i j ltac:(lia) ltac:(lia)) as (-> & _ & _). reflexivity. }
    rewrite E. tauto. }
  assert (Hnb : forall i v, i < n -> In v (nb i) -> v < n) by (intros i v Hi H; apply NB in H; auto; apply H).
  destruct (inner_spec n core nb Hnb) as (starts & S1 & S2 & S3 & S4 & S5). set (lab := dbscan_inner n core nb) in *. clearbody lab.
  eexists. split; [reflexivity|]. unfold clustered. cbn [ts_labels core_ts_indices].
  set (z := fun i => match lab i with Some c => Z.of_nat c | None => (-1)%Z end).
  assert (LB : forall i, i < n -> nth i (map z (seq 0 n)) (-2)%Z = z i).
  { intros i Hi. rewrite (nth_indep _ (-2)%Z (z 0)) by (rewrite map_length, seq_length; auto). rewrite map_nth, seq_nth by auto. reflexivity. }
  assert (SYM : forall i j, near n Dr eps i j -> near n Dr eps j i).
  { intros i j (Hi & Hj & H). split; [auto|split; [auto|]]. destruct (HD i j Hi Hj) as (_ & _ & <-). auto. }
  assert (CL : forall i, is_core n Dr eps min_ts i -> exists c, lab i = Some c).
  { intros i Hi. pose proof (proj1 Hi). destruct (lab i) as [c|] eqn:E; [eauto|]. exfalso. apply (S2 i); auto. apply CO; auto. }
  assert (STEP : forall i j, is_core n Dr eps min_ts i -> is_core n Dr eps min_ts j -> near n Dr eps i j -> lab i = lab j).
  { intros i j Hi Hj Hn. destruct (CL i Hi) as (x & Ex). destruct (CL j Hj) as (y & Ey).
    destruct (S3 i j x (proj1 Hi) (proj2 (CO i (proj1 Hi)) Hi) Ex (proj2 (NB i j (proj1 Hi)) Hn)) as (y' & Hy & Ey').
    destruct (S3 j i y (proj1 Hj) (proj2 (CO j (proj1 Hj)) Hj) Ey (proj2 (NB j i (proj1 Hj)) (SYM _ _ Hn))) as (x' & Hx & Ex').
    assert (x' = x) by congruence. assert (y' = y) by congruence. rewrite Ex, Ey. f_equal. lia. }
  assert (LCORE : forall i j, linked n Dr eps min_ts i j -> is_core n Dr eps min_ts i /\ is_core n Dr eps min_ts j /\ lab i = lab j).
  { induction 1 as [i H|i j k L (I1 & I2 & I3) Hn Hk]; [auto|]. split; [auto|split; [auto|]]. rewrite I3. apply STEP; auto. }
  assert (LTRANS : forall i j k, linked n Dr eps min_ts i j -> linked n Dr eps min_ts j k -> linked n Dr eps min_ts i k).
  { intros i j k L1 L2. induction L2 as [j H|j q k L2 IH Hn Hk]; [auto|]. apply (linked_step _ _ _ _ i q k); auto. }
  assert (LSYM : forall i j, linked n Dr eps min_ts i j -> linked n Dr eps min_ts j i).
  { induction 1 as [i H|i j k L IH Hn Hk]; [constructor; auto|]. apply (LTRANS k j i); [|auto].
    apply (linked_step _ _ _ _ k k j); [constructor; auto|apply SYM; auto|apply (LCORE i j); auto]. }
  assert (FL : forall s i, is_core n Dr eps min_ts s -> from core nb s i -> i < n /\ (is_core n Dr eps min_ts i -> linked n Dr eps min_ts s i)).
  { intros s i Hs F. revert Hs. induction F as [i|i j k Ci Hj F IH]; intros Hi.
    - split; [apply Hi|]. constructor. auto.
    - pose proof (proj1 Hi) as Li. apply NB in Hj; auto. destruct F as [j|j q k Cj Hq F].
      + split; [apply Hj|]. intros Hk. apply (linked_step _ _ _ _ i i j); [constructor; auto|auto|auto].
      + assert (Hjc : is_core n Dr eps min_ts j) by (apply CO; [apply Hj|auto]). destruct (IH Hjc) as [IH1 IH2]. split; auto. intros Hk.
        apply (LTRANS i j k); [|auto]. apply (linked_step _ _ _ _ i i j); [constructor; auto|auto|auto]. }
  assert (ST : forall c, c < length starts -> is_core n Dr eps min_ts (nth c starts 0)).
  { intros c Hc. destruct (S4 c Hc) as (A & B & _). apply CO; auto. }
  split; [rewrite map_length, seq_length; reflexivity|]. split; [|split; [|split; [|split; [|split; [|split]]]]].
  - intros i. rewrite filter_In, in_seq. split; [intros [Hi C]; apply CO; [lia|auto]|]. intros Hi. pose proof (proj1 Hi). split; [lia|apply CO; auto].
  - apply filter_sorted.
  - intros i Hi. rewrite LB by apply Hi. destruct (CL i Hi) as (c & E). unfold z. rewrite E. lia.
  - intros i j Hi Hj. rewrite !LB by (apply Hi || apply Hj). destruct (CL i Hi) as (x & Ex). destruct (CL j Hj) as (y & Ey). unfold z. split.
    + rewrite Ex, Ey. intros Exy. assert (x = y) by lia. subst y. specialize (S4 x (S1 i x Ex)). destruct S4 as (_ & _ & _ & S4).
      apply (LTRANS i (nth x starts 0) j); [apply LSYM|]; (apply FL; [apply ST, (S1 i x Ex)|apply S4; auto|auto]).
    + intros L. destruct (LCORE i j L) as (_ & _ & ->). reflexivity.
  - intros j Hj NC. rewrite LB by auto. unfold z. split.
    + destruct (lab j) as [c|] eqn:E; [intros; lia|]. intros _ (i & Hi & Hn). destruct (CL i Hi) as (x & Ex).
      destruct (S3 i j x (proj1 Hi) (proj2 (CO i (proj1 Hi)) Hi) Ex (proj2 (NB i j (proj1 Hi)) Hn)) as (y & _ & Ey). congruence.
    + intros H. destruct (lab j) as [c|] eqn:E; [|reflexivity]. exfalso. apply H. pose proof (S1 j c E) as Hc. pose proof (ST c Hc) as Hs.
      destruct (S4 c Hc) as (_ & _ & _ & S4'). destruct (S4' j E) as [F _].
      destruct (near_refl_core_last core nb _ j F) as (k & Ck & Fk & Ik); [intros E'; rewrite E' in Hs; contradiction|].
      destruct (FL _ k Hs Fk) as [Lk _]. exists k. split; [apply CO; auto|apply NB; auto].
  - intros i j Hj NC Hi Hn. rewrite !LB by (apply Hi || auto). unfold z. destruct (CL i Hi) as (x & Ex). rewrite Ex.
    destruct (S3 i j x (proj1 Hi) (proj2 (CO i (proj1 Hi)) Hi) Ex (proj2 (NB i j (proj1 Hi)) Hn)) as (y & Hy & Ey). rewrite Ey. split; [lia|].
    pose proof (S1 j y Ey) as Hc. pose proof (ST y Hc) as Hs. destruct (S4 y Hc) as (_ & _ & Ls & S4'). destruct (S4' j Ey) as [F _].
    destruct (near_refl_core_last core nb _ j F) as (k & Ck & Fk & Ik); [intros E'; rewrite E' in Hs; contradiction|].
    destruct (FL _ k Hs Fk) as [Lk HL]. assert (Hk : is_core n Dr eps min_ts k) by (apply CO; auto). exists k. split; [auto|split; [apply NB; auto|]].
    rewrite LB by auto. unfold z. destruct (LCORE _ _ (HL Hk)) as (_ & _ & <-). rewrite Ls. reflexivity.
  - intros i c Hi Hc. rewrite LB in Hc by apply Hi. unfold z in Hc. destruct (CL i Hi) as (x & Ex). rewrite Ex in Hc.
    pose proof (S1 i x Ex) as Hx. assert (Hcn : Z.to_nat c < x) by lia. exists (nth (Z.to_nat c) starts 0).
    destruct (S4 (Z.to_nat c) ltac:(lia)) as (P1 & P2 & P3 & _). destruct (S4 x Hx) as (_ & _ & _ & Q). destruct (Q i Ex) as [_ Q'].
    specialize (Q' (proj2 (CO i (proj1 Hi)) Hi)). pose proof (S5 (Z.to_nat c) x ltac:(lia)).
    split; [lia|split; [apply ST; lia|]]. rewrite LB by auto. unfold z. rewrite P3. lia.
Qed.
Print Assumptions C125_clusters.

(** with the DTW metric: the distances are those of [dtw] *)
Theorem C125_dtw d ss eps min_ts g radius slope j :
  (forall s, In s ss -> real_series d s) -> not_itakura g slope -> g <> GcOther -> (0 <= or_default radius 1)%Z -> positive_slope slope ->
  valid_jobs j (length ss * (length ss - 1) / 2) ->
  exists Dr out, dbscan_dtw (map (fun s => Raw2 (lift s)) ss) eps min_ts g radius slope j = Ok out /\
    (forall i k, i < length ss -> k < length ss ->
       dtw (N:=Xnum) (Raw2 (lift (nth i ss []))) (Raw2 (lift (nth k ss []))) g radius slope = Ok (XR (Dr i k))) /\
    clustered (length ss) Dr eps min_ts out.
Proof.
  intros HS Hni Hg Hr Hp Hj.
  assert (HF : forall s, In s (map lift ss) -> @finite_series Xnum xfin d s).
  { intros s H. apply in_map_iff in H. destruct H as (x & <- & Hx). apply lift_finite. auto. }
  destruct (C10_cdist_dtw_self_pairwise Xnum xnn xfin Xlaws eq_refl d (map lift ss) g radius slope j HF Hni Hg Hr) as (M & EM & HM); [rewrite map_length; auto|].
  rewrite map_length in HM. rewrite map_map in EM.
  assert (EN : forall i, nth i (map lift ss) [] = lift (nth i ss [])) by (intros i; apply (map_nth lift ss [])).
  assert (HC : forall i k, i < length ss -> k < length ss -> exists v, (0 <= v)%R /\ M i k = XR v).
  { intros i k Hi Hk. specialize (HM i k Hi Hk). rewrite !EN in HM.
    assert (R1 : real_series d (nth i ss [])) by (apply HS, nth_In; auto). assert (R2 : real_series d (nth k ss [])) by (apply HS, nth_In; auto).
    assert (HA : exists A, constraint (length (nth i ss [])) (length (nth k ss [])) g radius slope A).
    { destruct Hni as [N1 N2]. destruct g; simpl in *; try contradiction; try congruence; try (eexists; split; [auto|reflexivity]);
        destruct N2 as [N2|N2]; try discriminate; subst slope; destruct radius; simpl in *; eexists; try split; auto. }
    destruct HA as (A & HA).
    destruct (dtw_value d _ _ g radius slope A _ R1 R2 Hp HA (all_paths_enum _ _ A (real_len _ _ R1) (real_len _ _ R2))) as (p & _ & _ & E).
    exists (sqrt (cost (costs (nth i ss []) (nth k ss [])) p)). split; [apply sqrt_pos|]. rewrite HM in E. injection E as E. exact E. }
  set (Dr := fun i k => match M i k with XR v => v | _ => 0%R end).
  assert (HD : forall i k, i < length ss -> k < length ss -> M i k = XR (Dr i k) /\ (0 <= Dr i k)%R).
  { intros i k Hi Hk. destruct (HC i k Hi Hk) as (v & Hv & E). unfold Dr. rewrite E. auto. }
  assert (PR : proper (N:=Xnum) d (map (fun s => Raw2 (lift s)) ss)).
  { apply lift_proper. auto. }
  destruct (C125_clusters (length ss) Dr M eps min_ts) as (out & Eo & Ho).
  { intros i k Hi Hk. destruct (HD i k Hi Hk) as [E1 E2]. split; [auto|split; [auto|]].
    destruct (C10_cdist_dtw_self Xnum eq_refl d (map (fun s => Raw2 (lift s)) ss) g radius slope j M PR) with (i := i) (k := k) as (Es & _);
      try (rewrite map_length; auto); auto.
    unfold Dr. rewrite Es. reflexivity. }
  exists Dr, out. split; [|split; [|exact Ho]].
  - unfold dbscan_dtw. match goal with |- bind ?a _ = _ => replace a with (Ok M) by (symmetry; exact EM) end. cbn [bind]. rewrite map_length. exact Eo.
  - intros i k Hi Hk. specialize (HM i k Hi Hk). rewrite !EN in HM. etransitivity; [exact HM|]. f_equal. apply HD; auto.
Qed.
Print Assumptions C125_dtw.
Example C125_dtw_instance : let ss := [[[0%R]]; [[1%R]; [2%R]]; [[1%R]]] in
  (forall s, In s ss -> real_series 1 s) /\ not_itakura GcSakoeChiba (Some 2%Q) /\ (0 <= or_default (Some 1) 1)%Z /\ positive_slope (Some 2%Q).
Proof.
  cbv zeta. split; [|split; [|split]].
  - intros s [<-|[<-|[<-|[]]]]; (split; [lia|split; [discriminate|intros r H; simpl in H; intuition (subst; reflexivity)]]).
  - split; [discriminate|left; reflexivity].
  - simpl. lia.
  - simpl. reflexivity.
Qed.

(** ** instances: matrices with entries 0 (the pair is near) and 1 *)
Definition of_graph (e : nat -> nat -> bool) (i j : nat) : R := if e i j then 0%R else 1%R.
Lemma of_graph_fit n e min_ts :
  dbscan_fit n (fun i j => XR (of_graph e i j)) (1/2) min_ts =
  let nb := fun i => filter (e i) (seq 0 n) in
  let core := fun i => (min_ts <=? Z.of_nat (length (nb i)))%Z in
  let lab := dbscan_inner n core nb in
  Ok {| core_ts_indices := filter core (seq 0 n);
        ts_labels := map (fun i => match lab i with Some c => Z.of_nat c | None => (-1)%Z end) (seq 0 n) |}.
Proof.
  unfold dbscan_fit, radius_neighbors.
  assert (EF : forallb (fun i => forallb (fun j => nonneg (XR (of_graph e i j))) (seq 0 n)) (seq 0 n) = true).
  { apply forallb_forall. intros i _. apply forallb_forall. intros j _. unfold of_graph. simpl. destruct (e i j); destruct Rle_dec; auto; lra. }
  rewrite EF.
  assert (EN : (fun i => filter (fun j => at_most (1/2) (XR (of_graph e i j))) (seq 0 n)) = (fun i => filter (e i) (seq 0 n))).
  { apply functional_extensionality. intros i. apply filter_ext. intros j. unfold of_graph. simpl. destruct (e i j); destruct Rle_dec; auto; lra. }
  rewrite EN. reflexivity.
Qed.
Lemma of_graph_sym n e : (forall i j, e i j = e j i) -> forall i j, i < n -> j < n ->
  XR (of_graph e i j) = XR (of_graph e i j) /\ (0 <= of_graph e i j)%R /\ of_graph e i j = of_graph e j i.
Proof. intros H i j _ _. split; [auto|]. unfold of_graph. rewrite (H i j). split; [destruct (e j i); lra|auto]. Qed.
Definition edges (l : list (nat * nat)) (i j : nat) : bool :=
  (i =? j) || existsb (fun p => ((fst p =? i) && (snd p =? j)) || ((fst p =? j) && (snd p =? i))) l.
Lemma edges_sym l i j : edges l i j = edges l j i.
Proof. unfold edges. rewrite (Nat.eqb_sym i j). f_equal. induction l as [|p l IH]; [reflexivity|]. cbn [existsb]. rewrite IH. f_equal. apply orb_comm. Qed.
(** two stars around the samples 0 and 3 which share the border sample 6; 7 is noise *)
Definition stars : nat -> nat -> bool := edges [(0,1); (0,2); (0,6); (3,4); (3,5); (3,6)].
Example C125_instance : exists out,
  dbscan_fit 8 (fun i j => XR (of_graph stars i j)) (1/2) 4 = Ok out /\ clustered 8 (of_graph stars) (1/2) 4 out /\
  core_ts_indices out = [0; 3] /\ ts_labels out = [0; 0; 0; 1; 1; 1; 0; -1]%Z.
Proof.
  destruct (C125_clusters 8 (of_graph stars) (fun i j => XR (of_graph stars i j)) (1/2) 4 (of_graph_sym 8 stars (edges_sym _))) as (out & E & H).
  exists out. split; [exact E|split; [exact H|]]. rewrite of_graph_fit in E. cbv zeta in E. injection E as <-. split; vm_compute; reflexivity.
Qed.

(** ** C126: does the clustering depend on the order of the series?
    [p] lists the old position of the series which is now at position [i]. *)
Definition reordering (n : nat) (p : nat -> nat) : Prop := Permutation (map p (seq 0 n)) (seq 0 n).
Lemma reordering_lt n p i : reordering n p -> i < n -> p i < n.
Proof. intros H Hi. assert (In (p i) (map p (seq 0 n))) by (apply in_map, in_seq; lia). apply (Permutation_in _ H) in H0. apply in_seq in H0. lia. Qed.
Lemma filter_perm_len {A} (f : A -> bool) l l' : Permutation l l' -> length (filter f l) = length (filter f l').
Proof. induction 1; simpl; auto; [destruct (f x); simpl; auto|destruct (f x), (f y); reflexivity|congruence]. Qed.
Lemma filter_map_len {A B} (f : B -> bool) (g : A -> B) l : length (filter f (map g l)) = length (filter (fun x => f (g x)) l).
Proof. induction l; simpl; auto. destruct (f (g a)); simpl; auto. Qed.
Section Reorder.
Context (n : nat) (Dr : nat -> nat -> R) (eps : R) (min_ts : Z) (p : nat -> nat) (Hp : reordering n p).
Let Dp i j := Dr (p i) (p j).
Lemma density_reorder i : density n Dp eps i = density n Dr eps (p i).
Proof. unfold density, Dp. rewrite <- (filter_perm_len (fun j => if Rle_dec (Dr (p i) j) eps then true else false) _ _ Hp). rewrite filter_map_len. reflexivity. Qed.
Lemma core_reorder i : i < n -> (is_core n Dp eps min_ts i <-> is_core n Dr eps min_ts (p i)).
Proof. intros Hi. unfold is_core. rewrite density_reorder. pose proof (reordering_lt n p i Hp Hi). tauto. Qed.
Lemma onto j : j < n -> exists i, i < n /\ p i = j.
Proof.
  intros Hj. assert (H : In j (map p (seq 0 n))) by (apply (Permutation_in _ (Permutation_sym Hp)), in_seq; lia).
  apply in_map_iff in H. destruct H as (i & E & H). apply in_seq in H. exists i. split; [lia|auto].
Qed.
Lemma one_to_one i j : i < n -> j < n -> p i = p j -> i = j.
Proof.
  intros Hi Hj E. assert (ND : NoDup (map p (seq 0 n))) by (apply (Permutation_NoDup (Permutation_sym Hp)), seq_NoDup).
  rewrite (NoDup_nth _ (p 0)) in ND. rewrite map_length, seq_length in ND. apply (ND i j Hi Hj). rewrite !map_nth, !seq_nth by auto. exact E.
Qed.
Lemma linked_reorder i j : linked n Dp eps min_ts i j -> linked n Dr eps min_ts (p i) (p j).
Proof.
  induction 1 as [i H|i j k L IH (H1 & H2 & H3) Hk].
  - constructor. apply core_reorder; [apply H|auto].
  - econstructor; [exact IH|split; [|split]|apply core_reorder; [apply Hk|auto]]; auto using reordering_lt.
Qed.
Lemma linked_reorder' a b : linked n Dr eps min_ts a b -> forall i j, i < n -> j < n -> p i = a -> p j = b -> linked n Dp eps min_ts i j.
Proof.
  induction 1 as [a H|a b c L IH (H1 & H2 & H3) Hc]; intros i j Hi Hj Ei Ej.
  - assert (i = j) by (apply one_to_one; congruence). subst j. constructor. apply core_reorder; [auto|congruence].
  - destruct (onto b H1) as (q & Hq & Eq). apply (linked_step _ _ _ _ i q j).
    + apply IH; auto.
    + split; [auto|split; [auto|]]. unfold Dp. rewrite Eq, Ej. auto.
    + apply core_reorder; [auto|congruence].
Qed.
End Reorder.

(** The core series, their partition and the noise do not depend on the order.  What is
    missing from C126 is the cluster of the border series. *)
Theorem C126_cores_partial n Dr D eps min_ts p :
  (forall i j, i < n -> j < n -> D i j = XR (Dr i j) /\ (0 <= Dr i j)%R /\ Dr i j = Dr j i) -> reordering n p ->
  exists out out', dbscan_fit n D eps min_ts = Ok out /\ dbscan_fit n (fun i j => D (p i) (p j)) eps min_ts = Ok out' /\
    let label i := nth i (ts_labels out) (-2)%Z in
    let label' i := nth i (ts_labels out') (-2)%Z in
    (forall i, i < n -> In i (core_ts_indices out') <-> In (p i) (core_ts_indices out)) /\
    (forall i j, In i (core_ts_indices out') -> In j (core_ts_indices out') -> label' i = label' j <-> label (p i) = label (p j)) /\
    (forall i, i < n -> label' i = (-1)%Z <-> label (p i) = (-1)%Z).
Proof.
  intros HD Hp. destruct (C125_clusters n Dr D eps min_ts HD) as (out & E & H).
  destruct (C125_clusters n (fun i j => Dr (p i) (p j)) (fun i j => D (p i) (p j)) eps min_ts) as (out' & E' & H').
  { intros i j Hi Hj. apply HD; eauto using reordering_lt. }
  exists out, out'. split; [exact E|split; [exact E'|]]. cbv zeta.
  destruct H as (_ & K1 & _ & K2 & K3 & K4 & _). destruct H' as (_ & K1' & _ & K2' & K3' & K4' & _).
  assert (CR := core_reorder n Dr eps min_ts p Hp).
  split; [|split].
  - intros i Hi. rewrite K1, K1'. apply CR. auto.
  - intros i j Hi Hj. apply K1' in Hi. apply K1' in Hj. pose proof (proj1 Hi). pose proof (proj1 Hj). rewrite (K3' i j Hi Hj). rewrite K3 by (apply CR; auto). split.
    + apply linked_reorder. auto.
    + intros L. apply (linked_reorder' n Dr eps min_ts p Hp _ _ L); auto.
  - intros i Hi. pose proof (reordering_lt n p i Hp Hi) as Hpi.
    assert (DC : is_core n Dr eps min_ts (p i) \/ ~ is_core n Dr eps min_ts (p i)).
    { unfold is_core. destruct (Z_le_dec min_ts (Z.of_nat (density n Dr eps (p i)))); [left; auto|right; tauto]. }
    destruct DC as [C|C].
    + pose proof (K2 _ C). pose proof (K2' i (proj2 (CR i Hi) C)). lia.
    + assert (C' : ~ is_core n (fun i j => Dr (p i) (p j)) eps min_ts i) by (intros X; apply C, CR; auto).
      rewrite (K4 _ Hpi C), (K4' i Hi C'). split; intros N (q & Q1 & Q2 & Q3 & Q4); apply N.
      * destruct (onto n p Hp q Q2) as (k & Hk & Ek). exists k. split; [apply CR; [auto|congruence]|]. split; [auto|split; [auto|congruence]].
      * exists (p q). split; [apply CR; auto|]. split; [eauto using reordering_lt|split; auto].
Qed.
Print Assumptions C126_cores_partial.
(** the two stars, the second one first *)
Definition swapped (i : nat) : nat := nth i [3; 4; 5; 0; 1; 2; 6; 7] i.
Example C126_instance : reordering 8 swapped.
Proof.
  unfold reordering. apply NoDup_Permutation_bis; [|simpl; lia|].
  - vm_compute. repeat constructor; simpl; intuition lia.
  - intros x Hx. vm_compute in Hx. apply in_seq. intuition lia.
Qed.
(** FALSE as stated: the cluster of a border series does.  The series 6 is with the
    series 0 in one order, and with the series 3 in the other. *)
Theorem C126_refuted :
  ~ forall n Dr eps min_ts p out out',
    (forall i j, i < n -> j < n -> (0 <= Dr i j)%R /\ Dr i j = Dr j i) -> reordering n p ->
    dbscan_fit n (fun i j => XR (Dr i j)) eps min_ts = Ok out ->
    dbscan_fit n (fun i j => XR (Dr (p i) (p j))) eps min_ts = Ok out' ->
    forall i j, i < n -> j < n ->
      (nth i (ts_labels out') (-2)%Z = nth j (ts_labels out') (-2)%Z <-> nth (p i) (ts_labels out) (-2)%Z = nth (p j) (ts_labels out) (-2)%Z).
Proof.
  intros H. specialize (H 8 (of_graph stars) (1/2)%R 4%Z swapped).
  pose proof (of_graph_fit 8 stars 4) as E1. pose proof (of_graph_fit 8 (fun i j => stars (swapped i) (swapped j)) 4) as E2.
  specialize (H _ _ (fun i j Hi Hj => proj2 (of_graph_sym 8 stars (edges_sym _) i j Hi Hj)) C126_instance E1 E2 0 6 ltac:(lia) ltac:(lia)).
  vm_compute in H. destruct H as [H _]. specialize (H eq_refl). discriminate.
Qed.
Print Assumptions C126_refuted.

(** ** C127: with a precomputed matrix, two core series within [eps] of each other in one
    direction share a cluster *)
Theorem C127_refuted :
  ~ forall n Dr eps min_ts out,
    (forall i j, i < n -> j < n -> (0 <= Dr i j)%R) -> (forall i, i < n -> Dr i i = 0%R) ->
    dbscan_fit n (fun i j => XR (Dr i j)) eps min_ts = Ok out ->
    forall i j, is_core n Dr eps min_ts i -> is_core n Dr eps min_ts j -> near n Dr eps i j ->
      nth i (ts_labels out) (-2)%Z = nth j (ts_labels out) (-2)%Z.
Proof.
  intros H. set (e := fun i j => j <=? i). specialize (H 2 (of_graph e) (1/2)%R 1%Z).
  pose proof (of_graph_fit 2 e 1) as E.
  assert (CO : forall i, i < 2 -> is_core 2 (of_graph e) (1/2) 1 i).
  { intros i Hi. split; [auto|]. unfold density.
    assert (In i (filter (fun j => if Rle_dec (of_graph e i j) (1/2) then true else false) (seq 0 2))).
    { apply filter_In. split; [apply in_seq; lia|]. unfold of_graph, e. rewrite Nat.leb_refl. destruct Rle_dec; auto; lra. }
    destruct (filter _ _); [contradiction|]. cbn [length]. lia. }
  specialize (H _ ltac:(intros i j _ _; unfold of_graph; destruct (e i j); lra) ltac:(intros i _; unfold of_graph, e; rewrite Nat.leb_refl; auto) E 1 0
    (CO 1 ltac:(lia)) (CO 0 ltac:(lia))).
  assert (N : near 2 (of_graph e) (1/2) 1 0) by (split; [lia|split; [lia|]]; unfold of_graph, e; simpl; lra).
  specialize (H N). vm_compute in H. discriminate.
Qed.
Print Assumptions C127_refuted.

(** What holds for every matrix, symmetric or not: a core series has a label, a series
    near a core series has a label that is not larger, core series linked in both
    directions share a cluster, and every cluster is reached from its first core series
    through core series. *)
Theorem C127_directed n Dr D eps min_ts :
  (forall i j, i < n -> j < n -> D i j = XR (Dr i j) /\ (0 <= Dr i j)%R) ->
  exists out, dbscan_fit n D eps min_ts = Ok out /\ let label i := nth i (ts_labels out) (-2)%Z in
    length (ts_labels out) = n /\
    (forall i, is_core n Dr eps min_ts i -> (0 <= label i)%Z) /\
    (forall i j, is_core n Dr eps min_ts i -> near n Dr eps i j -> (0 <= label j <= label i)%Z) /\
    (forall i j, linked n Dr eps min_ts i j -> linked n Dr eps min_ts j i -> label i = label j) /\
    (forall j, j < n -> (0 <= label j)%Z -> exists s, is_core n Dr eps min_ts s /\ label s = label j /\
       (is_core n Dr eps min_ts j -> s <= j /\ linked n Dr eps min_ts s j) /\
       (~ is_core n Dr eps min_ts j -> exists k, linked n Dr eps min_ts s k /\ near n Dr eps k j)).
Proof.
  intros HD. unfold dbscan_fit, radius_neighbors.
  assert (EF : forallb (fun i => forallb (fun j => nonneg (D i j)) (seq 0 n)) (seq 0 n) = true).
  { apply forallb_forall. intros i Hi. apply in_seq in Hi. apply forallb_forall. intros j Hj. apply in_seq in Hj.
    destruct (HD i j ltac:(lia) ltac:(lia)) as (-> & H0). simpl. destruct (Rle_dec 0 (Dr i j)); [reflexivity|contradiction]. }
  rewrite EF. cbn [bind]. set (nb := fun i => filter (fun j => at_most eps (D i j)) (seq 0 n)).
  set (core := fun i => (min_ts <=? Z.of_nat (length (filter (fun j => at_most eps (D i j)) (seq 0 n))))%Z).
  assert (NB : forall i j, i < n -> (In j (nb i) <-> near n Dr eps i j)).
  { intros i j Hi. unfold nb, near. rewrite filter_In, in_seq. split.
    - intros [Hj H]. destruct (HD i j ltac:(lia) ltac:(lia)) as (E & _). rewrite E in H. simpl in H. destruct (Rle_dec (Dr i j) eps); [|discriminate].
      repeat split; auto; lia.
    - intros (_ & Hj & H). split; [lia|]. destruct (HD i j ltac:(lia) ltac:(lia)) as (-> & _). simpl. destruct (Rle_dec (Dr i j) eps); [reflexivity|contradiction]. }
  assert (CO : forall i, i < n -> (core i = true <-> is_core n Dr eps min_ts i)).
  { intros i Hi. unfold core, is_core, density. change (filter (fun j => at_most eps (D i j)) (seq 0 n)) with (nb i). rewrite Z.leb_le.
    assert (E : nb i = filter (fun j => if Rle_dec (Dr i j) eps then true else false) (seq 0 n)).
    { unfold nb. apply filter_ext_in. intros j Hj. apply in_seq in Hj. destruct (HD i j ltac:(lia) ltac:(lia)) as (-> & _). reflexivity. }
    rewrite E. tauto. }
  assert (Hnb : forall i v, i < n -> In v (nb i) -> v < n) by (intros i v Hi H; apply NB in H; auto; apply H).
  destruct (inner_spec n core nb Hnb) as (starts & S1 & S2 & S3 & S4 & S5). set (lab := dbscan_inner n core nb) in *. clearbody lab.
  eexists. split; [reflexivity|]. cbn [ts_labels].
  set (z := fun i => match lab i with Some c => Z.of_nat c | None => (-1)%Z end).
  assert (LB : forall i, i < n -> nth i (map z (seq 0 n)) (-2)%Z = z i).
  { intros i Hi. rewrite (nth_indep _ (-2)%Z (z 0)) by (rewrite map_length, seq_length; auto). rewrite map_nth, seq_nth by auto. reflexivity. }
  assert (CL : forall i, is_core n Dr eps min_ts i -> exists c, lab i = Some c).
  { intros i Hi. pose proof (proj1 Hi). destruct (lab i) as [c|] eqn:E; [eauto|]. exfalso. apply (S2 i); auto. apply CO; auto. }
  assert (STEP : forall i j x, is_core n Dr eps min_ts i -> lab i = Some x -> near n Dr eps i j -> exists y, y <= x /\ lab j = Some y).
  { intros i j x Hi Ex Hn. apply (S3 i j x (proj1 Hi)); [apply CO; [apply Hi|auto]|auto|apply NB; [apply Hi|auto]]. }
  assert (LC : forall i j, linked n Dr eps min_ts i j -> is_core n Dr eps min_ts i /\ is_core n Dr eps min_ts j).
  { induction 1 as [i H|i j k L (I1 & I2) Hn Hk]; auto. }
  assert (LE : forall i j, linked n Dr eps min_ts i j -> forall x, lab i = Some x -> exists y, y <= x /\ lab j = Some y).
  { induction 1 as [i H|i j k L IH Hn Hk]; intros x Ex; [eauto|]. destruct (IH x Ex) as (y & Hy & Ey). destruct (STEP j k y) as (w & Hw & Ew); auto.
    - apply (LC i j L).
    - exists w. split; [lia|auto]. }
  assert (LTRANS : forall i j k, linked n Dr eps min_ts i j -> linked n Dr eps min_ts j k -> linked n Dr eps min_ts i k).
  { intros i j k L1 L2. induction L2 as [j H|j q k L2 IH Hn Hk]; [auto|]. apply (linked_step _ _ _ _ i q k); auto. }
  assert (FL : forall s i, is_core n Dr eps min_ts s -> from core nb s i -> i < n /\ (is_core n Dr eps min_ts i -> linked n Dr eps min_ts s i)).
  { intros s i Hs F. revert Hs. induction F as [i|i j k Ci Hj F IH]; intros Hi.
    - split; [apply Hi|]. constructor. auto.
    - pose proof (proj1 Hi) as Li. apply NB in Hj; auto. destruct F as [j|j q k Cj Hq F].
      + split; [apply Hj|]. intros Hk. apply (linked_step _ _ _ _ i i j); [constructor; auto|auto|auto].
      + assert (Hjc : is_core n Dr eps min_ts j) by (apply CO; [apply Hj|auto]). destruct (IH Hjc) as [IH1 IH2]. split; auto. intros Hk.
        apply (LTRANS i j k); [|auto]. apply (linked_step _ _ _ _ i i j); [constructor; auto|auto|auto]. }
  split; [rewrite map_length, seq_length; reflexivity|]. split; [|split; [|split]].
  - intros i Hi. rewrite LB by apply Hi. destruct (CL i Hi) as (c & E). unfold z. rewrite E. lia.
  - intros i j Hi Hn. rewrite !LB by apply Hn. destruct (CL i Hi) as (x & Ex). destruct (STEP i j x Hi Ex Hn) as (y & Hy & Ey). unfold z. rewrite Ex, Ey. lia.
  - intros i j L1 L2. destruct (LC i j L1) as [Hi Hj]. rewrite !LB by (apply Hi || apply Hj). destruct (CL i Hi) as (x & Ex).
    destruct (LE i j L1 x Ex) as (y & Hy & Ey). destruct (LE j i L2 y Ey) as (x' & Hx & Ex'). unfold z. rewrite Ex, Ey.
    assert (x' = x) by congruence. f_equal. lia.
  - intros j Hj Hl. rewrite LB in Hl |- * by auto. unfold z in Hl. destruct (lab j) as [c|] eqn:E; [|lia]. pose proof (S1 j c E) as Hc.
    destruct (S4 c Hc) as (A & B & Ls & Q). destruct (Q j E) as [F Q']. set (s := nth c starts 0) in *. assert (Hs : is_core n Dr eps min_ts s) by (apply CO; auto).
    exists s. split; [exact Hs|]. split; [rewrite LB by auto; unfold z; rewrite Ls, E; auto|]. split.
    + intros Hk. split; [apply Q'; apply CO; auto|]. apply FL; auto.
    + intros NC. destruct (near_refl_core_last core nb s j F) as (k & Ck & Fk & Ik); [intros E'; rewrite <- E' in NC; contradiction|].
      destruct (FL s k Hs Fk) as [Lk HL]. assert (Hk : is_core n Dr eps min_ts k) by (apply CO; auto). exists k. split; [auto|apply NB; auto].
Qed.
Print Assumptions C127_directed.
(** an asymmetric matrix: series 0 and 1 near each other in both directions, 2 sees 0 but not conversely *)
Example C127_nontrivial : exists out,
  dbscan_fit 3 (fun i j => XR (of_graph (fun i j => (i =? j) || (i + j =? 1) || ((i =? 2) && (j =? 0))) i j)) (1/2) 2 = Ok out /\ ts_labels out = [0; 0; 1]%Z.
Proof. eexists. split; [apply of_graph_fit|vm_compute; reflexivity]. Qed.

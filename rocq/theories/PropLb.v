(** Properties C21 and C22: LB_Keogh and its envelope. *)
From Coq Require Import Bool List Arith ZArith QArith Lia Reals Lra.
From Verif Require Import Num NumLaws Py Series Masks DtwModel Spec SpecDtw DpProofs DtwProofs DtwThms DtwExact RList LbModel.
Import ListNotations.
Local Open Scope nat_scope.

Lemma nth_map_seq {A} (f : nat -> A) n i d : i < n -> nth i (map f (seq 0 n)) d = f i.
Proof. intros H. rewrite (nth_indep _ d (f 0)) by (rewrite map_length, seq_length; auto). rewrite map_nth, seq_nth by auto. reflexivity. Qed.

Lemma env_window_in ts r i x : i < length ts ->
  (In x (env_window ts r i) <-> exists k, k < length ts /\ k <= i + r /\ i <= k + r /\ nth k ts 0%R = x).
Proof.
  intros Hi. unfold env_window. rewrite (in_slice_iff _ _ _ _ 0%R).
  destruct (Nat.ltb_spec (length ts) (i + r + 1)); split; intros (k & A & B & C); exists k; repeat split; auto; try lia; tauto.
Qed.
Lemma env_window_ne ts r i : i < length ts -> env_window ts r i <> [].
Proof.
  intros Hi E. assert (X : In (nth i ts 0%R) (env_window ts r i)) by (apply env_window_in; auto; exists i; repeat split; auto; lia).
  rewrite E in X. contradiction.
Qed.

(** [v] is the least (largest) value of the series within distance [r] of index [i] *)
Definition window_min (ts : list R) (r i : nat) (v : R) : Prop :=
  (exists k, k < length ts /\ k <= i + r /\ i <= k + r /\ nth k ts 0%R = v) /\
  (forall k, k < length ts -> k <= i + r -> i <= k + r -> (v <= nth k ts 0)%R).
Definition window_max (ts : list R) (r i : nat) (v : R) : Prop :=
  (exists k, k < length ts /\ k <= i + r /\ i <= k + r /\ nth k ts 0%R = v) /\
  (forall k, k < length ts -> k <= i + r -> i <= k + r -> (nth k ts 0 <= v)%R).

(** ** C22 *)
Theorem C22_envelope_is_window_extremum : forall ts r i, i < length ts ->
  let (down, up) := lb_envelope ts r in
  length down = length ts /\ length up = length ts /\
  window_min ts r i (nth i down 0%R) /\ window_max ts r i (nth i up 0%R).
Proof.
  intros ts r i Hi. unfold lb_envelope. rewrite !map_length, !seq_length, !nth_map_seq by auto.
  pose proof (env_window_ne ts r i Hi) as Ne.
  split; auto. split; auto. split; split.
  - apply env_window_in; auto. apply rmin_in; auto.
  - intros k A B C. apply rmin_le. apply env_window_in; eauto.
  - apply env_window_in; auto. apply rmax_in; auto.
  - intros k A B C. apply rmax_ge. apply env_window_in; eauto.
Qed.
Print Assumptions C22_envelope_is_window_extremum.

Theorem C22_envelope_encloses : forall ts r i, i < length ts ->
  let (down, up) := lb_envelope ts r in (nth i down 0 <= nth i ts 0 <= nth i up 0)%R.
Proof.
  intros ts r i Hi. pose proof (C22_envelope_is_window_extremum ts r i Hi) as H.
  destruct (lb_envelope ts r) as [down up]. destruct H as (_ & _ & [_ H1] & [_ H2]).
  split; [apply H1|apply H2]; auto; lia.
Qed.
Print Assumptions C22_envelope_encloses.

Theorem C22_envelope_widens : forall ts r r' i, i < length ts -> r <= r' ->
  let (down, up) := lb_envelope ts r in let (down', up') := lb_envelope ts r' in
  (nth i down' 0 <= nth i down 0)%R /\ (nth i up 0 <= nth i up' 0)%R.
Proof.
  intros ts r r' i Hi Hr. pose proof (C22_envelope_is_window_extremum ts r i Hi) as H. pose proof (C22_envelope_is_window_extremum ts r' i Hi) as H'.
  destruct (lb_envelope ts r) as [down up]. destruct (lb_envelope ts r') as [down' up'].
  destruct H as (_ & _ & [(k & A & B & C & <-) _] & [(k2 & A2 & B2 & C2 & <-) _]). destruct H' as (_ & _ & [_ H1] & [_ H2]).
  split; [apply H1|apply H2]; auto; lia.
Qed.
Print Assumptions C22_envelope_widens.
Example C22_nontrivial : lb_envelope [1; 5; 2]%R 1 = ([1; 1; 2], [5; 5; 5])%R.
Proof.
  unfold lb_envelope, env_window, slice. simpl. unfold Rmin, Rmax.
  repeat match goal with |- context [Rle_dec ?a ?b] => destruct (Rle_dec a b); try lra end; reflexivity.
Qed.

(** ** C21 *)
Definition contrib (q down up : list R) (i : nat) : R :=
  let x := nth i q 0%R in
  ((if Rltb (nth i up 0) x then (x - nth i up 0) * (x - nth i up 0) else 0) +
   (if Rltb x (nth i down 0) then (x - nth i down 0) * (x - nth i down 0) else 0))%R.

Lemma norm_sq l : (norm l * norm l)%R = rsum (map (fun x => x * x)%R l).
Proof.
  unfold norm. rewrite sqrt_sqrt; auto. apply rsum_nonneg. intros x Hx. apply in_map_iff in Hx. destruct Hx as (y & <- & _).
  apply Rle_0_sqr.
Qed.
Lemma combine_seq (l1 l2 : list R) : length l1 = length l2 -> combine l1 l2 = map (fun i => (nth i l1 0%R, nth i l2 0%R)) (seq 0 (length l1)).
Proof.
  revert l2. induction l1 as [|x l1 IH]; intros [|y l2] H; simpl in *; try discriminate; auto.
  f_equal. rewrite IH by lia. rewrite <- seq_shift, map_map. reflexivity.
Qed.
Lemma lb_keogh_contrib q c r : length q = length c ->
  let (down, up) := lb_envelope c r in
  lb_keogh q c r = Ok (sqrt (rsum (map (contrib q down up) (seq 0 (length q))))).
Proof.
  intros H. unfold lb_keogh. destruct (lb_envelope c r) as [down up] eqn:E. rewrite H, Nat.eqb_refl. simpl negb. cbv iota.
  unfold lb_envelope in E. inversion E. clear E.
  assert (Ld : length down = length q) by (subst; rewrite map_length, seq_length; auto).
  assert (Lu : length up = length q) by (subst; rewrite map_length, seq_length; auto).
  rewrite H1, H2. clear H1 H2. rewrite !norm_sq, !map_map. f_equal. f_equal.
  rewrite !rsum_filter. rewrite !combine_seq by congruence. rewrite !map_map. rewrite <- rsum_map_plus. rewrite H. reflexivity.
Qed.

Section Lb.
Variables (q c : list R) (r : nat).
Hypothesis Hlen : length q = length c.
Notation n := (length q).
Definition col (l : list R) : list (list Xnum) := map (fun x => [XR x]) l.

Lemma col_nth l i : i < length l -> nth i (col l) [] = [XR (nth i l 0%R)].
Proof. intros H. unfold col. rewrite (nth_indep _ [] [XR 0%R]) by (rewrite map_length; auto). rewrite map_nth with (d := 0%R). reflexivity. Qed.
Lemma local_col i j : i < n -> j < n ->
  local_costs (N:=Xnum) (col q) (col c) i j = XR ((nth i q 0 - nth j c 0) * (nth i q 0 - nth j c 0))%R.
Proof.
  intros Hi Hj. unfold local_costs. rewrite !col_nth by lia. unfold sq_euclid. simpl. unfold xsub, xopp. simpl. f_equal. ring.
Qed.
Lemma contrib_le i j : i < n -> j < n -> band n n (Z.of_nat r) i j = true ->
  let (down, up) := lb_envelope c r in
  (contrib q down up i <= (nth i q 0 - nth j c 0) * (nth i q 0 - nth j c 0))%R.
Proof.
  intros Hi Hj Hb. assert (Hi' : i < length c) by lia.
  pose proof (C22_envelope_is_window_extremum c r i Hi') as H. destruct (lb_envelope c r) as [down up].
  destruct H as (_ & _ & [_ H1] & [_ H2]).
  assert (Hij : j <= i + r /\ i <= j + r) by (unfold band in Hb; apply andb_true_iff in Hb; rewrite !Z.leb_le in Hb; lia).
  specialize (H1 j ltac:(lia) ltac:(lia) ltac:(lia)). specialize (H2 j ltac:(lia) ltac:(lia) ltac:(lia)).
  unfold contrib. set (x := nth i q 0%R) in *. set (y := nth j c 0%R) in *. set (u := nth i up 0%R) in *. set (d := nth i down 0%R) in *.
  pose proof (Rle_0_sqr (x - y)) as Sq. unfold Rsqr in Sq.
  destruct (Rltb u x) eqn:E1, (Rltb x d) eqn:E2; rewrite ?Rltb_true, ?Rltb_false in *; try lra; nra.
Qed.
Lemma path_lb i j p : i < n -> j < n -> rpath (band n n (Z.of_nat r)) i j p ->
  let (down, up) := lb_envelope c r in
  exists x, rcost Xnum (nadd (n:=Xnum)) (local_costs (N:=Xnum) (col q) (col c)) p = XR x /\
    (rsum (map (contrib q down up) (seq 0 (S i))) <= x)%R.
Proof.
  intros Hi Hj H. pose proof contrib_le as CL. destruct (lb_envelope c r) as [down up].
  induction H as [H0|i j i' j' p H IH Hm Ho].
  - exists ((nth 0 q 0 - nth 0 c 0) * (nth 0 q 0 - nth 0 c 0))%R. split.
    + cbn [rcost fold_right fst snd]. rewrite local_col by auto. simpl. f_equal. ring.
    + simpl. pose proof (CL 0 0 Hi Hj H0). lra.
  - assert (Hij : i < n /\ j < n /\ (i' = S i \/ i' = i)) by (unfold move in Hm; simpl in Hm; lia).
    destruct IH as (x & E & Hx); try tauto.
    exists ((nth i' q 0 - nth j' c 0) * (nth i' q 0 - nth j' c 0) + x)%R. split.
    + cbn [rcost fold_right fst snd]. fold (rcost Xnum (nadd (n:=Xnum)) (local_costs (N:=Xnum) (col q) (col c)) p).
      rewrite E, local_col by auto. reflexivity.
    + pose proof (CL i' j' Hi Hj Ho) as C. pose proof (Rle_0_sqr (nth i' q 0 - nth j' c 0)%R) as Sq. unfold Rsqr in Sq.
      destruct Hij as (_ & _ & [->| ->]); [|lra].
      rewrite (seq_S (S i)), map_app, rsum_app. cbn [map rsum fold_right Nat.add]. fold (rsum (map (contrib q down up) (seq 0 (S i)))). lra.
Qed.
End Lb.

(** Equal-length univariate series; dtw is the modelled function on exact numbers. *)
Theorem C21_lb_keogh_lower_bound : forall (q c : list R) (r : nat), length q = length c -> q <> [] ->
  exists lb v, lb_keogh q c r = Ok lb /\
    dtw (N:=Xnum) (Raw1 (N:=Xnum) (map XR q)) (Raw1 (N:=Xnum) (map XR c)) GcSakoeChiba (Some (Z.of_nat r)) None = Ok (XR v) /\
    (lb <= v)%R.
Proof.
  intros q c r Hlen Hne. pose proof (lb_keogh_contrib q c r Hlen) as E. pose proof (path_lb q c r Hlen) as PL.
  destruct (lb_envelope c r) as [down up].
  assert (Hn : 0 < length q) by (destruct q; [congruence|simpl; lia]).
  assert (F : forall l, 0 < length l -> finite_series (N:=Xnum) xfin 1 (col l)).
  { intros l Hl. split; [lia|]. split; [destruct l; [simpl in Hl; lia|discriminate]|]. intros row Hr. apply in_map_iff in Hr.
    destruct Hr as (x & <- & _). split; [reflexivity|]. intros y [<-|[]]. exact I. }
  assert (Lq : length (col q) = length q) by apply map_length. assert (Lc : length (col c) = length q) by (unfold col; rewrite map_length; auto).
  assert (Ed : dtw (N:=Xnum) (Raw1 (N:=Xnum) (map XR q)) (Raw1 (N:=Xnum) (map XR c)) GcSakoeChiba (Some (Z.of_nat r)) None =
               dtw (N:=Xnum) (Raw2 (col q)) (Raw2 (col c)) GcSakoeChiba (Some (Z.of_nat r)) None).
  { unfold dtw, elastic, validated, to_time_series, reshape, col. rewrite !map_map. reflexivity. }
  assert (Hc : constraint (length (col q)) (length (col c)) GcSakoeChiba (Some (Z.of_nat r)) None (band (length q) (length q) (Z.of_nat r))).
  { rewrite Lq, Lc. split; [simpl; lia|reflexivity]. }
  destruct (elastic_optimal Xnum xnn xfin Xlaws _ _ (comb_laws_dtw Xnum xnn xfin Xlaws) (dtw_op Xnum xnn) 1 (col q) (col c)
     (F q Hn) (F c ltac:(lia)) GcSakoeChiba (Some (Z.of_nat r)) None _ Hc) as (w & Ew & Hw & _ & Hatt).
  rewrite Lq, Lc in Hatt.
  destruct Hatt as [(p & Hp & Hcost)|[Hno _]].
  - apply wpath_rpath in Hp; auto.
    destruct (PL (length q - 1) (length q - 1) (rev p) ltac:(lia) ltac:(lia) Hp) as (x & Ex & Hx).
    rewrite rcost_path_cost, rev_involutive in Ex. replace (S (length q - 1)) with (length q) in Hx by lia.
    exists (sqrt (rsum (map (contrib q down up) (seq 0 (length q))))), (sqrt x). split; auto. split.
    + rewrite Ed. unfold dtw. rewrite Ew. f_equal. rewrite <- Hcost, Ex. simpl. unfold Rleb.
      destruct (Rle_dec 0 x); auto. exfalso. apply n. rewrite <- Hcost, Ex in Hw. exact Hw.
    + apply sqrt_le_1_alt. auto.
  - exfalso. destruct (band_feasible (length q) (length q) (Z.of_nat r) ltac:(lia) Hn Hn) as (p & Hp). eapply Hno; eauto.
Qed.
Print Assumptions C21_lb_keogh_lower_bound.

(** the bound is not trivially zero *)
Example C21_nontrivial : lb_keogh [0; 9]%R [3; 5]%R 0 = Ok 5%R.
Proof.
  pose proof (lb_keogh_contrib [0; 9]%R [3; 5]%R 0 eq_refl) as H. 
  assert (E : lb_envelope [3; 5]%R 0 = ([3; 5], [3; 5])%R) by reflexivity. rewrite E in H. rewrite H. f_equal.
  unfold contrib. simpl. unfold Rltb.
  repeat match goal with |- context [Rlt_dec ?a ?b] => destruct (Rlt_dec a b); try lra end.
  apply sqrt_lem_1; lra.
Qed.

(** Itakura masks: feasibility and symmetry. *)
From Coq Require Import Bool List Arith ZArith QArith Qround Lia Lqa.
From Verif Require Import Num Py Masks Spec DpProofs DtwProofs.
Import ListNotations.
Local Open Scope nat_scope.

Lemma mask_from_bounds_spec n m lb ub i j : j < m ->
  mask_from_bounds n m lb ub i j = in_slice n (lb j) (ub j) i.
Proof. intros Hj. unfold mask_from_bounds. rewrite fold_set_col, existsb_seq by auto. reflexivity. Qed.

Lemma in_slice_nonneg n lo hi i : (0 <= lo)%Z -> (0 <= hi)%Z -> i < n ->
  in_slice n lo hi i = true <-> (lo <= Z.of_nat i < hi)%Z.
Proof.
  intros Hlo Hhi Hi. unfold in_slice, slice_bound.
  destruct (Z.ltb_spec lo 0); [lia|]. destruct (Z.ltb_spec hi 0); [lia|].
  rewrite andb_true_iff, Z.leb_le, Z.ltb_lt. lia.
Qed.

Lemma rows_ok_spec n m mk : rows_ok n m mk = true <-> forall i, i < n -> exists j, j < m /\ mk i j = true.
Proof.
  unfold rows_ok. rewrite forallb_forall. split.
  - intros H i Hi. specialize (H i). rewrite existsb_exists in H.
    destruct H as (j & Hj & E); [apply in_seq; lia|]. apply in_seq in Hj. exists j. split; [lia|auto].
  - intros H i Hi. apply in_seq in Hi. destruct (H i) as (j & Hj & E); [lia|].
    apply existsb_exists. exists j. split; auto. apply in_seq; lia.
Qed.
Lemma cols_ok_spec n m mk : cols_ok n m mk = true <-> forall j, j < m -> exists i, i < n /\ mk i j = true.
Proof.
  unfold cols_ok. rewrite forallb_forall. split.
  - intros H j Hj. specialize (H j). rewrite existsb_exists in H.
    destruct H as (i & Hi & E); [apply in_seq; lia|]. apply in_seq in Hi. exists i. split; [lia|auto].
  - intros H j Hj. apply in_seq in Hj. destruct (H j) as (i & Hi & E); [lia|].
    apply existsb_exists. exists i. split; auto. apply in_seq; lia.
Qed.

Section Feasible.
Variables (n m : nat) (lb ub : nat -> Z).
Hypothesis Hn : 0 < n.
Hypothesis Hm : 0 < m.
Hypothesis Hlb : forall j, j < m -> (0 <= lb j)%Z.
Hypothesis Hub : forall j, j < m -> (0 <= ub j)%Z.
Hypothesis Mlb : forall j, S j < m -> (lb j <= lb (S j))%Z.
Hypothesis Mub : forall j, S j < m -> (ub j <= ub (S j))%Z.
Variable mk : mask_t.
Hypothesis Hmk : checked_mask n m lb ub = Ok mk.

Lemma mk_spec i j : i < n -> j < m -> mk i j = true <-> (lb j <= Z.of_nat i < ub j)%Z.
Proof.
  intros Hi Hj. unfold checked_mask in Hmk. destruct (_ && _); [|discriminate].
  inversion Hmk. rewrite mask_from_bounds_spec by auto. apply in_slice_nonneg; auto.
Qed.
Lemma mk_rows i : i < n -> exists j, j < m /\ mk i j = true.
Proof.
  unfold checked_mask in Hmk. destruct (rows_ok n m _) eqn:E; [|discriminate].
  destruct (cols_ok n m _); [|discriminate]. simpl in Hmk. inversion Hmk; subst.
  apply rows_ok_spec. auto.
Qed.
Lemma mk_cols j : j < m -> exists i, i < n /\ mk i j = true.
Proof.
  unfold checked_mask in Hmk. destruct (rows_ok n m _); [|discriminate].
  destruct (cols_ok n m _) eqn:E; [|discriminate]. simpl in Hmk. inversion Hmk; subst.
  apply cols_ok_spec. auto.
Qed.
Lemma mono_le (f : nat -> Z) : (forall j, S j < m -> (f j <= f (S j))%Z) ->
  forall a b, a <= b -> b < m -> (f a <= f b)%Z.
Proof. intros Hf a b Hab. induction Hab as [|b Hab IH]; intros Hb; [lia|]. specialize (Hf b Hb). specialize (IH ltac:(lia)). lia. Qed.

(** topmost allowed row of column [j] *)
Definition top (j : nat) : nat := Z.to_nat (Z.min (ub j) (Z.of_nat n) - 1).
Lemma col_range j : j < m -> (lb j < Z.of_nat n)%Z /\ (lb j < ub j)%Z.
Proof. intros Hj. destruct (mk_cols j Hj) as (i & Hi & E). apply mk_spec in E; auto. lia. Qed.
Lemma top_ok j : j < m -> top j < n /\ mk (top j) j = true.
Proof.
  intros Hj. destruct (col_range j Hj). pose proof (Hlb j Hj).
  assert (top j < n) by (unfold top; lia). split; auto. apply mk_spec; auto. unfold top. lia.
Qed.
Lemma gap j : S j < m -> (lb (S j) <= ub j)%Z.
Proof.
  intros Hj. destruct (Z.le_gt_cases (lb (S j)) (ub j)) as [|Hgt]; auto. exfalso.
  destruct (col_range (S j) Hj). pose proof (Hub j ltac:(lia)) as Hu.
  destruct (mk_rows (Z.to_nat (ub j))) as (c & Hc & E); [lia|].
  apply mk_spec in E; [|lia|auto]. rewrite Z2Nat.id in E by auto.
  destruct (le_lt_dec c j).
  - pose proof (mono_le ub Mub c j ltac:(lia) ltac:(lia)). lia.
  - pose proof (mono_le lb Mlb (S j) c ltac:(lia) ltac:(lia)). lia.
Qed.
Lemma climb i k j p : i + k < n -> j < m -> rpath mk i j p ->
  (Z.of_nat (i + k) < ub j)%Z -> (lb j <= Z.of_nat i)%Z -> exists q, rpath mk (i + k) j q.
Proof.
  revert i p. induction k as [|k IH]; intros i p Hik Hj Hp Hu Hl.
  - rewrite Nat.add_0_r. eauto.
  - replace (i + S k) with (S i + k) in * by lia.
    apply (IH (S i) ((S i, j) :: p)); auto; [|lia].
    econstructor; eauto; [unfold move; simpl; lia|]. apply mk_spec; auto; lia.
Qed.
Lemma reach_top j : j < m -> exists p, rpath mk (top j) j p.
Proof.
  induction j as [|j IH]; intros Hj.
  - destruct (mk_rows 0 Hn) as (c & Hc & E). apply mk_spec in E; auto.
    pose proof (mono_le lb Mlb 0 c ltac:(lia) Hc).
    destruct (col_range 0 Hj). pose proof (Hlb 0 Hj).
    destruct (climb 0 (top 0) 0 [(0, 0)]) as (q & Hq); auto.
    + simpl. apply top_ok; auto.
    + constructor. apply mk_spec; auto. lia.
    + unfold top. lia.
    + lia.
    + eauto.
  - destruct IH as (p & Hp); [lia|].
    destruct (top_ok j ltac:(lia)) as [T1 T2]. destruct (top_ok (S j) Hj) as [T3 T4].
    pose proof (gap j Hj) as G. pose proof (Mub j Hj). pose proof (Mlb j Hj).
    destruct (col_range (S j) Hj) as [R1 R2]. destruct (col_range j ltac:(lia)) as [R3 R4].
    pose proof (Hlb j ltac:(lia)) as L1. pose proof (Hlb (S j) Hj) as L2.
    set (e := Nat.max (top j) (Z.to_nat (lb (S j)))).
    assert (He : e = top j \/ e = S (top j)) by (unfold e, top; lia).
    assert (Hem : mk e (S j) = true).
    { apply mk_spec; auto; [unfold e, top; lia|]. unfold e, top. lia. }
    assert (He2 : e <= top (S j)) by (unfold e, top; lia).
    destruct (climb e (top (S j) - e) (S j) ((e, S j) :: p)) as (q & Hq); auto.
    + lia.
    + econstructor; eauto. unfold move; simpl. lia.
    + unfold top. unfold top in He2. lia.
    + unfold e. lia.
    + replace (e + (top (S j) - e)) with (top (S j)) in Hq by lia. eauto.
Qed.
(** every allowed cell can be reached from the first cell *)
Lemma reach_all j : j < m -> forall i, i < n -> mk i j = true -> exists p, rpath mk i j p.
Proof.
  induction j as [|j IH]; intros Hj i Hi Hij; apply mk_spec in Hij; auto.
  - destruct (mk_rows 0 Hn) as (c & Hc & E). apply mk_spec in E; auto.
    pose proof (mono_le lb Mlb 0 c ltac:(lia) Hc). pose proof (Hlb 0 Hj).
    destruct (climb 0 i 0 [(0, 0)]) as (q & Hq); auto; try lia.
    + constructor. apply mk_spec; auto. lia.
    + eauto.
  - pose proof (gap j Hj) as G. pose proof (Mlb j Hj). destruct (col_range j ltac:(lia)) as [R3 R4].
    pose proof (Hlb j ltac:(lia)) as L1. pose proof (Hlb (S j) Hj) as L2.
    destruct (col_range (S j) Hj) as [R1 R2].
    set (l := Z.to_nat (lb (S j))).
    assert (El : Z.of_nat l = lb (S j)) by (unfold l; lia).
    assert (Hl : mk l (S j) = true) by (apply mk_spec; auto; lia).
    assert (K : exists p, rpath mk l (S j) ((l, S j) :: p)).
    { destruct (Z.lt_ge_cases (lb (S j)) (ub j)) as [C|C].
      - destruct (IH ltac:(lia) l ltac:(lia)) as (p & Hp); [apply mk_spec; lia|].
        exists p. econstructor; eauto. unfold move; simpl; lia.
      - destruct (IH ltac:(lia) (l - 1) ltac:(lia)) as (p & Hp); [apply mk_spec; lia|].
        exists p. econstructor; eauto. unfold move; simpl; lia. }
    destruct K as (p & Hp).
    destruct (climb l (i - l) (S j) _ ltac:(lia) Hj Hp ltac:(lia) ltac:(lia)) as (q & Hq).
    replace (l + (i - l)) with i in Hq by lia. eauto.
Qed.
Theorem bounds_feasible : exists p, warping_path n m mk p.
Proof.
  destruct (reach_top (m - 1)) as (p & Hp); [lia|].
  assert (Ht : top (m - 1) = n - 1).
  { destruct (mk_rows (n - 1)) as (c & Hc & E); [lia|]. apply mk_spec in E; auto; [|lia].
    pose proof (mono_le ub Mub c (m - 1) ltac:(lia) ltac:(lia)). unfold top. lia. }
  rewrite Ht in Hp. exists (rev p). apply rpath_spec in Hp. exact Hp.
Qed.
End Feasible.

(** ** rounding to two decimals *)
Local Open Scope Q_scope.
Lemma rhe_char q : let z := Qround_half_even q in
  inject_Z z - (1 # 2) <= q /\ q <= inject_Z z + (1 # 2).
Proof.
  unfold Qround_half_even. cbv zeta.
  pose proof (Qfloor_le q) as H1. pose proof (Qlt_floor q) as H2.
  rewrite inject_Z_plus in H2.
  destruct (Qcompare_spec (q - inject_Z (Qfloor q)) (1 # 2)) as [E|E|E].
  - destruct (Z.even (Qfloor q)); rewrite ?inject_Z_plus; change (inject_Z 1) with 1 in *; split; lra.
  - split; lra.
  - rewrite inject_Z_plus. change (inject_Z 1) with 1 in *. split; lra.
Qed.
(** at a tie the result is even *)
Lemma rhe_tie q : let z := Qround_half_even q in
  (q == inject_Z z - (1 # 2) \/ q == inject_Z z + (1 # 2)) -> Z.even z = true.
Proof.
  unfold Qround_half_even. cbv zeta.
  pose proof (Qfloor_le q) as H1. pose proof (Qlt_floor q) as H2. rewrite inject_Z_plus in H2.
  change (inject_Z 1) with 1 in *.
  destruct (Qcompare_spec (q - inject_Z (Qfloor q)) (1 # 2)) as [E|E|E].
  - intros _. destruct (Z.even (Qfloor q)) eqn:Ev; auto. rewrite Z.even_add, Ev. reflexivity.
  - intros [H|H]; lra.
  - rewrite inject_Z_plus. change (inject_Z 1) with 1 in *. intros [H|H]; lra.
Qed.
Lemma inject_Z_lt_inv a b : inject_Z a < inject_Z b -> (a < b)%Z.
Proof. rewrite <- Zlt_Qlt. auto. Qed.
Lemma rhe_mono a b : a <= b -> (Qround_half_even a <= Qround_half_even b)%Z.
Proof.
  intros H. destruct (Z.le_gt_cases (Qround_half_even a) (Qround_half_even b)) as [|Hgt]; auto. exfalso.
  destruct (rhe_char a) as [A1 A2]. destruct (rhe_char b) as [B1 B2].
  assert (Hz : inject_Z (Qround_half_even b) + 1 <= inject_Z (Qround_half_even a)).
  { change 1 with (inject_Z 1). rewrite <- inject_Z_plus, <- Zle_Qle. lia. }
  (* both are ties, the results differ by one and are both even *)
  assert (E : inject_Z (Qround_half_even a) == inject_Z (Qround_half_even b) + 1) by lra.
  assert (Ta : Z.even (Qround_half_even a) = true) by (apply rhe_tie; left; lra).
  assert (Tb : Z.even (Qround_half_even b) = true) by (apply rhe_tie; right; lra).
  change 1 with (inject_Z 1) in E. rewrite <- inject_Z_plus in E. rewrite inject_Z_injective in E.
  rewrite E, Z.even_add, Tb in Ta. discriminate.
Qed.
Lemma rhe_unique q z : (inject_Z z - (1 # 2) <= q) -> q <= inject_Z z + (1 # 2) ->
  ((q == inject_Z z - (1 # 2) \/ q == inject_Z z + (1 # 2)) -> Z.even z = true) ->
  Qround_half_even q = z.
Proof.
  intros H1 H2 H3. destruct (rhe_char q) as [C1 C2]. pose proof (rhe_tie q) as T. cbv zeta in T.
  set (w := Qround_half_even q) in *.
  assert (D : (w = z \/ w = z + 1 \/ w = z - 1)%Z).
  { assert (inject_Z w <= inject_Z (z + 1)) by (rewrite inject_Z_plus; change (inject_Z 1) with 1; lra).
    assert (inject_Z (z - 1) <= inject_Z w).
    { unfold Z.sub. rewrite inject_Z_plus. change (inject_Z (-(1))) with (- (1))%Q. lra. }
    rewrite <- Zle_Qle in *. lia. }
  destruct D as [D|[D|D]]; auto; exfalso.
  - assert (E : inject_Z w == inject_Z z + 1) by (rewrite D, inject_Z_plus; reflexivity).
    assert (A : Z.even w = true) by (apply T; left; lra).
    assert (B : Z.even z = true) by (apply H3; right; lra).
    rewrite D, Z.even_add, B in A. discriminate.
  - assert (E : inject_Z w == inject_Z z - 1) by (rewrite D; unfold Z.sub; rewrite inject_Z_plus; reflexivity).
    assert (A : Z.even w = true) by (apply T; right; lra).
    assert (B : Z.even z = true) by (apply H3; left; lra).
    rewrite D, Z.even_sub, B in A. discriminate.
Qed.
Lemma rhe_int_sub k q : Z.even k = true ->
  Qround_half_even (inject_Z k - q) = (k - Qround_half_even q)%Z.
Proof.
  intros Hk. destruct (rhe_char q) as [C1 C2]. pose proof (rhe_tie q) as T. cbv zeta in T.
  set (w := Qround_half_even q) in *.
  assert (E : inject_Z (k - w) == inject_Z k - inject_Z w).
  { unfold Z.sub. rewrite inject_Z_plus, inject_Z_opp. reflexivity. }
  apply rhe_unique; try lra.
  intros [H|H]; rewrite Z.even_sub, Hk; [rewrite T; auto; right; lra|rewrite T; auto; left; lra].
Qed.
Lemma rhe_Qeq a b : a == b -> Qround_half_even a = Qround_half_even b.
Proof. intros H. apply Z.le_antisymm; apply rhe_mono; rewrite H; apply Qle_refl. Qed.

Lemma round2_mono a b : a <= b -> round2 a <= round2 b.
Proof.
  intros H. unfold round2. apply Qmult_le_compat_r; [|discriminate].
  rewrite <- Zle_Qle. apply rhe_mono. lra.
Qed.
Lemma round2_int k : round2 (inject_Z k) == inject_Z k.
Proof.
  unfold round2. rewrite (rhe_unique (inject_Z k * 100) (k * 100)); rewrite inject_Z_mult; change (inject_Z 100) with 100.
  - field.
  - lra.
  - lra.
  - intros [H|H]; lra.
Qed.
Lemma round2_int_sub k q : round2 (inject_Z k - q) == inject_Z k - round2 q.
Proof.
  unfold round2.
  rewrite (rhe_Qeq ((inject_Z k - q) * 100) (inject_Z (k * 100) - q * 100)).
  - rewrite rhe_int_sub.
    + unfold Z.sub. rewrite inject_Z_plus, inject_Z_opp, inject_Z_mult. change (inject_Z 100) with 100. field.
    + rewrite Z.even_mul, orb_true_r. reflexivity.
  - rewrite inject_Z_mult. change (inject_Z 100) with 100. ring.
Qed.
Lemma round2_nn q : 0 <= q -> 0 <= round2 q.
Proof. intros H. change 0 with (inject_Z 0). rewrite <- round2_int. apply round2_mono. exact H. Qed.
Lemma round2_Qeq a b : a == b -> round2 a == round2 b.
Proof. intros H. apply Qle_antisym; apply round2_mono; rewrite H; apply Qle_refl. Qed.

Lemma Qmax_le a b c : Qmax_ a b <= c <-> a <= c /\ b <= c.
Proof.
  unfold Qmax_. destruct (Qle_bool a b) eqn:E.
  - apply Qle_bool_iff in E. split; [intros; split; lra|tauto].
  - assert (~ a <= b) by (intros X; apply Qle_bool_iff in X; congruence).
    split; [intros; split; lra|tauto].
Qed.
Lemma Qmin_ge a b c : c <= Qmin_ a b <-> c <= a /\ c <= b.
Proof.
  unfold Qmin_. destruct (Qle_bool a b) eqn:E.
  - apply Qle_bool_iff in E. split; [intros; split; lra|tauto].
  - assert (~ a <= b) by (intros X; apply Qle_bool_iff in X; congruence).
    split; [intros; split; lra|tauto].
Qed.
Lemma ceiling_le q z : (Qceiling q <= z)%Z <-> q <= inject_Z z.
Proof.
  split; intros H.
  - apply Qle_trans with (inject_Z (Qceiling q)); [apply Qle_ceiling|]. rewrite <- Zle_Qle. auto.
  - unfold Qceiling. pose proof (Qfloor_resp_le (inject_Z (- z)) (- q)) as F.
    rewrite Qfloor_Z in F. rewrite inject_Z_opp in F. specialize (F ltac:(lra)). lia.
Qed.
Lemma floor_lt1 q z : (z < Qfloor (q + 1))%Z <-> inject_Z z <= q.
Proof.
  split; intros H.
  - pose proof (Qfloor_le (q + 1)) as F.
    assert (inject_Z (z + 1) <= inject_Z (Qfloor (q + 1))) by (rewrite <- Zle_Qle; lia).
    rewrite inject_Z_plus in H0. change (inject_Z 1) with 1 in H0. lra.
  - pose proof (Qfloor_resp_le (inject_Z (z + 1)) (q + 1)) as F.
    rewrite Qfloor_Z in F. rewrite inject_Z_plus in F. change (inject_Z 1) with 1 in F. specialize (F ltac:(lra)). lia.
Qed.

(** ** the Itakura bounds *)
Section Itakura.
Variables (n m : nat) (s : Q).
Hypothesis Hn : (0 < n)%nat.
Hypothesis Hm : (0 < m)%nat.
Hypothesis Hs : 0 < s.
Notation qn := (inject_Z (Z.of_nat n)). Notation qm := (inject_Z (Z.of_nat m)).
Notation qj j := (inject_Z (Z.of_nat j)).
Definition mn := ((1 / s) * (qn / qm)).
Definition mx := (s * (qn / qm)).
Lemma qm_pos : 0 < qm. Proof. change 0 with (inject_Z 0). rewrite <- Zlt_Qlt. lia. Qed.
Lemma qn_pos : 0 < qn. Proof. change 0 with (inject_Z 0). rewrite <- Zlt_Qlt. lia. Qed.
Lemma mn_pos : 0 < mn.
Proof.
  unfold mn. apply Qmult_lt_0_compat.
  - apply Qlt_shift_div_l; auto. rewrite Qmult_0_l. reflexivity.
  - apply Qlt_shift_div_l; [apply qm_pos|]. rewrite Qmult_0_l. apply qn_pos.
Qed.
Lemma mx_pos : 0 < mx.
Proof.
  unfold mx. apply Qmult_lt_0_compat; auto.
  apply Qlt_shift_div_l; [apply qm_pos|]. rewrite Qmult_0_l. apply qn_pos.
Qed.
Lemma qj_S j : qj (S j) == qj j + 1.
Proof. rewrite Nat2Z.inj_succ. unfold Z.succ. rewrite inject_Z_plus. reflexivity. Qed.
Lemma qj_nn j : 0 <= qj j.
Proof. change 0 with (inject_Z 0). rewrite <- Zle_Qle. lia. Qed.

Lemma ita_lower_nn j : (0 <= itakura_lower n m s j)%Z.
Proof.
  unfold itakura_lower. cbv zeta. fold mn. fold mx.
  match goal with |- (0 <= Qceiling ?x)%Z => assert (H : ~ (Qceiling x <= -1)%Z); [|lia] end.
  rewrite ceiling_le, Qmax_le. intros [H _].
  assert (0 <= round2 (mn * qj j)).
  { apply round2_nn. apply Qmult_le_0_compat; [apply Qlt_le_weak, mn_pos|apply qj_nn]. }
  change (inject_Z (-1)) with (-(1))%Q in H. lra.
Qed.
Lemma ita_lower_mono j : (itakura_lower n m s j <= itakura_lower n m s (S j))%Z.
Proof.
  unfold itakura_lower. cbv zeta. fold mn. fold mx.
  rewrite ceiling_le, Qmax_le.
  pose proof mn_pos. pose proof mx_pos. pose proof (qj_S j) as E.
  match goal with |- _ /\ _ <= inject_Z (Qceiling (Qmax_ ?a ?b)) =>
    assert (Ha : a <= inject_Z (Qceiling (Qmax_ a b)) /\ b <= inject_Z (Qceiling (Qmax_ a b))) end.
  { apply Qmax_le, Qle_ceiling. }
  destruct Ha as [Ha Hb]. split; eapply Qle_trans; [|exact Ha| |exact Hb]; apply round2_mono; rewrite E; lra.
Qed.
Lemma ita_upper_mono j : (itakura_upper n m s j <= itakura_upper n m s (S j))%Z.
Proof.
  unfold itakura_upper. cbv zeta. fold mn. fold mx.
  pose proof mn_pos. pose proof mx_pos. pose proof (qj_S j) as E.
  apply Qfloor_resp_le. apply Qplus_le_compat; [|apply Qle_refl].
  apply Qmin_ge.
  match goal with |- ?x <= _ /\ _ => assert (G : x <= x) by apply Qle_refl end.
  apply Qmin_ge in G. destruct G as [Ga Gb].
  split; eapply Qle_trans; [exact Ga| |exact Gb|]; apply round2_mono; rewrite E; lra.
Qed.

Variable mk : mask_t.
Hypothesis Hmk : checked_mask n m (itakura_lower n m s) (itakura_upper n m s) = Ok mk.

(** the last column is not empty, hence the upper bounds are positive *)
Lemma slice_bound_le z b : (slice_bound z b <= Z.of_nat z)%Z.
Proof. unfold slice_bound. destruct (Z.ltb_spec b 0); lia. Qed.
Lemma ita_upper_pos j : (j < m)%nat -> (1 <= itakura_upper n m s j)%Z.
Proof.
  intros Hj. unfold checked_mask in Hmk. destruct (rows_ok n m _); [|discriminate].
  destruct (cols_ok n m _) eqn:Ec; [|discriminate].
  rewrite cols_ok_spec in Ec. destruct (Ec (m - 1)%nat) as (i & Hi & E); [lia|].
  rewrite mask_from_bounds_spec in E by lia. unfold in_slice in E. apply andb_true_iff in E.
  destruct E as [E1 E2]. apply Z.leb_le in E1. apply Z.ltb_lt in E2.
  pose proof (ita_lower_nn (m - 1)) as L0.
  assert (Hlow : (itakura_lower n m s (m - 1) <= Z.of_nat n - 1)%Z).
  { unfold slice_bound in E1 at 1. destruct (Z.ltb_spec (itakura_lower n m s (m - 1)) 0); lia. }
  unfold itakura_lower in Hlow. cbv zeta in Hlow. fold mn in Hlow. fold mx in Hlow.
  rewrite ceiling_le, Qmax_le in Hlow. destruct Hlow as [Hlow _].
  unfold itakura_upper. cbv zeta. fold mn. fold mx.
  assert (G : (0 < Qfloor (Qmin_ (round2 (mx * qj j)) (round2 (qn - 1 - mn * (qm - 1) + mn * qj j)) + 1))%Z); [|lia].
  apply floor_lt1. apply Qmin_ge. split.
  - apply round2_nn. apply Qmult_le_0_compat; [apply Qlt_le_weak, mx_pos|apply qj_nn].
  - apply Qle_trans with (round2 (inject_Z (Z.of_nat n - 1) - mn * qj (m - 1))).
    + rewrite round2_int_sub. change (inject_Z 0) with 0. lra.
    + apply round2_mono.
      assert (E3 : qj (m - 1) == qm - 1).
      { rewrite Nat2Z.inj_sub by lia. unfold Z.sub. rewrite inject_Z_plus. reflexivity. }
      assert (E4 : inject_Z (Z.of_nat n - 1) == qn - 1).
      { unfold Z.sub. rewrite inject_Z_plus. reflexivity. }
      rewrite E3, E4. pose proof mn_pos. pose proof (qj_nn j).
      assert (0 <= mn * qj j) by (apply Qmult_le_0_compat; lra). lra.
Qed.
Theorem itakura_bounds_feasible : exists p, warping_path n m mk p.
Proof.
  apply (bounds_feasible n m (itakura_lower n m s) (itakura_upper n m s)); auto.
  - intros; apply ita_lower_nn.
  - intros j Hj. pose proof (ita_upper_pos j Hj). lia.
  - intros; apply ita_lower_mono.
  - intros; apply ita_upper_mono.
Qed.
Theorem itakura_bounds_reach i j : (i < n)%nat -> (j < m)%nat -> mk i j = true -> exists p, rpath mk i j p.
Proof.
  intros Hi Hj. apply (reach_all n m (itakura_lower n m s) (itakura_upper n m s)); auto.
  - intros; apply ita_lower_nn.
  - intros k Hk. pose proof (ita_upper_pos k Hk). lia.
  - intros; apply ita_lower_mono.
  - intros; apply ita_upper_mono.
Qed.
End Itakura.

Theorem itakura_mask_reach n m s mk i j : (0 < n)%nat -> (0 < m)%nat -> 0 < s ->
  itakura_mask n m s = Ok mk -> (i < n)%nat -> (j < m)%nat -> mk i j = true -> exists p, rpath mk i j p.
Proof.
  intros Hn Hm Hs H. unfold itakura_mask in H.
  destruct (Qeq_bool s 0); [discriminate|]. destruct (m =? 0)%nat; [discriminate|].
  eapply itakura_bounds_reach; eauto.
Qed.
Theorem itakura_mask_feasible n m s mk : (0 < n)%nat -> (0 < m)%nat -> 0 < s ->
  itakura_mask n m s = Ok mk -> exists p, warping_path n m mk p.
Proof.
  intros Hn Hm Hs H. unfold itakura_mask in H.
  destruct (Qeq_bool s 0); [discriminate|]. destruct (m =? 0)%nat; [discriminate|].
  eapply itakura_bounds_feasible; eauto.
Qed.

(** ** equal lengths, integer slope: symmetric *)
Lemma round2_le_int q z : round2 q <= inject_Z z <-> q <= inject_Z z + (1 # 200).
Proof.
  unfold round2. split; intros H.
  - destruct (rhe_char (q * 100)) as [_ C].
    assert (H1 : inject_Z (Qround_half_even (q * 100)) <= inject_Z z * 100).
    { setoid_replace (inject_Z (Qround_half_even (q * 100)))
        with (inject_Z (Qround_half_even (q * 100)) / 100 * 100) by field.
      apply Qmult_le_compat_r; [exact H|discriminate]. }
    lra.
  - assert (H1 : (Qround_half_even (q * 100) <= z * 100)%Z).
    { apply Z.le_trans with (Qround_half_even (inject_Z (z * 100) + (1 # 2))).
      - apply rhe_mono. rewrite inject_Z_mult. change (inject_Z 100) with 100. lra.
      - rewrite (rhe_unique _ (z * 100)); [lia|lra|lra|].
        intros _. rewrite Z.even_mul. apply orb_true_r. }
    setoid_replace (inject_Z z) with (inject_Z (z * 100) / 100)
      by (rewrite inject_Z_mult; change (inject_Z 100) with 100; field).
    apply Qmult_le_compat_r; [|discriminate]. rewrite <- Zle_Qle. exact H1.
Qed.
Lemma round2_div_le a k i : (1 <= k < 200)%Z ->
  round2 ((1 / inject_Z k) * inject_Z a) <= inject_Z i <-> (a <= k * i)%Z.
Proof.
  intros Hk. rewrite round2_le_int.
  assert (Pk : 0 < inject_Z k) by (change 0 with (inject_Z 0); rewrite <- Zlt_Qlt; lia).
  assert (Lk : inject_Z k < 200) by (change 200 with (inject_Z 200); rewrite <- Zlt_Qlt; lia).
  assert (E : (1 / inject_Z k) * inject_Z a == inject_Z a / inject_Z k) by (field; lra).
  rewrite E. split; intros H.
  - assert (H1 : inject_Z a <= (inject_Z i + (1 # 200)) * inject_Z k).
    { setoid_replace (inject_Z a) with (inject_Z a / inject_Z k * inject_Z k) by (field; lra).
      apply Qmult_le_compat_r; lra. }
    assert (H2 : inject_Z a < inject_Z (k * i + 1)).
    { rewrite inject_Z_plus, inject_Z_mult. change (inject_Z 1) with 1. lra. }
    rewrite <- Zlt_Qlt in H2. lia.
  - apply Qle_trans with (inject_Z i); [|lra].
    apply Qle_shift_div_r; auto. rewrite <- inject_Z_mult, <- Zle_Qle. lia.
Qed.
Lemma round2_intval q z : q == inject_Z z -> round2 q == inject_Z z.
Proof. intros H. rewrite (round2_Qeq _ _ H). apply round2_int. Qed.
Lemma inject_sub a b : inject_Z (a - b) == inject_Z a - inject_Z b.
Proof. unfold Z.sub. rewrite inject_Z_plus, inject_Z_opp. reflexivity. Qed.

Section Square.
Variables (n : nat) (k : Z).
Hypothesis Hn : (0 < n)%nat.
Hypothesis Hk : (1 <= k < 200)%Z.
Notation s := (inject_Z k).
Notation qn := (inject_Z (Z.of_nat n)).
Lemma Pk : 0 < s. Proof. change 0 with (inject_Z 0). rewrite <- Zlt_Qlt. lia. Qed.
Lemma Pn : 0 < qn. Proof. change 0 with (inject_Z 0). rewrite <- Zlt_Qlt. lia. Qed.
Lemma sq_mn x : (1 / s) * (qn / qn) * x == (1 / s) * x.
Proof. pose proof Pk. pose proof Pn. field. split; lra. Qed.
Lemma sq_mx x : s * (qn / qn) * x == s * x.
Proof. pose proof Pn. field. lra. Qed.

Lemma sq_lower i j : (itakura_lower n n s j <= Z.of_nat i)%Z <->
  (Z.of_nat j <= k * Z.of_nat i)%Z /\ (Z.of_nat n - 1 - Z.of_nat i <= k * (Z.of_nat n - 1 - Z.of_nat j))%Z.
Proof.
  unfold itakura_lower. cbv zeta. rewrite ceiling_le, Qmax_le.
  rewrite (round2_Qeq _ _ (sq_mn _)), round2_div_le by auto.
  assert (E : qn - 1 - s * (qn / qn) * (qn - 1) + s * (qn / qn) * inject_Z (Z.of_nat j) ==
     inject_Z (Z.of_nat n - 1 - k * (Z.of_nat n - 1 - Z.of_nat j))).
  { rewrite !sq_mx. rewrite !inject_sub, inject_Z_mult, !inject_sub. change (inject_Z 1) with 1. ring. }
  rewrite (round2_intval _ _ E), <- Zle_Qle. lia.
Qed.
Lemma sq_upper i j : (Z.of_nat i < itakura_upper n n s j)%Z <->
  (Z.of_nat i <= k * Z.of_nat j)%Z /\ (Z.of_nat n - 1 - Z.of_nat j <= k * (Z.of_nat n - 1 - Z.of_nat i))%Z.
Proof.
  unfold itakura_upper. cbv zeta. rewrite floor_lt1, Qmin_ge.
  assert (E1 : s * (qn / qn) * inject_Z (Z.of_nat j) == inject_Z (k * Z.of_nat j)).
  { rewrite sq_mx, inject_Z_mult. reflexivity. }
  rewrite (round2_intval _ _ E1), <- Zle_Qle.
  assert (E : qn - 1 - (1 / s) * (qn / qn) * (qn - 1) + (1 / s) * (qn / qn) * inject_Z (Z.of_nat j) ==
     inject_Z (Z.of_nat n - 1) - (1 / s) * inject_Z (Z.of_nat n - 1 - Z.of_nat j)).
  { rewrite !sq_mn. rewrite !inject_sub. change (inject_Z 1) with 1. ring. }
  rewrite (round2_Qeq _ _ E), round2_int_sub.
  assert (T : forall x, inject_Z (Z.of_nat i) <= inject_Z (Z.of_nat n - 1) - x <->
             x <= inject_Z (Z.of_nat n - 1 - Z.of_nat i)).
  { intros x. rewrite (inject_sub (Z.of_nat n - 1) (Z.of_nat i)). split; lra. }
  rewrite T, round2_div_le by auto. reflexivity.
Qed.
Lemma sq_upper_nn j : (j < n)%nat -> (0 <= itakura_upper n n s j)%Z.
Proof.
  intros Hj. pose proof (proj2 (sq_upper 0 j)). assert ((Z.of_nat 0 < itakura_upper n n s j)%Z); [|lia].
  apply H. nia.
Qed.
Definition parallelogram (n : nat) (k : Z) (i j : nat) : Prop :=
  let e := (Z.of_nat n - 1)%Z in let a := Z.of_nat i in let b := Z.of_nat j in
  (a <= k * b /\ b <= k * a /\ e - a <= k * (e - b) /\ e - b <= k * (e - a))%Z.
Lemma sq_mask i j : (i < n)%nat -> (j < n)%nat ->
  mask_from_bounds n n (itakura_lower n n s) (itakura_upper n n s) i j = true <-> parallelogram n k i j.
Proof.
  intros Hi Hj. rewrite mask_from_bounds_spec by auto.
  rewrite in_slice_nonneg; auto; [|apply ita_lower_nn; auto; apply Pk|apply sq_upper_nn; auto].
  rewrite sq_lower, sq_upper. unfold parallelogram. cbv zeta. tauto.
Qed.
Theorem square_mask : exists mk, itakura_mask n n s = Ok mk /\
  forall i j, (i < n)%nat -> (j < n)%nat -> mk i j = true <-> parallelogram n k i j.
Proof.
  unfold itakura_mask. destruct (Qeq_bool s 0) eqn:E; [apply Qeq_bool_eq in E; pose proof Pk; lra|].
  destruct (n =? 0)%nat eqn:E0; [apply Nat.eqb_eq in E0; lia|].
  unfold checked_mask.
  assert (Hd : forall i, (i < n)%nat -> mask_from_bounds n n (itakura_lower n n s) (itakura_upper n n s) i i = true).
  { intros i Hi. apply sq_mask; auto. unfold parallelogram. cbv zeta. nia. }
  replace (rows_ok n n _) with true by (symmetry; apply rows_ok_spec; eauto).
  replace (cols_ok n n _) with true by (symmetry; apply cols_ok_spec; eauto).
  simpl. eexists. split; [reflexivity|]. intros; apply sq_mask; auto.
Qed.
End Square.

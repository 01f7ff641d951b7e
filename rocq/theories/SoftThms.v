(** Soft-DTW tables compute sums over warping paths. *)
From Coq Require Import Bool List Arith Lia Reals Lra Sorting.Sorted.
From Verif Require Import Num NumLaws Py Masks Spec DpProofs LimitedThms RList PathSum Fill SoftModel.
Import ListNotations.
Local Open Scope R_scope.

(** a number that is not NaN and not minus infinity *)
Definition good (x : xr) : Prop := match x with XR _ | XInf => True | _ => False end.
(** exp(-x/gamma), zero at infinity *)
Definition wt (g : R) (x : xr) : R := match x with XR r => exp (- (r / g)) | _ => 0 end.

Lemma wt_nonneg g x : 0 <= wt g x.
Proof. destruct x; simpl; try lra. left. apply exp_pos. Qed.
Lemma wt_pos g x : good x -> (0 < wt g x <-> exists r, x = XR r).
Proof.
  destruct x; simpl; intros H; try contradiction; split; intros K; try lra; eauto.
  - apply exp_pos.
  - destruct K; discriminate.
Qed.

Definition isR (x : xr) : bool := match x with XR _ => true | _ => false end.

Section Soft.
Variable g : R.
Hypothesis Hg : 0 < g.

Lemma inv_neg : / - g < 0. Proof. apply Rinv_lt_0_compat. lra. Qed.
Lemma div_inf : xdivr XInf (- g) = XNInf.
Proof.
  unfold xdivr, xmul, xscale_inf. pose proof inv_neg.
  rewrite (proj2 (Rltb_false _ _)) by lra. rewrite (proj2 (Rltb_true _ _)) by lra. reflexivity.
Qed.
Lemma div_opp_inf : xdivr (xopp XInf) g = XNInf.
Proof.
  unfold xdivr, xopp, xmul, xscale_inf. assert (0 < / g) by (apply Rinv_0_lt_compat; auto).
  rewrite (proj2 (Rltb_true _ _)) by lra. reflexivity.
Qed.
Lemma div_R x : xdivr (XR x) (- g) = XR (- (x / g)).
Proof. unfold xdivr, xmul. f_equal. field. lra. Qed.
Lemma div_opp_R x : xdivr (xopp (XR x)) g = XR (- (x / g)).
Proof. unfold xdivr, xopp, xmul. f_equal. field. lra. Qed.

(** log-sum-exp with a finite shift [m] *)
Lemma lse_shift s1 s2 s3 m : 
  let e x := match x with XR r => exp r | _ => 0 end in
  (forall x, In x [s1; s2; s3] -> match x with XR _ | XNInf => True | _ => False end) ->
  0 < e s1 + e s2 + e s3 ->
  xadd (xln (xadd (xadd (xadd (XR 0) (xexp (xsub s1 (XR m)))) (xexp (xsub s2 (XR m)))) (xexp (xsub s3 (XR m))))) (XR m)
  = XR (ln (e s1 + e s2 + e s3)).
Proof.
  intros e H P.
  assert (K : forall x, In x [s1; s2; s3] -> xexp (xsub x (XR m)) = XR (e x * exp (- m))).
  { intros x Hx. apply H in Hx. destruct x; try contradiction; simpl.
    - f_equal. unfold e. rewrite <- exp_plus. f_equal.
    - f_equal. lra. }
  rewrite !K by (simpl; auto). clear K H.
  assert (E : xadd (xadd (xadd (XR 0) (XR (e s1 * exp (- m)))) (XR (e s2 * exp (- m)))) (XR (e s3 * exp (- m)))
     = XR ((e s1 + e s2 + e s3) * exp (- m))) by (simpl; f_equal; ring).
  rewrite E. pose proof (exp_pos (- m)) as Em.
  assert (0 < (e s1 + e s2 + e s3) * exp (- m)) by (apply Rmult_lt_0_compat; auto).
  unfold xln. rewrite (proj2 (Rltb_true _ _)) by auto. simpl. f_equal.
  rewrite ln_mult by auto. rewrite ln_exp. lra.
Qed.

Lemma wt_div a : good a -> match xdivr a (- g) with XR r => exp r | _ => 0 end = wt g a.
Proof. destruct a; intros G; try contradiction; rewrite ?div_inf, ?div_R; reflexivity. Qed.

Lemma softmin3_spec a b c : good a -> good b -> good c -> 0 < wt g a + wt g b + wt g c ->
  softmin3 g a b c = XR (- g * ln (wt g a + wt g b + wt g c)).
Proof.
  intros Ga Gb Gc P. unfold softmin3. cbv zeta.
  assert (M : exists m, pymax (N:=Xnum) (pymax (N:=Xnum) (xdivr a (- g)) (xdivr b (- g))) (xdivr c (- g)) = XR m).
  { destruct a as [x| | |], b as [y| | |], c as [z| | |]; try contradiction; rewrite ?div_inf, ?div_R; unfold pymax; simpl;
      try (simpl in P; lra); repeat (try destruct (Rltb _ _); simpl); eauto. }
  destruct M as (m & M). rewrite M.
  rewrite lse_shift.
  - rewrite !wt_div by auto. reflexivity.
  - intros x [<-|[<-|[<-|[]]]].
    + destruct a; try contradiction; rewrite ?div_inf, ?div_R; auto.
    + destruct b; try contradiction; rewrite ?div_inf, ?div_R; auto.
    + destruct c; try contradiction; rewrite ?div_inf, ?div_R; auto.
  - rewrite !wt_div by auto. auto.
Qed.

Lemma opp_div a : good a -> xdivr (xopp a) g = xdivr a (- g).
Proof. destruct a; intros G; try contradiction; rewrite ?div_inf, ?div_opp_inf, ?div_R, ?div_opp_R; auto. Qed.
Lemma torch_softmin3_spec a b c : good a -> good b -> good c ->
  torch_softmin3 g a b c = if Rltb 0 (wt g a + wt g b + wt g c) then XR (- g * ln (wt g a + wt g b + wt g c)) else XInf.
Proof.
  intros Ga Gb Gc. unfold torch_softmin3. rewrite !opp_div by auto.
  destruct (Rltb 0 _) eqn:P.
  - apply Rltb_true in P. unfold lse3.
    assert (M : exists m, pymax (N:=Xnum) (pymax (N:=Xnum) (xdivr a (- g)) (xdivr b (- g))) (xdivr c (- g)) = XR m).
    { destruct a as [x| | |], b as [y| | |], c as [z| | |]; try contradiction; rewrite ?div_inf, ?div_R; unfold pymax; simpl;
        try (simpl in P; lra); repeat (try destruct (Rltb _ _); simpl); eauto. }
    destruct M as (m & M). rewrite M. cbv zeta. rewrite lse_shift.
    + rewrite !wt_div by auto. reflexivity.
    + intros x [<-|[<-|[<-|[]]]].
      * destruct a; try contradiction; rewrite ?div_inf, ?div_R; auto.
      * destruct b; try contradiction; rewrite ?div_inf, ?div_R; auto.
      * destruct c; try contradiction; rewrite ?div_inf, ?div_R; auto.
    + rewrite !wt_div by auto. auto.
  - apply Rltb_false in P.
    assert (a = XInf /\ b = XInf /\ c = XInf) as (-> & -> & ->).
    { pose proof (wt_nonneg g a). pose proof (wt_nonneg g b). pose proof (wt_nonneg g c).
      split; [|split]; [destruct a as [x| | |]|destruct b as [x| | |]|destruct c as [x| | |]]; try contradiction; auto;
        exfalso; assert (0 < wt g (XR x)) by apply exp_pos; lra. }
    rewrite div_inf. unfold lse3, pymax. simpl.
    replace (0 + 0 + 0 + 0) with 0 by lra. unfold Rltb at 1 2.
    destruct (Rlt_dec 0 0); [lra|]. simpl. unfold xscale_inf.
    rewrite (proj2 (Rltb_false _ _)) by lra. rewrite (proj2 (Rltb_true _ _)) by lra. reflexivity.
Qed.

Lemma wt_add d x : good x -> wt g (xadd (XR d) x) = exp (- (d / g)) * wt g x /\ good (xadd (XR d) x).
Proof.
  destruct x; intros G; try contradiction; simpl; split; auto; [|lra].
  rewrite <- exp_plus. f_equal. field. lra.
Qed.
Lemma wt_ln z : 0 < z -> wt g (XR (- g * ln z)) = z.
Proof. intros H. simpl. replace (- (- g * ln z / g)) with (ln z) by (field; lra). apply exp_ln. auto. Qed.
Lemma good_wt x : good x -> x = if Rltb 0 (wt g x) then XR (- g * ln (wt g x)) else XInf.
Proof.
  destruct x; intros G; try contradiction; simpl.
  - rewrite (proj2 (Rltb_true _ _)) by apply exp_pos. rewrite ln_exp. f_equal. field. lra.
  - rewrite (proj2 (Rltb_false _ _)) by lra. reflexivity.
Qed.

(** ** bordered tables *)
Section Table.
Variables (n m : nat) (ok : nat -> nat -> bool) (D : nat -> nat -> R).
Let w (i j : nat) : R := exp (- (D i j / g)).
Variable sm : xr -> xr -> xr -> xr.
Hypothesis Hsm : forall a b c, good a -> good b -> good c -> 0 < wt g a + wt g b + wt g c ->
  sm a b c = XR (- g * ln (wt g a + wt g b + wt g c)).
Hypothesis Hreach : forall i j, (i < n)%nat -> (j < m)%nat -> ok i j = true ->
  (exists p, rpath ok i j p) \/ sm XInf XInf XInf = XInf.
Variable T : mat xr.
Hypothesis T00 : T 0%nat 0%nat = XR 0.
Hypothesis T0j : forall j, T 0%nat (S j) = XInf.
Hypothesis Ti0 : forall i, T (S i) 0%nat = XInf.
Hypothesis Trec : forall i j, (i < n)%nat -> (j < m)%nat ->
  good (T i (S j)) -> good (T (S i) j) -> good (T i j) ->
  T (S i) (S j) = if ok i j then xadd (XR (D i j)) (sm (T i (S j)) (T (S i) j) (T i j)) else XInf.

Lemma w_pos i j : ok i j = true -> 0 < w i j. Proof. intros _. apply exp_pos. Qed.

Lemma table_wt a b : (a <= n)%nat -> (b <= m)%nat -> good (T a b) /\ wt g (T a b) = bsum ok w a b.
Proof.
  revert a b. apply (sum_ind (fun a b => (a <= n)%nat -> (b <= m)%nat -> good (T a b) /\ wt g (T a b) = bsum ok w a b)).
  intros a b IH Ha Hb. destruct a as [|i], b as [|j].
  - rewrite T00. split; simpl; auto. replace (- (0 / g)) with 0 by (field; lra). apply exp_0.
  - rewrite T0j. simpl. auto.
  - rewrite Ti0. simpl. auto.
  - destruct (IH i (S j) ltac:(lia) ltac:(lia) ltac:(lia)) as [G1 W1].
    destruct (IH (S i) j ltac:(lia) ltac:(lia) ltac:(lia)) as [G2 W2].
    destruct (IH i j ltac:(lia) ltac:(lia) ltac:(lia)) as [G3 W3].
    rewrite Trec by (auto; lia). unfold bsum. rewrite psum_rec. destruct (ok i j) eqn:E; [|simpl; auto].
    rewrite <- W1, <- W2, <- W3.
    destruct (Rlt_le_dec 0 (wt g (T i (S j)) + wt g (T (S i) j) + wt g (T i j))) as [P|P].
    + rewrite Hsm by auto. set (z := _ + _ + _) in *.
      destruct (wt_add (D i j) (XR (- g * ln z)) I) as [A B]. split; auto. rewrite A, wt_ln by auto. reflexivity.
    + pose proof (wt_nonneg g (T i (S j))). pose proof (wt_nonneg g (T (S i) j)). pose proof (wt_nonneg g (T i j)).
      destruct (Hreach i j ltac:(lia) ltac:(lia) E) as [(p & Hp)|H3].
      * exfalso. apply (psum_pos ok w w_pos) in Hp. rewrite psum_rec, E in Hp. rewrite <- W1, <- W2, <- W3 in Hp.
        replace (wt g (T i (S j)) + wt g (T (S i) j) + wt g (T i j)) with 0 in Hp by lra. lra.
      * assert (K : forall x, good x -> wt g x = 0 -> x = XInf).
        { intros x Gx Wx. destruct x as [r| | |]; try contradiction; auto. exfalso. simpl in Wx. pose proof (exp_pos (- (r / g))). lra. }
        rewrite (K _ G1), (K _ G2), (K _ G3) by lra. rewrite H3. simpl. split; auto. lra.
Qed.
Lemma table_value i j : (i < n)%nat -> (j < m)%nat ->
  T (S i) (S j) = if Rltb 0 (psum ok w i j) then XR (- g * ln (psum ok w i j)) else XInf.
Proof.
  intros Hi Hj. destruct (table_wt (S i) (S j)) as [G W]; [lia|lia|].
  change (bsum ok w (S i) (S j)) with (psum ok w i j) in W. rewrite <- W. apply good_wt. auto.
Qed.
End Table.

(** ** the three ways of filling *)
Section Fillings.
Variables (n m : nat) (mask : mask_t) (Dx : mat xr) (D : nat -> nat -> R).
Let w (i j : nat) : R := exp (- (D i j / g)).
Hypothesis HD : forall i j, (i < n)%nat -> (j < m)%nat -> mask i j = true -> Dx i j = XR (D i j).

Definition value (i j : nat) : xr := if Rltb 0 (psum mask w i j) then XR (- g * ln (psum mask w i j)) else XInf.

Lemma soft_acc_value i j : 
  (forall i j, (i < n)%nat -> (j < m)%nat -> mask i j = true -> exists p, rpath mask i j p) ->
  (i < n)%nat -> (j < m)%nat -> soft_acc g n m Dx mask i j = value i j.
Proof.
  intros Hr Hi Hj. unfold soft_acc. cbv zeta. set (T := fill _ _ _).
  apply (table_value n m mask D (softmin3 g)); auto.
  - intros; apply softmin3_spec; auto.
  - unfold T. rewrite fill_other; auto. rewrite in_grid. lia.
  - intros k. unfold T. rewrite fill_other; auto. rewrite in_grid. lia.
  - intros k. unfold T. rewrite fill_other; auto. rewrite in_grid. lia.
  - intros a b Ha Hb _ _ _.
    destruct (fill_at _ (soft_cell g Dx mask) (grid 1 n 1 m) soft_init (S a) (S b)) as (m1 & E0 & E1 & E2);
      [apply sorted_grid|apply in_grid; lia|]. fold T in E1, E2. rewrite E2.
    unfold soft_cell. simpl. rewrite !Nat.sub_0_r. destruct (mask a b) eqn:E.
    + rewrite HD, !E1 by (auto; unfold lex; simpl; lia). reflexivity.
    + rewrite E0. reflexivity.
Qed.

Lemma soft_acc0_value i j :
  (forall i j, (i < n)%nat -> (j < m)%nat -> mask i j = true -> exists p, rpath mask i j p) ->
  (i < n)%nat -> (j < m)%nat -> soft_acc0 g n m Dx mask i j = value i j.
Proof.
  intros Hr Hi Hj. unfold soft_acc0. set (C := fill _ _ _).
  pose (T := fun a b => match a, b with O, O => XR 0 | S a', S b' => C a' b' | _, _ => XInf end).
  apply (table_value n m mask D (softmin3 g)) with (T := T); auto.
  - intros; apply softmin3_spec; auto.
  - intros a b Ha Hb _ _ _. unfold T at 1.
    destruct (fill_at _ (soft_cell0 g Dx mask) (grid 0 n 0 m) (fun _ _ => XInf) a b) as (m1 & E0 & E1 & E2);
      [apply sorted_grid|apply in_grid; lia|]. fold C in E1, E2. rewrite E2.
    unfold soft_cell0. destruct (mask a b) eqn:E; [|rewrite E0; reflexivity].
    rewrite HD by auto. destruct a as [|a], b as [|b]; simpl.
    + rewrite softmin3_spec; simpl; auto.
      * f_equal. replace (- (0 / g)) with 0 by (field; lra). rewrite exp_0. replace (0 + 0 + 1) with 1 by lra. rewrite ln_1. lra.
      * pose proof (exp_pos (- (0 / g))). lra.
    + rewrite !Nat.sub_0_r. rewrite !E1 by (unfold lex; simpl; lia). reflexivity.
    + rewrite !Nat.sub_0_r, Nat.mul_0_r. simpl. rewrite !E1 by (unfold lex; simpl; lia). reflexivity.
    + rewrite !Nat.sub_0_r. rewrite !E1 by (unfold lex; simpl; lia). reflexivity.
Qed.

(** torch: anti-diagonals *)
Lemma diag_rec (D' : mat xr) K i j : (i < n)%nat -> (j < m)%nat -> (i + j < K)%nat ->
  let T k := fold_left (soft_diag_step g n m D') (seq 0 k) soft_init in
  T K (S i) (S j) = xadd (D' i j) (torch_softmin3 g (T K i (S j)) (T K (S i) j) (T K i j)) /\
  T K 0%nat 0%nat = XR 0 /\ T K 0%nat (S j) = XInf /\ T K (S i) 0%nat = XInf.
Proof.
  intros Hi Hj HK T.
  assert (St : forall k, T (S k) = soft_diag_step g n m D' (T k) k).
  { intros k. unfold T. rewrite seq_S, fold_left_app. reflexivity. }
  assert (B : forall k a b, (a = 0 \/ b = 0)%nat -> T k a b = soft_init a b).
  { induction k as [|k IH]; intros a b H; [reflexivity|]. rewrite St. unfold soft_diag_step.
    destruct H; subst; simpl; [apply IH; auto|]. rewrite andb_false_r. simpl. apply IH; auto. }
  assert (Z : forall k a b, (a + b <> k)%nat -> T (S k) (S a) (S b) = T k (S a) (S b)).
  { intros k a b H. rewrite St. unfold soft_diag_step. simpl. rewrite !Nat.sub_0_r.
    replace (a + b =? k)%nat with false by (symmetry; apply Nat.eqb_neq; auto). rewrite andb_false_r. reflexivity. }
  assert (Cst : forall k a b, (a + b < k)%nat -> T k (S a) (S b) = T (S (a + b)) (S a) (S b)).
  { induction k as [|k IH]; intros a b H; [lia|]. destruct (Nat.eq_dec (a + b) k) as [<-|Ne]; auto.
    rewrite Z by auto. apply IH. lia. }
  split; [|split; [|split]]; try (rewrite B by auto; reflexivity).
  rewrite Cst by auto. rewrite St. unfold soft_diag_step. simpl. rewrite !Nat.sub_0_r.
  replace (i + j - (m - 1) <=? i)%nat with true by (symmetry; apply Nat.leb_le; lia).
  replace (i <? Nat.min (n - 1) (i + j) + 1)%nat with true by (symmetry; apply Nat.ltb_lt; lia).
  rewrite Nat.eqb_refl. simpl. f_equal.
  assert (P : forall a b, (a <= S i)%nat -> (b <= S j)%nat -> (a + b < S i + S j)%nat -> T (i + j)%nat a b = T K a b).
  { intros [|a] [|b] A1 A2 A3; try (rewrite !B by auto; reflexivity).
    rewrite (Cst K) by lia. apply Cst. lia. }
  rewrite !P by lia. reflexivity.
Qed.
Lemma torch_soft_acc_value i j : (i < n)%nat -> (j < m)%nat -> torch_soft_acc g n m Dx mask i j = value i j.
Proof.
  intros Hi Hj. unfold torch_soft_acc. cbv zeta.
  set (D' := fun i j => if mask i j then Dx i j else XInf). set (T := fold_left _ _ _).
  pose (T' := fun a b => match a, b with O, O => XR 0 | S a', S b' => T (S a') (S b') | _, _ => XInf end).
  change (T (S i) (S j)) with (T' (S i) (S j)).
  apply (table_value n m mask D (torch_softmin3 g)) with (T := T'); auto.
  - intros a b c Ga Gb Gc P. rewrite torch_softmin3_spec by auto. rewrite (proj2 (Rltb_true _ _)) by auto. reflexivity.
  - intros a b _ _ _. right. rewrite torch_softmin3_spec by (simpl; auto). simpl.
    rewrite (proj2 (Rltb_false _ _)) by lra. reflexivity.
  - intros a b Ha Hb.
    assert (E : forall x y, (x <= n)%nat -> (y <= m)%nat -> T' x y = T x y).
    { intros x y Hx Hy. unfold T. destruct (diag_rec D' (n + m - 1) (x - 1) (y - 1) ltac:(lia) ltac:(lia) ltac:(lia)) as (_ & R1 & R2 & R3).
      cbv zeta in *. destruct x as [|x], y as [|y]; simpl T'.
      - auto.
      - simpl in R2. rewrite Nat.sub_0_r in R2. auto.
      - simpl in R3. rewrite Nat.sub_0_r in R3. auto.
      - reflexivity. }
    rewrite !E by lia. intros G1 G2 G3. unfold T. destruct (diag_rec D' (n + m - 1) a b Ha Hb ltac:(lia)) as (R1 & _). cbv zeta in R1.
    rewrite R1 at 1. fold T. unfold D' at 1.
    destruct (mask a b) eqn:Em; [rewrite HD by auto; reflexivity|].
    rewrite torch_softmin3_spec by auto. destruct (Rltb _ _); reflexivity.
Qed.
End Fillings.

(** ** backward pass *)
Lemma fill_split {A} (F : mat A -> nat -> nat -> A) l r i j m0 : NoDup (l ++ (i, j) :: r) ->
  let full := fill F (l ++ (i, j) :: r) m0 in
  exists m1, (forall a b, In (a, b) l -> m1 a b = full a b) /\ full i j = F m1 i j /\ m1 i j = m0 i j.
Proof.
  intros ND full. exists (fill F l m0).
  assert (N1 : ~ In (i, j) (l ++ r)) by (apply NoDup_remove_2; auto).
  assert (N2 : NoDup (l ++ r)) by (eapply NoDup_remove_1; eauto).
  assert (E : full = fill F r (fill_step F (fill F l m0) (i, j))) by (unfold full, fill; rewrite fold_left_app; reflexivity).
  split; [|split].
  - intros a b Hin. rewrite E. rewrite (fill_other _ F r).
    + symmetry. apply fill_step_other. intros [= -> ->]. apply N1. apply in_app_iff. auto.
    + intros Hr. clear - N2 Hin Hr. induction l as [|x l IH]; [contradiction|]. simpl in N2. inversion N2; subst.
      destruct Hin as [->|Hin]; [apply H1; apply in_app_iff; auto|auto].
  - rewrite E, fill_other by (intros H; apply N1; apply in_app_iff; auto).
    unfold fill_step, upd. simpl. rewrite !Nat.eqb_refl. reflexivity.
  - apply fill_other. intros H. apply N1. apply in_app_iff. auto.
Qed.

Definition after (c d : nat * nat) : Prop := (snd d < snd c \/ snd c = snd d /\ fst d < fst c)%nat.
Lemma in_grad_order p q i j : In (i, j) (grad_order p q) <-> (i < p)%nat /\ (j < q)%nat.
Proof.
  unfold grad_order. rewrite in_flat_map. split.
  - intros (y & Hy & H). apply in_map_iff in H. destruct H as (x & [= -> ->] & Hx).
    apply in_rev, in_seq in Hx. apply in_rev, in_seq in Hy. lia.
  - intros [H1 H2]. exists j. split; [rewrite <- in_rev; apply in_seq; lia|].
    apply in_map_iff. exists i. split; auto. rewrite <- in_rev. apply in_seq; lia.
Qed.
Lemma sorted_rev_seq k : StronglySorted (fun a b => (b < a)%nat) (rev (seq 0 k)).
Proof.
  induction k as [|k IH]; [constructor|]. rewrite seq_S, rev_app_distr. simpl. constructor; auto.
  apply Forall_forall. intros x Hx. apply in_rev, in_seq in Hx. lia.
Qed.
Lemma sorted_app_gen {A} (R : A -> A -> Prop) l l' : StronglySorted R l -> StronglySorted R l' ->
  (forall x y, In x l -> In y l' -> R x y) -> StronglySorted R (l ++ l').
Proof.
  induction l as [|a l IH]; simpl; intros H H' C; auto. apply StronglySorted_inv in H. destruct H as [H1 H2].
  constructor; [apply IH; auto|]. apply Forall_app. split; auto. apply Forall_forall. intros; apply C; auto.
Qed.
Lemma sorted_grad p q : StronglySorted after (grad_order p q).
Proof.
  unfold grad_order. pose proof (sorted_rev_seq q) as S2. induction (rev (seq 0 q)) as [|j l IH]; simpl; [constructor|].
  apply StronglySorted_inv in S2. destruct S2 as [S2 F]. apply sorted_app_gen; auto.
  - pose proof (sorted_rev_seq p) as S1. clear - S1. induction (rev (seq 0 p)) as [|i r IHr]; simpl; [constructor|].
    apply StronglySorted_inv in S1. destruct S1 as [S1 F]. constructor; auto. apply Forall_forall.
    intros [x y] H. apply in_map_iff in H. destruct H as (z & [= <- <-] & Hz). rewrite Forall_forall in F. right. simpl. auto.
  - intros [x y] [x' y'] H H'. apply in_map_iff in H. destruct H as (z & [= <- <-] & Hz).
    apply in_flat_map in H'. destruct H' as (u & Hu & H'). apply in_map_iff in H'. destruct H' as (v & [= <- <-] & Hv).
    rewrite Forall_forall in F. left. simpl. auto.
Qed.
Lemma grad_nodup p q : NoDup (grad_order p q).
Proof.
  pose proof (sorted_grad p q) as S1. induction (grad_order p q) as [|c l IH]; constructor.
  - apply StronglySorted_inv in S1. destruct S1 as [_ F]. rewrite Forall_forall in F. intros H. apply F in H. unfold after in H. lia.
  - apply IH. apply StronglySorted_inv in S1. tauto.
Qed.
Lemma grad_rec p q D R G i j : (i < p)%nat -> (j < q)%nat ->
  let E := soft_grad g p q D R G in
  E i j = if ((i =? p - 1) && (j =? q - 1))%nat then XR 1 else grad_cell g p q D R E i j.
Proof.
  intros Hi Hj E. assert (Hin : In (i, j) (grad_order p q)) by (apply in_grad_order; auto).
  apply in_split in Hin. destruct Hin as (l & r & Es).
  pose proof (grad_nodup p q) as ND. pose proof (sorted_grad p q) as So.
  assert (Hl : forall a b, (a < p)%nat -> (b < q)%nat -> after (a, b) (i, j) -> In (a, b) l).
  { intros a b Ha Hb Hab. assert (H : In (a, b) (grad_order p q)) by (apply in_grad_order; auto).
    rewrite Es in H. apply in_app_iff in H. destruct H as [H|[H|H]]; auto.
    - injection H as <- <-. unfold after in Hab; simpl in Hab; lia.
    - exfalso. rewrite Es in So. clear - So H Hab. induction l as [|x l IH]; simpl in So; apply StronglySorted_inv in So; destruct So as [S1 F].
      + rewrite Forall_forall in F. apply F in H. unfold after in *. simpl in *. lia.
      + auto. }
  rewrite Es in ND.
  assert (HE : E = fill (grad_cell g p q D R) (l ++ (i, j) :: r) (upd G (p - 1) (q - 1) (XR 1))) by (unfold E, soft_grad; rewrite Es; reflexivity).
  clearbody E.
  destruct (fill_split (grad_cell g p q D R) l r i j (upd G (p - 1) (q - 1) (XR 1)) ND) as (m1 & E1 & E2 & E3).
  cbv zeta in *. rewrite <- HE in E1, E2. clear HE. rewrite E2. unfold grad_cell.
  destruct ((i =? p - 1) && (j =? q - 1))%nat eqn:B.
  - rewrite E3. apply andb_true_iff in B. destruct B as [B1 B2]. apply Nat.eqb_eq in B1, B2. subst. unfold upd. rewrite !Nat.eqb_refl. reflexivity.
  - destruct (Nat.eqb_spec i (p - 1)) as [B1|B1]; destruct (Nat.eqb_spec j (q - 1)) as [B2|B2]; cbn [orb andb] in *;
      try discriminate B; rewrite !E1 by (apply Hl; unfold after; simpl; lia); reflexivity.
Qed.

Section Gibbs.
Variables (n m : nat) (mask : mask_t) (Dx Rx G : mat xr) (D : nat -> nat -> R).
Hypothesis Hn : (0 < n)%nat.
Hypothesis Hm : (0 < m)%nat.
Let w (i j : nat) : R := exp (- (D i j / g)).
Hypothesis HD : forall i j, (i < n)%nat -> (j < m)%nat -> Dx i j = if mask i j then XR (D i j) else XInf.
Hypothesis HR : forall i j, (i < n)%nat -> (j < m)%nat -> Rx i j = value mask D i j.
Hypothesis Hend : 0 < psum mask w (n - 1) (m - 1).
Let Z := psum mask w (n - 1) (m - 1).
Let F := psum mask w.

Lemma F_out i j : mask i j = false -> F i j = 0.
Proof. apply psum_out. Qed.

Lemma F_nonneg i j : 0 <= F i j.
Proof. apply psum_nonneg. intros; apply exp_pos. Qed.
Lemma F_step i j a b : move (i, j) (a, b) -> mask a b = true -> 0 < F i j -> 0 < F a b.
Proof.
  intros Hmv Hab P. unfold F in *. destruct (rpath_dec mask i j) as [(p & Hp)|Hnp].
  - apply psum_pos with (p := (a, b) :: p); [intros; apply exp_pos|]. econstructor; eauto.
  - exfalso. unfold psum in P. destruct (rpaths mask i j) as [|q l] eqn:El; [simpl in P; lra|].
    apply (Hnp q). apply in_rpaths. rewrite El. left. reflexivity.
Qed.
(** one factor of the backward recursion *)
Lemma factor i j a b : (i < n)%nat -> (j < m)%nat -> (a < n)%nat -> (b < m)%nat -> move (i, j) (a, b) ->
  nan_to_zero (xexp (xdivr (xsub (xsub (Rx a b) (Rx i j)) (Dx a b)) g)) =
  XR (if mask a b then F i j * w a b / F a b else 0).
Proof.
  intros Hi Hj Ha Hb Hmove. rewrite !HR, HD by auto. unfold value. fold w. fold (F a b). fold (F i j).
  pose proof (F_nonneg i j) as P1. pose proof (F_nonneg a b) as P2.
  assert (Ig : 0 < / g) by (apply Rinv_0_lt_compat; auto).
  assert (SI : xscale_inf (/ g) false = XNInf) by (unfold xscale_inf; rewrite (proj2 (Rltb_true _ _)) by lra; reflexivity).
  destruct (mask a b) eqn:E.
  - destruct (Rltb 0 (F i j)) eqn:B1.
    + apply Rltb_true in B1. pose proof (F_step i j a b Hmove E B1) as B2. rewrite (proj2 (Rltb_true _ _)) by auto. simpl.
      unfold nan_to_zero. simpl. f_equal. unfold w.
      replace ((- g * ln (F a b) + - (- g * ln (F i j)) + - D a b) * / g) with (ln (F i j) + (- (D a b / g)) + - ln (F a b)) by (field; lra).
      rewrite !exp_plus, (exp_Ropp (ln (F a b))), !exp_ln by auto. reflexivity.
    + apply Rltb_false in B1. replace (F i j) with 0 by lra.
      replace (0 * w a b / F a b) with 0 by (unfold Rdiv; ring).
      destruct (Rltb 0 (F a b)); simpl; rewrite ?SI; reflexivity.
  - rewrite F_out by auto. rewrite (proj2 (Rltb_false _ _)) by lra.
    destruct (Rltb 0 (F i j)); simpl; reflexivity.
Qed.
Lemma factor_border i j : (i < n)%nat -> (j < m)%nat ->
  nan_to_zero (xexp (xdivr (xsub (xsub XNInf (Rx i j)) (XR 0)) g)) = XR 0.
Proof.
  intros Hi Hj. rewrite HR by auto. unfold value.
  assert (Ig : 0 < / g) by (apply Rinv_0_lt_compat; auto).
  assert (SI : xscale_inf (/ g) false = XNInf) by (unfold xscale_inf; rewrite (proj2 (Rltb_true _ _)) by lra; reflexivity).
  destruct (Rltb _ _); simpl; rewrite SI; reflexivity.
Qed.

Let rst := rest mask w n m.
Let fs := fsum mask w n m.
Lemma term i j a b : (i < n)%nat -> (j < m)%nat -> (a < n)%nat -> (b < m)%nat -> move (i, j) (a, b) ->
  F a b * rst a b / Z * (if mask a b then F i j * w a b / F a b else 0) = F i j * fs a b / Z.
Proof.
  intros Hi Hj Ha Hb Hmove. unfold fs. rewrite fsum_rec by auto. fold rst.
  assert (HZ : Z <> 0) by (unfold Z; lra).
  destruct (mask a b) eqn:E; [|field; auto].
  pose proof (F_nonneg i j). destruct (Req_dec (F i j) 0) as [E0|N0].
  - rewrite E0. unfold Rdiv. ring.
  - assert (0 < F a b) by (apply (F_step i j); auto; lra). field. split; auto. lra.
Qed.
Lemma gibbs_value i j : (i < n)%nat -> (j < m)%nat ->
  soft_grad g n m Dx Rx G i j = XR (F i j * rst i j / Z).
Proof.
  remember ((n - 1 - i) + (m - 1 - j))%nat as t eqn:Et. revert i j Et.
  induction t as [t IH] using lt_wf_ind. intros i j Et Hi Hj.
  rewrite grad_rec by auto. unfold rst at 1, rest.
  assert (HZ : Z <> 0) by (unfold Z; lra).
  destruct ((i =? n - 1) && (j =? m - 1))%nat eqn:B.
  - apply andb_true_iff in B. destruct B as [B1 B2]. apply Nat.eqb_eq in B1, B2. subst i j. f_equal.
    change (F (n - 1)%nat (m - 1)%nat) with Z. field. auto.
  - assert (IH' : forall a b, (n - 1 - a + (m - 1 - b) < t)%nat -> (a < n)%nat -> (b < m)%nat ->
      soft_grad g n m Dx Rx G a b = XR (F a b * rst a b / Z)) by (intros; eapply IH; eauto).
    unfold grad_cell. rewrite B.
    destruct (Nat.eqb_spec i (n - 1)) as [B1|B1]; destruct (Nat.eqb_spec j (m - 1)) as [B2|B2]; cbn [orb andb] in *;
      try discriminate B;
      rewrite ?factor_border by auto;
      rewrite ?factor by (try lia; unfold move; simpl; lia);
      rewrite ?IH' by lia;
      cbn [xmul xadd]; f_equal; rewrite ?term by (try lia; unfold move; simpl; lia); unfold fs; field; auto.
Qed.
End Gibbs.
End Soft.

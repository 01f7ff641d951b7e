(** LCSS: the table computes longest chains; the walk back reads one off. *)
From Coq Require Import Bool List Arith ZArith QArith Lia.
From Verif Require Import Num Py Series Masks DtwModel Fill VariantModel Spec SpecDtw SpecLcss DpProofs DtwProofs DtwThms.
Import ListNotations.
Local Open Scope nat_scope.

(** chains with the last pair first *)
Inductive dchain (ok : nat -> nat -> bool) : nat -> nat -> list cell -> Prop :=
| dc_nil i j : dchain ok i j []
| dc_cons i j a b p : a < i -> b < j -> ok a b = true -> dchain ok a b p -> dchain ok i j ((a, b) :: p).

Lemma dchain_mono ok i j i' j' p : dchain ok i j p -> i <= i' -> j <= j' -> dchain ok i' j' p.
Proof. intros H Hi Hj. inversion H; subst; constructor; auto; lia. Qed.
Lemma dchain_in ok i j p a b : dchain ok i j p -> In (a, b) p -> a < i /\ b < j /\ ok a b = true.
Proof.
  induction 1 as [i j|i j a' b' p Ha Hb Hok H IH]; [contradiction|].
  intros [E|E]; [inversion E; subst; auto|]. destruct (IH E) as (A & B & C). repeat split; auto; lia.
Qed.
Lemma dchain_weaken ok ok' i j p : (forall a b, a < i -> b < j -> ok a b = true -> ok' a b = true) ->
  dchain ok i j p -> dchain ok' i j p.
Proof.
  intros H Hd. induction Hd as [i j|i j a' b' p Ha Hb Hok Hd IH]; constructor; auto. apply IH.
  intros. apply H; auto; lia.
Qed.

Lemma linked_snoc {A} (R : A -> A -> Prop) p a b : linked R (p ++ [a]) -> R a b -> linked R (p ++ [a; b]).
Proof. intros H1 H2. replace (p ++ [a; b]) with ((p ++ [a]) ++ [b]) by (rewrite <- app_assoc; reflexivity). apply linked_app; auto. Qed.

Lemma dchain_chain ok n m p : dchain ok n m p -> chain n m ok (rev p).
Proof.
  intros H. split; [|intros i j Hin; apply in_rev in Hin; eapply dchain_in; eauto].
  induction H as [i j|i j a b p Ha Hb Hok H IH]; simpl; auto.
  inversion H as [|? ? a' b' q Ha' Hb' Hok' H']; subst; simpl in *; auto.
  apply linked_app; auto. split; simpl; lia.
Qed.
Lemma chain_dchain ok n m p : chain n m ok p -> dchain ok n m (rev p).
Proof.
  intros [Hl Hin]. rewrite <- (rev_involutive p) in Hl, Hin.
  assert (G : forall q n m, linked before (rev q) -> (forall i j, In (i, j) (rev q) -> i < n /\ j < m /\ ok i j = true) -> dchain ok n m q).
  { clear. induction q as [|[a b] q IH]; intros n m Hl Hin; [constructor|].
    destruct (Hin a b) as (Ha & Hb & Hok); [simpl; apply in_or_app; simpl; auto|].
    constructor; auto. destruct q as [|[a' b'] q]; [constructor|]. simpl in Hl.
    apply linked_app_inv in Hl. destruct Hl as [Hl Hb']. 
    assert (D : dchain ok n m ((a', b') :: q)).
    { apply IH; auto. intros i j Hij. apply Hin. simpl in *. apply in_or_app. auto. }
    inversion D; subst. destruct Hb' as [X Y]; simpl in X, Y. constructor; auto. }
  apply G; auto.
Qed.

Section Table.
Variables (close : nat -> nat -> bool) (mask : mask_t) (l1 l2 : nat).
Notation T := (lcss_table close mask l1 l2).
Notation ok := (fun i j => mask i j && close i j).

Lemma tab_top j : T 0 j = 0.
Proof. unfold lcss_table. rewrite fill_other; [reflexivity|]. rewrite in_grid. lia. Qed.
Lemma tab_left i : T i 0 = 0.
Proof. unfold lcss_table. rewrite fill_other; [reflexivity|]. rewrite in_grid. lia. Qed.
Lemma fill_untouched {A} (F : mat A -> nat -> nat -> A) cells m i j :
  (forall m, F m i j = m i j) -> fill F cells m i j = m i j.
Proof.
  intros H. revert m. induction cells as [|[a b] cells IH]; intros m; simpl; auto.
  rewrite IH. unfold fill_step, upd. simpl. destruct (Nat.eqb_spec i a), (Nat.eqb_spec j b); simpl; subst; auto.
Qed.
Lemma tab_in i j : i < l1 -> j < l2 -> T (S i) (S j) =
  if mask i j then (if close i j then 1 + T i j else Nat.max (T (S i) j) (T i (S j))) else 0.
Proof.
  intros Hi Hj. destruct (mask i j) eqn:E.
  - unfold lcss_table. rewrite fill_rec.
    + unfold lcss_cell. simpl. rewrite !Nat.sub_0_r, E. reflexivity.
    + apply sorted_grid.
    + apply in_grid. lia.
    + intros m m' H. unfold lcss_cell. simpl. rewrite !Nat.sub_0_r, E. rewrite !H by (unfold lex; simpl; lia). reflexivity.
  - unfold lcss_table. rewrite fill_untouched; auto. intros m. unfold lcss_cell. simpl. rewrite !Nat.sub_0_r, E. reflexivity.
Qed.

(** soundness, for any mask *)
Lemma tab_attained i j : i <= l1 -> j <= l2 -> exists p, dchain ok i j p /\ length p = T i j.
Proof.
  revert j. induction i as [|i IHi]; intros j Hi Hj; [exists []; rewrite tab_top; split; auto; constructor|].
  induction j as [|j IHj]; [exists []; rewrite tab_left; split; auto; constructor|].
  rewrite tab_in by lia. destruct (mask i j) eqn:Em; [|exists []; split; auto; constructor].
  destruct (close i j) eqn:Ec.
  - destruct (IHi j) as (p & Hp & Hl); try lia. exists ((i, j) :: p). split; [constructor; auto; rewrite Em, Ec; auto|simpl; lia].
  - destruct (Nat.max_spec (T (S i) j) (T i (S j))) as [[_ ->]|[_ ->]].
    + destruct (IHi (S j)) as (p & Hp & Hl); try lia. exists p. split; auto. eapply dchain_mono; eauto.
    + destruct IHj as (p & Hp & Hl); try lia. exists p. split; auto. eapply dchain_mono; eauto.
Qed.

(** optimality, for masks that are bands of at least two diagonals *)
Variables lo hi : Z.
Hypothesis lohi : (lo < hi)%Z.
Definition inband (i j : nat) : Prop := (lo <= Z.of_nat j - Z.of_nat i <= hi)%Z.
Hypothesis Hmask : forall i j, i < l1 -> j < l2 -> (mask i j = true <-> inband i j).

Lemma inband_dec i j : inband i j \/ ~ inband i j.
Proof. unfold inband. lia. Qed.

Lemma dchain_shrink_row i j p : i <= l1 -> j < l2 -> dchain ok i (S j) p ->
  (Z.of_nat j - Z.of_nat i >= hi)%Z -> dchain ok i j p.
Proof.
  intros Hi Hj H Hb. inversion H as [|? ? a b q Ha Hb' Hok Hd]; subst; constructor; auto.
  apply andb_true_iff in Hok. destruct Hok as [Hm _]. apply Hmask in Hm; try lia. unfold inband in Hm. lia.
Qed.
Lemma dchain_shrink_col i j p : i < l1 -> j <= l2 -> dchain ok (S i) j p ->
  (Z.of_nat j - Z.of_nat i <= lo)%Z -> dchain ok i j p.
Proof.
  intros Hi Hj H Hb. inversion H as [|? ? a b q Ha Hb' Hok Hd]; subst; constructor; auto.
  apply andb_true_iff in Hok. destruct Hok as [Hm _]. apply Hmask in Hm; try lia. unfold inband in Hm. lia.
Qed.

Lemma tab_upper i j p : i <= l1 -> j <= l2 -> (i = 0 \/ j = 0 \/ inband (i - 1) (j - 1)) ->
  dchain ok i j p -> length p <= T i j.
Proof.
  remember (i + j) as t eqn:Et. revert i j p Et. induction t as [t IH] using lt_wf_ind. intros i j p Et Hi Hj Hb H.
  destruct i as [|i]; [inversion H; subst; simpl; lia|]. destruct j as [|j]; [inversion H; subst; simpl; lia|].
  destruct Hb as [Hb|[Hb|Hb]]; try lia. simpl in Hb. rewrite !Nat.sub_0_r in Hb.
  rewrite tab_in by lia. assert (Em : mask i j = true) by (apply Hmask; auto; lia). rewrite Em.
  destruct (close i j) eqn:Ec.
  - inversion H as [|? ? a b q Ha Hb' Hok Hd]; subst; simpl; [lia|].
    apply le_n_S. apply (IH (i + j)); auto; try lia.
    + unfold inband in *. lia.
    + eapply dchain_mono; [exact Hd| |]; lia.
  - (* the last pair is not (i, j) *)
    assert (Hrow : dchain ok i (S j) p -> length p <= Nat.max (T (S i) j) (T i (S j))).
    { intros Hd. destruct (inband_dec (i - 1) j) as [Hin|Hout].
      - etransitivity; [|apply Nat.le_max_r]. apply (IH (i + S j)); auto; try lia. replace (S j - 1) with j by lia. auto.
      - destruct i as [|i]; [inversion Hd; subst; simpl; lia|].
        replace (S i - 1) with i in Hout by lia.
        assert (Hoff : (Z.of_nat j - Z.of_nat (S i) >= hi)%Z) by (unfold inband in *; lia).
        apply dchain_shrink_row in Hd; try lia.
        etransitivity; [|apply Nat.le_max_l]. apply (IH (S (S i) + j)); auto; try lia.
        + unfold inband in *. lia.
        + eapply dchain_mono; eauto. }
    assert (Hcol : dchain ok (S i) j p -> length p <= Nat.max (T (S i) j) (T i (S j))).
    { intros Hd. destruct (inband_dec i (j - 1)) as [Hin|Hout].
      - etransitivity; [|apply Nat.le_max_l]. apply (IH (S i + j)); auto; try lia. replace (S i - 1) with i by lia. auto.
      - destruct j as [|j]; [inversion Hd; subst; simpl; lia|].
        replace (S j - 1) with j in Hout by lia.
        assert (Hoff : (Z.of_nat (S j) - Z.of_nat i <= lo)%Z) by (unfold inband in *; lia).
        apply dchain_shrink_col in Hd; try lia.
        etransitivity; [|apply Nat.le_max_r]. apply (IH (i + S (S j))); auto; try lia.
        + unfold inband in *. lia.
        + eapply dchain_mono; eauto. }
    inversion H as [|? ? a b q Ha Hb' Hok Hd]; subst; [simpl; lia|].
    assert (N : a <> i \/ b <> j).
    { destruct (Nat.eq_dec a i), (Nat.eq_dec b j); auto. subst. rewrite Em, Ec in Hok. discriminate. }
    destruct N as [N|N].
    + apply Hrow. constructor; auto. lia.
    + apply Hcol. constructor; auto. lia.
Qed.

Theorem tab_longest : 0 < l1 -> 0 < l2 -> inband (l1 - 1) (l2 - 1) -> longest l1 l2 ok (T l1 l2).
Proof.
  intros H1 H2 Hb. split.
  - destruct (tab_attained l1 l2) as (p & Hp & Hl); auto. exists (rev p). split; [apply dchain_chain; auto|rewrite rev_length; auto].
  - intros p Hp. apply chain_dchain in Hp. rewrite <- rev_length. apply tab_upper; auto.
Qed.
End Table.

Section Walk.
Variables (close : nat -> nat -> bool) (mask : mask_t) (l1 l2 : nat).
Notation T := (lcss_table close mask l1 l2).
Notation ok := (fun i j => mask i j && close i j).

(** whatever the mask: if the walk ends, it ends with a chain as long as the table says *)
Lemma walk_sound fuel i j path q : i <= l1 -> j <= l2 ->
  lcss_walk fuel close mask T i j path = Some q ->
  exists r, q = rev r ++ path /\ dchain ok i j r /\ length r = T i j.
Proof.
  revert i j path. induction fuel as [|f IH]; intros i j path Hi Hj H; [discriminate|].
  simpl in H. destruct i as [|i].
  { inversion H; subst. exists []. rewrite tab_top. repeat split; auto. constructor. }
  destruct j as [|j].
  { inversion H; subst. exists []. rewrite tab_left. repeat split; auto. constructor. }
  destruct (mask i j) eqn:Em.
  - rewrite tab_in by lia. rewrite Em. destruct (close i j) eqn:Ec.
    + apply IH in H; try lia. destruct H as (r & -> & Hr & Hl). exists ((i, j) :: r). split; [simpl; rewrite <- app_assoc; reflexivity|].
      split; [constructor; auto; rewrite Em, Ec; auto|simpl; lia].
    + destruct (Nat.ltb_spec (T (S i) j) (T i (S j))).
      * apply IH in H; try lia. destruct H as (r & -> & Hr & Hl). exists r. split; auto. split; [eapply dchain_mono; eauto|lia].
      * apply IH in H; try lia. destruct H as (r & -> & Hr & Hl). exists r. split; auto. split; [eapply dchain_mono; eauto|lia].
  - (* stuck: the loop never leaves this cell *)
    exfalso. revert H. clear - Em. intros H. assert (G : forall f, lcss_walk f close mask T (S i) (S j) path = None).
    { induction f0 as [|f0 IHf]; auto. simpl. rewrite Em. auto. }
    rewrite G in H. discriminate.
Qed.
Lemma walk_stuck fuel i j path : mask i j = false -> lcss_walk fuel close mask T (S i) (S j) path = None.
Proof. intros Em. induction fuel as [|f IH]; auto. simpl. rewrite Em. auto. Qed.

Lemma walk_total fuel i j path : (forall a b, a < i -> b < j -> mask a b = true) -> i + j < fuel ->
  exists q, lcss_walk fuel close mask T i j path = Some q.
Proof.
  revert i j path. induction fuel as [|f IH]; intros i j path Hm Hf; [lia|]. simpl.
  destruct i as [|i]; [eauto|]. destruct j as [|j]; [eauto|]. rewrite Hm by lia.
  destruct (close i j); [apply IH; [intros; apply Hm; lia|lia]|].
  destruct (_ <? _); (apply IH; [intros; apply Hm; lia|lia]).
Qed.
End Walk.

(** longest depends only on the relation inside the rectangle *)
Lemma longest_ext n m ok ok' k : (forall i j, i < n -> j < m -> ok i j = ok' i j) -> longest n m ok k -> longest n m ok' k.
Proof.
  intros H [(p & [Hl Hin] & E) Hmax].
  split.
  - exists p. split; auto. split; auto. intros i j Hij. destruct (Hin i j Hij) as (A & B & C). rewrite <- H by auto. auto.
  - intros q [Ql Qin]. apply Hmax. split; auto. intros i j Hij. destruct (Qin i j Hij) as (A & B & C). rewrite H by auto. auto.
Qed.
Lemma longest_mono n m ok ok' k k' : (forall i j, i < n -> j < m -> ok i j = true -> ok' i j = true) ->
  longest n m ok k -> longest n m ok' k' -> k <= k'.
Proof.
  intros H [(p & [Hl Hin] & <-) _] [_ Hmax]. apply Hmax. split; auto. intros i j Hij.
  destruct (Hin i j Hij) as (A & B & C). auto.
Qed.
Lemma longest_unique n m ok k k' : longest n m ok k -> longest n m ok k' -> k = k'.
Proof. intros H H'. apply Nat.le_antisymm; eapply longest_mono; eauto. Qed.
Lemma chain_swap n m ok p : chain n m ok p -> chain m n (fun i j => ok j i) (map (fun c => (snd c, fst c)) p).
Proof.
  intros [Hl Hin]. split.
  - clear Hin. induction p as [|x [|y p] IH]; [simpl; auto|simpl; auto|]. destruct Hl as [[A B] Hl]. split; [split; auto|].
    apply IH. exact Hl.
  - intros i j Hij. apply in_map_iff in Hij. destruct Hij as ([a b] & E & Hab). inversion E; subst. destruct (Hin _ _ Hab) as (A & B & C). auto.
Qed.
Lemma longest_swap n m ok k : longest n m ok k -> longest m n (fun i j => ok j i) k.
Proof.
  intros [(p & Hp & E) Hmax]. split.
  - exists (map (fun c => (snd c, fst c)) p). split; [apply chain_swap; auto|rewrite map_length; auto].
  - intros q Hq. apply chain_swap in Hq. apply Hmax in Hq. rewrite map_length in Hq. auto.
Qed.
Lemma dchain_len ok i j p : dchain ok i j p -> length p <= Nat.min i j.
Proof. induction 1; simpl; lia. Qed.
Lemma chain_len n m ok p : chain n m ok p -> length p <= Nat.min n m.
Proof. intros H. apply chain_dchain, dchain_len in H. rewrite rev_length in H. auto. Qed.
Lemma longest_diag n ok k : (forall i, i < n -> ok i i = true) -> longest n n ok k -> k = n.
Proof.
  intros H [(p & Hp & <-) Hmax]. apply Nat.le_antisymm; [pose proof (chain_len _ _ _ _ Hp); lia|].
  assert (D : forall k, k <= n -> exists q, dchain ok k k q /\ length q = k).
  { induction k as [|k IH]; intros Hk; [exists []; split; auto; constructor|].
    destruct IH as (q & Hq & E); [lia|]. exists ((k, k) :: q). split; [constructor; auto; apply H; lia|simpl; lia]. }
  destruct (D n) as (q & Hq & E); auto. rewrite <- E at 1. rewrite <- rev_length. apply Hmax, dchain_chain. auto.
Qed.

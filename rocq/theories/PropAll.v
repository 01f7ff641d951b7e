(** C229: [Backend.all] over one and several axes with PyTorch. *)
From Coq Require Import Bool List Arith ZArith Lia.
From Verif Require Import Py AllModel.
Import ListNotations.
Local Open Scope nat_scope.

(** ** Specification *)
(** the integer [a] names dimension [k] of [n] *)
Definition names (n : nat) (a : Z) (k : nat) : Prop := k < n /\ (a = Z.of_nat k \/ a = Z.of_nat k - Z.of_nat n)%Z.
Definition in_range (ix sh : list nat) : Prop := Forall2 lt ix sh.
(** the coordinates of [ix] outside the dimensions [ks] *)
Definition outside (ks : list nat) (ix : list nat) : list nat :=
  map (fun k => nth k ix 0) (filter (fun k => negb (existsb (Nat.eqb k) ks)) (seq 0 (length ix))).
(** [y] is what [numpy.all] gives for [x] over the dimensions [ks]: an entry is true if all
    entries of [x] with its coordinates outside [ks] are *)
Definition reduced (ks : list nat) (x y : tensor) : Prop :=
  shape y = outside ks (shape x) /\
  forall jx, in_range jx (shape y) ->
    (item y jx = true <-> forall ix, in_range ix (shape x) -> outside ks ix = jx -> item x ix = true).

(** ** lemmas *)
Lemma Forall2_length {A B} (R : A -> B -> Prop) l l' : Forall2 R l l' -> length l = length l'.
Proof. induction 1; cbn; congruence. Qed.
Arguments Forall2_length {A B R l l'}.
Lemma app_same {A} (a a' b b' : list A) : length a = length a' -> a ++ b = a' ++ b' -> a = a' /\ b = b'.
Proof. revert a'. induction a as [|x a IH]; intros [|y a'] L E; try discriminate; [auto|]. injection L as L. injection E as -> E. destruct (IH a' L E) as [-> ->]. auto. Qed.
Lemma in_indices sh ix : In ix (indices sh) <-> in_range ix sh.
Proof.
  revert ix. induction sh as [|n sh IH]; intros ix.
  - split; [intros [<-|[]]; constructor|]. intros H. inversion H. left. reflexivity.
  - cbn [indices]. rewrite in_flat_map. split.
    + intros (v & Hv & H). apply in_map_iff in H. destruct H as (jx & <- & H). apply in_seq in Hv. constructor; [lia|]. apply IH, H.
    + intros H. inversion H as [|v n' jx sh' Hv Hj]; subst. exists v. split; [apply in_seq; lia|]. apply in_map, IH, Hj.
Qed.
Lemma in_range_nth ix sh : in_range ix sh <-> length ix = length sh /\ forall k, k < length sh -> nth k ix 0 < nth k sh 0.
Proof.
  split.
  - induction 1 as [|a n ix sh H1 H2 IH]; [split; [reflexivity|cbn; lia]|]. destruct IH as [L IH]. split; [cbn; lia|]. intros [|k] Hk; [exact H1|]. apply IH. cbn in Hk. lia.
  - revert sh. induction ix as [|a ix IH]; intros [|n sh] [L H]; try discriminate; constructor.
    + apply (H 0). cbn. lia.
    + apply IH. split; [injection L; auto|]. intros k Hk. apply (H (S k)). cbn. lia.
Qed.
Lemma mem_seq k a n : a <= k < a + n -> existsb (Nat.eqb k) (seq a n) = true.
Proof. intros H. apply existsb_exists. exists k. split; [apply in_seq; exact H|apply Nat.eqb_refl]. Qed.
Lemma filter_none {A} (P : A -> bool) l : (forall x, In x l -> P x = false) -> filter P l = [].
Proof. induction l as [|x l IH]; intros H; [reflexivity|]. cbn. rewrite (H x) by (left; reflexivity). apply IH. intros y Hy. apply H. right. exact Hy. Qed.
Lemma filter_all {A} (P : A -> bool) l : (forall x, In x l -> P x = true) -> filter P l = l.
Proof. induction l as [|x l IH]; intros H; [reflexivity|]. cbn. rewrite (H x) by (left; reflexivity). f_equal. apply IH. intros y Hy. apply H. right. exact Hy. Qed.
Lemma outside_all ix n : length ix <= n -> outside (seq 0 n) ix = [].
Proof. intros H. unfold outside. rewrite filter_none; [reflexivity|]. intros k Hk. apply in_seq in Hk. rewrite mem_seq by lia. reflexivity. Qed.
Lemma map_nth_part (ix : list nat) a m : a + m <= length ix -> map (fun k => nth k ix 0) (seq a m) = firstn m (skipn a ix).
Proof.
  revert a ix. induction m as [|m IH]; intros a ix H; [reflexivity|]. cbn [seq map].
  destruct (skipn a ix) as [|v r] eqn:E; [pose proof (skipn_length a ix) as L; rewrite E in L; cbn in L; lia|].
  assert (EV : nth a ix 0 = v). { rewrite <- (firstn_skipn a ix), E, app_nth2; rewrite firstn_length; [|lia]. replace (a - Nat.min a (length ix)) with 0 by lia. reflexivity. }
  assert (ER : skipn (S a) ix = r). { change r with (skipn 1 (v :: r)). rewrite <- E. clear. revert ix. induction a as [|a IH]; intros [|w ix]; try reflexivity. cbn [skipn] in *. apply IH. }
  rewrite EV, IH by lia. rewrite ER. reflexivity.
Qed.
Lemma outside_one k ix : k < length ix -> outside [k] ix = firstn k ix ++ skipn (S k) ix.
Proof.
  intros H. unfold outside. replace (length ix) with (k + S (length ix - S k)) at 1 by lia. rewrite seq_app. cbn [seq plus]. rewrite filter_app. cbn [filter existsb]. rewrite Nat.eqb_refl. cbn [orb negb].
  rewrite !filter_all.
  - rewrite map_app, !map_nth_part by lia. change (skipn 0 ix) with ix. f_equal. apply firstn_all2. rewrite skipn_length. lia.
  - intros j Hj. apply in_seq in Hj. destruct (Nat.eqb_spec j k); [lia|reflexivity].
  - intros j Hj. apply in_seq in Hj. destruct (Nat.eqb_spec j k); [lia|reflexivity].
Qed.
Lemma split_at k (ix : list nat) : k < length ix -> ix = firstn k ix ++ nth k ix 0 :: skipn (S k) ix.
Proof.
  revert ix. induction k as [|k IH]; intros [|v ix] H; cbn in H; try lia; [reflexivity|]. cbn [firstn nth app]. f_equal. apply IH. lia.
Qed.
Lemma put_out k v (jx : list nat) : k <= length jx -> outside [k] (firstn k jx ++ v :: skipn k jx) = jx.
Proof.
  intros H. assert (L : length (firstn k jx) = k) by (rewrite firstn_length; lia).
  rewrite outside_one by (rewrite app_length, L; cbn; lia). rewrite firstn_app, L, Nat.sub_diag. cbn [firstn]. rewrite app_nil_r, firstn_firstn, Nat.min_id.
  rewrite skipn_app, L. replace (S k - k) with 1 by lia. rewrite (skipn_all2 (firstn k jx)) by lia. change (skipn 1 (v :: skipn k jx)) with (skipn k jx). cbn [app]. apply firstn_skipn.
Qed.
Lemma range_split k ix sh : k < length sh -> in_range ix sh <-> k < length ix /\ nth k ix 0 < nth k sh 0 /\ in_range (outside [k] ix) (outside [k] sh).
Proof.
  intros Hk. rewrite (outside_one k sh) by exact Hk. unfold in_range. split.
  - intros H. pose proof (Forall2_length H) as L. split; [lia|]. rewrite outside_one by lia. rewrite (split_at k ix), (split_at k sh) in H by lia.
    apply Forall2_app_inv_l in H. destruct H as (s1 & s2 & H1 & H2 & E).
    assert (L1 : length s1 = k) by (rewrite <- (Forall2_length H1), firstn_length; lia). assert (L2 : length (firstn k sh) = k) by (rewrite firstn_length; lia).
    apply app_same in E; [|lia]. destruct E as [E1 E2]. subst s1 s2. inversion H2; subst. split; [assumption|]. apply Forall2_app; assumption.
  - intros (L & Hv & H). rewrite outside_one in H by exact L. rewrite (split_at k ix), (split_at k sh) by lia.
    apply Forall2_app_inv_l in H. destruct H as (s1 & s2 & H1 & H2 & E).
    assert (L1 : length s1 = k) by (rewrite <- (Forall2_length H1), firstn_length; lia). assert (L2 : length (firstn k sh) = k) by (rewrite firstn_length; lia).
    apply app_same in E; [|lia]. destruct E as [E1 E2]. subst s1 s2. apply Forall2_app; [assumption|]. constructor; assumption.
Qed.
Lemma dimension_names n a k : names n a k -> dimension n a = Ok k.
Proof.
  intros (H & E). unfold dimension. rewrite Nat.max_l by lia. destruct ((- Z.of_nat n <=? a) && (a <? Z.of_nat n))%Z eqn:B.
  - f_equal. destruct (Z.ltb_spec a 0); lia.
  - apply andb_false_iff in B. rewrite Z.leb_gt, Z.ltb_ge in B. lia.
Qed.
Lemma torch_all_one x a k : names (length (shape x)) a k -> exists y, torch_all x a = Ok y /\ reduced [k] x y.
Proof.
  intros HN. pose proof HN as (Hk & _). unfold torch_all. rewrite (dimension_names _ _ k) by exact HN. cbn [bind].
  destruct (shape x) as [|s0 sh0] eqn:ES; [cbn in Hk; lia|]. rewrite <- ES in *. clear ES. eexists. split; [reflexivity|].
  unfold reduced. cbn [shape item]. rewrite <- outside_one by exact Hk. split; [reflexivity|]. intros jx Hj.
  assert (LO : length (outside [k] (shape x)) = length (shape x) - 1) by (rewrite outside_one by exact Hk; rewrite app_length, firstn_length, skipn_length; lia).
  pose proof (Forall2_length Hj) as LJ. rewrite forallb_forall. split.
  - intros H ix Hix EO. apply (range_split k) in Hix; [|exact Hk]. destruct Hix as (L & Hv & _). specialize (H (nth k ix 0)). rewrite in_seq in H. specialize (H ltac:(lia)).
    rewrite <- EO, outside_one in H by exact L. rewrite firstn_app, firstn_length, Nat.min_l in H by lia. rewrite Nat.sub_diag, firstn_firstn, Nat.min_id in H. cbn [firstn] in H. rewrite app_nil_r in H.
    rewrite skipn_app, firstn_length, Nat.min_l, Nat.sub_diag in H by lia. rewrite (skipn_all2 (firstn k ix)) in H by (rewrite firstn_length; lia). cbn [skipn app] in H.
    rewrite (split_at k ix) by exact L. exact H.
  - intros H v Hv. apply in_seq in Hv. apply H; [|apply put_out; lia]. apply (range_split k); [exact Hk|]. rewrite put_out by lia.
    assert (L1 : length (firstn k jx) = k) by (rewrite firstn_length; lia). split; [rewrite app_length, L1; cbn; lia|]. split; [|exact Hj].
    rewrite app_nth2; rewrite L1; [|lia]. rewrite Nat.sub_diag. cbn. lia.
Qed.

(** ** C229 *)
(** No axis: one truth value for the whole tensor. *)
Theorem C229_everything x : exists y, pytorch_all x AxNone = Ok y /\ reduced (seq 0 (length (shape x))) x y.
Proof.
  eexists. split; [reflexivity|]. unfold reduced. cbn [shape item tensor_all]. rewrite outside_all by lia. split; [reflexivity|]. intros jx Hj. inversion Hj; subst.
  rewrite forallb_forall. split.
  - intros H ix Hix _. apply H, in_indices, Hix.
  - intros H ix Hix. apply in_indices in Hix. apply H; [exact Hix|]. apply outside_all. rewrite (Forall2_length Hix). lia.
Qed.
Print Assumptions C229_everything.
(** One axis, counted from either end, as an integer or as a tuple. *)
Theorem C229_one_axis x a k : names (length (shape x)) a k ->
  exists y, pytorch_all x (AxInt a) = Ok y /\ pytorch_all x (AxTuple [a]) = Ok y /\ reduced [k] x y.
Proof. intros H. destruct (torch_all_one x a k H) as (y & E & HR). exists y. cbn [pytorch_all]. auto. Qed.
Print Assumptions C229_one_axis.
(** An axis that the tensor does not have is an IndexError. *)
Theorem C229_no_such_axis x a : shape x <> [] -> (forall k, ~ names (length (shape x)) a k) ->
  pytorch_all x (AxInt a) = Err IndexError /\ pytorch_all x (AxTuple [a]) = Err IndexError.
Proof.
  intros HN H. assert (L : 0 < length (shape x)) by (destruct (shape x); [congruence|cbn; lia]).
  assert (E : torch_all x a = Err IndexError); [|split; exact E]. unfold torch_all, dimension. rewrite Nat.max_l by lia.
  destruct ((- Z.of_nat (length (shape x)) <=? a) && (a <? Z.of_nat (length (shape x))))%Z eqn:B; [|reflexivity]. exfalso.
  apply andb_true_iff in B. rewrite Z.leb_le, Z.ltb_lt in B. destruct (Z.ltb_spec a 0).
  - apply (H (Z.to_nat (a + Z.of_nat (length (shape x))))). split; lia.
  - apply (H (Z.to_nat a)). split; lia.
Qed.
Print Assumptions C229_no_such_axis.
(** Several axes always fail, whatever the tensor and the axes. *)
Theorem C229_several_axes x a b l : (forall c, In c (a :: b :: l) -> exists k, names (length (shape x)) c k) ->
  pytorch_all x (AxTuple (a :: b :: l)) = Err TypeError.
Proof.
  intros H. unfold pytorch_all. destruct (wrap_axes (a :: b :: l)) as [l'|e] eqn:E.
  - cbn [bind]. cbn [wrap_axes] in E. destruct (a <? 0)%Z; [discriminate|]. match type of E with (do l <- ?m ;; _) = _ => destruct m as [r|e]; [|discriminate] end. cbn [bind] in E. injection E as <-.
    destruct (H a (or_introl eq_refl)) as (k & Hk). destruct (torch_all_one x a k Hk) as (y & -> & _). reflexivity.
  - cbn [bind]. f_equal. clear H. revert E. generalize (a :: b :: l). clear. intros l. revert e. induction l as [|a l IH]; intros e E; [discriminate|].
    cbn [wrap_axes] in E. destruct (a <? 0)%Z; [injection E; auto|]. destruct (wrap_axes l) as [r|e']; [discriminate|]. cbn [bind] in E. injection E as <-. apply IH. reflexivity.
Qed.
Print Assumptions C229_several_axes.
(** The claim for tuples of axes, as [numpy.all] meets it, is false: two axes of a matrix, and no axis. *)
Theorem C229_tuple_refuted :
  ~ (forall x l ks, NoDup ks -> Forall2 (names (length (shape x))) l ks -> ks <> [] -> exists y, pytorch_all x (AxTuple l) = Ok y /\ reduced ks x y) /\
  ~ (forall x, exists y, pytorch_all x (AxTuple []) = Ok y /\ reduced [] x y).
Proof.
  split; intros H.
  - destruct (H {| shape := [2; 3]; item := fun _ => true |} [0; -1]%Z [0; 1]) as (y & E & _); try discriminate.
    + repeat constructor; cbn; intuition lia.
    + repeat constructor; cbn; lia.
  - destruct (H {| shape := [2; 3]; item := fun _ => true |}) as (y & E & _). discriminate.
Qed.
Print Assumptions C229_tuple_refuted.
(** a case: a 2 x 3 matrix with one false entry, over its last axis *)
Example C229_instance : let x := {| shape := [2; 3]; item := fun ix => negb ((nth 0 ix 0 =? 1) && (nth 1 ix 0 =? 2)) |} in
  names (length (shape x)) (-1)%Z 1 /\ exists y, pytorch_all x (AxInt (-1)) = Ok y /\ shape y = [2] /\ item y [0] = true /\ item y [1] = false.
Proof. split; [split; cbn; lia|]. eexists. split; [reflexivity|]. repeat split; reflexivity. Qed.

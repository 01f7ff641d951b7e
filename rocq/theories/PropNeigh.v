(** C58, C92: which neighbours are returned. *)
From Coq Require Import Bool List Arith Lia ZArith Reals Lra Permutation.
From Verif Require Import Num NumLaws Py NeighModel.
Import ListNotations.
Local Open Scope nat_scope.

(** ** Specification *)
(** numpy's documentation of argpartition: a permutation of the indices, entry [kth] is where it would be in a sorted
    array, no larger entry before it and no smaller one behind it *)
Definition is_argpartition (row : list R) (kth : nat) (ind : list nat) : Prop :=
  Permutation ind (seq 0 (length row)) /\
  (forall i j, i <= kth -> kth <= j < length row -> (nth (nth i ind 0%nat) row 0 <= nth (nth j ind 0%nat) row 0)%R).
Definition is_argsort (v : list R) (p : list nat) : Prop :=
  Permutation p (seq 0 (length v)) /\
  (forall i j, i <= j < length v -> (nth (nth i p 0%nat) v 0 <= nth (nth j p 0%nat) v 0)%R).
Definition numpy_ok (np : np_order) : Prop :=
  (forall row kth, kth < length row -> is_argpartition row kth (argpart np row kth)) /\ (forall v, is_argsort v (argsort np v)).
Definition increasing (l : list R) : Prop := forall i j, i <= j < length l -> (nth i l 0 <= nth j l 0)%R.
(** [ind] are [k] distinct positions of [row] with the least entries, in increasing order of the entries [dist] *)
Definition k_nearest (k : nat) (row : list R) (dist : list R) (ind : list nat) : Prop :=
  length ind = k /\ NoDup ind /\ (forall i, In i ind -> i < length row) /\ dist = map (fun i => nth i row 0%R) ind /\ increasing dist /\
  (forall i j, In i ind -> j < length row -> ~ In j ind -> (nth i row 0 <= nth j row 0)%R).

(** ** lemmas *)
Lemma nth_map_seq {A} (d : A) l : map (fun i => nth i l d) (seq 0 (length l)) = l.
Proof.
  induction l as [|x l IH]; auto. cbn [length seq map nth]. f_equal. rewrite <- seq_shift, map_map. exact IH.
Qed.
Lemma order_spec np row ind : numpy_ok np ->
  let ind' := map (fun i => nth i ind 0) (argsort np (pick row ind)) in
  Permutation ind' ind /\ increasing (pick row ind').
Proof.
  intros [_ H]. destruct (H (pick row ind)) as [P S]. intros ind'. assert (L : length (pick row ind) = length ind) by apply map_length.
  assert (LP : length (argsort np (pick row ind)) = length ind) by (rewrite (Permutation_length P), seq_length; auto).
  split.
  - unfold ind'. rewrite <- (nth_map_seq 0 ind) at 2. apply Permutation_map. rewrite <- L. exact P.
  - intros i j Hij. unfold pick, ind' in Hij. rewrite !map_length, LP in Hij. specialize (S i j ltac:(lia)).
    assert (Q : forall k, k < length ind -> nth k (pick row ind') 0%R = nth (nth k (argsort np (pick row ind)) 0) (pick row ind) 0%R).
    { intros k Hk. set (p := argsort np (pick row ind)) in *. assert (Hp : nth k p 0 < length ind).
      { assert (In (nth k p 0) (seq 0 (length (pick row ind)))) by (eapply Permutation_in; [exact P|apply nth_In; lia]). apply in_seq in H0. lia. }
      unfold pick, ind'. rewrite map_map. rewrite (nth_indep _ 0%R (nth (nth 0 ind 0) row 0%R)) by (rewrite map_length; lia).
      rewrite (map_nth (fun x => nth (nth x ind 0) row 0%R) p 0 k).
      rewrite (nth_indep (map _ ind) 0%R (nth 0 row 0%R)) by (rewrite map_length; lia). rewrite (map_nth (fun i => nth i row 0%R) ind 0). reflexivity. }
    rewrite !Q by lia. exact S.
Qed.

(** ** C58, queries given *)
Theorem C58_query np k row dist ind : numpy_ok np -> 1 <= k -> row <> [] -> neighbors_row np false k row = (dist, ind) ->
  k_nearest (Nat.min k (length row)) row dist ind.
Proof.
  intros HN Hk Hr H. unfold neighbors_row in H. assert (Hn : 0 < length row) by (destruct row; cbn; [congruence|lia]).
  replace (if length row <? k then length row else k) with (Nat.min k (length row)) in H by (destruct (Nat.ltb_spec (length row) k); lia).
  set (m := Nat.min k (length row)) in *. replace (Nat.min (k - 1) (length row - 1)) with (m - 1) in H by lia.
  destruct (proj1 HN row (m - 1) ltac:(lia)) as [P Q]. set (part := argpart np row (m - 1)) in *.
  destruct (order_spec np row (firstn m part) HN) as [P' I']. injection H as <- <-. set (ind := map _ _) in *.
  assert (LP : length part = length row) by (rewrite (Permutation_length P), seq_length; auto).
  assert (ND : NoDup part) by (eapply Permutation_NoDup; [symmetry; exact P|apply seq_NoDup]).
  assert (NF : NoDup (firstn m part)). { rewrite <- (firstn_skipn m part) in ND. clear -ND. induction (firstn m part) as [|x l IH]; [constructor|]. cbn in ND. inversion ND; subst. constructor; [|apply IH; auto]. intros Hx. apply H1. apply in_or_app. auto. }
  assert (IN : forall i, In i part -> i < length row). { intros i Hi. apply (Permutation_in _ P) in Hi. apply in_seq in Hi. lia. }
  split; [rewrite (Permutation_length P'), firstn_length; lia|]. split; [eapply Permutation_NoDup; [symmetry; exact P'|exact NF]|].
  split. { intros i Hi. apply IN. apply (Permutation_in _ P') in Hi. rewrite <- (firstn_skipn m part). apply in_or_app. auto. }
  split; [reflexivity|]. split; [exact I'|].
  intros i j Hi Hj NJ. apply (Permutation_in _ P') in Hi. apply (In_nth _ _ 0) in Hi. destruct Hi as (a & Ha & <-). rewrite firstn_length in Ha.
  assert (Jp : In j part) by (eapply Permutation_in; [symmetry; exact P|apply in_seq; lia]). apply (In_nth _ _ 0) in Jp. destruct Jp as (b & Hb & <-).
  assert (m <= b). { destruct (Nat.le_gt_cases m b); auto. exfalso. apply NJ. eapply Permutation_in; [symmetry; exact P'|]. replace (nth b part 0) with (nth b (firstn m part) 0).
    - apply nth_In. rewrite firstn_length. lia.
    - rewrite <- (firstn_skipn m part) at 2. rewrite app_nth1 by (rewrite firstn_length; lia). reflexivity. }
  replace (nth a (firstn m part) 0) with (nth a part 0).
  - apply Q; lia.
  - rewrite <- (firstn_skipn m part) at 1. rewrite app_nth1 by (rewrite firstn_length; lia). reflexivity.
Qed.
Print Assumptions C58_query.

(** ** such orders exist: a stable sort *)
Fixpoint ins (v : list R) (i : nat) (l : list nat) : list nat :=
  match l with [] => [i] | j :: l' => if Rltb (nth j v 0%R) (nth i v 0%R) then j :: ins v i l' else i :: l end.
Definition sort_idx (v : list R) : list nat := fold_right (ins v) [] (seq 0 (length v)).
Definition sorted_idx (v : list R) (l : list nat) : Prop := forall i j, i <= j < length l -> (nth (nth i l 0%nat) v 0 <= nth (nth j l 0%nat) v 0)%R.
Lemma ins_perm v i l : Permutation (ins v i l) (i :: l).
Proof. induction l as [|j l IH]; cbn; auto. destruct (Rltb _ _); auto. rewrite IH. apply perm_swap. Qed.
Lemma sorted_cons v i l : (forall j, In j l -> (nth i v 0 <= nth j v 0)%R) -> sorted_idx v l -> sorted_idx v (i :: l).
Proof.
  intros H S [|a] [|b] Hab; cbn [nth length] in *; try lia; try lra.
  - apply H, nth_In. lia.
  - apply S. lia.
Qed.
Lemma sorted_tail v i l : sorted_idx v (i :: l) -> sorted_idx v l /\ (forall j, In j l -> (nth i v 0 <= nth j v 0)%R).
Proof.
  intros H. split.
  - intros a b Hab. apply (H (S a) (S b)). cbn. lia.
  - intros j Hj. apply (In_nth _ _ 0) in Hj. destruct Hj as (a & Ha & <-). apply (H 0 (S a)). cbn. lia.
Qed.
Lemma ins_sorted v i l : sorted_idx v l -> sorted_idx v (ins v i l).
Proof.
  induction l as [|j l IH]; intros H; cbn; [apply sorted_cons; [intros ? []|auto]|]. destruct (sorted_tail _ _ _ H) as [H1 H2].
  destruct (Rltb (nth j v 0%R) (nth i v 0%R)) eqn:E.
  - apply Rltb_true in E. apply sorted_cons; [|auto]. intros x Hx. apply (Permutation_in _ (ins_perm v i l)) in Hx. destruct Hx as [<-|Hx]; [lra|auto].
  - apply Rltb_false in E. apply sorted_cons; [|auto]. intros x [<-|Hx]; [lra|]. specialize (H2 x Hx). lra.
Qed.
Lemma sort_idx_ok v : is_argsort v (sort_idx v).
Proof.
  assert (G : forall l, Permutation (fold_right (ins v) [] l) l /\ sorted_idx v (fold_right (ins v) [] l)).
  { induction l as [|i l [P S]]; cbn [fold_right].
    - split; [constructor|]. intros i j Hij. cbn in Hij. lia.
    - split; [rewrite ins_perm; auto|apply ins_sorted; auto]. }
  destruct (G (seq 0 (length v))) as [P S]. split; [exact P|]. intros i j Hij. apply S. unfold sort_idx in *. rewrite (Permutation_length P), seq_length. auto.
Qed.
Lemma argsort_part v p k : is_argsort v p -> is_argpartition v k p.
Proof. intros [P S]. split; auto. intros i j Hi Hj. apply S. lia. Qed.
Example numpy_exists : numpy_ok {| argpart := fun row _ => sort_idx row; argsort := sort_idx |}.
Proof. split; cbn; intros; [apply argsort_part|]; apply sort_idx_ok. Qed.

(** ** C58, no query given *)
(** What holds then: the indices are distinct and valid, in increasing order of their distances. *)
Theorem C58_self_partial np k row dist ind : numpy_ok np -> 1 <= k -> row <> [] -> neighbors_row np true k row = (dist, ind) ->
  length ind = Nat.min k (length row - 1) /\ NoDup ind /\ (forall i, In i ind -> i < length row) /\ dist = map (fun i => nth i row 0%R) ind /\ increasing dist.
Proof.
  intros HN Hk Hr H. unfold neighbors_row in H. assert (Hn : 0 < length row) by (destruct row; cbn; [congruence|lia]).
  replace (if length row <? k then length row else k) with (Nat.min k (length row)) in H by (destruct (Nat.ltb_spec (length row) k); lia).
  destruct (proj1 HN row (Nat.min (k - 1) (length row - 1)) ltac:(lia)) as [P _]. set (part := argpart np row _) in *.
  destruct (order_spec np row (firstn (Nat.min k (length row)) (skipn 1 part)) HN) as [P' I']. injection H as <- <-. set (ind := map _ _) in *.
  assert (LP : length part = length row) by (rewrite (Permutation_length P), seq_length; auto).
  assert (ND : NoDup part) by (eapply Permutation_NoDup; [symmetry; exact P|apply seq_NoDup]).
  assert (SUB : forall A (l : list A) m, NoDup l -> NoDup (firstn m l) /\ NoDup (skipn m l)).
  { intros A l m Hl. rewrite <- (firstn_skipn m l) in Hl. split.
    - induction (firstn m l) as [|x q IH]; [constructor|]. cbn in Hl. inversion Hl; subst. constructor; [|apply IH; auto]. intros Hx. apply H1. apply in_or_app. auto.
    - induction (firstn m l) as [|x q IH]; auto. cbn in Hl. inversion Hl; auto. }
  split; [rewrite (Permutation_length P'), firstn_length, skipn_length; lia|].
  split; [eapply Permutation_NoDup; [symmetry; exact P'|apply SUB, SUB, ND]|]. split; [|split; [reflexivity|exact I']].
  intros i Hi. apply (Permutation_in _ P') in Hi. assert (Hp : In i part).
  { rewrite <- (firstn_skipn 1 part). apply in_or_app. right. rewrite <- (firstn_skipn (Nat.min k (length row)) (skipn 1 part)). apply in_or_app. auto. }
  apply (Permutation_in _ P) in Hp. apply in_seq in Hp. lia.
Qed.
Print Assumptions C58_self_partial.
(** Distances 0, 5, 1, 7 of the first training series to the four training series.  One neighbour wanted: the second series
    (distance 5) may be returned, though the third is at distance 1.  Three wanted: the series itself may be returned, and the
    third series left out. *)
Theorem C58_self_refuted : exists np, numpy_ok np /\
  neighbors_row np true 1 [0; 5; 1; 7]%R = ([5%R], [1]) /\ neighbors_row np true 3 [0; 5; 1; 7]%R = ([0; 5; 7]%R, [0; 1; 3]).
Proof.
  set (row := [0; 5; 1; 7]%R).
  set (part := fun (r : list R) (k : nat) => if list_eq_dec Req_EM_T r row then (match k with 0 => [0; 1; 2; 3] | 2 => [2; 0; 1; 3] | _ => sort_idx r end) else sort_idx r).
  exists {| argpart := part; argsort := sort_idx |}. split; [|split].
  - split; [|intros v; apply sort_idx_ok]. intros r k Hk. cbn [argpart]. unfold part. destruct (list_eq_dec Req_EM_T r row) as [->|N]; [|apply argsort_part, sort_idx_ok].
    destruct k as [|[|[|k]]]; try (apply argsort_part, sort_idx_ok).
    + split; [reflexivity|]. intros i j Hi Hj. cbn in Hj. assert (i = 0) by lia. subst i. destruct j as [|[|[|[|j]]]]; cbn; try lra; lia.
    + split; [|intros i j Hi Hj; cbn in Hj; destruct i as [|[|[|i]]], j as [|[|[|[|j]]]]; cbn; try lra; lia].
      cbn. rewrite perm_swap. apply perm_skip. apply perm_swap.
  - unfold neighbors_row. cbn [argpart argsort]. change (Nat.min (1 - 1) (length row - 1)) with 0. unfold part. destruct (list_eq_dec Req_EM_T row row) as [_|N]; [|congruence]. reflexivity.
  - unfold neighbors_row. cbn [argpart argsort]. change (Nat.min (3 - 1) (length row - 1)) with 2. unfold part. destruct (list_eq_dec Req_EM_T row row) as [_|N]; [|congruence].
    change (firstn (if length row <? 3 then length row else 3) (skipn 1 [2; 0; 1; 3])) with [0; 1; 3].
    assert (E : sort_idx (pick row [0; 1; 3]) = [0; 1; 2]).
    { change (pick row [0; 1; 3]) with [0; 5; 7]%R. unfold sort_idx. cbn [length seq fold_right ins nth]. rewrite (proj2 (Rltb_false 7 5)) by lra. cbn [ins nth]. rewrite (proj2 (Rltb_false 5 0)) by lra. reflexivity. }
    rewrite E. reflexivity.
Qed.
Print Assumptions C58_self_refuted.

(** ** C92: kneighbors() on a fitted classifier or regressor with an elastic metric *)
(** With queries, the training series are searched. *)
Theorem C92_query np f train d X k : numpy_ok np -> 1 <= k -> train <> [] ->
  exists out, clf_kneighbors np f train d (Some X) k = Ok out /\ length out = length X /\
    forall q, q < length X -> k_nearest (Nat.min k (length train)) (map (f (nth q X [])) train) (fst (nth q out ([], []))) (snd (nth q out ([], []))).
Proof.
  intros HN Hk Ht. eexists. split; [reflexivity|]. unfold kneighbors_sel. cbn [fst snd]. rewrite map_map, map_length. split; auto. intros q Hq.
  set (g := fun x => neighbors_row np false k (map (f x) train)). change (map (fun x => neighbors_row np false k (map (f x) train)) X) with (map g X).
  rewrite (nth_indep _ ([], []) (g [])) by (rewrite map_length; auto). rewrite map_nth. unfold g. rewrite <- (map_length (f (nth q X [])) train).
  apply C58_query with (np := np); auto.
  - destruct train; [congruence|discriminate].
Qed.
Print Assumptions C92_query.
(** Without queries, the values of the training series are not used at all: every distance returned is the one between two
    series of zeros, hence 0. *)
Theorem C92_none_refuted np f train d k : numpy_ok np -> (forall x, f x x = 0%R) -> 1 <= k -> 1 <= d -> train <> [] ->
  (length train mod d = 0 -> exists out, clf_kneighbors np f train d None k = Ok out /\ length out = length train /\
     forall q, q < length train -> length (fst (nth q out ([], []))) = Nat.min k (length train - 1) /\ forall v, In v (fst (nth q out ([], []))) -> v = 0%R) /\
  (length train mod d <> 0 -> clf_kneighbors np f train d None k = Err ValueError).
Proof.
  intros HN Hf Hk Hd Ht. set (n := length train). assert (Hn : 0 < n) by (destruct train; [congruence|cbn in *; lia]). split.
  - intros E. unfold clf_kneighbors, compared. fold n. rewrite (proj2 (Nat.eqb_eq _ _) E). cbn [bind fst snd]. eexists. split; [reflexivity|].
    set (z := rows_of d (repeat 0%R n)). 
    assert (EZ' : map (rows_of d) (repeat (repeat 0%R n) n) = repeat z n).
    { unfold z. generalize n at 2 4. intros m. induction m as [|m IH]; cbn; [auto|rewrite IH; reflexivity]. }
    rewrite EZ'. unfold kneighbors_sel. rewrite !map_length, repeat_length. split; auto. intros q Hq.
    assert (ER : map (f z) (repeat z n) = repeat 0%R n). { clearbody z. clear -Hf. induction n as [|m IH]; cbn; [auto|rewrite IH, Hf; reflexivity]. }
    assert (EM : map (fun x => map (f x) (repeat z n)) (repeat z n) = repeat (repeat 0%R n) n).
    { rewrite <- ER. generalize (repeat z n) at 1 3. intros l. generalize n. intros m. induction m as [|m IH]; cbn; [auto|]. rewrite IH. reflexivity. }
    rewrite EM. set (g := neighbors_row np true k). rewrite (nth_indep _ ([], []) (g [])) by (rewrite map_length, repeat_length; auto). rewrite map_nth.
    assert (EN : nth q (repeat (repeat 0%R n) n) [] = repeat 0%R n). { rewrite (nth_indep _ [] (repeat 0%R n)) by (rewrite repeat_length; auto). apply nth_repeat. }
    rewrite EN. unfold g. destruct (neighbors_row np true k (repeat 0%R n)) as [dist ind] eqn:ED.
    destruct (C58_self_partial np k (repeat 0%R n) dist ind HN Hk) as (L & _ & _ & D & _); auto.
    { destruct n; [lia|discriminate]. }
    rewrite repeat_length in L. cbn [fst]. split; [rewrite D, map_length; exact L|]. intros v Hv. rewrite D in Hv. apply in_map_iff in Hv. destruct Hv as (i & <- & _).
    destruct (Nat.lt_ge_cases i n); [apply nth_repeat|apply nth_overflow; rewrite repeat_length; auto].
  - intros E. unfold clf_kneighbors, compared. fold n. rewrite (proj2 (Nat.eqb_neq _ _) E). reflexivity.
Qed.
Print Assumptions C92_none_refuted.

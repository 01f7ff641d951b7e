(** [_cdist_generic] behind [to_time_series_dataset], for an arbitrary distance. *)
From Coq Require Import Bool List Arith ZArith Lia Permutation.
From Verif Require Import Num NumLaws Py Series Dataset ValidThms CdistThms PropCdist.
Import ListNotations.
Local Open Scope nat_scope.

Lemma triu_len_diag n : length (triu n true) = n * (n + 1) / 2.
Proof.
  assert (G : forall k n, k <= n -> 2 * length (flat_map (fun i => map (fun j => (i, j)) (seq i (n - i))) (seq (n - k) k)) = k * (k + 1)).
  { clear n. induction k as [|k IH]; intros n Hk; [reflexivity|].
    simpl seq. cbn [flat_map]. rewrite app_length, map_length, seq_length.
    replace (S (n - S k)) with (n - k) by lia. specialize (IH n ltac:(lia)). lia. }
  specialize (G n n (le_n n)). rewrite Nat.sub_diag in G. unfold triu.
  rewrite <- G. rewrite Nat.mul_comm, Nat.div_mul; [reflexivity|lia].
Qed.

(** a series of a dataset without its NaN padding *)
Definition strip {N : num} (x : raw N) : series N := to_time_series true x.

Section G.
Variable N : num.
Hypothesis Hnan : nisnan (n:=N) nnan = true.
Variable dist : series N -> series N -> res N.

Lemma gen_cross d1 d2 ds1 ds2 o1 o2 diag j M : uniform (N:=N) d1 ds1 -> uniform d2 ds2 ->
  valid_jobs j (length ds1 * length ds2) ->
  to_dataset ds1 = Ok o1 -> to_dataset ds2 = Ok o2 ->
  cdist_generic dist o1 (Some o2) diag j = Ok M ->
  forall i k, i < length ds1 -> k < length ds2 -> dist (strip (item ds1 i)) (strip (item ds2 k)) = Ok (M i k).
Proof.
  intros P1 P2 Hj E1 E2 E i k Hi Hk.
  unfold strip. destruct (strip_nth N Hnan d1 ds1 o1 i P1 E1 Hi) as [L1 <-].
  destruct (strip_nth N Hnan d2 ds2 o2 k P2 E2 Hk) as [L2 <-].
  refine (cdist_cross_spec N (series N) _ [] o1 o2 j M _ E i k _ _); rewrite ?L1, ?L2, ?row_major_len; auto.
Qed.
Lemma gen_len d ds o : uniform (N:=N) d ds -> to_dataset ds = Ok o -> length o = length ds.
Proof.
  intros P E. rewrite (to_dataset_ok N d ds P) in E.
  match type of E with Ok ?x = _ => assert (Eo : o = x) by congruence end. rewrite Eo. apply map_length.
Qed.
Lemma gen_cross_returns d1 d2 ds1 ds2 o1 o2 diag j : uniform (N:=N) d1 ds1 -> uniform d2 ds2 ->
  valid_jobs j (length ds1 * length ds2) ->
  to_dataset ds1 = Ok o1 -> to_dataset ds2 = Ok o2 ->
  (forall i k, i < length ds1 -> k < length ds2 -> exists v, dist (strip (item ds1 i)) (strip (item ds2 k)) = Ok v) ->
  exists M, cdist_generic dist o1 (Some o2) diag j = Ok M.
Proof.
  intros P1 P2 Hj E1 E2 H.
  pose proof (gen_len _ _ _ P1 E1) as L1. pose proof (gen_len _ _ _ P2 E2) as L2.
  refine (cdist_cross_returns N (series N) _ [] o1 o2 j _ _); rewrite ?L1, ?L2, ?row_major_len; auto.
  intros i k Hi Hk. cbv beta.
  destruct (strip_nth N Hnan d1 ds1 o1 i P1 E1 Hi) as [_ ->].
  destruct (strip_nth N Hnan d2 ds2 o2 k P2 E2 Hk) as [_ ->]. apply H; auto.
Qed.
Lemma gen_self d ds o diag j M : uniform (N:=N) d ds -> valid_jobs j (length (triu (length ds) diag)) ->
  to_dataset ds = Ok o -> cdist_generic dist o None diag j = Ok M ->
  (forall i k, i < k -> k < length ds -> dist (strip (item ds i)) (strip (item ds k)) = Ok (M i k) /\ M k i = M i k) /\
  (forall i, i < length ds -> if diag then dist (strip (item ds i)) (strip (item ds i)) = Ok (M i i) else M i i = nzero).
Proof.
  intros P Hj E1 E. pose proof (gen_len _ _ _ P E1) as L.
  destruct (cdist_self_spec N (series N) _ [] o diag j M ltac:(rewrite L; exact Hj) E) as [H1 H2].
  rewrite L in H1, H2. split.
  - intros i k Hik Hk. destruct (H1 i k Hik Hk) as [A B]. split; auto.
    destruct (strip_nth N Hnan d ds o i P E1 ltac:(lia)) as [_ E3]. destruct (strip_nth N Hnan d ds o k P E1 Hk) as [_ E4].
    rewrite E3, E4 in A. exact A.
  - intros i Hi. specialize (H2 i Hi). destruct diag; auto.
    destruct (strip_nth N Hnan d ds o i P E1 Hi) as [_ E3]. rewrite E3 in H2. exact H2.
Qed.
Lemma gen_self_returns d ds o diag j : uniform (N:=N) d ds -> valid_jobs j (length (triu (length ds) diag)) ->
  to_dataset ds = Ok o ->
  (forall i k, i < length ds -> k < length ds -> exists v, dist (strip (item ds i)) (strip (item ds k)) = Ok v) ->
  exists M, cdist_generic dist o None diag j = Ok M.
Proof.
  intros P Hj E1 H. pose proof (gen_len _ _ _ P E1) as L.
  refine (cdist_self_returns N (series N) _ [] o diag j _ _); rewrite ?L; auto.
  intros i k Hi Hk. cbv beta.
  destruct (strip_nth N Hnan d ds o i P E1 Hi) as [_ ->]. destruct (strip_nth N Hnan d ds o k P E1 Hk) as [_ ->]. apply H; auto.
Qed.
End G.

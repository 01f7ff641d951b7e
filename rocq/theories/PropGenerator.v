(** C142-C143: generated datasets. *)
From Coq Require Import List Arith Lia Reals Lra.
From Verif Require Import Py RList GeneratorModel.
Import ListNotations.
Local Open Scope R_scope.

(** ** specification *)
(** an array of [n] series with [sz] time steps and [d] features whose entries are [f i t k] *)
Definition is_array (n sz d : nat) (f : nat -> nat -> nat -> R) (a : list (list (list R))) : Prop :=
  length a = n /\ (forall s, In s a -> length s = sz) /\ (forall s r, In s a -> In r s -> length r = d) /\
  forall i t k, (i < n)%nat -> (t < sz)%nat -> (k < d)%nat -> nth k (nth t (nth i a []) []) 0 = f i t k.
(** the number drawn for feature [k] of step [t] of series [i] *)
Definition draw (rs : random_state) (sz d i t k : nat) : R := normals rs (drawn rs + ((i * sz + t) * d + k))%nat.

(** ** lemmas *)
Lemma nth_map_seq {A} (f : nat -> A) n i x : (i < n)%nat -> nth i (map f (seq 0 n)) x = f i.
Proof. intros H. rewrite (nth_indep _ x (f 0%nat)) by (rewrite map_length, seq_length; auto). rewrite map_nth, seq_nth; auto. Qed.
Lemma add_row_len a b : length a = length b -> length (add_row a b) = length b.
Proof. intros H. unfold add_row. rewrite map_length, combine_length. lia. Qed.
Lemma add_row_nth a b k : length a = length b -> (k < length b)%nat -> nth k (add_row a b) 0 = nth k a 0 + nth k b 0.
Proof.
  intros H Hk. unfold add_row. rewrite (nth_indep _ 0 (fst (0, 0) + snd (0, 0))) by (rewrite map_length, combine_length; lia).
  rewrite (map_nth (fun p => fst p + snd p)), combine_nth by auto. reflexivity.
Qed.
Lemma walk_spec d rnd : (0 < length rnd)%nat -> (forall r, In r rnd -> length r = d) ->
  length (walk rnd) = length rnd /\ (forall r, In r (walk rnd) -> length r = d) /\
  forall t k, (t < length rnd)%nat -> (k < d)%nat -> nth k (nth t (walk rnd) []) 0 = rsum (map (fun u => nth k (nth u rnd []) 0) (seq 0 (S t))).
Proof.
  intros Hn Hd. unfold walk.
  assert (G : forall m, (m < length rnd)%nat ->
    let w := fold_left (fun ts t => ts ++ [add_row (nth (t - 1) ts []) (nth t rnd [])]) (seq 1 m) [nth 0 rnd []] in
    length w = S m /\ (forall r, In r w -> length r = d) /\
    forall t k, (t <= m)%nat -> (k < d)%nat -> nth k (nth t w []) 0 = rsum (map (fun u => nth k (nth u rnd []) 0) (seq 0 (S t)))).
  { induction m as [|m IH]; intros Hm; cbv zeta in *.
    - cbn [seq fold_left]. split; [auto|split].
      + intros r [<-|[]]. apply Hd, nth_In; auto.
      + intros t k Ht Hk. replace t with 0%nat by lia. unfold rsum. simpl. ring.
    - destruct (IH ltac:(lia)) as (L & R & V). rewrite seq_S, fold_left_app. set (w := fold_left _ (seq 1 m) _) in *. cbn [fold_left].
      replace (1 + m - 1)%nat with m by lia. change (1 + m)%nat with (S m).
      assert (L1 : length (nth m w []) = d) by (apply R, nth_In; lia). assert (L2 : length (nth (S m) rnd []) = d) by (apply Hd, nth_In; auto).
      split; [rewrite app_length, L; simpl; lia|split].
      + intros r Hr. apply in_app_or in Hr. destruct Hr as [Hr|[<-|[]]]; auto. rewrite add_row_len; lia.
      + intros t k Ht Hk. destruct (Nat.eq_dec t (S m)) as [->|Ne].
        * rewrite app_nth2 by lia. rewrite L, Nat.sub_diag. cbn [nth]. rewrite add_row_nth by lia. rewrite V by lia.
          rewrite (seq_S (S m) 0), map_app. unfold rsum. rewrite fold_right_app. cbn [map fold_right]. change (0 + S m)%nat with (S m).
          generalize (map (fun u => nth k (nth u rnd []) 0) (seq 0 (S m))) (nth k (nth (S m) rnd []) 0). intros l x.
          induction l as [|a l IHl]; simpl; [ring|]. rewrite <- IHl. ring.
        * rewrite app_nth1 by lia. apply V; lia. }
  destruct (G (length rnd - 1)%nat ltac:(lia)) as (L & R & V). cbv zeta in *. split; [lia|split; auto]. intros t k Ht Hk. apply V; lia.
Qed.
Lemma randn_array rs n sz d : is_array n sz d (draw rs sz d) (fst (randn rs n sz d)).
Proof.
  unfold randn, fst. split; [rewrite map_length, seq_length; auto|split; [|split]].
  - intros s Hs. apply in_map_iff in Hs. destruct Hs as (i & <- & _). rewrite map_length, seq_length. auto.
  - intros s r Hs Hr. apply in_map_iff in Hs. destruct Hs as (i & <- & _). apply in_map_iff in Hr. destruct Hr as (t & <- & _). rewrite map_length, seq_length. auto.
  - intros i t k Hi Ht Hk. rewrite (nth_map_seq (fun i => map (fun t => map (fun k => normals rs (drawn rs + ((i * sz + t) * d + k))%nat) (seq 0 d)) (seq 0 sz))) by auto.
    rewrite (nth_map_seq (fun t => map (fun k => normals rs (drawn rs + ((i * sz + t) * d + k))%nat) (seq 0 d))) by auto. rewrite nth_map_seq by auto. reflexivity.
Qed.
Lemma map3_array g n sz d f a : is_array n sz d f a -> is_array n sz d (fun i t k => g (f i t k)) (map (map (map g)) a).
Proof.
  intros (L1 & L2 & L3 & V). split; [rewrite map_length; auto|split; [|split]].
  - intros s Hs. apply in_map_iff in Hs. destruct Hs as (x & <- & Hx). rewrite map_length. auto.
  - intros s r Hs Hr. apply in_map_iff in Hs. destruct Hs as (x & <- & Hx). apply in_map_iff in Hr. destruct Hr as (y & <- & Hy). rewrite map_length. eauto.
  - intros i t k Hi Ht Hk. assert (I1 : In (nth i a []) a) by (apply nth_In; lia). assert (I2 : In (nth t (nth i a []) []) (nth i a [])) by (apply nth_In; rewrite L2; auto).
    change (@nil (list R)) with (map (map g) []) at 1. rewrite map_nth. change (@nil R) with (map g []) at 1. rewrite map_nth.
    rewrite (nth_indep _ 0 (g 0)) by (rewrite map_length, (L3 _ _ I1 I2); auto). rewrite map_nth, V by auto. reflexivity.
Qed.
Lemma walks_array n sz d f a : (0 < sz)%nat -> is_array n sz d f a ->
  is_array n sz d (fun i t k => rsum (map (fun u => f i u k) (seq 0 (S t)))) (map walk a).
Proof.
  intros Hs (L1 & L2 & L3 & V).
  assert (W : forall s, In s a -> length (walk s) = sz /\ (forall r, In r (walk s) -> length r = d) /\
    forall t k, (t < sz)%nat -> (k < d)%nat -> nth k (nth t (walk s) []) 0 = rsum (map (fun u => nth k (nth u s []) 0) (seq 0 (S t)))).
  { intros s Is. pose proof (walk_spec d s) as W. rewrite (L2 s Is) in W. apply W; auto. intros r. apply L3; auto. }
  split; [rewrite map_length; auto|split; [|split]].
  - intros s Hs'. apply in_map_iff in Hs'. destruct Hs' as (x & <- & Hx). apply (W x Hx).
  - intros s r Hs' Hr. apply in_map_iff in Hs'. destruct Hs' as (x & <- & Hx). apply (W x Hx); auto.
  - intros i t k Hi Ht Hk. assert (I1 : In (nth i a []) a) by (apply nth_In; lia).
    rewrite (nth_indep _ [] (walk [])) by (rewrite map_length; lia). rewrite map_nth. destruct (W _ I1) as (_ & _ & ->); auto.
    apply rsum_map_ext. intros u Hu. apply in_seq in Hu. apply V; auto. lia.
Qed.

(** ** theorems *)
(** a random walk is the sequence of the partial sums of its steps [std * z + mu]; every number drawn is used once *)
Theorem C142_random_walks n sz d mu std rs : (0 < sz)%nat ->
  exists a rs', random_walks n sz d mu std rs = Ok (a, rs') /\
    is_array n sz d (fun i t k => rsum (map (fun u => std * draw rs sz d i u k + mu) (seq 0 (S t)))) a /\
    normals rs' = normals rs /\ drawn rs' = (drawn rs + n * sz * d)%nat.
Proof.
  intros Hs. unfold random_walks. pose proof (randn_array rs n sz d) as A. destruct (randn rs n sz d) as [z rs'] eqn:E. cbn [fst] in A.
  destruct (Nat.eqb_spec sz 0); [lia|]. eexists. eexists. split; [reflexivity|]. unfold randn in E. injection E as _ <-. split; [|auto].
  pose proof (walks_array n sz d _ _ Hs (map3_array (fun z => z * std + mu) n sz d _ _ A)) as (L1 & L2 & L3 & V).
  split; [auto|split; [auto|split; [auto|]]]. intros i t k Hi Ht Hk. etransitivity; [apply V; auto|]. apply rsum_map_ext. intros u _. ring.
Qed.
Print Assumptions C142_random_walks.
(** from the same random state, asking for more series keeps the first ones *)
Theorem C142_more_series n n' sz d mu std rs a b r r' : (n <= n')%nat ->
  random_walks n sz d mu std rs = Ok (a, r) -> random_walks n' sz d mu std rs = Ok (b, r') -> a = firstn n b.
Proof.
  intros Hn. unfold random_walks, randn. destruct (sz =? 0)%nat; [discriminate|]. intros Ha Hb. injection Ha as <- _. injection Hb as <- _.
  unfold affine. rewrite !map_map, firstn_map. replace (firstn n (seq 0 n')) with (seq 0 n); auto.
  replace n' with (n + (n' - n))%nat by lia. rewrite seq_app, firstn_app, seq_length, Nat.sub_diag. cbn [firstn]. rewrite app_nil_r.
  symmetry. apply firstn_all2. rewrite seq_length. lia.
Qed.
Print Assumptions C142_more_series.
(** one walk of three steps from the numbers 0, 1, 2 with std 2 and mu 1: 1, 1 + 3, 4 + 5 *)
Example C142_instance : (0 < 3)%nat /\ exists rs', random_walks 1 3 1 1 2 (mkState INR 0) = Ok ([[[1]; [4]; [9]]], rs').
Proof.
  split; [lia|]. eexists. unfold random_walks, randn, affine, walk, add_row. simpl.
  replace (0 * 2 + 1) with 1 by ring. replace (1 + (1 * 2 + 1)) with 4 by ring. replace (4 + ((1 + 1) * 2 + 1)) with 9 by ring. reflexivity.
Qed.
(** no time step: IndexError *)
Example no_step n d mu std rs : random_walks n 0 d mu std rs = Err IndexError.
Proof. reflexivity. Qed.
Lemma repeat_each_len {A} m (l : list A) : length (repeat_each m l) = (m * length l)%nat.
Proof. unfold repeat_each. induction l as [|x l IH]; simpl; [lia|]. rewrite app_length, repeat_length, IH. lia. Qed.
Lemma repeat_each_nth {A} m (l : list A) x i : (i < m * length l)%nat -> nth i (repeat_each m l) x = nth (i / m) l x.
Proof.
  revert i. induction l as [|a l IH]; intros i Hi; [simpl in Hi; lia|]. assert (Hm : (0 < m)%nat) by (destruct m; simpl in Hi; lia).
  cbn [repeat_each flat_map]. destruct (Nat.lt_ge_cases i m) as [L|L].
  - rewrite app_nth1 by (rewrite repeat_length; auto). rewrite Nat.div_small by auto. cbn [nth].
    rewrite (nth_indep _ x a) by (rewrite repeat_length; auto). apply nth_repeat.
  - rewrite app_nth2 by (rewrite repeat_length; auto). rewrite repeat_length. fold (repeat_each m l). rewrite IH by (simpl in Hi; lia).
    replace i with ((i - m) + 1 * m)%nat at 2 by lia. rewrite Nat.div_add by lia. rewrite Nat.add_1_r. reflexivity.
Qed.
(** blobs: [n_ts_per_blob] series per blob, in order of the labels; a series is the walk of its blob plus its own noise *)
Theorem C143_blobs m sz d n_blobs level rs : (0 < sz)%nat ->
  exists base rs1 a y rs', random_walks n_blobs sz d 0 1 rs = Ok (base, rs1) /\
    random_walk_blobs m sz d n_blobs level rs = Ok (a, y, rs') /\
    is_array (m * n_blobs) sz d (fun i t k => nth k (nth t (nth (i / m) base []) []) 0 + level * draw rs1 sz d i t k) a /\
    length y = (m * n_blobs)%nat /\ forall i, (i < m * n_blobs)%nat -> nth i y 0%nat = (i / m)%nat /\ (i / m < n_blobs)%nat.
Proof.
  intros Hs. destruct (C142_random_walks n_blobs sz d 0 1 rs Hs) as (base & rs1 & E & (L1 & L2 & L3 & _) & _).
  pose proof (randn_array rs1 (m * n_blobs) sz d) as A. unfold random_walk_blobs. rewrite E. cbn [bind].
  destruct (randn rs1 (m * n_blobs) sz d) as [z rs2] eqn:Ez. cbn [fst] in A. exists base, rs1. eexists. eexists. eexists. split; [reflexivity|split; [reflexivity|]].
  pose proof (map3_array (fun x => x * level) _ _ _ _ _ A) as (M1 & M2 & M3 & V). set (rnd := map (map (map (fun x => x * level))) z) in *.
  assert (DV : forall i, (i < m * n_blobs)%nat -> (i / m < n_blobs)%nat) by (intros i Hi; apply Nat.div_lt_upper_bound; [destruct m; simpl in Hi; lia|lia]).
  assert (LT : length (repeat_each m base) = (m * n_blobs)%nat) by (rewrite repeat_each_len, L1; auto).
  assert (SH : forall p, In p (combine (repeat_each m base) rnd) -> length (fst p) = sz /\ length (snd p) = sz /\
     (forall r, In r (fst p) -> length r = d) /\ (forall r, In r (snd p) -> length r = d)).
  { intros [s q] Hp. cbn [fst snd]. pose proof (in_combine_l _ _ _ _ Hp) as I1. pose proof (in_combine_r _ _ _ _ Hp) as I2.
    apply in_flat_map in I1. destruct I1 as (b & Ib & Ir). apply repeat_spec in Ir. subst s. auto. split; [|split; [|split]]; eauto. }
  split; [split; [rewrite map_length, combine_length; lia|split; [|split]]|split].
  - intros s Hs'. apply in_map_iff in Hs'. destruct Hs' as (p & <- & Hp). destruct (SH p Hp) as (S1 & S2 & _). unfold add_series. rewrite map_length, combine_length. lia.
  - intros s r Hs' Hr. apply in_map_iff in Hs'. destruct Hs' as (p & <- & Hp). destruct (SH p Hp) as (S1 & S2 & S3 & S4). unfold add_series in Hr. apply in_map_iff in Hr.
    destruct Hr as ([r1 r2] & <- & Hq). cbn [fst snd]. pose proof (in_combine_l _ _ _ _ Hq) as J1. pose proof (in_combine_r _ _ _ _ Hq) as J2. rewrite add_row_len; auto. rewrite S3, S4; auto.
  - intros i t k Hi Ht Hk. assert (LR : length (repeat_each m base) = length rnd) by lia.
    rewrite (nth_indep _ [] (add_series (@nil (list R)) (@nil (list R)))) by (rewrite map_length, combine_length; lia).
    rewrite (map_nth (fun p => add_series (fst p) (snd p)) _ (@nil (list R), @nil (list R))), combine_nth by auto. cbn [fst snd]. rewrite repeat_each_nth by (rewrite L1; auto).
    assert (I1 : In (nth (i / m) base []) base) by (apply nth_In; rewrite L1; auto). assert (I2 : In (nth i rnd []) rnd) by (apply nth_In; lia).
    pose proof (L2 _ I1) as K1. pose proof (M2 _ I2) as K2. unfold add_series.
    rewrite (nth_indep _ [] (add_row (@nil R) (@nil R))) by (rewrite map_length, combine_length; lia).
    rewrite (map_nth (fun p => add_row (fst p) (snd p)) _ (@nil R, @nil R)), combine_nth by lia. cbn [fst snd].
    assert (J1 : length (nth t (nth (i / m) base []) []) = d) by (apply (L3 _ _ I1), nth_In; lia). assert (J2 : length (nth t (nth i rnd []) []) = d) by (apply (M3 _ _ I2), nth_In; lia).
    rewrite add_row_nth by lia. rewrite V by auto. ring.
  - rewrite repeat_each_len, seq_length. auto.
  - intros i Hi. rewrite repeat_each_nth by (rewrite seq_length; auto). rewrite seq_nth by auto. split; [auto|auto].
Qed.
Print Assumptions C143_blobs.
(** without noise the series of one blob are equal *)
Theorem C143_no_noise m sz d n_blobs rs a y rs' i j : (0 < sz)%nat -> random_walk_blobs m sz d n_blobs 0 rs = Ok (a, y, rs') ->
  (i < m * n_blobs)%nat -> (j < m * n_blobs)%nat -> nth i y 0%nat = nth j y 0%nat -> nth i a [] = nth j a [].
Proof.
  intros Hs E Hi Hj Ey. destruct (C143_blobs m sz d n_blobs 0 rs Hs) as (base & rs1 & a' & y' & rs'' & _ & E' & (L1 & L2 & L3 & V) & _ & Hy).
  rewrite E in E'. injection E' as <- <- <-. destruct (Hy i Hi) as [Y1 _]. destruct (Hy j Hj) as [Y2 _].
  assert (I1 : In (nth i a []) a) by (apply nth_In; lia). assert (I2 : In (nth j a []) a) by (apply nth_In; lia).
  apply (nth_ext _ _ [] []); [rewrite (L2 _ I1), (L2 _ I2); auto|]. intros t Ht. rewrite (L2 _ I1) in Ht.
  assert (J1 : In (nth t (nth i a []) []) (nth i a [])) by (apply nth_In; rewrite (L2 _ I1); auto). assert (J2 : In (nth t (nth j a []) []) (nth j a [])) by (apply nth_In; rewrite (L2 _ I2); auto).
  apply (nth_ext _ _ 0 0); [rewrite (L3 _ _ I1 J1), (L3 _ _ I2 J2); auto|]. intros k Hk. rewrite (L3 _ _ I1 J1) in Hk.
  rewrite !V by auto. replace (i / m)%nat with (j / m)%nat by congruence. ring.
Qed.
Print Assumptions C143_no_noise.
Example C143_instance : (0 < 2)%nat /\ exists a y rs', random_walk_blobs 2 2 1 2 0 (mkState INR 0) = Ok (a, y, rs') /\ y = [0; 0; 1; 1]%nat.
Proof. split; [lia|]. eexists. eexists. eexists. split; reflexivity. Qed.

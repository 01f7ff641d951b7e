(** C85-C87: the clustering loop of KernelKMeans, for any kernel matrix. *)
From Coq Require Import Bool List Arith Lia ZArith Reals Lra.
From Verif Require Import Num NumLaws Py RList PreModel KernelModel.
Import ListNotations.
Local Open Scope R_scope.

(** ** Specification *)
(** total weight of the members of cluster [j] *)
Definition weight_of (sw : list R) (labels : list nat) (j : nat) : R :=
  rsum (map (fun i => if (nth i labels 0 =? j)%nat then nth i sw 0 else 0) (seq 0 (length labels))).
(** weighted mean similarity to the members of cluster [j] of a series whose similarities to the training
    series are [row] *)
Definition similarity (sw : list R) (labels : list nat) (row : list R) (j : nat) : R :=
  rsum (map (fun i => if (nth i labels 0 =? j)%nat then nth i sw 0 * nth i row 0 else 0) (seq 0 (length labels))) / weight_of sw labels j.
(** [j] is the first of the [k] clusters of largest similarity *)
Definition most_similar (k : nat) (sw : list R) (labels : list nat) (row : list R) (j : nat) : Prop :=
  (j < k)%nat /\ forall j', (j' < k)%nat -> similarity sw labels row j' <= similarity sw labels row j /\
    ((j' < j)%nat -> similarity sw labels row j' < similarity sw labels row j).
Definition no_empty (k : nat) (labels : list nat) : Prop := forall j, (j < k)%nat -> In j labels.
(** a kernel matrix between [n] series *)
Definition square (n : nat) (K : list (list R)) : Prop := length K = n /\ forall r, In r K -> length r = n.
(** outcome of the attempt started from the labels [l] *)
Definition attempt_gives (p : kk_params) (sw : list R) (K : list (list R)) (l labels : list nat) (v : R) (it : nat) : Prop :=
  forall s, exists s', kk_one_init p sw K l s = (s', Ok tt) /\ kk_labels s' = labels /\ kk_inertia s' = v /\ kk_iter s' = it.
Definition attempt_empty (p : kk_params) (sw : list R) (K : list (list R)) (l : list nat) : Prop :=
  forall s, exists s', kk_one_init p sw K l s = (s', Err EmptyClusterError).

(** ** lemmas *)
Lemma seq_shift_map {A} (f : nat -> A) n : map f (seq 1 n) = map (fun i => f (S i)) (seq 0 n).
Proof. rewrite <- seq_shift, map_map. reflexivity. Qed.
Lemma masked_cons {A} x labels j (a : A) l : masked (x :: labels) j (a :: l) = if (x =? j)%nat then a :: masked labels j l else masked labels j l.
Proof. unfold masked. cbn [combine filter fst]. destruct (x =? j)%nat; reflexivity. Qed.
Lemma masked_weight labels j : forall sw, length sw = length labels -> rsum (masked labels j sw) = weight_of sw labels j.
Proof.
  induction labels as [|x labels IH]; intros [|a sw] H; try discriminate; auto. rewrite masked_cons. unfold weight_of in *. cbn [length seq map].
  match goal with |- _ = rsum (?a :: ?m) => change (rsum (a :: m)) with (a + rsum m) end.
  rewrite seq_shift_map. cbn [nth]. rewrite <- IH by (simpl in H; lia). destruct (x =? j)%nat; unfold rsum; simpl; lra.
Qed.
Lemma masked_product labels j : forall sw row, length sw = length labels -> length row = length labels ->
  rsum (map (fun p => fst p * snd p) (combine (masked labels j sw) (masked labels j row))) =
  rsum (map (fun i => if (nth i labels 0 =? j)%nat then nth i sw 0 * nth i row 0 else 0) (seq 0 (length labels))).
Proof.
  induction labels as [|x labels IH]; intros [|a sw] [|b row] H H'; try discriminate; auto. rewrite !masked_cons. cbn [length seq map].
  match goal with |- _ = rsum (?a :: ?m) => change (rsum (a :: m)) with (a + rsum m) end.
  rewrite seq_shift_map. cbn [nth]. rewrite <- IH by (simpl in *; lia). destruct (x =? j)%nat; unfold rsum; simpl; lra.
Qed.
Lemma kdist_similarity sw labels row j : length sw = length labels -> length row = length labels ->
  kdist_entry sw labels row j = 2 - 2 * similarity sw labels row j.
Proof. intros H H'. unfold kdist_entry, similarity. rewrite masked_product, masked_weight by auto. unfold Rdiv. ring. Qed.

Lemma rargmin_from_spec (f : nat -> R) : forall l i best, (best < i)%nat ->
  (forall j, (j < length l)%nat -> nth j l 0 = f (i + j)%nat) ->
  let r := rargmin_from l i best (f best) in
  (r = best \/ (i <= r < i + length l)%nat) /\ f r <= f best /\ (r <> best -> f r < f best) /\
  forall j, (j < length l)%nat -> f r <= f (i + j)%nat /\ ((i + j < r)%nat -> f r < f (i + j)%nat).
Proof.
  induction l as [|x l IH]; intros i best Hb Hl; cbn zeta.
  - simpl. split; [auto|]. split; [lra|]. split; [congruence|]. intros j Hj. inversion Hj.
  - assert (Ex : x = f i). { pose proof (Hl 0%nat ltac:(simpl; lia)) as E. simpl in E. rewrite Nat.add_0_r in E. exact E. }
    assert (Hl' : forall j, (j < length l)%nat -> nth j l 0 = f (S i + j)%nat).
    { intros j Hj. pose proof (Hl (S j) ltac:(simpl; lia)) as E. simpl in E. rewrite E. f_equal. lia. }
    subst x. cbn [rargmin_from]. destruct (Rltb (f i) (f best)) eqn:E.
    + apply Rltb_true in E. destruct (IH (S i) i ltac:(lia) Hl') as (A & B & B' & C). cbn zeta in *. set (r := rargmin_from l (S i) i (f i)) in *.
      split; [right; simpl; lia|]. split; [lra|]. split; [intros _; lra|]. intros j Hj. destruct j as [|j].
      * rewrite Nat.add_0_r. split; [lra|]. intros Hr. apply B'. lia.
      * simpl in Hj. replace (i + S j)%nat with (S i + j)%nat by lia. apply C. lia.
    + apply Rltb_false in E. destruct (IH (S i) best ltac:(lia) Hl') as (A & B & B' & C). cbn zeta in *. set (r := rargmin_from l (S i) best (f best)) in *.
      split; [destruct A; [left; auto|right; simpl; lia]|]. split; auto. split; auto. intros j Hj. destruct j as [|j].
      * rewrite Nat.add_0_r. split; [lra|]. intros Hr. assert (r <> best) by lia. specialize (B' H). lra.
      * simpl in Hj. replace (i + S j)%nat with (S i + j)%nat by lia. apply C. lia.
Qed.
Lemma rargmin_spec l : l <> [] -> let r := rargmin l in
  (r < length l)%nat /\ forall j, (j < length l)%nat -> nth r l 0 <= nth j l 0 /\ ((j < r)%nat -> nth r l 0 < nth j l 0).
Proof.
  destruct l as [|x l]; [congruence|]. intros _. cbn [rargmin].
  pose proof (rargmin_from_spec (fun j => nth j (x :: l) 0) l 1 0 ltac:(lia)) as H. cbn zeta in *. cbv beta in H.
  change (nth 0 (x :: l) 0) with x in H. destruct H as (A & B & B' & C); [intros; reflexivity|].
  set (r := rargmin_from l 1 0 x) in *. split; [simpl; lia|]. intros j Hj. destruct j as [|j].
  - split; auto. intros Hr. apply B'. lia.
  - simpl in Hj. apply (C j). lia.
Qed.
Lemma rmin_rargmin l : l <> [] -> rmin l = nth (rargmin l) l 0.
Proof.
  intros H. destruct (rargmin_spec l H) as (A & B). apply Rle_antisym.
  - apply rmin_le, nth_In. auto.
  - pose proof (rmin_in l H) as I. apply (In_nth _ _ 0) in I. destruct I as (j & Hj & <-). apply B. auto.
Qed.
Lemma map_seq_nth_gen {A} (f : nat -> A) n j d : (j < n)%nat -> nth j (map f (seq 0 n)) d = f j.
Proof. intros H. rewrite (nth_indep _ d (f 0%nat)) by (rewrite map_length, seq_length; auto). rewrite map_nth, seq_nth by auto. reflexivity. Qed.
Lemma argmin_similar k sw labels row : (0 < k)%nat -> length sw = length labels -> length row = length labels ->
  most_similar k sw labels row (rargmin (map (kdist_entry sw labels row) (seq 0 k))) /\
  rmin (map (kdist_entry sw labels row) (seq 0 k)) =
    2 - 2 * similarity sw labels row (rargmin (map (kdist_entry sw labels row) (seq 0 k))).
Proof.
  intros Hk Hs Hr. set (l := map (kdist_entry sw labels row) (seq 0 k)).
  assert (L : length l = k) by (unfold l; rewrite map_length, seq_length; auto).
  assert (NE : l <> []) by (destruct l; [simpl in L; lia|discriminate]).
  assert (N : forall j, (j < k)%nat -> nth j l 0 = 2 - 2 * similarity sw labels row j).
  { intros j Hj. unfold l. rewrite map_seq_nth_gen by auto. apply kdist_similarity; auto. }
  destruct (rargmin_spec l NE) as (A & B). rewrite L in *. split.
  - split; auto. intros j' Hj'. destruct (B j' Hj') as [B1 B2]. rewrite (N _ A), (N _ Hj') in *. split; [lra|]. intros Hlt. specialize (B2 Hlt). lra.
  - rewrite rmin_rargmin by auto. apply N. auto.
Qed.
Lemma covers_iff labels k : covers labels k = true <-> no_empty k labels.
Proof.
  unfold covers, no_empty. rewrite forallb_forall. split; intros H j Hj.
  - specialize (H j ltac:(apply in_seq; lia)). apply existsb_exists in H. destruct H as (x & I & E). apply Nat.eqb_eq in E. subst. auto.
  - apply in_seq in Hj. apply existsb_exists. exists j. split; [apply H; lia|apply Nat.eqb_refl].
Qed.
(** what an iteration from [prev] stores *)
Definition stored (p : kk_params) (sw : list R) (K : list (list R)) (prev labels : list nat) (v : R) : Prop :=
  exists dist, compute_dist (kk_clusters p) sw prev K = Ok dist /\ labels = map rargmin dist /\ covers labels (kk_clusters p) = true /\ v = kinertia dist.
Lemma kk_loop_S p sw K it more old s : kk_loop p sw K it (S more) old s =
    match compute_dist (kk_clusters p) sw (kk_labels s) K with
    | Err e => (s, Err e)
    | Ok dist =>
      if covers (map rargmin dist) (kk_clusters p) then
        if match old with Some o => Rltb (Rabs (o - kinertia dist)) (kk_tol p) | None => false end
        then ({| kk_labels := map rargmin dist; kk_inertia := kinertia dist; kk_iter := S it |}, Ok tt)
        else kk_loop p sw K (S it) more (Some (kinertia dist)) {| kk_labels := map rargmin dist; kk_inertia := kinertia dist; kk_iter := kk_iter s |}
      else ({| kk_labels := map rargmin dist; kk_inertia := kk_inertia s; kk_iter := kk_iter s |}, Err EmptyClusterError)
    end.
Proof. reflexivity. Qed.
Lemma loop_stored p sw K : forall more it old s s', kk_loop p sw K it (S more) old s = (s', Ok tt) ->
  exists prev, (prev = kk_labels s \/ exists pp v, stored p sw K pp prev v) /\ stored p sw K prev (kk_labels s') (kk_inertia s') /\
    (it < kk_iter s' <= it + S more)%nat.
Proof.
  induction more as [|more IH]; intros it old s s' H; rewrite kk_loop_S in H;
  destruct (compute_dist (kk_clusters p) sw (kk_labels s) K) as [dist|e] eqn:ED; try discriminate;
  destruct (covers (map rargmin dist) (kk_clusters p)) eqn:EC; try discriminate;
  assert (ST : stored p sw K (kk_labels s) (map rargmin dist) (kinertia dist)) by (exists dist; auto).
  - destruct (match old with Some o => Rltb (Rabs (o - kinertia dist)) (kk_tol p) | None => false end).
    + injection H as <-. cbn. exists (kk_labels s). repeat split; auto; lia.
    + injection H as <-. cbn. exists (kk_labels s). repeat split; auto; lia.
  - destruct (match old with Some o => Rltb (Rabs (o - kinertia dist)) (kk_tol p) | None => false end).
    + injection H as <-. cbn. exists (kk_labels s). repeat split; auto; lia.
    + apply IH in H. destruct H as (prev & Hp & Hs & Hi). exists prev. split; [|split; [auto|lia]].
      cbn [kk_labels] in Hp. right. destruct Hp as [->|Hp]; eauto.
Qed.
Lemma loop_indep p sw K : forall more it old s1 s2, kk_labels s1 = kk_labels s2 ->
  match kk_loop p sw K it (S more) old s1, kk_loop p sw K it (S more) old s2 with
  | (a, Ok _), (b, Ok _) => a = b | (_, Err e), (_, Err e') => e = e' | _, _ => False end.
Proof.
  induction more as [|more IH]; intros it old s1 s2 E; rewrite !kk_loop_S, <- E;
  destruct (compute_dist (kk_clusters p) sw (kk_labels s1) K) as [dist|e]; auto;
  destruct (covers (map rargmin dist) (kk_clusters p)); auto.
  - cbn [kk_loop kk_labels kk_inertia]. destruct (match old with Some o => Rltb (Rabs (o - kinertia dist)) (kk_tol p) | None => false end); auto.
  - destruct (match old with Some o => Rltb (Rabs (o - kinertia dist)) (kk_tol p) | None => false end); auto.
    apply IH. reflexivity.
Qed.
Lemma one_init_indep p sw K l s1 s2 : 
  match kk_one_init p sw K l s1, kk_one_init p sw K l s2 with
  | (a, Ok _), (b, Ok _) => a = b | (_, Err e), (_, Err e') => e = e' | _, _ => False end.
Proof. unfold kk_one_init. destruct (kk_max_iter p) as [|n]; cbn [Nat.eqb]; auto. apply loop_indep. reflexivity. Qed.
Lemma one_init_gives p sw K l s s' : kk_one_init p sw K l s = (s', Ok tt) -> attempt_gives p sw K l (kk_labels s') (kk_inertia s') (kk_iter s').
Proof.
  intros H s2. pose proof (one_init_indep p sw K l s s2) as I. rewrite H in I. destruct (kk_one_init p sw K l s2) as [b [[]|e]]; [|contradiction].
  subst b. eauto.
Qed.
Lemma one_init_empty p sw K l s s' : kk_one_init p sw K l s = (s', Err EmptyClusterError) -> attempt_empty p sw K l.
Proof.
  intros H s2. pose proof (one_init_indep p sw K l s s2) as I. rewrite H in I. destruct (kk_one_init p sw K l s2) as [b [[]|e]]; [contradiction|].
  subst e. eauto.
Qed.
(** number of successful attempts among [0..m-1] *)
Inductive succeeded (p : kk_params) (sw : list R) (K : list (list R)) (draw : nat -> list nat) : nat -> nat -> Prop :=
| succ_none : succeeded p sw K draw 0 0
| succ_ok m c labels v it : succeeded p sw K draw m c -> attempt_gives p sw K (draw m) labels v it -> succeeded p sw K draw (S m) (S c)
| succ_empty m c : succeeded p sw K draw m c -> attempt_empty p sw K (draw m) -> succeeded p sw K draw (S m) c.
Definition is_best (p : kk_params) (sw : list R) (K : list (list R)) (draw : nat -> list nat) (m : nat) (b : best_run) : Prop :=
  match b with
  | Some (labels, v, it) => exists a, (a < m)%nat /\ attempt_gives p sw K (draw a) labels v it /\
      forall b l' v' it', (b < m)%nat -> attempt_gives p sw K (draw b) l' v' it' -> v <= v' /\ ((b < a)%nat -> v < v')
  | None => forall b l' v' it', (b < m)%nat -> ~ attempt_gives p sw K (draw b) l' v' it'
  end.
Lemma gives_fun p sw K l a v i a' v' i' : attempt_gives p sw K l a v i -> attempt_gives p sw K l a' v' i' -> a = a' /\ v = v' /\ i = i'.
Proof.
  intros H H'. set (s := {| kk_labels := []; kk_inertia := 0; kk_iter := 0 |}). destruct (H s) as (x & E & <- & <- & <-). destruct (H' s) as (y & E' & <- & <- & <-).
  rewrite E in E'. injection E' as <-. auto.
Qed.
Lemma gives_not_empty p sw K l a v i : attempt_gives p sw K l a v i -> attempt_empty p sw K l -> False.
Proof.
  intros H H'. set (s := {| kk_labels := []; kk_inertia := 0; kk_iter := 0 |}). destruct (H s) as (x & E & _). destruct (H' s) as (y & E').
  congruence.
Qed.
Lemma attempts_best p sw K draw : forall remaining n c best s r, succeeded p sw K draw n c -> (c <= kk_n_init p)%nat -> is_best p sw K draw n best ->
  kk_attempts p sw K draw n remaining c best s = Ok r ->
  exists m c', (m <= n + remaining)%nat /\ succeeded p sw K draw m c' /\ (c' <= kk_n_init p)%nat /\ is_best p sw K draw m (fst r) /\ (c' = kk_n_init p \/ m = (n + remaining)%nat).
Proof.
  induction remaining as [|remaining IH]; intros n c best s r Hc Hle Hb H; cbn [kk_attempts] in H.
  - injection H as <-. exists n, c. cbn. repeat split; auto; lia.
  - destruct (Nat.leb_spec (kk_n_init p) c) as [L|L].
    + injection H as <-. exists n, c. cbn. repeat split; auto; lia.
    + destruct (kk_one_init p sw K (draw n) s) as [s' [[]|e]] eqn:E.
      * pose proof (one_init_gives _ _ _ _ _ _ E) as G. cbn zeta in H. 
        apply IH in H; [|econstructor 2; eauto|lia|].
        -- destruct H as (m & c' & Hm & H1 & H2 & H3 & H4). exists m, c'. repeat split; auto; lia || (destruct H4; [left; auto|right; lia]).
        -- destruct best as [[[bl bv] bi]|].
           ++ destruct Hb as (a & Ha & Ga & Hmin). destruct (Rltb (kk_inertia s') bv) eqn:Ev.
              ** apply Rltb_true in Ev. exists n. split; [lia|]. split; auto. intros b l' v' it' Hbn Gb. assert (b = n \/ (b < n)%nat) as [->|Hlt] by lia.
                 --- destruct (gives_fun _ _ _ _ _ _ _ _ _ _ G Gb) as (_ & <- & _). split; [lra|lia].
                 --- destruct (Hmin b l' v' it' Hlt Gb). split; lra.
              ** apply Rltb_false in Ev. exists a. split; [lia|]. split; auto. intros b l' v' it' Hbn Gb. assert (b = n \/ (b < n)%nat) as [->|Hlt] by lia.
                 --- destruct (gives_fun _ _ _ _ _ _ _ _ _ _ G Gb) as (_ & <- & _). split; [lra|lia].
                 --- apply (Hmin b l' v' it' Hlt Gb).
           ++ exists n. split; [lia|]. split; auto. intros b l' v' it' Hbn Gb. assert (b = n \/ (b < n)%nat) as [->|Hlt] by lia.
              ** destruct (gives_fun _ _ _ _ _ _ _ _ _ _ G Gb) as (_ & <- & _). split; [lra|lia].
              ** exfalso. eapply Hb; eauto.
      * destruct e; try discriminate. pose proof (one_init_empty _ _ _ _ _ _ E) as G.
        apply IH in H; [|econstructor 3; eauto|auto|].
        -- destruct H as (m & c' & Hm & H1 & H2 & H3 & H4). exists m, c'. repeat split; auto; lia || (destruct H4; [left; auto|right; lia]).
        -- destruct best as [[[bl bv] bi]|].
           ++ destruct Hb as (a & Ha & Ga & Hmin). exists a. split; [lia|]. split; auto. intros b l' v' it' Hbn Gb. assert (b = n \/ (b < n)%nat) as [->|Hlt] by lia.
              ** exfalso. eapply gives_not_empty; eauto.
              ** apply (Hmin b l' v' it' Hlt Gb).
           ++ intros b l' v' it' Hbn Gb. assert (b = n \/ (b < n)%nat) as [->|Hlt] by lia.
              ** eapply gives_not_empty; eauto.
              ** eapply Hb; eauto.
Qed.

(** ** C85 *)
(** [fit] reports the first best of the attempts made, and makes attempts until [n_init] succeeded, at most
    max(n_init, 10). *)
Theorem C85_best p sw K draw b : kk_fit p sw K draw = Ok b ->
  exists m c, (m <= Nat.max (kk_n_init p) 10)%nat /\ succeeded p sw K draw m c /\ (c <= kk_n_init p)%nat /\
    is_best p sw K draw m b /\ (c = kk_n_init p \/ m = Nat.max (kk_n_init p) 10).
Proof.
  unfold kk_fit. intros H. destruct (kk_attempts p sw K draw 0 (Nat.max (kk_n_init p) 10) 0 None _) as [r|e] eqn:E; [|discriminate].
  cbn [bind] in H. injection H as <-. apply attempts_best in E; [|constructor|lia|intros b' ? ? ? Hb; lia].
  destruct E as (m & c & H1 & H2 & H3 & H4 & H5). exists m, c. repeat split; auto.
Qed.
Print Assumptions C85_best.

Lemma stored_meaning p n sw K prev labels v : (0 < kk_clusters p)%nat -> length sw = n -> square n K -> length prev = n -> stored p sw K prev labels v ->
  length labels = n /\ no_empty (kk_clusters p) prev /\ no_empty (kk_clusters p) labels /\
  (forall i, (i < n)%nat -> most_similar (kk_clusters p) sw prev (nth i K []) (nth i labels 0%nat)) /\
  v = rsum (map (fun i => 2 - 2 * similarity sw prev (nth i K []) (nth i labels 0%nat)) (seq 0 n)).
Proof.
  intros Hk Hsw [HK Hr] Hp (dist & ED & EL & EC & EV). unfold compute_dist in ED. destruct (covers prev (kk_clusters p)) eqn:Ep; [|discriminate].
  injection ED as <-. rewrite map_map in EL. unfold kinertia in EV. rewrite map_map in EV.
  assert (LL : length labels = n) by (subst labels; rewrite map_length; auto).
  assert (NL : forall i, (i < n)%nat -> nth i labels 0%nat = rargmin (map (kdist_entry sw prev (nth i K [])) (seq 0 (kk_clusters p)))).
  { intros i Hi. subst labels. rewrite (nth_indep _ 0%nat (rargmin (map (kdist_entry sw prev []) (seq 0 (kk_clusters p))))) by (rewrite map_length; lia).
    exact (map_nth (fun row => rargmin (map (kdist_entry sw prev row) (seq 0 (kk_clusters p)))) K [] i). }
  assert (RL : forall i, (i < n)%nat -> length (nth i K []) = n) by (intros; apply Hr, nth_In; lia).
  split; auto. split; [apply covers_iff; auto|]. split; [apply covers_iff; auto|]. split.
  - intros i Hi. rewrite NL by auto. apply argmin_similar; auto; rewrite ?RL; lia.
  - subst v. rewrite <- HK at 1. replace K with (map (fun i => nth i K []) (seq 0 (length K))) at 1.
    + rewrite map_map. apply rsum_map_ext. intros i Hi. apply in_seq in Hi. rewrite NL by lia. apply argmin_similar; auto; rewrite ?RL; lia.
    + clear. induction K as [|r K IH]; auto. cbn [length seq map nth]. rewrite seq_shift_map. f_equal. exact IH.
Qed.
(** What a successful [fit] reports: no cluster is empty, every label is the first of the clusters most similar on average, with
    respect to the clusters of the previous iteration, and [inertia_] is the sum of the distances so obtained. *)
Theorem C85_reported p n sw K draw labels v it : (0 < kk_clusters p)%nat -> length sw = n -> square n K -> (forall a, length (draw a) = n) ->
  kk_fit p sw K draw = Ok (Some (labels, v, it)) ->
  exists prev, length prev = n /\ length labels = n /\ no_empty (kk_clusters p) prev /\ no_empty (kk_clusters p) labels /\
    (forall i, (i < n)%nat -> most_similar (kk_clusters p) sw prev (nth i K []) (nth i labels 0%nat)) /\
    v = rsum (map (fun i => 2 - 2 * similarity sw prev (nth i K []) (nth i labels 0%nat)) (seq 0 n)) /\
    (1 <= it <= kk_max_iter p)%nat.
Proof.
  intros Hk Hsw HK Hd H. apply C85_best in H. destruct H as (m & c & _ & _ & _ & (a & Ha & G & _) & _).
  destruct (G {| kk_labels := []; kk_inertia := 0; kk_iter := 0 |}) as (s' & E & <- & <- & <-). unfold kk_one_init in E.
  destruct (kk_max_iter p) as [|mi]; [discriminate|]. cbn [Nat.eqb] in E. apply loop_stored in E. destruct E as (prev & Hp & Hs & Hi). cbn [kk_labels] in Hp.
  assert (Lp : length prev = n).
  { destruct Hp as [->|(pp & v' & dist & ED & -> & _)]; auto. unfold compute_dist in ED. destruct (covers pp _); [|discriminate]. injection ED as <-. 
    rewrite !map_length. apply HK. }
  destruct (stored_meaning p n sw K prev _ _ Hk Hsw HK Lp Hs) as (A & B & C & D & E). exists prev.
  split; [exact Lp|]. split; [exact A|]. split; [exact B|]. split; [exact C|]. split; [exact D|]. split; [exact E|]. lia.
Qed.
Print Assumptions C85_reported.

(** ** a concrete kernel matrix: inner products of unit vectors (kernel="linear") *)
Definition unit_vectors : list (list R) := [[2/3; 1/3; 2/3]; [1; 0; 0]; [-2/7; 3/7; 6/7]; [0; 1; 0]].
Definition dot (a b : list R) : R := rsum (map (fun p => fst p * snd p) (combine a b)).
Definition linear_kernel (X : list (list R)) : list (list R) := map (fun a => map (dot a) X) X.
Definition two (iters : nat) : kk_params := {| kk_clusters := 2; kk_max_iter := iters; kk_tol := 1 / 1000000; kk_n_init := 1 |}.
Ltac decide_R := repeat match goal with
  | |- context [Rltb ?a ?b] => first [replace (Rltb a b) with true by (symmetry; apply Rltb_true; lra) | replace (Rltb a b) with false by (symmetry; apply Rltb_false; lra)]; cbn beta iota
  end.
Lemma ex_K : linear_kernel unit_vectors = [[1; 2/3; 11/21; 1/3]; [2/3; 1; -2/7; 0]; [11/21; -2/7; 1; 3/7]; [1/3; 0; 3/7; 1]].
Proof. unfold linear_kernel, unit_vectors, dot, rsum. cbn. repeat (f_equal; try lra). Qed.
Lemma ex_step1 : compute_dist 2 [1;1;1;1] [0;1;1;1]%nat (linear_kernel unit_vectors) =
  Ok [[0; 62/63]; [2/3; 32/21]; [20/21; 26/21]; [4/3; 22/21]].
Proof. rewrite ex_K. unfold compute_dist. cbn. unfold kdist_entry, masked, rsum. cbn. repeat (f_equal; try field; try lra). Qed.
Lemma ex_step2 : compute_dist 2 [1;1;1;1] [0;0;0;1]%nat (linear_kernel unit_vectors) =
  Ok [[34/63; 4/3]; [68/63; 2]; [74/63; 8/7]; [94/63; 0]].
Proof. rewrite ex_K. unfold compute_dist. cbn. unfold kdist_entry, masked, rsum. cbn. repeat (f_equal; try field; try lra). Qed.
Lemma ex_fit1 : kk_fit (two 1) [1;1;1;1] (linear_kernel unit_vectors) (fun _ => [0;1;1;1]%nat) = Ok (Some ([0;0;0;1]%nat, 8/3, 1%nat)).
Proof.
  unfold kk_fit. change (Nat.max (kk_n_init (two 1)) 10) with 10%nat.
  assert (E : forall s, kk_one_init (two 1) [1;1;1;1] (linear_kernel unit_vectors) [0;1;1;1]%nat s =
    ({| kk_labels := [0;0;0;1]%nat; kk_inertia := 8/3; kk_iter := 1 |}, Ok tt)).
  { intros s. unfold kk_one_init. cbn [two kk_max_iter Nat.eqb]. rewrite kk_loop_S. cbn [kk_labels kk_clusters two]. rewrite ex_step1.
    cbn [map rargmin rargmin_from]. decide_R. cbn [covers forallb existsb seq Nat.eqb orb andb kk_loop kk_labels kk_inertia]. f_equal. f_equal.
    unfold kinertia, rsum. cbn. unfold Rmin. repeat destruct (Rle_dec _ _); lra. }
  cbn [kk_attempts]. rewrite E. reflexivity.
Qed.
Lemma ex_fit2 : kk_fit (two 2) [1;1;1;1] (linear_kernel unit_vectors) (fun _ => [0;1;1;1]%nat) = Ok (Some ([0;0;1;1]%nat, 58/21, 2%nat)).
Proof.
  unfold kk_fit. change (Nat.max (kk_n_init (two 2)) 10) with 10%nat.
  assert (E : forall s, kk_one_init (two 2) [1;1;1;1] (linear_kernel unit_vectors) [0;1;1;1]%nat s =
    ({| kk_labels := [0;0;1;1]%nat; kk_inertia := 58/21; kk_iter := 2 |}, Ok tt)).
  { intros s. unfold kk_one_init. cbn [two kk_max_iter Nat.eqb]. rewrite kk_loop_S. cbn [kk_labels kk_clusters two]. rewrite ex_step1.
    cbn [map rargmin rargmin_from]. decide_R. cbn [covers forallb existsb seq Nat.eqb orb andb]. rewrite kk_loop_S. cbn [kk_labels kk_clusters two]. rewrite ex_step2.
    cbn [map rargmin rargmin_from]. decide_R. cbn [covers forallb existsb seq Nat.eqb orb andb kk_loop kk_labels kk_inertia].
    assert (I : kinertia [[34/63; 4/3]; [68/63; 2]; [74/63; 8/7]; [94/63; 0]] = 58/21).
    { unfold kinertia, rsum. cbn. unfold Rmin. repeat destruct (Rle_dec _ _); lra. }
    rewrite I. destruct (Rltb _ _); reflexivity. }
  cbn [kk_attempts]. rewrite E. reflexivity.
Qed.
(** The inertia can increase: four unit vectors, kernel "linear", labels 0,1,1,1 drawn; 8/3 after one iteration, 58/21 after two.
    (The distance to a cluster leaves out the norm of its mean.) *)
Theorem C85_increase_refuted : exists X draw, (forall x, In x X -> dot x x = 1) /\
  kk_fit (two 1) [1;1;1;1] (linear_kernel X) draw = Ok (Some ([0;0;0;1]%nat, 8/3, 1%nat)) /\
  kk_fit (two 2) [1;1;1;1] (linear_kernel X) draw = Ok (Some ([0;0;1;1]%nat, 58/21, 2%nat)) /\ 8/3 < 58/21.
Proof.
  exists unit_vectors, (fun _ => [0;1;1;1]%nat). split; [|split; [exact ex_fit1|split; [exact ex_fit2|lra]]].
  intros x [<-|[<-|[<-|[<-|[]]]]]; unfold dot, rsum; cbn; lra.
Qed.
Print Assumptions C85_increase_refuted.

(** ** C86 *)
(** [predict] gives every series the first most similar of the clusters of [labels_]. *)
Theorem C86_predict_partial p n sw labels Kp : (0 < kk_clusters p)%nat -> length sw = n -> length labels = n -> (forall r, In r Kp -> length r = n) ->
  no_empty (kk_clusters p) labels ->
  exists l, kk_predict p sw labels Kp = Ok l /\ length l = length Kp /\
    forall i, (i < length Kp)%nat -> most_similar (kk_clusters p) sw labels (nth i Kp []) (nth i l 0%nat).
Proof.
  intros Hk Hs Hl Hr Hc. apply covers_iff in Hc. unfold kk_predict, compute_dist. rewrite Hc. cbn [bind]. rewrite map_map. eexists. split; [reflexivity|].
  split; [apply map_length|]. intros i Hi.
  rewrite (nth_indep _ 0%nat (rargmin (map (kdist_entry sw labels []) (seq 0 (kk_clusters p))))) by (rewrite map_length; auto).
  rewrite (map_nth (fun row => rargmin (map (kdist_entry sw labels row) (seq 0 (kk_clusters p)))) Kp [] i).
  apply argmin_similar; auto; [lia|]. rewrite Hl. apply Hr, nth_In. auto.
Qed.
Print Assumptions C86_predict_partial.
(** so predicting the training set returns [labels_] exactly when no label would change in one more iteration *)
Theorem C86_same_partial p n sw K labels : (0 < kk_clusters p)%nat -> length sw = n -> square n K -> length labels = n -> no_empty (kk_clusters p) labels ->
  (kk_predict p sw labels K = Ok labels <-> forall i, (i < n)%nat -> most_similar (kk_clusters p) sw labels (nth i K []) (nth i labels 0%nat)).
Proof.
  intros Hk Hs [HK Hr] Hl Hc. destruct (C86_predict_partial p n sw labels K Hk Hs Hl Hr Hc) as (l & E & L & M). rewrite E. split.
  - intros H. injection H as ->. intros i Hi. apply M. lia.
  - intros H. f_equal. apply (nth_ext _ _ 0%nat 0%nat); [lia|]. intros i Hi. rewrite L in Hi.
    specialize (M i Hi). specialize (H i ltac:(lia)). destruct M as [M1 M2], H as [H1 H2]. destruct (lt_eq_lt_dec (nth i l 0%nat) (nth i labels 0%nat)) as [[Q|Q]|Q]; auto; exfalso.
    + destruct (H2 _ M1) as [_ X]. specialize (X Q). destruct (M2 _ H1). lra.
    + destruct (M2 _ H1) as [_ X]. specialize (X Q). destruct (H2 _ M1). lra.
Qed.
Print Assumptions C86_same_partial.
(** [fit_predict(X)] and [fit(X).predict(X)] differ when the loop stops early. *)
Theorem C86_refuted : exists X draw labels v it, 
  kk_fit (two 1) [1;1;1;1] (linear_kernel X) draw = Ok (Some (labels, v, it)) /\
  kk_predict (two 1) [1;1;1;1] labels (linear_kernel X) = Ok [0;0;1;1]%nat /\ labels <> [0;0;1;1]%nat.
Proof.
  exists unit_vectors, (fun _ => [0;1;1;1]%nat), [0;0;0;1]%nat, (8/3), 1%nat. split; [exact ex_fit1|]. split; [|discriminate].
  unfold kk_predict. cbn [kk_clusters two]. rewrite ex_step2. cbn [bind map rargmin rargmin_from]. decide_R. reflexivity.
Qed.
Print Assumptions C86_refuted.

(** ** C87 *)
Lemma masked_map {A B} (f : A -> B) labels j : forall l, masked labels j (map f l) = map f (masked labels j l).
Proof.
  induction labels as [|x labels IH]; intros [|a l]; auto. cbn [map]. rewrite !masked_cons. destruct (x =? j)%nat; cbn [map]; rewrite IH; auto.
Qed.
Lemma kdist_scale c sw labels row j : c <> 0 -> weight_of sw labels j <> 0 -> length sw = length labels ->
  kdist_entry (map (Rmult c) sw) labels row j = kdist_entry sw labels row j.
Proof.
  intros Hc Hw Hl. unfold kdist_entry. rewrite masked_map.
  assert (E1 : forall l, rsum (map (Rmult c) l) = c * rsum l) by (intros l; rewrite (rsum_map_scal c (fun x => x)), map_id; auto).
  assert (E2 : forall l r, rsum (map (fun p : R * R => fst p * snd p) (combine (map (Rmult c) l) r)) = c * rsum (map (fun p => fst p * snd p) (combine l r))).
  { induction l as [|x l IH]; intros [|y r]; try (unfold rsum; simpl; lra). cbn [map combine].
    match goal with |- rsum (?a :: ?m) = _ => change (rsum (a :: m)) with (a + rsum m) end. rewrite IH. unfold rsum. simpl. ring. }
  rewrite E1, E2, masked_weight in * by auto. field. auto.
Qed.
Definition positive_weights (sw : list R) : Prop := forall w, In w sw -> 0 < w.
Lemma weight_pos sw labels j : positive_weights sw -> length sw = length labels -> In j labels -> 0 < weight_of sw labels j.
Proof.
  intros Hp Hl Hj. rewrite <- masked_weight by auto. revert sw Hp Hl. induction labels as [|x labels IH]; intros [|a sw] Hp Hl; try discriminate; [contradiction|].
  rewrite masked_cons. assert (NN : 0 <= rsum (masked labels j sw)).
  { apply rsum_nonneg. intros y Hy. unfold masked in Hy. apply in_map_iff in Hy. destruct Hy as ((u & v) & <- & I). apply filter_In in I. destruct I as [I _].
    apply in_combine_r in I. cbn. apply Rlt_le, Hp. right. auto. }
  assert (Pa : 0 < a) by (apply Hp; left; auto). destruct (Nat.eqb_spec x j).
  - change (0 < a + rsum (masked labels j sw)). lra.
  - destruct Hj as [Hj|Hj]; [congruence|]. apply IH; auto. intros w Hw. apply Hp. right. auto.
Qed.
Lemma compute_scale c k sw labels K : c <> 0 -> positive_weights sw -> length sw = length labels ->
  compute_dist k (map (Rmult c) sw) labels K = compute_dist k sw labels K.
Proof.
  intros Hc Hp Hl. unfold compute_dist. destruct (covers labels k) eqn:E; auto. f_equal. apply map_ext. intros row. apply map_ext_in. intros j Hj. apply in_seq in Hj.
  apply kdist_scale; auto. apply Rgt_not_eq, weight_pos; auto. apply covers_iff in E. apply E. lia.
Qed.
Lemma loop_scale c p sw K : c <> 0 -> positive_weights sw -> length sw = length K -> forall more it old s, length (kk_labels s) = length K ->
  kk_loop p (map (Rmult c) sw) K it more old s = kk_loop p sw K it more old s.
Proof.
  intros Hc Hp Hl. induction more as [|more IH]; intros it old s Hs; auto. rewrite !kk_loop_S, compute_scale by (auto; lia).
  destruct (compute_dist (kk_clusters p) sw (kk_labels s) K) as [dist|e] eqn:ED; auto.
  destruct (covers (map rargmin dist) (kk_clusters p)); auto. destruct (match old with Some o => Rltb (Rabs (o - kinertia dist)) (kk_tol p) | None => false end); auto.
  apply IH. cbn. unfold compute_dist in ED. destruct (covers (kk_labels s) (kk_clusters p)); [|discriminate]. injection ED as <-. rewrite !map_length. auto.
Qed.
(** Multiplying all sample weights by one factor changes nothing. *)
Theorem C87_weights p sw K draw c : 0 < c -> positive_weights sw -> length sw = length K -> (forall a, length (draw a) = length K) ->
  kk_fit p (map (Rmult c) sw) K draw = kk_fit p sw K draw.
Proof.
  intros Hc Hp Hl Hd. unfold kk_fit.
  assert (E : forall remaining n ns best s, kk_attempts p (map (Rmult c) sw) K draw n remaining ns best s = kk_attempts p sw K draw n remaining ns best s).
  { induction remaining as [|remaining IH]; intros n ns best s; auto. cbn [kk_attempts].
    assert (EI : kk_one_init p (map (Rmult c) sw) K (draw n) s = kk_one_init p sw K (draw n) s).
    { unfold kk_one_init. destruct (kk_max_iter p =? 0)%nat; auto. apply loop_scale; auto; [lra|apply Hd]. }
    rewrite EI. destruct (kk_n_init p <=? ns)%nat; auto. destruct (kk_one_init p sw K (draw n) s) as [s' [[]|e]]; [apply IH|]. destruct e; auto. }
  rewrite E. reflexivity.
Qed.
Print Assumptions C87_weights.
(** a case of C85 and C87: the example above *)
Example C87_nontrivial : kk_fit (two 2) (map (Rmult 3) [1;1;1;1]) (linear_kernel unit_vectors) (fun _ => [0;1;1;1]%nat) = Ok (Some ([0;0;1;1]%nat, 58/21, 2%nat)).
Proof.
  rewrite C87_weights; [exact ex_fit2|lra| |reflexivity|reflexivity]. intros w Hw. cbn in Hw. destruct Hw as [<-|[<-|[<-|[<-|[]]]]]; lra.
Qed.

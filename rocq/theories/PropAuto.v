(** C68, C102: the order search of AutoVARIMA. *)
From Coq Require Import Bool List Arith Lia Permutation Reals Lra.
From Verif Require Import Num Py RList ArimaModel.
Import ListNotations.
Local Open Scope nat_scope.

(** ** Specification *)
Definition in_bounds (max_p max_q : nat) (h : hp) : Prop := fst (fst h) <= max_p /\ snd (fst h) <= max_q.
(** one step up or down in p and q, or the constant switched *)
Definition neighbour (b h : hp) : Prop :=
  let '(p, q, c) := b in let '(p', q', c') := h in
  (c' = c /\ (p' = p \/ p' = p + 1 \/ p' + 1 = p) /\ (q' = q \/ q' = q + 1 \/ q' + 1 = q)) \/ (p' = p /\ q' = q /\ c' = negb c).

(** ** sets *)
Lemma hp_eqb_eq a b : hp_eqb a b = true <-> a = b.
Proof.
  destruct a as [[p q] c], b as [[p' q'] c']. unfold hp_eqb. rewrite !andb_true_iff, !Nat.eqb_eq, eqb_true_iff. split; [intros [[-> ->] ->]; auto|intros E; injection E as -> -> ->; auto].
Qed.
Lemma mem_In h l : mem h l = true <-> In h l.
Proof.
  unfold mem. rewrite existsb_exists. split; [intros (x & Hx & E); apply hp_eqb_eq in E; subst; auto|intros H; exists h; split; auto; apply hp_eqb_eq; auto].
Qed.
Lemma mem_nIn h l : mem h l = false <-> ~ In h l.
Proof. rewrite <- mem_In. destruct (mem h l); split; congruence. Qed.
Lemma set_add_spec l h : NoDup l -> NoDup (set_add l h) /\ forall x, In x (set_add l h) <-> In x l \/ x = h.
Proof.
  intros H. unfold set_add. destruct (mem h l) eqn:E.
  - apply mem_In in E. split; auto. intros x. split; auto. intros [A| ->]; auto.
  - apply mem_nIn in E. split; [apply Permutation_NoDup with (h :: l); [apply Permutation_cons_append|constructor; auto]|]. intros x. rewrite in_app_iff. cbn. intuition.
Qed.
Lemma set_adds_spec hs : forall l, NoDup l -> NoDup (fold_left set_add hs l) /\ forall x, In x (fold_left set_add hs l) <-> In x l \/ In x hs.
Proof.
  induction hs as [|h hs IH]; intros l H; cbn [fold_left]; [split; auto; cbn; tauto|]. destruct (set_add_spec l h H) as (A & B). destruct (IH _ A) as (C & D). split; auto.
  intros x. rewrite D, B. cbn. intuition.
Qed.
Lemma around_spec max x y : x <= max -> In y (around max x) <-> y <= max /\ (y = x \/ y = x + 1 \/ y + 1 = x).
Proof.
  intros H. unfold around. rewrite !in_app_iff. destruct (Nat.ltb_spec max (x + 1)), (Nat.leb_spec 1 x); cbn [In]; lia.
Qed.
Lemma variations_spec max_p max_q b computed : in_bounds max_p max_q b ->
  NoDup (variations max_p max_q b computed) /\ forall h, In h (variations max_p max_q b computed) <-> in_bounds max_p max_q h /\ neighbour b h /\ ~ In h computed.
Proof.
  destruct b as [[p q] c]. intros [Hp Hq]. cbn in Hp, Hq. unfold variations.
  destruct (set_adds_spec (flat_map (fun p => map (fun q => (p, q, c)) (around max_q q)) (around max_p p)) [(p, q, negb c)]) as (A & B); [constructor; [cbn; tauto|constructor]|].
  split; [apply NoDup_filter; auto|]. intros h. rewrite filter_In, B, negb_true_iff, mem_nIn. destruct h as [[p' q'] c']. unfold in_bounds, neighbour. cbn [fst snd In]. rewrite in_flat_map.
  assert (E : (exists x, In x (around max_p p) /\ In (p', q', c') (map (fun q0 => (x, q0, c)) (around max_q q))) <-> c' = c /\ In p' (around max_p p) /\ In q' (around max_q q)).
  { split.
    - intros (x & Hx & Hm). apply in_map_iff in Hm. destruct Hm as (y & Q & Hy). injection Q as -> -> <-. auto.
    - intros (-> & H1 & H2). exists p'. split; auto. apply in_map_iff. exists q'. auto. }
  rewrite E, !around_spec by auto. split.
  - intros ([[Q|[]]|(-> & (P1 & P2) & (Q1 & Q2))] & N); [injection Q as -> -> <-|]; repeat split; auto.
  - intros ((P1 & Q1) & [(-> & P2 & Q2)|(-> & -> & ->)] & N); split; auto.
Qed.
Lemma init_spec max_p max_q d : NoDup (init_models max_p max_q d) /\ forall h, In h (init_models max_p max_q d) -> in_bounds max_p max_q h.
Proof.
  unfold init_models. destruct d as [|[|d]]; [change (0 <? 2) with true; change (0 <=? 1) with true|change (1 <? 2) with true; change (1 <=? 1) with true|replace (S (S d) <? 2) with false by (symmetry; apply Nat.ltb_ge; lia); replace (S (S d) <=? 1) with false by (symmetry; apply Nat.leb_gt; lia)];
  destruct (Nat.ltb_spec 0 max_p), (Nat.ltb_spec 0 max_q), (Nat.ltb_spec 1 max_p), (Nat.ltb_spec 1 max_q); try lia; cbn [andb app]; (split; [repeat constructor; cbn; intuition discriminate|]);
  intros h Hh; cbn in Hh; unfold in_bounds; repeat destruct Hh as [<-|Hh]; try destruct Hh; cbn; lia.
Qed.
(** all combinations *)
Definition universe (max_p max_q : nat) : list hp := flat_map (fun p => flat_map (fun q => [(p, q, true); (p, q, false)]) (seq 0 (max_q + 1))) (seq 0 (max_p + 1)).
Lemma universe_len max_p max_q : length (universe max_p max_q) = 2 * (max_p + 1) * (max_q + 1).
Proof.
  unfold universe. assert (G : forall (B : Type) (f : nat -> list B) k l, (forall x, length (f x) = k) -> length (flat_map f l) = length l * k).
  { intros B f k l H. induction l as [|x l IH]; auto. cbn. rewrite app_length, H, IH. auto. }
  rewrite (G _ _ (2 * (max_q + 1))); [rewrite seq_length; lia|]. intros p. rewrite (G _ _ 2); auto. rewrite seq_length. lia.
Qed.
Lemma universe_In max_p max_q h : in_bounds max_p max_q h -> In h (universe max_p max_q).
Proof.
  destruct h as [[p q] c]. intros [Hp Hq]. cbn in Hp, Hq. unfold universe. apply in_flat_map. exists p. split; [apply in_seq; lia|]. apply in_flat_map. exists q. split; [apply in_seq; lia|]. destruct c; cbn; auto.
Qed.
Lemma bounded_len max_p max_q l : NoDup l -> (forall h, In h l -> in_bounds max_p max_q h) -> length l <= 2 * (max_p + 1) * (max_q + 1).
Proof. intros H B. rewrite <- universe_len. apply NoDup_incl_length; auto. intros h Hh. apply universe_In. auto. Qed.

Lemma NoDup_app_disj (l l' : list hp) : NoDup l -> NoDup l' -> (forall x, In x l -> ~ In x l') -> NoDup (l ++ l').
Proof.
  induction l as [|x l IH]; cbn; auto. intros H H' D. inversion H; subst. constructor; [rewrite in_app_iff; intros [A|A]; [auto|apply (D x); auto]|]. apply IH; auto.
Qed.

(** ** comparisons of AIC values *)
Lemma xltb_trans a b c : xltb a b = true -> xltb b c = true -> xltb a c = true.
Proof.
  destruct a as [x| | |], b as [y| | |], c as [z| | |]; cbn; try congruence. unfold Rltb. repeat destruct (Rlt_dec _ _); auto; try congruence. intros _ _. exfalso. lra.
Qed.
Definition minimal_among (aic : hp -> res xr) (best : option (hp * xr)) (computed : list hp) : Prop :=
  match best with
  | None => forall h a, In h computed -> aic h = Ok a -> xltb a XInf = false
  | Some (b, a) => In b computed /\ aic b = Ok a /\ xltb a XInf = true /\ forall h a', In h computed -> aic h = Ok a' -> xltb a' a = false
  end.
Definition fits (aic : hp -> res xr) : Prop := forall h, (exists a, aic h = Ok a) \/ aic h = Err ValueError.
Lemma test_spec aic models : fits aic -> forall best computed, minimal_among aic best computed ->
  exists best', test_models aic models best computed = Ok (best', computed ++ models) /\ minimal_among aic best' (computed ++ models) /\ (best <> None -> best' <> None).
Proof.
  intros HA. induction models as [|h models IH]; intros best computed HM; cbn [test_models]; [exists best; rewrite app_nil_r; auto|].
  assert (EA : forall l, (computed ++ [h]) ++ l = computed ++ h :: l) by (intros; rewrite <- app_assoc; auto).
  destruct (HA h) as [(a & E)|E]; rewrite E.
  - set (cur := match best with Some (_, b) => b | None => XInf end). destruct (xltb a cur) eqn:EL.
    + destruct (IH (Some (h, a)) (computed ++ [h])) as (b' & Q & M & N).
      * cbn. split; [apply in_or_app; right; left; auto|]. split; auto. destruct best as [[b0 a0]|]; cbn in HM, cur, EL; unfold cur in EL.
        -- destruct HM as (I0 & E0 & F0 & M0). split; [apply xltb_trans with a0; auto|]. intros h' a' Hh Ha. apply in_app_iff in Hh. destruct Hh as [Hh|[<-|[]]].
           ++ destruct (xltb a' a) eqn:EE; auto. pose proof (xltb_trans _ _ _ EE EL) as T. rewrite (M0 h' a' Hh Ha) in T. discriminate.
           ++ rewrite E in Ha. injection Ha as <-. destruct a; cbn; auto. unfold Rltb. destruct (Rlt_dec r r); auto. exfalso. lra.
        -- split; auto. intros h' a' Hh Ha. apply in_app_iff in Hh. destruct Hh as [Hh|[<-|[]]].
           ++ destruct (xltb a' a) eqn:EE; auto. pose proof (xltb_trans _ _ _ EE EL) as T. rewrite (HM h' a' Hh Ha) in T. discriminate.
           ++ rewrite E in Ha. injection Ha as <-. destruct a; cbn; auto. unfold Rltb. destruct (Rlt_dec r r); auto. exfalso. lra.
      * exists b'. rewrite <- (EA models). split; auto. split; auto. intros _. apply N. discriminate.
    + destruct (IH best (computed ++ [h])) as (b' & Q & M & N).
      * destruct best as [[b0 a0]|]; cbn in HM, cur |- *; unfold cur in EL.
        -- destruct HM as (I0 & E0 & F0 & M0). split; [apply in_or_app; auto|]. split; auto. split; auto. intros h' a' Hh Ha. apply in_app_iff in Hh. destruct Hh as [Hh|[<-|[]]]; eauto. rewrite E in Ha. injection Ha as <-. auto.
        -- intros h' a' Hh Ha. apply in_app_iff in Hh. destruct Hh as [Hh|[<-|[]]]; eauto. rewrite E in Ha. injection Ha as <-. auto.
      * exists b'. rewrite <- (EA models). auto.
  - destruct (IH best (computed ++ [h])) as (b' & Q & M & N).
    + destruct best as [[b0 a0]|]; cbn in HM |- *.
      * destruct HM as (I0 & E0 & F0 & M0). split; [apply in_or_app; auto|]. split; auto. split; auto. intros h' a' Hh Ha. apply in_app_iff in Hh. destruct Hh as [Hh|[<-|[]]]; eauto. congruence.
      * intros h' a' Hh Ha. apply in_app_iff in Hh. destruct Hh as [Hh|[<-|[]]]; eauto. congruence.
    + exists b'. rewrite <- (EA models). auto.
Qed.

(** ** the loop *)
Lemma search_spec aic order max_p max_q : fits aic -> (forall r l, Permutation (order r l) l) -> forall fuel round models b a computed,
  NoDup (computed ++ models) -> (forall h, In h (computed ++ models) -> in_bounds max_p max_q h) -> minimal_among aic (Some (b, a)) computed ->
  (forall h, in_bounds max_p max_q h -> neighbour b h -> In h (computed ++ models)) -> 2 * (max_p + 1) * (max_q + 1) <= fuel + length computed ->
  exists b' tested, search aic order max_p max_q fuel round models (Some (b, a)) computed = Some (Ok (b', tested)) /\
    NoDup tested /\ (forall h, In h tested -> in_bounds max_p max_q h) /\ incl (computed ++ models) tested /\ (exists a', minimal_among aic (Some (b', a')) tested) /\
    (forall h, in_bounds max_p max_q h -> neighbour b' h -> In h tested).
Proof.
  intros HA HO. induction fuel as [|fuel IH]; intros round models b a computed ND IB MA NB HF.
  - destruct models as [|h models].
    + cbn. rewrite app_nil_r in *. exists b, computed. split; auto. split; auto. split; auto. split; [apply incl_refl|]. split; eauto.
    + exfalso. pose proof (bounded_len max_p max_q _ ND IB) as B. rewrite app_length in B. cbn in B, HF. lia.
  - destruct models as [|h models].
    + cbn. rewrite app_nil_r in *. exists b, computed. split; auto. split; auto. split; auto. split; [apply incl_refl|]. split; eauto.
    + cbn [search]. set (ms := h :: models) in *. pose proof (HO round ms) as HP. destruct (test_spec aic (order round ms) HA _ _ MA) as (best' & E & M & N). rewrite E.
      destruct best' as [[b1 a1]|]; [|exfalso; apply N; auto; discriminate]. set (comp := computed ++ order round ms) in *.
      assert (PC : Permutation comp (computed ++ ms)) by (apply Permutation_app_head; auto).
      assert (NC : NoDup comp) by (apply Permutation_NoDup with (computed ++ ms); auto; apply Permutation_sym; auto).
      assert (BC : forall h, In h comp -> in_bounds max_p max_q h) by (intros x Hx; apply IB; apply Permutation_in with comp; auto).
      pose proof M as (I1 & _). destruct (variations_spec max_p max_q b1 comp (BC _ I1)) as (NV & SV).
      destruct (IH (S round) (variations max_p max_q b1 comp) b1 a1 comp) as (b' & tested & S1 & S2 & S3 & S4 & S5 & S6).
      * apply NoDup_app_disj; auto. intros x H1 H2. apply SV in H2. tauto.
      * intros x Hx. apply in_app_iff in Hx. destruct Hx as [Hx|Hx]; auto. apply SV in Hx. tauto.
      * auto.
      * intros x Hb Hn. destruct (mem x comp) eqn:EM; [apply mem_In in EM; apply in_or_app; auto|]. apply mem_nIn in EM. apply in_or_app. right. apply SV. auto.
      * apply Permutation_length in PC. rewrite app_length in PC. unfold ms in PC. cbn [length] in PC. lia.
      * exists b', tested. split; auto. split; auto. split; auto. split; auto. intros x Hx. apply S4. apply in_or_app. left. apply Permutation_in with (computed ++ ms); auto. apply Permutation_sym. auto.
Qed.

(** ** C68.  [aic h] is the AIC of the model fitted with the orders [h]; a fit may fail with ValueError, and then the model is
    skipped.  Whatever the AIC values and the iteration orders of the sets, if some initial model has an AIC below infinity, the
    search ends after at most 2 (max_p+1) (max_q+1) rounds.  It fits no combination twice and none out of bounds.  The model it
    returns was tested, no tested model has a smaller AIC, and all its neighbours within the bounds were tested. *)
Theorem C68_search_partial aic order max_p max_q d fuel :
  (forall h, (exists a, aic h = Ok a) \/ aic h = Err ValueError) -> (forall r l, Permutation (order r l) l) ->
  (exists h a, In h (init_models max_p max_q d) /\ aic h = Ok a /\ xltb a XInf = true) -> 2 * (max_p + 1) * (max_q + 1) <= fuel ->
  exists b tested a, best_model aic order max_p max_q d fuel = Some (Ok (b, tested)) /\
    NoDup tested /\ (forall p q c, In (p, q, c) tested -> p <= max_p /\ q <= max_q) /\ incl (init_models max_p max_q d) tested /\
    In b tested /\ aic b = Ok a /\ xltb a XInf = true /\ (forall h a', In h tested -> aic h = Ok a' -> xltb a' a = false) /\
    (forall h, in_bounds max_p max_q h -> neighbour b h -> In h tested).
Proof.
  intros HA HO (h0 & a0 & I0 & E0 & F0) HF. unfold best_model. destruct (init_spec max_p max_q d) as (ND & IB). set (init := init_models max_p max_q d) in *.
  destruct init as [|h1 rest] eqn:EI; [destruct I0|]. rewrite <- EI in *. destruct fuel as [|fuel]; [lia|].
  assert (ES : search aic order max_p max_q (S fuel) 0 init None [] =
    match test_models aic (order 0 init) None [] with
    | Err e => Some (Err e) | Ok (None, _) => Some (Err AttributeError)
    | Ok (Some (b, a), computed) => search aic order max_p max_q fuel 1 (variations max_p max_q b computed) (Some (b, a)) computed end) by (rewrite EI; reflexivity).
  rewrite ES. pose proof (HO 0 init) as HP. destruct (test_spec aic (order 0 init) HA None []) as (best & E & M & _); [cbn; tauto|]. rewrite E. cbn [app] in *. set (comp := order 0 init) in *.
  destruct best as [[b1 a1]|].
  - assert (NC : NoDup comp) by (apply Permutation_NoDup with init; auto; apply Permutation_sym; auto).
    assert (BC : forall h, In h comp -> in_bounds max_p max_q h) by (intros x Hx; apply IB; apply Permutation_in with comp; auto).
    pose proof M as (I1 & _). destruct (variations_spec max_p max_q b1 comp (BC _ I1)) as (NV & SV).
    destruct (search_spec aic order max_p max_q HA HO fuel 1 (variations max_p max_q b1 comp) b1 a1 comp) as (b' & tested & S1 & S2 & S3 & S4 & (a' & S5) & S6).
    + apply NoDup_app_disj; auto. intros x H1 H2. apply SV in H2. tauto.
    + intros x Hx. apply in_app_iff in Hx. destruct Hx as [Hx|Hx]; auto. apply SV in Hx. tauto.
    + auto.
    + intros x Hb Hn. destruct (mem x comp) eqn:EM; [apply mem_In in EM; apply in_or_app; auto|]. apply mem_nIn in EM. apply in_or_app. right. apply SV. auto.
    + apply Permutation_length in HP. rewrite HP, EI. cbn [length]. lia.
    + exists b', tested, a'. destruct S5 as (T1 & T2 & T3 & T4). split; auto. split; auto. split; [intros p q c Hx; exact (S3 _ Hx)|]. split; [|auto].
      intros x Hx. apply S4. apply in_or_app. left. apply Permutation_in with init; auto. apply Permutation_sym. auto.
  - exfalso. cbn in M. rewrite (M h0 a0) in F0; auto; [discriminate|]. apply Permutation_in with init; auto. apply Permutation_sym. auto.
Qed.
Print Assumptions C68_search_partial.

(** If no initial model has an AIC below infinity (failed fits, or AIC infinite or NaN), the search raises AttributeError, though
    every other combination within the bounds may well have a finite AIC.  ([current_best_model] is None, l.785.) *)
Theorem C68_no_start_refuted aic order max_p max_q d fuel :
  (forall h, (exists a, aic h = Ok a) \/ aic h = Err ValueError) -> (forall r l, Permutation (order r l) l) -> 1 <= fuel ->
  (forall h a, In h (init_models max_p max_q d) -> aic h = Ok a -> xltb a XInf = false) ->
  best_model aic order max_p max_q d fuel = Some (Err AttributeError).
Proof.
  intros HA HO HF HN. unfold best_model. destruct fuel as [|fuel]; [lia|]. set (init := init_models max_p max_q d) in *.
  assert (ES : search aic order max_p max_q (S fuel) 0 init None [] =
    match test_models aic (order 0 init) None [] with
    | Err e => Some (Err e) | Ok (None, _) => Some (Err AttributeError)
    | Ok (Some (b, a), computed) => search aic order max_p max_q fuel 1 (variations max_p max_q b computed) (Some (b, a)) computed end) by reflexivity.
  rewrite ES. destruct (test_spec aic (order 0 init) HA None []) as (best & E & M & _); [cbn; tauto|]. rewrite E. destruct best as [[b1 a1]|]; auto.
  exfalso. destruct M as (I1 & E1 & F1 & _). rewrite (HN b1 a1) in F1; auto; [discriminate|]. apply Permutation_in with (order 0 init); auto.
Qed.
Print Assumptions C68_no_start_refuted.
(** a landscape where the initial models fail and (1, 1) does not *)
Example C68_no_start_instance : exists aic : hp -> res xr, (forall h, (exists a, aic h = Ok a) \/ aic h = Err ValueError) /\
  aic (1, 1, true) = Ok (XR 0) /\ (forall h a, In h (init_models 2 2 0) -> aic h = Ok a -> xltb a XInf = false) /\
  best_model aic (fun _ l => l) 2 2 0 18 = Some (Err AttributeError).
Proof.
  exists (fun h : hp => if hp_eqb h (1, 1, true) then Ok (XR 0) else Err ValueError). split; [intros h; destruct (hp_eqb _ _); eauto|]. split; auto. split; auto.
  intros h a Hh. cbn in Hh. repeat destruct Hh as [<-|Hh]; try destruct Hh; cbn; discriminate.
Qed.
(** a landscape that needs several rounds and has failing fits and NaN *)
Example C68_nontrivial : exists aic : hp -> res xr, (forall h, (exists a, aic h = Ok a) \/ aic h = Err ValueError) /\
  (exists h, aic h = Err ValueError) /\ (exists h, aic h = Ok XNaN) /\
  (exists h a, In h (init_models 3 3 0) /\ aic h = Ok a /\ xltb a XInf = true).
Proof.
  exists (fun h : hp => let '(p, q, c) := h in if c then (if (p =? 3) then Ok XNaN else Ok (XR (- INR (p + q)))) else Err ValueError).
  split; [intros [[p q] c]; destruct c; [destruct (p =? 3)|]; eauto|]. split; [exists (0, 0, false); auto|]. split; [exists (3, 0, true); auto|].
  exists (0, 0, true), (XR (- INR (0 + 0))). cbn. auto.
Qed.

(** ** C102.  The differencing order is the smallest one, from 0 to max_d, at which the stationarity test succeeds; if there is
    none, the default, or ValueError without a default. *)
Theorem C102_smallest_order stationary max_d default :
  (forall d, d <= max_d -> stationary d = true -> (forall k, k < d -> stationary k = false) -> determine_d stationary max_d default = Ok d) /\
  ((forall k, k <= max_d -> stationary k = false) -> determine_d stationary max_d default = match default with Some d => Ok d | None => Err ValueError end).
Proof.
  assert (A : forall more from, (forall k, k <= more -> stationary (from + k) = false) -> determine_from stationary default more from = match default with Some d => Ok d | None => Err ValueError end).
  { induction more as [|more IH]; intros from H; cbn [determine_from]; pose proof (H 0 ltac:(lia)) as H0; rewrite Nat.add_0_r in H0; rewrite H0; auto. apply IH. intros k Hk. replace (S from + k) with (from + S k) by lia. apply H. lia. }
  assert (B : forall more from d, d <= more -> stationary (from + d) = true -> (forall k, k < d -> stationary (from + k) = false) -> determine_from stationary default more from = Ok (from + d)).
  { induction more as [|more IH]; intros from d Hd H1 H2.
    - replace d with 0 in * by lia. rewrite Nat.add_0_r in *. cbn. rewrite H1. auto.
    - cbn [determine_from]. destruct d as [|d]; [rewrite Nat.add_0_r in *; rewrite H1; auto|]. pose proof (H2 0 ltac:(lia)) as H0. rewrite Nat.add_0_r in H0. rewrite H0.
      replace (from + S d) with (S from + d) in * by lia. apply IH; auto; [lia|]. intros k Hk. replace (S from + k) with (from + S k) by lia. apply H2. lia. }
  unfold determine_d. split; [intros d Hd H1 H2; apply (B max_d 0 d); auto|intros H; apply A; auto].
Qed.
Print Assumptions C102_smallest_order.
Example C102_nontrivial : determine_d (fun d => Nat.odd d) 5 None = Ok 1 /\ determine_d (fun d => 5 <=? d) 4 (Some 1) = Ok 1 /\ determine_d (fun d => 5 <=? d) 4 None = Err ValueError.
Proof. repeat split. Qed.

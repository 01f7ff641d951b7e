(** C164: what TimeSeriesKMeans(metric="softdtw") does keep: of several initialisations the one
    with the smallest [inertia_].  The proof follows PropAttempts.v. *)
From Coq Require Import Bool List Arith Lia ZArith QArith Reals Lra.
From Verif Require Import Num NumLaws Py Series Dataset PaaModel PreModel BaryModel ClusterModel SoftBaryModel SoftKmeansModel PropAttempts RealSeries PropSoftKmeans PropSoftKmeans2.
Import ListNotations.
Local Open Scope nat_scope.

Section Engine.
Context (en : engine).
(** ** Specification *)
Definition with_n_init (n : nat) (p : soft_params) : soft_params :=
  {| sk_clusters := sk_clusters p; sk_max_iter := sk_max_iter p; sk_tol := sk_tol p; sk_n_init := n; sk_max_bary := sk_max_bary p; sk_dtw_inertia := sk_dtw_inertia p;
     sk_gamma := sk_gamma p; sk_gc := sk_gc p; sk_radius := sk_radius p; sk_slope := sk_slope p |}.
(** fitting a new estimator with the initial centres [C] only, [n_init=1]; [finds] (PropAttempts.v): it
    finds a clustering, with this inertia *)
Definition single (p : soft_params) (C : res array3) (X : array3) : km_state * res unit := soft_fit en (with_n_init 1 p) (InitDrawn (fun _ => C)) X fresh.

(** ** n_init does not change one attempt *)
Lemma update_with n p X : forall ks s, soft_update en (with_n_init n p) X ks s = soft_update en p X ks s.
Proof.
  induction ks as [|k ks IH]; intros s; [reflexivity|]. cbn [soft_update]. destruct (cluster_centers_ s) as [C|]; auto. destruct (labels_ s) as [l|]; auto.
  change (soft_center en (with_n_init n p)) with (soft_center en p). destruct (soft_center en p X l k (nth k C [])); auto.
Qed.
Lemma lloyd_with n p X : forall more it old s, soft_lloyd en (with_n_init n p) X it more old s = soft_lloyd en p X it more old s.
Proof.
  induction more as [|more IH]; intros it old s; [reflexivity|]. cbn [soft_lloyd]. unfold seqm. change (soft_assign (with_n_init n p) X s) with (soft_assign p X s).
  destruct (soft_assign p X s) as [s1 [l|e]]; auto. change (sk_clusters (with_n_init n p)) with (sk_clusters p). rewrite update_with.
  destruct (soft_update en p X (seq 0 (sk_clusters p)) s1) as [s2 [u|e]]; auto. change (sk_tol (with_n_init n p)) with (sk_tol p). destruct (xltb _ _); auto.
Qed.
Lemma one_init_with n p X i s : soft_one_init en (with_n_init n p) X i s = soft_one_init en p X i s.
Proof.
  unfold soft_one_init. destruct i as [C0|e]; auto. destruct (check_full_length C0) as [C|e]; auto. change (sk_max_iter (with_n_init n p)) with (sk_max_iter p).
  destruct (sk_max_iter p =? 0); auto. apply lloyd_with.
Qed.
(** ** an attempt does not depend on what the estimator held before *)
Lemma assign_agree p X s t : cluster_centers_ s = cluster_centers_ t -> agree (soft_assign p X s) (soft_assign p X t).
Proof.
  intros E. unfold soft_assign. rewrite <- E. destruct (cluster_centers_ s) as [C|] eqn:EC; [|split; auto; discriminate].
  destruct (soft_transform p C X) as [D|e]; [|split; auto; discriminate]. destruct (no_empty_cluster _ _); [|split; auto; discriminate].
  destruct (if sk_dtw_inertia p then _ else _) as [D'|e]; [|split; auto; discriminate].
  split; auto. intros a _. unfold core. cbn. rewrite <- E, EC. reflexivity.
Qed.
Lemma update_agree p X : forall ks s t, core s = core t -> agree (soft_update en p X ks s) (soft_update en p X ks t).
Proof.
  induction ks as [|k ks IH]; intros s t E; [split; auto|]. cbn [soft_update]. injection E as E1 E2 E3. rewrite <- E3, <- E1.
  destruct (cluster_centers_ s) as [C|] eqn:EC; [|split; auto; discriminate]. destruct (labels_ s) as [l|] eqn:EL; [|split; auto; discriminate].
  destruct (soft_center en p X l k (nth k C [])) as [c|e]; [|split; auto; discriminate]. apply IH. unfold core. cbn. congruence.
Qed.
Lemma lloyd_agree p X : forall more it old s t, core s = core t -> agree (soft_lloyd en p X it more old s) (soft_lloyd en p X it more old t).
Proof.
  induction more as [|more IH]; intros it old s t E; [split; auto|]. cbn [soft_lloyd]. unfold seqm.
  destruct (assign_agree p X s t (f_equal snd E)) as [A1 A2]. destruct (soft_assign p X s) as [s1 [l|e]], (soft_assign p X t) as [t1 [l'|e']]; cbn in A1, A2; try discriminate;
    [|injection A1 as ->; split; auto; discriminate]. specialize (A2 l eq_refl).
  destruct (update_agree p X (seq 0 (sk_clusters p)) s1 t1 A2) as [B1 B2].
  destruct (soft_update en p X (seq 0 (sk_clusters p)) s1) as [s2 [u|e]], (soft_update en p X (seq 0 (sk_clusters p)) t1) as [t2 [u'|e']]; cbn in B1, B2; try discriminate;
    [|injection B1 as ->; split; auto; discriminate]. specialize (B2 u eq_refl). injection B2 as B3 B4 B5. rewrite <- B4.
  destruct (xltb _ _); [split; auto; intros a _; unfold core; cbn; congruence|apply IH; unfold core; congruence].
Qed.
Lemma lloyd_start p X more it old s t : cluster_centers_ s = cluster_centers_ t -> agree (soft_lloyd en p X it (S more) old s) (soft_lloyd en p X it (S more) old t).
Proof.
  intros E. cbn [soft_lloyd]. unfold seqm.
  destruct (assign_agree p X s t E) as [A1 A2]. destruct (soft_assign p X s) as [s1 [l|e]], (soft_assign p X t) as [t1 [l'|e']]; cbn in A1, A2; try discriminate;
    [|injection A1 as ->; split; auto; discriminate]. specialize (A2 l eq_refl).
  destruct (update_agree p X (seq 0 (sk_clusters p)) s1 t1 A2) as [B1 B2].
  destruct (soft_update en p X (seq 0 (sk_clusters p)) s1) as [s2 [u|e]], (soft_update en p X (seq 0 (sk_clusters p)) t1) as [t2 [u'|e']]; cbn in B1, B2; try discriminate;
    [|injection B1 as ->; split; auto; discriminate]. specialize (B2 u eq_refl). injection B2 as B3 B4 B5. rewrite <- B4.
  destruct (xltb _ _); [split; auto; intros a _; unfold core; cbn; congruence|apply lloyd_agree; unfold core; congruence].
Qed.
Lemma one_init_agree p X i s t : agree (soft_one_init en p X i s) (soft_one_init en p X i t).
Proof.
  unfold soft_one_init. destruct i as [C0|e]; [|split; auto; discriminate]. destruct (check_full_length C0) as [C|e]; [|split; auto; discriminate].
  destruct (sk_max_iter p) as [|m]; [split; auto; discriminate|]. cbn [Nat.eqb]. apply lloyd_start. reflexivity.
Qed.
Lemma post_agree p X c v s t : agree (soft_post_fit p X c v s) (soft_post_fit p X c v t) /\ (forall u, snd (soft_post_fit p X c v s) = Ok u -> X_fit_ (fst (soft_post_fit p X c v s)) = X_fit_ (fst (soft_post_fit p X c v t)) /\
   (X_fit_ (fst (soft_post_fit p X c v s)) <> None -> inertia_ (fst (soft_post_fit p X c v s)) = v)) \/ c = None \/ xisfinite v = false.
Proof.
  destruct (xisfinite v) eqn:EV; [|auto]. destruct c as [C|]; [left|auto]. unfold soft_post_fit. rewrite EV.
  destruct (assign_agree p X (set_centers C s) (set_centers C t) eq_refl) as [A1 A2].
  destruct (soft_assign p X (set_centers C s)) as [s1 [l|e]], (soft_assign p X (set_centers C t)) as [t1 [l'|e']]; cbn in A1, A2; try discriminate; cbn.
  - specialize (A2 l eq_refl). injection A2 as A2 A3 A4. split; [split; auto; intros a _; unfold core; cbn; congruence|auto].
  - injection A1 as ->. split; [split; auto; discriminate|discriminate].
Qed.

Section Best.
Context (p : soft_params) (X : array3) (draw : nat -> res array3).
Definition gives (b : nat) (C : array3) (v : xr) : Prop :=
  forall s, exists s', soft_one_init en p X (draw b) s = (s', Ok tt) /\ cluster_centers_ s' = Some C /\ inertia_ s' = v.
Lemma gives_of b s s' : soft_one_init en p X (draw b) s = (s', Ok tt) -> cluster_centers_ s' <> None -> exists C, cluster_centers_ s' = Some C /\ gives b C (inertia_ s').
Proof.
  intros E N. destruct (cluster_centers_ s') as [C|] eqn:EC; [|congruence]. exists C. split; auto. intros t. destruct (one_init_agree p X (draw b) s t) as [A1 A2].
  rewrite E in A1, A2. destruct (soft_one_init en p X (draw b) t) as [t' r]. cbn in A1, A2. subst r. specialize (A2 tt eq_refl). injection A2 as A2 A3 A4.
  exists t'. rewrite <- A4, EC. auto.
Qed.
Lemma gives_inv b C v s s' r : gives b C v -> soft_one_init en p X (draw b) s = (s', r) -> r = Ok tt /\ cluster_centers_ s' = Some C /\ inertia_ s' = v.
Proof. intros G E. destruct (G s) as (s1 & E1 & E2 & E3). rewrite E in E1. injection E1 as -> ->. auto. Qed.
Lemma centers_some : forall more it old s s', cluster_centers_ s <> None -> soft_lloyd en p X it more old s = (s', Ok tt) -> cluster_centers_ s' <> None.
Proof.
  assert (U : forall ks s s', cluster_centers_ s <> None -> soft_update en p X ks s = (s', Ok tt) -> cluster_centers_ s' <> None).
  { induction ks as [|k ks IH]; intros s s' N H; cbn [soft_update] in H; [injection H as <-; auto|]. destruct (cluster_centers_ s) as [C|]; [|discriminate].
    destruct (labels_ s) as [l|]; [|discriminate]. destruct (soft_center en _ _ _ _ _) as [c|e]; [|discriminate]. eapply IH; [|exact H]. discriminate. }
  induction more as [|more IH]; intros it old s s' N H; cbn [soft_lloyd] in H; [injection H as <-; auto|]. unfold seqm in H.
  destruct (soft_assign p X s) as [s1 [l|e]] eqn:EA; [|discriminate].
  assert (N1 : cluster_centers_ s1 <> None).
  { unfold soft_assign in EA. destruct (cluster_centers_ s) as [C|] eqn:EC; [|discriminate]. destruct (soft_transform p C X); [|discriminate]. destruct (no_empty_cluster _ _); [|discriminate].
    destruct (if sk_dtw_inertia p then _ else _); [|discriminate]. injection EA as <- _. cbn. rewrite EC. discriminate. }
  destruct (soft_update en p X (seq 0 (sk_clusters p)) s1) as [s2 [[]|e]] eqn:EU; [|discriminate]. pose proof (U _ _ _ N1 EU) as N2.
  destruct (xltb _ _); [injection H as <-; auto|]. apply (IH _ _ _ _ N2 H).
Qed.
Lemma one_init_centers i s s' : soft_one_init en p X i s = (s', Ok tt) -> cluster_centers_ s' <> None.
Proof.
  unfold soft_one_init. destruct i as [C0|e]; [|discriminate]. destruct (check_full_length C0) as [C|e]; [|discriminate]. destruct (sk_max_iter p =? 0); [discriminate|].
  apply centers_some. cbn. discriminate.
Qed.
Definition inv (n : nat) (best : option array3) (m : xr) : Prop :=
  match best with
  | None => m = XInf /\ forall b C w, b < n -> ~ gives b C (XR w)
  | Some C => exists a, a < n /\ gives a C m /\ forall b C' w, b < n -> gives b C' (XR w) -> xltb (XR w) m = false /\ (b < a -> xltb m (XR w) = true)
  end.
Lemma attempts_inv : forall r n ns best m s s' b' m', ns <= n -> inv n best m ->
  soft_attempts en p X draw n r ns best m s = (s', Ok (b', m')) ->
  exists k, n <= k <= n + r /\ inv k b' m' /\ (k = n + r \/ sk_n_init p - ns <= k - n) /\
    ((forall b, n <= b < n + (sk_n_init p - ns) -> exists C v, gives b C v) -> sk_n_init p - ns <= r -> k = n + (sk_n_init p - ns)).
Proof.
  induction r as [|r IH]; intros n ns best m s s' b' m' Hns HI H; cbn [soft_attempts] in H.
  - injection H as _ <- <-. exists n. split; [lia|]. split; auto. split; [lia|]. intros. lia.
  - destruct (Nat.leb_spec (sk_n_init p) ns); [injection H as _ <- <-; exists n; split; [lia|]; split; auto; split; [lia|]; intros; lia|].
    destruct (soft_one_init en p X (draw n) s) as [s1 [[]|e]] eqn:E1.
    + destruct (gives_of _ _ _ E1 (one_init_centers _ _ _ E1)) as (C & EC & G). rewrite EC in H.
      assert (UN : forall C' w, gives n C' (XR w) -> inertia_ s1 = XR w) by (intros C' w G'; destruct (gives_inv _ _ _ _ _ _ G' E1) as (_ & _ & ?); auto).
      assert (ST : exists best1 m1 s2, soft_attempts en p X draw (S n) r (S ns) best1 m1 s2 = (s', Ok (b', m')) /\ inv (S n) best1 m1).
      { destruct (xltb (inertia_ s1) m) eqn:EL; (eexists; eexists; eexists; split; [exact H|]).
        - exists n. split; [lia|]. split; [exact G|]. intros b C' w Hb Gb. assert (b = n \/ b < n) as [->|Hb'] by lia.
          + rewrite (UN _ _ Gb). split; [apply xltb_irr|lia].
          + assert (Q : xltb (inertia_ s1) (XR w) = true).
            { destruct best as [Cb|]; [|exfalso; destruct HI as [_ HI]; apply (HI b C' w); auto]. destruct HI as (a & _ & _ & HI). apply (xltb_step _ m); auto. apply (HI b C' w); auto. }
            split; auto. apply xltb_asym. auto.
        - destruct best as [Cb|]; unfold inv.
          + destruct HI as (a & Ha & Ga & HI). exists a. split; [lia|]. split; auto. intros b C' w Hb Gb. assert (b = n \/ b < n) as [->|Hb'] by lia.
            * rewrite (UN _ _ Gb) in EL. split; [exact EL|lia].
            * apply (HI b C' w); auto.
          + destruct HI as [-> HI]. split; auto. intros b C' w Hb Gb. assert (b = n \/ b < n) as [->|Hb'] by lia.
            * rewrite (UN _ _ Gb) in EL. cbn in EL. discriminate EL.
            * apply (HI b C' w); auto. }
      destruct ST as (best1 & m1 & s2 & H1 & I1). destruct (IH (S n) (S ns) best1 m1 s2 s' b' m' ltac:(lia) I1 H1) as (k & K1 & K2 & K3 & K4). exists k. split; [lia|]. split; auto. split; [lia|].
      intros Q R. rewrite K4; [lia| |lia]. intros b Hb. apply Q. lia.
    + assert (EE : e = EmptyClusterError) by (destruct e; auto; discriminate). subst e.
      assert (NG : forall C v, ~ gives n C v) by (intros C v G; destruct (gives_inv _ _ _ _ _ _ G E1) as (? & _); discriminate).
      assert (I1 : inv (S n) best m).
      { destruct best as [Cb|]; cbn.
        - destruct HI as (a & Ha & Ga & HI). exists a. split; [lia|]. split; auto. intros b C' w Hb Gb. assert (b = n \/ b < n) as [->|Hb'] by lia; [exfalso; eapply NG; eauto|apply (HI b C' w); auto].
        - destruct HI as [-> HI]. split; auto. intros b C' w Hb Gb. assert (b = n \/ b < n) as [->|Hb'] by lia; [eapply NG; eauto|apply (HI b C' w); auto]. }
      destruct (IH (S n) ns best m s1 s' b' m' ltac:(lia) I1 H) as (k & K1 & K2 & K3 & K4). exists k. split; [lia|]. split; auto. split; [lia|].
      intros Q R. exfalso. destruct (Q n ltac:(lia)) as (C & v & G). eapply NG; eauto.
Qed.
End Best.
(** ** one attempt alone *)
Lemma attempts_fail p X C : (forall s, exists s', soft_one_init en p X C s = (s', Err EmptyClusterError)) ->
  forall r n best m s, exists s', soft_attempts en p X (fun _ => C) n r 0 best m s = (s', Ok (best, m)).
Proof.
  intros H. induction r as [|r IH]; intros n best m s; cbn [soft_attempts]; [eauto|]. destruct (sk_n_init p <=? 0); [eauto|].
  destruct (H s) as (s1 & ->). apply IH.
Qed.
Lemma single_run p X0 X1 X C : fit_input (other_metric p) (InitDrawn (fun _ => C)) X0 = Ok X1 -> variable_length X1 = Ok X ->
  single p C X0 = match soft_one_init en p X C (reset fresh) with
    | (s1, Ok _) => if xltb (inertia_ s1) XInf then soft_post_fit p X (cluster_centers_ s1) (inertia_ s1) (set_n_iter (iter_ s1) s1) else soft_post_fit p X None XInf s1
    | (s1, Err EmptyClusterError) => single p C X0
    | (s1, Err e) => (s1, Err e)
    end.
Proof.
  intros E1 E2. unfold single at 1, soft_fit. change (fit_input (other_metric (with_n_init 1 p))) with (fit_input (other_metric p)). rewrite E1, E2. cbn [check_initial_guess draws]. unfold seqm.
  change (Nat.max (sk_n_init (with_n_init 1 p)) 10) with (S (S 8)).
  assert (SS : forall r n ns b m s, soft_attempts en (with_n_init 1 p) X (fun _ => C) n (S r) ns b m s =
    if 1 <=? ns then (s, Ok (b, m)) else
      match soft_one_init en (with_n_init 1 p) X C s with
      | (s, Ok _) => if xltb (inertia_ s) m then soft_attempts en (with_n_init 1 p) X (fun _ => C) (S n) r (S ns) (cluster_centers_ s) (inertia_ s) (set_n_iter (iter_ s) s)
                     else soft_attempts en (with_n_init 1 p) X (fun _ => C) (S n) r (S ns) b m s
      | (s, Err EmptyClusterError) => soft_attempts en (with_n_init 1 p) X (fun _ => C) (S n) r ns b m s
      | (s, Err e) => (s, Err e) end) by reflexivity.
  rewrite SS. cbn [Nat.leb]. rewrite one_init_with.
  destruct (soft_one_init en p X C (reset fresh)) as [s1 [u|e]] eqn:E.
  - destruct (xltb (inertia_ s1) XInf); rewrite SS; cbn [Nat.leb fst snd]; reflexivity.
  - destruct e; auto.
    unfold single, soft_fit. change (fit_input (other_metric (with_n_init 1 p))) with (fit_input (other_metric p)). rewrite E1, E2. cbn [check_initial_guess draws]. unfold seqm.
    change (Nat.max (sk_n_init (with_n_init 1 p)) 10) with (S (S 8)). rewrite (SS (S 8) 0 0). cbn [Nat.leb]. rewrite one_init_with, E. reflexivity.
Qed.
Lemma single_empty p X0 X1 X C s1 : fit_input (other_metric p) (InitDrawn (fun _ => C)) X0 = Ok X1 -> variable_length X1 = Ok X ->
  soft_one_init en p X C (reset fresh) = (s1, Err EmptyClusterError) -> X_fit_ (fst (single p C X0)) = None.
Proof.
  intros E1 E2 E. unfold single, soft_fit. change (fit_input (other_metric (with_n_init 1 p))) with (fit_input (other_metric p)). rewrite E1, E2. cbn [check_initial_guess draws]. unfold seqm.
  destruct (attempts_fail (with_n_init 1 p) X C) with (r := Nat.max (sk_n_init (with_n_init 1 p)) 10) (n := 0) (best := @None array3) (m := XInf) (s := reset fresh) as (s2 & ->).
  - intros s. rewrite one_init_with. destruct (one_init_agree p X C (reset fresh) s) as [A _]. rewrite E in A. cbn in A.
    destruct (soft_one_init en p X C s) as [s' r]. cbn in A. subst r. eauto.
  - reflexivity.
Qed.
Lemma post_fit_some p X c v s u : snd (soft_post_fit p X c v s) = Ok u -> X_fit_ (fst (soft_post_fit p X c v s)) <> None ->
  exists C w, c = Some C /\ v = XR w /\ inertia_ (fst (soft_post_fit p X c v s)) = XR w.
Proof.
  unfold soft_post_fit. destruct v as [w| | |]; cbn [xisfinite]; try (cbn; congruence). destruct c as [C|]; [|cbn; congruence].
  destruct (soft_assign p X (set_centers C s)) as [s1 [l|e]]; cbn; try discriminate. intros _ _. eauto.
Qed.
Lemma finds_gives p X0 X1 X draw b w : fit_input (other_metric p) (InitDrawn draw) X0 = Ok X1 -> variable_length X1 = Ok X -> finds (single p (draw b) X0) w ->
  exists C, gives p X draw b C (XR w).
Proof.
  intros E1 E2 (F1 & F2 & F3). pose proof (single_run p X0 X1 X (draw b) E1 E2) as S.
  destruct (soft_one_init en p X (draw b) (reset fresh)) as [s1 [[]|e]] eqn:E.
  - destruct (gives_of p X draw b _ _ E (one_init_centers _ _ _ _ _ E)) as (C & EC & G). exists C. rewrite S in F1, F2, F3. clear S.
    destruct (xltb (inertia_ s1) XInf).
    + destruct (post_fit_some _ _ _ _ _ _ F1 F2) as (C' & w' & _ & EI & EW). rewrite EW in F3. injection F3 as ->. rewrite <- EI. exact G.
    + cbn in F2. congruence.
  - exfalso. destruct (match e with EmptyClusterError => true | _ => false end) eqn:EE.
    + assert (e = EmptyClusterError) by (destruct e; auto; discriminate). subst e. apply F2. apply (single_empty p X0 X1 X (draw b) s1); auto.
    + assert (Q : single p (draw b) X0 = (s1, Err e)) by (destruct e; auto; discriminate). rewrite Q in F1. discriminate.
Qed.
Lemma gives_single p X0 X1 X draw b C v : fit_input (other_metric p) (InitDrawn draw) X0 = Ok X1 -> variable_length X1 = Ok X -> gives p X draw b C (XR v) ->
  exists s1, single p (draw b) X0 = soft_post_fit p X (Some C) (XR v) s1.
Proof.
  intros E1 E2 G. pose proof (single_run p X0 X1 X (draw b) E1 E2) as S. destruct (G (reset fresh)) as (s1 & E & EC & EI). rewrite E, EI, EC in S. cbn [xltb] in S. eauto.
Qed.

(** ** C164 *)
(** [fit] makes k attempts, n_init <= k <= max(n_init, 10), and reports what fitting from the centres of attempt [a] alone reports;
    no other of these attempts alone has a smaller inertia, and earlier ones have a larger one.  If the first n_init attempts all
    find a clustering, no more are made. *)
Theorem C164_kept p draw X0 s s' : soft_fit en p (InitDrawn draw) X0 s = (s', Ok tt) -> X_fit_ s' <> None ->
  exists k a v, sk_n_init p <= k <= Nat.max (sk_n_init p) 10 /\ a < k /\ inertia_ s' = XR v /\ finds (single p (draw a) X0) v /\
    cluster_centers_ s' = cluster_centers_ (fst (single p (draw a) X0)) /\ labels_ s' = labels_ (fst (single p (draw a) X0)) /\
    (forall b w, b < k -> finds (single p (draw b) X0) w -> (v <= w)%R /\ (b < a -> (v < w)%R)) /\
    ((forall b, b < sk_n_init p -> exists w, finds (single p (draw b) X0) w) -> k = sk_n_init p).
Proof.
  intros H HX. unfold soft_fit in H. destruct (fit_input (other_metric p) (InitDrawn draw) X0) as [X1|e] eqn:E1; [|discriminate]. destruct (variable_length X1) as [X|e] eqn:E2; [|discriminate].
  cbn [check_initial_guess draws] in H. unfold seqm in H. destruct (soft_attempts en p X draw 0 (Nat.max (sk_n_init p) 10) 0 None XInf (reset s)) as [s1 [[b' m']|e]] eqn:EA; [|discriminate].
  assert (I0 : inv p X draw 0 None XInf) by (split; auto; intros; lia).
  destruct (attempts_inv p X draw _ 0 0 None XInf _ _ _ _ (le_n 0) I0 EA) as (k & K1 & K2 & K3 & K4). cbn [fst snd] in H.
  assert (PS : snd (soft_post_fit p X b' m' s1) = Ok tt) by (rewrite H; auto).
  assert (PX : X_fit_ (fst (soft_post_fit p X b' m' s1)) <> None) by (rewrite H; auto).
  destruct (post_fit_some _ _ _ _ _ _ PS PX) as (C & v & -> & -> & EV). destruct K2 as (a & Ha & Ga & KM).
  destruct (gives_single p X0 X1 X draw a C v E1 E2 Ga) as (s2 & ES).
  destruct (post_agree p X (Some C) (XR v) s1 s2) as [[[A1 A2] A3]|[A|A]]; try discriminate. rewrite <- ES in A1, A2, A3. rewrite PS in A1. specialize (A2 tt PS). destruct (A3 tt PS) as [A4 A5].
  rewrite H in A2, A4, A5, EV. cbn [fst] in A2, A4, A5, EV. injection A2 as A6 A7 A8.
  exists k, a, v. split; [lia|]. split; [lia|]. split; [exact EV|]. split.
  { split; [congruence|]. split; [congruence|]. rewrite <- A7. exact EV. }
  split; [exact A8|]. split; [exact A6|]. split.
  - intros b w Hb Fb. destruct (finds_gives p X0 X1 X draw b w E1 E2 Fb) as (C' & Gb). destruct (KM b C' w Hb Gb) as [L1 L2]. cbn in L1, L2.
    apply Rltb_false in L1. split; [lra|]. intros Hab. specialize (L2 Hab). apply Rltb_true in L2. auto.
  - intros Q. rewrite K4; [lia| |lia]. intros b Hb. destruct (Q b ltac:(lia)) as (w & Fb). destruct (finds_gives p X0 X1 X draw b w E1 E2 Fb) as (C' & Gb). eauto.
Qed.
End Engine.
Print Assumptions C164_kept.

(** the hypotheses are met by the fit of [C164_selection_refuted], which makes two attempts *)
Example C164_nontrivial : exists en p draw X s', sk_n_init p = 2 /\ soft_fit en p (InitDrawn draw) X fresh = (s', Ok tt) /\ X_fit_ s' <> None.
Proof.
  destruct C164_selection_refuted as (xs & c0 & c1 & p & _ & Hn & _ & _ & _ & H). destruct (H zero_engine zero_engine_ok) as (_ & s' & E & _ & HX).
  exists zero_engine, p. eexists. exists (map lift xs), s'. split; [exact Hn|]. split; [exact E|exact HX].
Qed.

(** C91: of several initialisations, TimeSeriesKMeans reports the best, for any metric modelled. *)
From Coq Require Import Bool List Arith Lia ZArith Reals Lra.
From Verif Require Import Num NumLaws Py Series Dataset PaaModel PreModel BaryModel ClusterModel RealSeries PropCluster.
Import ListNotations.
Local Open Scope nat_scope.

(** ** Specification *)
Definition with_n_init (n : nat) (p : km_params) : km_params :=
  {| n_clusters := n_clusters p; max_iter := max_iter p; tol := tol p; n_init := n; km_met := km_met p; dtw_inertia := dtw_inertia p |}.
(** fitting a new estimator with the initial centres [C] only, [n_init=1] *)
Definition single (p : km_params) (C : res array3) (X : array3) : km_state * res unit := fit (with_n_init 1 p) (InitDrawn (fun _ => C)) X fresh.
(** that fit finds a clustering, with this inertia *)
Definition finds (r : km_state * res unit) (v : R) : Prop := snd r = Ok tt /\ X_fit_ (fst r) <> None /\ inertia_ (fst r) = XR v.

(** ** n_init does not change one attempt *)
Lemma update_with n p X : forall ks s, update_centroids_ (with_n_init n p) X ks s = update_centroids_ p X ks s.
Proof.
  induction ks as [|k ks IH]; intros s; [reflexivity|]. cbn [update_centroids_]. destruct (cluster_centers_ s) as [C|]; auto. destruct (labels_ s) as [l|]; auto.
  change (new_center (with_n_init n p)) with (new_center p). destruct (new_center p X l k (nth k C [])); auto.
Qed.
Lemma lloyd_with n p X : forall more it old s, lloyd (with_n_init n p) X it more old s = lloyd p X it more old s.
Proof.
  induction more as [|more IH]; intros it old s; [reflexivity|]. cbn [lloyd]. unfold seqm. change (assign_ (with_n_init n p) X s) with (assign_ p X s).
  destruct (assign_ p X s) as [s1 [l|e]]; auto. change (n_clusters (with_n_init n p)) with (n_clusters p). rewrite update_with.
  destruct (update_centroids_ p X (seq 0 (n_clusters p)) s1) as [s2 [u|e]]; auto. change (tol (with_n_init n p)) with (tol p). destruct (xltb _ _); auto.
Qed.
Lemma one_init_with n p X i s : fit_one_init (with_n_init n p) X i s = fit_one_init p X i s.
Proof.
  unfold fit_one_init. destruct i as [C0|e]; auto. destruct (check_full_length C0) as [C|e]; auto. change (max_iter (with_n_init n p)) with (max_iter p).
  destruct (max_iter p =? 0); auto. apply lloyd_with.
Qed.
(** ** an attempt does not depend on what the estimator held before *)
Definition core (s : km_state) := (labels_ s, inertia_ s, cluster_centers_ s).
Definition agree {A} (x y : km_state * res A) : Prop := snd x = snd y /\ (forall a, snd x = Ok a -> core (fst x) = core (fst y)).
Lemma assign_agree p X s t : cluster_centers_ s = cluster_centers_ t -> agree (assign_ p X s) (assign_ p X t).
Proof.
  intros E. unfold assign_. rewrite <- E. destruct (cluster_centers_ s) as [C|] eqn:EC; [|split; auto; discriminate].
  destruct (transform_ p C X) as [D|e]; [|split; auto; discriminate]. destruct (no_empty_cluster _ _); [|split; auto; discriminate].
  destruct (if dtw_inertia p && negb (is_dtw (km_met p)) then _ else _) as [D'|e]; [|split; auto; discriminate].
  split; auto. intros a _. unfold core. cbn. rewrite <- E, EC. reflexivity.
Qed.
Lemma update_agree p X : forall ks s t, core s = core t -> agree (update_centroids_ p X ks s) (update_centroids_ p X ks t).
Proof.
  induction ks as [|k ks IH]; intros s t E; [split; auto|]. cbn [update_centroids_]. injection E as E1 E2 E3. rewrite <- E3, <- E1.
  destruct (cluster_centers_ s) as [C|] eqn:EC; [|split; auto; discriminate]. destruct (labels_ s) as [l|] eqn:EL; [|split; auto; discriminate].
  destruct (new_center p X l k (nth k C [])) as [c|e]; [|split; auto; discriminate]. apply IH. unfold core. cbn. congruence.
Qed.
Lemma lloyd_agree p X : forall more it old s t, core s = core t -> agree (lloyd p X it more old s) (lloyd p X it more old t).
Proof.
  induction more as [|more IH]; intros it old s t E; [split; auto|]. cbn [lloyd]. unfold seqm.
  destruct (assign_agree p X s t (f_equal snd E)) as [A1 A2]. destruct (assign_ p X s) as [s1 [l|e]], (assign_ p X t) as [t1 [l'|e']]; cbn in A1, A2; try discriminate;
    [|injection A1 as ->; split; auto; discriminate]. specialize (A2 l eq_refl).
  destruct (update_agree p X (seq 0 (n_clusters p)) s1 t1 A2) as [B1 B2].
  destruct (update_centroids_ p X (seq 0 (n_clusters p)) s1) as [s2 [u|e]], (update_centroids_ p X (seq 0 (n_clusters p)) t1) as [t2 [u'|e']]; cbn in B1, B2; try discriminate;
    [|injection B1 as ->; split; auto; discriminate]. specialize (B2 u eq_refl). injection B2 as B3 B4 B5. rewrite <- B4.
  destruct (xltb _ _); [split; auto; intros a _; unfold core; cbn; congruence|apply IH; unfold core; congruence].
Qed.
Lemma lloyd_start p X more it old s t : cluster_centers_ s = cluster_centers_ t -> agree (lloyd p X it (S more) old s) (lloyd p X it (S more) old t).
Proof.
  intros E. cbn [lloyd]. unfold seqm.
  destruct (assign_agree p X s t E) as [A1 A2]. destruct (assign_ p X s) as [s1 [l|e]], (assign_ p X t) as [t1 [l'|e']]; cbn in A1, A2; try discriminate;
    [|injection A1 as ->; split; auto; discriminate]. specialize (A2 l eq_refl).
  destruct (update_agree p X (seq 0 (n_clusters p)) s1 t1 A2) as [B1 B2].
  destruct (update_centroids_ p X (seq 0 (n_clusters p)) s1) as [s2 [u|e]], (update_centroids_ p X (seq 0 (n_clusters p)) t1) as [t2 [u'|e']]; cbn in B1, B2; try discriminate;
    [|injection B1 as ->; split; auto; discriminate]. specialize (B2 u eq_refl). injection B2 as B3 B4 B5. rewrite <- B4.
  destruct (xltb _ _); [split; auto; intros a _; unfold core; cbn; congruence|apply lloyd_agree; unfold core; congruence].
Qed.
Lemma one_init_agree p X i s t : agree (fit_one_init p X i s) (fit_one_init p X i t).
Proof.
  unfold fit_one_init. destruct i as [C0|e]; [|split; auto; discriminate]. destruct (check_full_length C0) as [C|e]; [|split; auto; discriminate].
  destruct (max_iter p) as [|m]; [split; auto; discriminate|]. cbn [Nat.eqb]. apply lloyd_start. reflexivity.
Qed.
Lemma post_agree p X c v s t : agree (post_fit p X c v s) (post_fit p X c v t) /\ (forall u, snd (post_fit p X c v s) = Ok u -> X_fit_ (fst (post_fit p X c v s)) = X_fit_ (fst (post_fit p X c v t)) /\
   (X_fit_ (fst (post_fit p X c v s)) <> None -> inertia_ (fst (post_fit p X c v s)) = v)) \/ c = None \/ xisfinite v = false.
Proof.
  destruct (xisfinite v) eqn:EV; [|auto]. destruct c as [C|]; [left|auto]. unfold post_fit. rewrite EV.
  destruct (assign_agree p X (set_centers C s) (set_centers C t) eq_refl) as [A1 A2].
  destruct (assign_ p X (set_centers C s)) as [s1 [l|e]], (assign_ p X (set_centers C t)) as [t1 [l'|e']]; cbn in A1, A2; try discriminate; cbn.
  - specialize (A2 l eq_refl). injection A2 as A2 A3 A4. split; [split; auto; intros a _; unfold core; cbn; congruence|auto].
  - injection A1 as ->. split; [split; auto; discriminate|discriminate].
Qed.

Section Best.
Context (p : km_params) (X : array3) (draw : nat -> res array3).
Definition gives (b : nat) (C : array3) (v : xr) : Prop :=
  forall s, exists s', fit_one_init p X (draw b) s = (s', Ok tt) /\ cluster_centers_ s' = Some C /\ inertia_ s' = v.
Lemma gives_of b s s' : fit_one_init p X (draw b) s = (s', Ok tt) -> cluster_centers_ s' <> None -> exists C, cluster_centers_ s' = Some C /\ gives b C (inertia_ s').
Proof.
  intros E N. destruct (cluster_centers_ s') as [C|] eqn:EC; [|congruence]. exists C. split; auto. intros t. destruct (one_init_agree p X (draw b) s t) as [A1 A2].
  rewrite E in A1, A2. destruct (fit_one_init p X (draw b) t) as [t' r]. cbn in A1, A2. subst r. specialize (A2 tt eq_refl). injection A2 as A2 A3 A4.
  exists t'. rewrite <- A4, EC. auto.
Qed.
Lemma gives_inv b C v s s' r : gives b C v -> fit_one_init p X (draw b) s = (s', r) -> r = Ok tt /\ cluster_centers_ s' = Some C /\ inertia_ s' = v.
Proof. intros G E. destruct (G s) as (s1 & E1 & E2 & E3). rewrite E in E1. injection E1 as -> ->. auto. Qed.
Lemma centers_some : forall more it old s s', cluster_centers_ s <> None -> lloyd p X it more old s = (s', Ok tt) -> cluster_centers_ s' <> None.
Proof.
  assert (U : forall ks s s', cluster_centers_ s <> None -> update_centroids_ p X ks s = (s', Ok tt) -> cluster_centers_ s' <> None).
  { induction ks as [|k ks IH]; intros s s' N H; cbn [update_centroids_] in H; [injection H as <-; auto|]. destruct (cluster_centers_ s) as [C|]; [|discriminate].
    destruct (labels_ s) as [l|]; [|discriminate]. destruct (new_center _ _ _ _ _) as [c|e]; [|discriminate]. eapply IH; [|exact H]. discriminate. }
  induction more as [|more IH]; intros it old s s' N H; cbn [lloyd] in H; [injection H as <-; auto|]. unfold seqm in H.
  destruct (assign_ p X s) as [s1 [l|e]] eqn:EA; [|discriminate].
  assert (N1 : cluster_centers_ s1 <> None).
  { unfold assign_ in EA. destruct (cluster_centers_ s) as [C|] eqn:EC; [|discriminate]. destruct (transform_ p C X); [|discriminate]. destruct (no_empty_cluster _ _); [|discriminate].
    destruct (if dtw_inertia p && negb (is_dtw (km_met p)) then _ else _); [|discriminate]. injection EA as <- _. cbn. rewrite EC. discriminate. }
  destruct (update_centroids_ p X (seq 0 (n_clusters p)) s1) as [s2 [[]|e]] eqn:EU; [|discriminate]. pose proof (U _ _ _ N1 EU) as N2.
  destruct (xltb _ _); [injection H as <-; auto|]. apply (IH _ _ _ _ N2 H).
Qed.
Lemma one_init_centers i s s' : fit_one_init p X i s = (s', Ok tt) -> cluster_centers_ s' <> None.
Proof.
  unfold fit_one_init. destruct i as [C0|e]; [|discriminate]. destruct (check_full_length C0) as [C|e]; [|discriminate]. destruct (max_iter p =? 0); [discriminate|].
  apply centers_some. cbn. discriminate.
Qed.
Definition inv (n : nat) (best : option array3) (m : xr) : Prop :=
  match best with
  | None => m = XInf /\ forall b C w, b < n -> ~ gives b C (XR w)
  | Some C => exists a, a < n /\ gives a C m /\ forall b C' w, b < n -> gives b C' (XR w) -> xltb (XR w) m = false /\ (b < a -> xltb m (XR w) = true)
  end.
Lemma xltb_fin_inf w : xltb (XR w) XInf = true. Proof. reflexivity. Qed.
Lemma xltb_step v m w : xltb v m = true -> xltb (XR w) m = false -> xltb v (XR w) = true.
Proof. destruct v, m; cbn; try discriminate; auto. intros A B. apply Rltb_true in A. apply Rltb_false in B. apply Rltb_true. lra. Qed.
Lemma xltb_asym v w : xltb v (XR w) = true -> xltb (XR w) v = false.
Proof. destruct v; cbn; try discriminate; auto. intros A. apply Rltb_true in A. apply Rltb_false. lra. Qed.
Lemma xltb_irr w : xltb (XR w) (XR w) = false. Proof. cbn. apply Rltb_false. lra. Qed.
Lemma attempts_inv : forall r n ns best m s s' b' m', ns <= n -> inv n best m ->
  attempts p X draw n r ns best m s = (s', Ok (b', m')) ->
  exists k, n <= k <= n + r /\ inv k b' m' /\ (k = n + r \/ n_init p - ns <= k - n) /\
    ((forall b, n <= b < n + (n_init p - ns) -> exists C v, gives b C v) -> n_init p - ns <= r -> k = n + (n_init p - ns)).
Proof.
  induction r as [|r IH]; intros n ns best m s s' b' m' Hns HI H; cbn [attempts] in H.
  - injection H as _ <- <-. exists n. split; [lia|]. split; auto. split; [lia|]. intros. lia.
  - destruct (Nat.leb_spec (n_init p) ns); [injection H as _ <- <-; exists n; split; [lia|]; split; auto; split; [lia|]; intros; lia|].
    destruct (fit_one_init p X (draw n) s) as [s1 [[]|e]] eqn:E1.
    + destruct (gives_of _ _ _ E1 (one_init_centers _ _ _ E1)) as (C & EC & G). rewrite EC in H.
      assert (UN : forall C' w, gives n C' (XR w) -> inertia_ s1 = XR w) by (intros C' w G'; destruct (gives_inv _ _ _ _ _ _ G' E1) as (_ & _ & ?); auto).
      assert (ST : exists best1 m1 s2, attempts p X draw (S n) r (S ns) best1 m1 s2 = (s', Ok (b', m')) /\ inv (S n) best1 m1).
      { destruct (xltb (inertia_ s1) m) eqn:EL; (eexists; eexists; eexists; split; [exact H|]).
        - exists n. split; [lia|]. split; [exact G|]. intros b C' w Hb Gb. assert (b = n \/ b < n) as [->|Hb'] by lia.
          + rewrite (UN _ _ Gb). split; [apply xltb_irr|lia].
          + assert (Q : xltb (inertia_ s1) (XR w) = true).
            { destruct best as [Cb|]; [|exfalso; destruct HI as [_ HI]; apply (HI b C' w); auto]. destruct HI as (a & _ & _ & HI). apply (xltb_step _ m); auto. apply (HI b C' w); auto. }
            split; auto. apply xltb_asym. auto.
        - destruct best as [Cb|]; unfold inv.
          + destruct HI as (a & Ha & Ga & HI). exists a. split; [lia|]. split; auto. intros b C' w Hb Gb. assert (b = n \/ b < n) as [->|Hb'] by lia.
            * rewrite (UN _ _ Gb) in EL. split; [exact EL|lia].
            * apply (HI b C' w); auto.
          + destruct HI as [-> HI]. split; auto. intros b C' w Hb Gb. assert (b = n \/ b < n) as [->|Hb'] by lia.
            * rewrite (UN _ _ Gb) in EL. cbn in EL. discriminate EL.
            * apply (HI b C' w); auto. }
      destruct ST as (best1 & m1 & s2 & H1 & I1). destruct (IH (S n) (S ns) best1 m1 s2 s' b' m' ltac:(lia) I1 H1) as (k & K1 & K2 & K3 & K4). exists k. split; [lia|]. split; auto. split; [lia|].
      intros Q R. rewrite K4; [lia| |lia]. intros b Hb. apply Q. lia.
    + assert (EE : e = EmptyClusterError) by (destruct e; auto; discriminate). subst e.
      assert (NG : forall C v, ~ gives n C v) by (intros C v G; destruct (gives_inv _ _ _ _ _ _ G E1) as (? & _); discriminate).
      assert (I1 : inv (S n) best m).
      { destruct best as [Cb|]; cbn.
        - destruct HI as (a & Ha & Ga & HI). exists a. split; [lia|]. split; auto. intros b C' w Hb Gb. assert (b = n \/ b < n) as [->|Hb'] by lia; [exfalso; eapply NG; eauto|apply (HI b C' w); auto].
        - destruct HI as [-> HI]. split; auto. intros b C' w Hb Gb. assert (b = n \/ b < n) as [->|Hb'] by lia; [eapply NG; eauto|apply (HI b C' w); auto]. }
      destruct (IH (S n) ns best m s1 s' b' m' ltac:(lia) I1 H) as (k & K1 & K2 & K3 & K4). exists k. split; [lia|]. split; auto. split; [lia|].
      intros Q R. exfalso. destruct (Q n ltac:(lia)) as (C & v & G). eapply NG; eauto.
Qed.
End Best.
(** ** one attempt alone *)
Lemma attempts_fail p X C : (forall s, exists s', fit_one_init p X C s = (s', Err EmptyClusterError)) ->
  forall r n best m s, exists s', attempts p X (fun _ => C) n r 0 best m s = (s', Ok (best, m)).
Proof.
  intros H. induction r as [|r IH]; intros n best m s; cbn [attempts]; [eauto|]. destruct (n_init p <=? 0); [eauto|].
  destruct (H s) as (s1 & ->). apply IH.
Qed.
Lemma single_run p X0 X1 X C : fit_input p (InitDrawn (fun _ => C)) X0 = Ok X1 -> variable_length X1 = Ok X ->
  single p C X0 = match fit_one_init p X C (reset fresh) with
    | (s1, Ok _) => if xltb (inertia_ s1) XInf then post_fit p X (cluster_centers_ s1) (inertia_ s1) (set_n_iter (iter_ s1) s1) else post_fit p X None XInf s1
    | (s1, Err EmptyClusterError) => single p C X0
    | (s1, Err e) => (s1, Err e)
    end.
Proof.
  intros E1 E2. unfold single at 1, fit. change (fit_input (with_n_init 1 p)) with (fit_input p). rewrite E1, E2. cbn [check_initial_guess draws]. unfold seqm.
  change (Nat.max (n_init (with_n_init 1 p)) 10) with (S (S 8)).
  assert (SS : forall r n ns b m s, attempts (with_n_init 1 p) X (fun _ => C) n (S r) ns b m s =
    if 1 <=? ns then (s, Ok (b, m)) else
      match fit_one_init (with_n_init 1 p) X C s with
      | (s, Ok _) => if xltb (inertia_ s) m then attempts (with_n_init 1 p) X (fun _ => C) (S n) r (S ns) (cluster_centers_ s) (inertia_ s) (set_n_iter (iter_ s) s)
                     else attempts (with_n_init 1 p) X (fun _ => C) (S n) r (S ns) b m s
      | (s, Err EmptyClusterError) => attempts (with_n_init 1 p) X (fun _ => C) (S n) r ns b m s
      | (s, Err e) => (s, Err e) end) by reflexivity.
  rewrite SS. cbn [Nat.leb]. rewrite one_init_with.
  destruct (fit_one_init p X C (reset fresh)) as [s1 [u|e]] eqn:E.
  - destruct (xltb (inertia_ s1) XInf); rewrite SS; cbn [Nat.leb fst snd]; reflexivity.
  - destruct e; auto.
    unfold single, fit. change (fit_input (with_n_init 1 p)) with (fit_input p). rewrite E1, E2. cbn [check_initial_guess draws]. unfold seqm.
    change (Nat.max (n_init (with_n_init 1 p)) 10) with (S (S 8)). rewrite (SS (S 8) 0 0). cbn [Nat.leb]. rewrite one_init_with, E. reflexivity.
Qed.
Lemma single_empty p X0 X1 X C s1 : fit_input p (InitDrawn (fun _ => C)) X0 = Ok X1 -> variable_length X1 = Ok X ->
  fit_one_init p X C (reset fresh) = (s1, Err EmptyClusterError) -> X_fit_ (fst (single p C X0)) = None.
Proof.
  intros E1 E2 E. unfold single, fit. change (fit_input (with_n_init 1 p)) with (fit_input p). rewrite E1, E2. cbn [check_initial_guess draws]. unfold seqm.
  destruct (attempts_fail (with_n_init 1 p) X C) with (r := Nat.max (n_init (with_n_init 1 p)) 10) (n := 0) (best := @None array3) (m := XInf) (s := reset fresh) as (s2 & ->).
  - intros s. rewrite one_init_with. destruct (one_init_agree p X C (reset fresh) s) as [A _]. rewrite E in A. cbn in A.
    destruct (fit_one_init p X C s) as [s' r]. cbn in A. subst r. eauto.
  - reflexivity.
Qed.
Lemma post_fit_some p X c v s u : snd (post_fit p X c v s) = Ok u -> X_fit_ (fst (post_fit p X c v s)) <> None ->
  exists C w, c = Some C /\ v = XR w /\ inertia_ (fst (post_fit p X c v s)) = XR w.
Proof.
  unfold post_fit. destruct v as [w| | |]; cbn [xisfinite]; try (cbn; congruence). destruct c as [C|]; [|cbn; congruence].
  destruct (assign_ p X (set_centers C s)) as [s1 [l|e]]; cbn; try discriminate. intros _ _. eauto.
Qed.
Lemma finds_gives p X0 X1 X draw b w : fit_input p (InitDrawn draw) X0 = Ok X1 -> variable_length X1 = Ok X -> finds (single p (draw b) X0) w ->
  exists C, gives p X draw b C (XR w).
Proof.
  intros E1 E2 (F1 & F2 & F3). pose proof (single_run p X0 X1 X (draw b) E1 E2) as S.
  destruct (fit_one_init p X (draw b) (reset fresh)) as [s1 [[]|e]] eqn:E.
  - destruct (gives_of p X draw b _ _ E (one_init_centers _ _ _ _ _ E)) as (C & EC & G). exists C. rewrite S in F1, F2, F3. clear S.
    destruct (xltb (inertia_ s1) XInf).
    + destruct (post_fit_some _ _ _ _ _ _ F1 F2) as (C' & w' & _ & EI & EW). rewrite EW in F3. injection F3 as ->. rewrite <- EI. exact G.
    + cbn in F2. congruence.
  - exfalso. destruct (match e with EmptyClusterError => true | _ => false end) eqn:EE.
    + assert (e = EmptyClusterError) by (destruct e; auto; discriminate). subst e. apply F2. apply (single_empty p X0 X1 X (draw b) s1); auto.
    + assert (Q : single p (draw b) X0 = (s1, Err e)) by (destruct e; auto; discriminate). rewrite Q in F1. discriminate.
Qed.
Lemma gives_single p X0 X1 X draw b C v : fit_input p (InitDrawn draw) X0 = Ok X1 -> variable_length X1 = Ok X -> gives p X draw b C (XR v) ->
  exists s1, single p (draw b) X0 = post_fit p X (Some C) (XR v) s1.
Proof.
  intros E1 E2 G. pose proof (single_run p X0 X1 X (draw b) E1 E2) as S. destruct (G (reset fresh)) as (s1 & E & EC & EI). rewrite E, EI, EC in S. cbn [xltb] in S. eauto.
Qed.

(** ** C91 *)
(** [fit] makes k attempts, n_init <= k <= max(n_init, 10), and reports what fitting from the centres of attempt [a] alone reports;
    no other of these attempts alone has a smaller inertia, and earlier ones have a larger one.  If the first n_init attempts all
    find a clustering, no more are made. *)
Theorem C91_best p draw X0 s s' : fit p (InitDrawn draw) X0 s = (s', Ok tt) -> X_fit_ s' <> None ->
  exists k a v, n_init p <= k <= Nat.max (n_init p) 10 /\ a < k /\ inertia_ s' = XR v /\ finds (single p (draw a) X0) v /\
    cluster_centers_ s' = cluster_centers_ (fst (single p (draw a) X0)) /\ labels_ s' = labels_ (fst (single p (draw a) X0)) /\
    (forall b w, b < k -> finds (single p (draw b) X0) w -> (v <= w)%R /\ (b < a -> (v < w)%R)) /\
    ((forall b, b < n_init p -> exists w, finds (single p (draw b) X0) w) -> k = n_init p).
Proof.
  intros H HX. unfold fit in H. destruct (fit_input p (InitDrawn draw) X0) as [X1|e] eqn:E1; [|discriminate]. destruct (variable_length X1) as [X|e] eqn:E2; [|discriminate].
  cbn [check_initial_guess draws] in H. unfold seqm in H. destruct (attempts p X draw 0 (Nat.max (n_init p) 10) 0 None XInf (reset s)) as [s1 [[b' m']|e]] eqn:EA; [|discriminate].
  assert (I0 : inv p X draw 0 None XInf) by (split; auto; intros; lia).
  destruct (attempts_inv p X draw _ 0 0 None XInf _ _ _ _ (le_n 0) I0 EA) as (k & K1 & K2 & K3 & K4). cbn [fst snd] in H.
  assert (PS : snd (post_fit p X b' m' s1) = Ok tt) by (rewrite H; auto).
  assert (PX : X_fit_ (fst (post_fit p X b' m' s1)) <> None) by (rewrite H; auto).
  destruct (post_fit_some _ _ _ _ _ _ PS PX) as (C & v & -> & -> & EV). destruct K2 as (a & Ha & Ga & KM).
  destruct (gives_single p X0 X1 X draw a C v E1 E2 Ga) as (s2 & ES).
  destruct (post_agree p X (Some C) (XR v) s1 s2) as [[[A1 A2] A3]|[A|A]]; try discriminate. rewrite <- ES in A1, A2, A3. rewrite PS in A1. specialize (A2 tt PS). destruct (A3 tt PS) as [A4 A5].
  rewrite H in A2, A4, A5, EV. cbn [fst] in A2, A4, A5, EV. injection A2 as A6 A7 A8.
  exists k, a, v. split; [lia|]. split; [lia|]. split; [exact EV|]. split.
  { split; [congruence|]. split; [congruence|]. rewrite <- A7. exact EV. }
  split; [exact A8|]. split; [exact A6|]. split.
  - intros b w Hb Fb. destruct (finds_gives p X0 X1 X draw b w E1 E2 Fb) as (C' & Gb). destruct (KM b C' w Hb Gb) as [L1 L2]. cbn in L1, L2.
    apply Rltb_false in L1. split; [lra|]. intros Hab. specialize (L2 Hab). apply Rltb_true in L2. auto.
  - intros Q. rewrite K4; [lia| |lia]. intros b Hb. destruct (Q b ltac:(lia)) as (w & Fb). destruct (finds_gives p X0 X1 X draw b w E1 E2 Fb) as (C' & Gb). eauto.
Qed.
Print Assumptions C91_best.
(** the hypotheses are met: the fit of [C54_inertia_refuted], its initial centres drawn instead of given *)
Lemma drawn_of_array p C X s s' : fit p (InitArray C) X s = (s', Ok tt) -> fit p (InitDrawn (fun _ => Ok C)) X s = (s', Ok tt).
Proof.
  unfold fit, fit_input, bind. destruct (check_arr X) as [X1|e]; [|discriminate]. destruct (check_values p X1); [|discriminate].
  destruct (_ && _)%bool; [|discriminate]. destruct (variable_length X1) as [X2|e]; [|discriminate]. unfold check_initial_guess. destruct (_ =? _); [|discriminate]. auto.
Qed.
Example C91_nontrivial : exists p draw X s', fit p (InitDrawn draw) X fresh = (s', Ok tt) /\ X_fit_ s' <> None.
Proof.
  destruct C54_inertia_refuted as (p & xs & cs0 & s' & cs & labels & v & _ & _ & _ & H & HX & _).
  exists p, (fun _ => Ok (map RealSeries.lift cs0)), (map RealSeries.lift xs), s'. split; [apply drawn_of_array; exact H|]. rewrite HX. discriminate.
Qed.

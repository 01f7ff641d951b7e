(** C163 (more iterations), C164: what [inertia_] means for the soft-DTW metric. *)
From Coq Require Import Bool List Arith Lia ZArith QArith Reals Lra Permutation.
From Verif Require Import Num NumLaws Py Series Masks DtwModel Spec SpecDtw RList RealSeries PathSum PaaModel PaaThms PreModel PropScale PropResample PropCtw
  GakModel SoftModel Dataset DpProofs DtwProofs ValidThms CdistThms PropCdist CdistGen BaryModel BaryThms BaryReal PropBary IntSeries PropBary2
  ClusterModel ClusterThms PropCluster PropCluster2 KInitModel PropKInit SoftBaryModel PropSoft PropSoftCdist PropSoftBary PropSoftBary2 SoftKmeansModel SoftKmeansThms PropSoftKmeans.
Import ListNotations.
Local Open Scope R_scope.

(** ** an attempt depends on the state only through the centres it sets *)
Definition same (s s' : km_state) : Prop :=
  cluster_centers_ s = cluster_centers_ s' /\ labels_ s = labels_ s' /\ inertia_ s = inertia_ s'.
Lemma assign_same p X s s' : cluster_centers_ s = cluster_centers_ s' ->
  snd (soft_assign p X s) = snd (soft_assign p X s') /\
  forall l, snd (soft_assign p X s) = Ok l -> same (fst (soft_assign p X s)) (fst (soft_assign p X s')).
Proof.
  intros H. unfold soft_assign. rewrite <- H. destruct (cluster_centers_ s) as [C|] eqn:EC; [|split; [reflexivity|discriminate]].
  destruct (soft_transform p C X) as [D|e]; [|split; [reflexivity|discriminate]].
  destruct (no_empty_cluster _ _); [|split; [reflexivity|discriminate]].
  destruct (if sk_dtw_inertia p then _ else _); (split; [reflexivity|]); [|discriminate].
  intros l _. split; [cbn; congruence|split; reflexivity].
Qed.
Lemma update_same en p X ks : forall s s', same s s' ->
  snd (soft_update en p X ks s) = snd (soft_update en p X ks s') /\ same (fst (soft_update en p X ks s)) (fst (soft_update en p X ks s')).
Proof.
  induction ks as [|k ks IH]; intros s s' H; cbn [soft_update]; [split; auto|].
  pose proof H as (H1 & H2 & H3). rewrite <- H1, <- H2. destruct (cluster_centers_ s) as [C|]; [|split; auto]. destruct (labels_ s) as [l|] eqn:EL; [|split; auto].
  destruct (soft_center en p X l k (nth k C [])) as [c|e]; [|split; auto]. apply IH. split; [reflexivity|]. split; [cbn; congruence|exact H3].
Qed.
Lemma lloyd_same en p X more : forall it old s s', cluster_centers_ s = cluster_centers_ s' ->
  let r := soft_lloyd en p X it (S more) old s in let r' := soft_lloyd en p X it (S more) old s' in
  snd r = snd r' /\ (snd r = Ok tt -> same (fst r) (fst r')).
Proof.
  induction more as [|more IH]; intros it old s s' H; cbn zeta; rewrite !soft_lloyd_step; destruct (assign_same p X s s' H) as [A B];
    destruct (soft_assign p X s) as [t r], (soft_assign p X s') as [t' r']; cbn [fst snd] in A, B; subst r'; (destruct r as [l|e]; [|split; [reflexivity|discriminate]]);
    specialize (B l eq_refl); destruct (update_same en p X (seq 0 (sk_clusters p)) t t' B) as [A2 B2];
    destruct (soft_update en p X _ t) as [u r], (soft_update en p X _ t') as [u' r']; cbn [fst snd] in A2, B2; subst r'; (destruct r as [[]|e]; [|split; [reflexivity|discriminate]]);
    destruct B2 as (B1 & B3 & B4); rewrite <- B4.
  - destruct (xltb _ _); [|cbn [soft_lloyd]]; (split; [reflexivity|]; intros _; split; [exact B1|split; [exact B3|exact B4]]).
  - destruct (xltb _ _); [split; [reflexivity|]; intros _; split; [exact B1|split; [exact B3|exact B4]]|]. apply IH. exact B1.
Qed.
Lemma one_init_same en p X C s s' : sk_max_iter p <> 0%nat ->
  let r := soft_one_init en p X (Ok C) s in let r' := soft_one_init en p X (Ok C) s' in
  snd r = snd r' /\ (snd r = Ok tt -> same (fst r) (fst r')).
Proof.
  intros Hm. cbn zeta. unfold soft_one_init. destruct (check_full_length C) as [C'|e]; [|split; [reflexivity|discriminate]].
  destruct (sk_max_iter p =? 0)%nat eqn:E0; [apply Nat.eqb_eq in E0; congruence|]. destruct (sk_max_iter p) as [|m]; [congruence|].
  apply lloyd_same. reflexivity.
Qed.
Lemma attempts_empty en p X C r : sk_max_iter p <> 0%nat -> (0 < sk_n_init p)%nat ->
  forall n s s0, snd (soft_one_init en p X (Ok C) s0) = Err EmptyClusterError ->
  exists s', soft_attempts en p X (draws (InitArray C)) n r 0 None XInf s = (s', Ok (None, XInf)).
Proof.
  intros Hm Hn. induction r as [|r IH]; intros n s s0 H; cbn [soft_attempts]; [eauto|].
  destruct (Nat.leb_spec (sk_n_init p) 0); [lia|]. cbn [draws]. destruct (one_init_same en p X C s s0 Hm) as [E _]. rewrite H in E.
  destruct (soft_one_init en p X (Ok C) s) as [t q]. cbn [snd] in E. subst q. apply (IH (S n) t s0 H).
Qed.

Lemma soft_attempts_S en q Y draw n r ns b m s : soft_attempts en q Y draw n (S r) ns b m s =
    if (sk_n_init q <=? ns)%nat then (s, Ok (b, m))
    else
      match soft_one_init en q Y (draw n) s with
      | (s, Ok _) =>
        if xltb (inertia_ s) m
        then soft_attempts en q Y draw (S n) r (S ns) (cluster_centers_ s) (inertia_ s) (set_n_iter (iter_ s) s)
        else soft_attempts en q Y draw (S n) r (S ns) b m s
      | (s, Err EmptyClusterError) => soft_attempts en q Y draw (S n) r ns b m s
      | (s, Err e) => (s, Err e)
      end%nat.
Proof. reflexivity. Qed.
Lemma soft_attempts_done en q Y draw n r ns b m s : (sk_n_init q <= ns)%nat -> soft_attempts en q Y draw n r ns b m s = (s, Ok (b, m)).
Proof. intros E. apply Nat.leb_le in E. destruct r as [|r]; [reflexivity|]. cbn [soft_attempts]. rewrite E. reflexivity. Qed.

(** ** C163: more iterations *)
Definition with_iterations (m : nat) (p : soft_params) : soft_params :=
  {| sk_clusters := sk_clusters p; sk_max_iter := m; sk_tol := sk_tol p; sk_n_init := sk_n_init p; sk_max_bary := sk_max_bary p;
     sk_dtw_inertia := sk_dtw_inertia p; sk_gamma := sk_gamma p; sk_gc := sk_gc p; sk_radius := sk_radius p; sk_slope := sk_slope p |}.
Lemma lloyd_iterations en m p X more : forall it old s, soft_lloyd en (with_iterations m p) X it more old s = soft_lloyd en p X it more old s.
Proof.
  assert (U : forall ks s, soft_update en (with_iterations m p) X ks s = soft_update en p X ks s).
  { induction ks as [|k ks IH]; intros s; [reflexivity|]. cbn [soft_update]. destruct (cluster_centers_ s) as [C|]; [|reflexivity]. destruct (labels_ s) as [l|]; [|reflexivity].
    change (soft_center en (with_iterations m p) X l k (nth k C [])) with (soft_center en p X l k (nth k C [])).
    destruct (soft_center en p X l k (nth k C [])); [apply IH|reflexivity]. }
  induction more as [|more IH]; intros it old s; [reflexivity|]. rewrite !soft_lloyd_step.
  change (soft_assign (with_iterations m p) X s) with (soft_assign p X s). destruct (soft_assign p X s) as [t [l|e]]; [|reflexivity].
  change (sk_clusters (with_iterations m p)) with (sk_clusters p). rewrite U. destruct (soft_update en p X _ t) as [u [[]|e]]; [|reflexivity].
  change (sk_tol (with_iterations m p)) with (sk_tol p). destruct (xltb _ _); [reflexivity|]. apply IH.
Qed.
(** a successful [fit] from an array with [n_init = 1] reports the end of the loop *)
Lemma fit_array en d cz p M xs cs s0 s' : engine_ok en -> soft_setting d p xs -> fits M xs -> sk_max_iter p <> 0%nat -> sk_n_init p = 1%nat ->
  centres d cz p cs -> soft_fit en p (InitArray (map lift cs)) (PropBary.padded d M xs) s0 = (s', Ok tt) -> X_fit_ s' <> None ->
  exists t, soft_lloyd en p (PropBary.padded d (lmax xs) xs) 0 (sk_max_iter p) XInf (set_centers (map lift cs) fresh) = (t, Ok tt) /\
    cluster_centers_ s' = cluster_centers_ t /\ inertia_ s' = inertia_ t.
Proof.
  intros HE HS HM Hm Hn HC E Nf. pose proof HS as (Hne & Hx & _).
  assert (Hi : forall n, exists cs0, draws (InitArray (map lift cs)) n = Ok (map lift cs0) /\ centres d cz p cs0) by (intros n; exists cs; auto).
  destruct (soft_input p (InitArray (map lift cs)) d cz M xs Hne Hx HM Hi) as [E1 E2].
  unfold soft_fit in E. rewrite E1, (variable_length_padded d M xs Hx), E2 in E. unfold seqm in E. rewrite Hn in E. change (Nat.max 1 10) with 10%nat in E.
  fold (lmax xs) in E. set (X := PropBary.padded d (lmax xs) xs) in *.
  assert (EC : check_full_length (map lift cs) = Ok (map lift cs)) by (apply (check_full_length_shape cz d); apply HC).
  assert (Hi' : forall n, exists C cs0, draws (InitArray (map lift cs)) n = Ok C /\ check_full_length C = Ok (map lift cs0) /\ admissible p (fun c => real_series d c /\ length c = cz) cs0).
  { intros n. exists (map lift cs), cs. auto. }
  pose proof (soft_one_init_run en p (pad_to d (lmax xs)) xs (fun c => real_series d c /\ length c = cz) (soft_value p) (inertia_distance p) Hne
    (setting_T d cz p xs HS) (setting_I d cz p xs HS) (setting_U en d cz p xs HE HS) (InitArray (map lift cs)) Hm Hi' 0 (reset s0)) as (u & R).
  destruct R as [R|(R & cs' & v & V & C' & I' & _)].
  - destruct (attempts_empty en p X (map lift cs) 10 Hm ltac:(lia) 0 (reset s0) (reset s0)) as (t & Q).
    { exact (f_equal snd R). }
    rewrite Q in E. cbn [fst snd] in E. unfold soft_post_fit in E. cbn [xisfinite] in E. injection E as <-. cbn in Nf. congruence.
  - change (map (pad_to d (lmax xs)) xs) with X in R. rewrite soft_attempts_S, Hn in E. cbn [Nat.leb] in E. rewrite R in E.
    rewrite I' in E. cbn [xltb] in E. rewrite soft_attempts_done in E by lia. cbn [fst snd] in E. rewrite C' in E. unfold soft_post_fit in E. cbn [xisfinite] in E.
    cbn [draws] in R. unfold soft_one_init in R. rewrite EC in R. destruct (sk_max_iter p =? 0)%nat eqn:E0; [discriminate|].
    destruct (sk_max_iter p) as [|m] eqn:Em; [congruence|].
    destruct (lloyd_same en p X m 0 XInf (set_centers (map lift cs) fresh) (set_centers (map lift cs) (set_centers (map lift cs) (reset s0))) eq_refl) as [A B]. rewrite R in A, B.
    destruct (soft_lloyd en p X 0 (S m) XInf (set_centers (map lift cs) fresh)) as [t q]. cbn [fst snd] in A, B. subst q. destruct (B eq_refl) as (B1 & B2 & B3).
    exists t. split; [reflexivity|].
    pose proof (soft_assign_run en p (pad_to d (lmax xs)) xs (fun c => real_series d c /\ length c = cz) (soft_value p) (inertia_distance p) Hne
      (setting_T d cz p xs HS) (setting_I d cz p xs HS) (setting_U en d cz p xs HE HS) cs'
      (set_centers (map lift cs') (set_n_iter (iter_ u) u)) V eq_refl) as EA.
    change (map (pad_to d (lmax xs)) xs) with X in EA. rewrite EA in E. destruct (no_empty_cluster _ _); [|discriminate]. injection E as <-. cbn.
    split; [exact (eq_sym (eq_trans B1 C'))|exact (eq_sym (eq_trans B3 I'))].
Qed.
(** From the same array of centres, more iterations never report a larger mean
    soft-DTW value. *)
Theorem C163_more_iterations : forall en d cz p M xs cs m1 m2 s0 s0' t1 t2, engine_ok en -> soft_setting d p xs -> fits M xs ->
  sk_n_init p = 1%nat -> centres d cz p cs -> (0 < m1 <= m2)%nat ->
  soft_fit en (with_iterations m1 p) (InitArray (map lift cs)) (PropBary.padded d M xs) s0 = (t1, Ok tt) -> X_fit_ t1 <> None ->
  soft_fit en (with_iterations m2 p) (InitArray (map lift cs)) (PropBary.padded d M xs) s0' = (t2, Ok tt) -> X_fit_ t2 <> None ->
  exists cs1 cs2, cluster_centers_ t1 = Some (map lift cs1) /\ cluster_centers_ t2 = Some (map lift cs2) /\
    forall l1 l2, labelled (soft_value p) xs cs1 l1 -> labelled (soft_value p) xs cs2 l2 ->
      mean_loss (soft_value p) xs cs2 l2 <= mean_loss (soft_value p) xs cs1 l1.
Proof.
  intros en d cz p M xs cs m1 m2 s0 s0' t1 t2 HE HS HM Hn HC Hm E1 N1 E2 N2.
  destruct (fit_array en d cz (with_iterations m1 p) M xs cs s0 t1 HE HS HM ltac:(cbn; lia) Hn HC E1 N1) as (u1 & L1 & C1 & _).
  destruct (fit_array en d cz (with_iterations m2 p) M xs cs s0' t2 HE HS HM ltac:(cbn; lia) Hn HC E2 N2) as (u2 & L2 & C2 & _).
  rewrite lloyd_iterations in L1, L2. cbn [sk_max_iter with_iterations] in L1, L2.
  destruct m1 as [|m1]; [lia|]. assert (exists j, m2 = S (m1 + j)) as (j & ->) by (exists (m2 - S m1)%nat; lia). pose proof HS as (Hne & Hx & _).
  destruct (soft_lloyd_mono en p (pad_to d (lmax xs)) xs (fun c => real_series d c /\ length c = cz) (soft_value p) (inertia_distance p) Hne
    (setting_T d cz p xs HS) (setting_I d cz p xs HS) (setting_U en d cz p xs HE HS) m1 j 0 XInf (set_centers (map lift cs) fresh) cs HC eq_refl u1 u2 L1 L2)
    as (cs1 & cs2 & V1 & V2 & D1 & D2 & Le).
  exists cs1, cs2. split; [congruence|]. split; [congruence|]. intros l1 l2 H1 H2.
  assert (U : forall c l, c <> [] -> labelled (soft_value p) xs c l -> l = nearests xs (soft_value p) c).
  { intros c l NE [Hl H]. pose proof (nearests_labelled (soft_value p) xs c NE) as [Hl' H']. apply (nth_ext _ _ 0%nat 0%nat); [congruence|]. intros n Hn'.
    destruct (H n ltac:(lia)) as [A B]. destruct (H' n ltac:(lia)) as [A' B'].
    set (a := nth n l 0%nat) in *. set (b := nth n (nearests xs (soft_value p) c) 0%nat) in *.
    destruct (lt_eq_lt_dec a b) as [[K|K]|K]; auto; exfalso.
    - pose proof (proj2 (B' a A) K). pose proof (proj1 (B b A')). lra.
    - pose proof (proj2 (B b A') K). pose proof (proj1 (B' a A)). lra. }
  rewrite (U cs1 l1), (U cs2 l2); auto; [apply V2|apply V1].
Qed.
Print Assumptions C163_more_iterations.

(** ** C164 *)
(** FALSE: [inertia_] never increases, and of several initialisations the one with
    the least mean soft-DTW value is reported.  [inertia_] is a mean of squares, and
    soft-DTW values may be negative.  One series (0, 0), gamma = 10. *)
Definition zz : rser := [[0]; [0]].
Definition oo : rser := [[1]; [1]].
Definition one_cluster (m b : nat) (n : nat) : soft_params :=
  {| sk_clusters := 1; sk_max_iter := m; sk_tol := XR (1 / 1000000); sk_n_init := n; sk_max_bary := b; sk_dtw_inertia := false;
     sk_gamma := 10; sk_gc := GcNone; sk_radius := None; sk_slope := None |}.
(** an optimiser that knows one candidate, the zero vector, and takes it when it is
    no worse than the start *)
Definition zero_if_better (f : list xr -> res (xr * list xr)) (x : list xr) : res (list xr) :=
  let z := map (fun _ => XR 0) x in
  match f x, f z with
  | Ok (XR v, _), Ok (XR w, _) => if Rle_dec w v then Ok z else Ok x
  | Ok _, _ => Ok x
  | Err e, _ => Err e
  end.
Definition zero_engine : engine := {| en_minimize := zero_if_better; en_order := seq 0; en_garbage := fun _ _ _ => XR 0 |}.
Lemma zero_engine_ok : engine_ok zero_engine.
Proof.
  split; [|intros n; apply Permutation_refl]. intros f x v grad E. cbn [en_minimize zero_engine]. unfold zero_if_better. rewrite E, map_map.
  set (z := map (fun _ => XR 0) x). assert (EZ : z = map XR (map (fun _ => 0) x)) by (unfold z; rewrite map_map; reflexivity).
  destruct (f z) as [[[w| | |] g]|e] eqn:Ez; try (exists x, v, grad; repeat split; auto; lra).
  destruct (Rle_dec w v); [|exists x, v, grad; repeat split; auto; lra]. exists (map (fun _ => 0) x), w, g. rewrite <- EZ. split; [reflexivity|]. split; [apply map_length|]. auto.
Qed.
Lemma real_zz : real_series 1 zz.
Proof. split; [lia|]. split; [discriminate|]. intros r [<-|[<-|[]]]; reflexivity. Qed.
Lemma real_oo : real_series 1 oo.
Proof. split; [lia|]. split; [discriminate|]. intros r [<-|[<-|[]]]; reflexivity. Qed.
Lemma zz_setting m b n : soft_setting 1 (one_cluster m b n) [zz].
Proof.
  split; [discriminate|]. split; [intros x [<-|[]]; apply real_zz|]. split; [cbn; lra|]. split; [exact I|]. split; [split; [discriminate|right; reflexivity]|].
  exists 1%nat, 1%nat, everywhere. reflexivity.
Qed.
Lemma centre_one m b n c : real_series 1 c -> length c = 2%nat -> centres 1 2 (one_cluster m b n) [c].
Proof. intros H L. split; [reflexivity|]. split; [discriminate|]. intros x [<-|[]]. auto. Qed.
(** the two soft-DTW values *)
Lemma value_zz m b n : soft_value (one_cluster m b n) zz zz = - (10) * ln 3.
Proof.
  unfold soft_value. rewrite (soft_public BNumpy 1 zz zz _ _ _ _ everywhere) by (try apply real_zz; try reflexivity; try exact I; cbn; lra).
  cbn [real_of sk_gamma one_cluster]. do 2 f_equal. cbn. unfold total, gibbs, cost, costs, sqd. cbn.
  match goal with |- context [exp ?e] => replace (exp e) with 1 by (rewrite <- exp_0; f_equal; field) end.
  repeat match goal with |- context [exp ?e] => replace (exp e) with 1 by (rewrite <- exp_0; f_equal; field) end. lra.
Qed.
Lemma value_oo m b n : exists Z, 1 < Z < 3 /\ soft_value (one_cluster m b n) zz oo = - (10) * ln Z.
Proof.
  unfold soft_value. rewrite (soft_public BNumpy 1 zz oo _ _ _ _ everywhere) by (try apply real_zz; try apply real_oo; try reflexivity; try exact I; cbn; lra).
  cbn [real_of sk_gamma one_cluster]. eexists. split; [|reflexivity]. cbn. unfold total, gibbs, cost, costs, sqd. cbn.
  assert (H : forall t, 0 < t -> 1 - t <= exp (- t) < 1).
  { intros t Ht. split; [pose proof (exp_ineq1_le (- t)); lra|]. rewrite <- exp_0. apply exp_increasing. lra. }
  repeat match goal with |- context [exp (- ?e)] =>
    lazymatch goal with K : 1 - e <= exp (- e) < 1 |- _ => fail | _ => pose proof (H e ltac:(lra)) end; generalize dependent (exp (- e)); intros end.
  lra.
Qed.
Lemma squares_lt Z : 1 < Z < 3 -> (- (10) * ln Z) * (- (10) * ln Z) < (- (10) * ln 3) * (- (10) * ln 3) /\ - (10) * ln 3 < - (10) * ln Z.
Proof.
  intros [H1 H3]. assert (0 < ln Z) by (rewrite <- ln_1; apply ln_increasing; lra). assert (ln Z < ln 3) by (apply ln_increasing; lra). split; nra.
Qed.

(** one assignment and one update with a single cluster *)
Definition Xzz : array3 := PropBary.padded 1 (lmax [zz]) [zz].
Lemma assign_zz en m b n c st : engine_ok en -> real_series 1 c -> length c = 2%nat -> cluster_centers_ st = Some [lift c] ->
  soft_assign (one_cluster m b n) Xzz st =
  (set_inertia (XR (soft_value (one_cluster m b n) zz c * soft_value (one_cluster m b n) zz c)) (set_labels [0%nat] st), Ok [0%nat]).
Proof.
  intros HE Hc Lc Hst. set (p := one_cluster m b n). pose proof (zz_setting m b n) as HS. fold p in HS.
  pose proof (soft_assign_run en p (pad_to 1 (lmax [zz])) [zz] (fun c => real_series 1 c /\ length c = 2%nat) (soft_value p) (inertia_distance p) ltac:(discriminate)
    (setting_T 1 2 p [zz] HS) (setting_I 1 2 p [zz] HS) (setting_U en 1 2 p [zz] HE HS) [c] st (centre_one m b n c Hc Lc) Hst) as E.
  assert (EN : nearests [zz] (soft_value p) [c] = [0%nat]) by reflexivity.
  rewrite EN in E. change (no_empty_cluster [0%nat] (sk_clusters p)) with true in E. cbn iota in E.
  refine (eq_trans E _). do 3 f_equal. unfold mean_loss, squares, inertia_distance. cbn. lra.
Qed.
Lemma update_zz m n c st : real_series 1 c -> length c = 2%nat -> cluster_centers_ st = Some [lift c] -> labels_ st = Some [0%nat] ->
  soft_value (one_cluster m 100 n) zz zz <= soft_value (one_cluster m 100 n) zz c ->
  soft_update zero_engine (one_cluster m 100 n) Xzz [0%nat] st = (set_centers [lift zz] st, Ok tt).
Proof.
  intros Hc Lc Hst Hl Le. cbn [soft_update]. rewrite Hst, Hl. cbn [nth].
  assert (EC : soft_center zero_engine (one_cluster m 100 n) Xzz [0%nat] 0 (lift c) = Ok (lift zz)); [|rewrite EC; reflexivity].
  unfold soft_center. change (members Xzz [0%nat] 0) with Xzz.
  pose proof (variable_length_padded 1 (lmax [zz]) [zz] ltac:(intros x [<-|[]]; apply real_zz)) as EV. fold (lmax [zz]) in EV. fold Xzz in EV. unfold variable_length in EV.
  unfold softdtw_barycenter. rewrite EV. cbn [bind].
  assert (ES : map strip Xzz = [lift zz]) by (exact (strip_all 1 (lmax [zz]) [zz] ltac:(intros x [<-|[]]; apply real_zz))).
  rewrite ES. unfold softdtw_start. cbn [bind gc_code sk_gc one_cluster sk_max_bary Nat.ltb Nat.leb].
  pose proof (set_weights_real None [zz] eq_refl (length Xzz) eq_refl) as EW. cbn [option_map weights_in_force] in EW. rewrite EW.
  set (f := fun z => acc_softdtw_func z _ _ _ _ _ _ _ _).
  assert (F : forall Z, real_series 1 Z -> length Z = 2%nat -> exists g, f (concat (lift Z)) = Ok (XR (soft_value (one_cluster m 100 n) zz Z), g)).
  { intros Z HZ LZ. destruct (C117_gradient (en_garbage zero_engine) (seq 0 1) 1 Z [zz] [1] 10 GcNone None None 0%nat) as (_ & G & E & _); auto; try lra; try discriminate.
    - intros x [<-|[]]. apply real_zz.
    - exact I.
    - intros x _. exists everywhere. reflexivity.
    - exists (map XR (concat G)). refine (eq_trans E _). do 3 f_equal. change [1] with (repeat 1 (length [zz])). rewrite objective_ones. cbn [map rsum fold_right].
      rewrite <- (soft_value_sym 1 (one_cluster m 100 n) [zz] zz Z (zz_setting m 100 n) real_zz HZ). unfold soft_value. cbn [sk_gamma sk_gc sk_radius sk_slope one_cluster]. lra. }
  destruct (F c Hc Lc) as (g1 & F1). destruct (F zz real_zz eq_refl) as (g0 & F0).
  assert (EM : en_minimize zero_engine f (concat (lift c)) = Ok (concat (lift zz))).
  { cbn [en_minimize zero_engine]. unfold zero_if_better. rewrite F1.
    cbn zeta. match goal with |- context [map ?h (concat (lift c))] => assert (EZ : map h (concat (lift c)) = concat (lift zz)) end.
    { destruct c as [|r1 [|r2 [|? ?]]]; try discriminate. pose proof (proj2 (proj2 Hc) r1 (or_introl eq_refl)). pose proof (proj2 (proj2 Hc) r2 (or_intror (or_introl eq_refl))).
      destruct r1 as [|a [|? ?]]; try discriminate. destruct r2 as [|b [|? ?]]; try discriminate. reflexivity. }
    rewrite EZ, F0. destruct (Rle_dec _ _); [reflexivity|contradiction]. }
  rewrite EM. cbn [bind]. assert (EL : length (lift c) = 2%nat) by (rewrite lift_length; auto). rewrite EL, (ncols_lift 1) by auto. reflexivity.
Qed.
Lemma input_zz p i : (forall k, exists cs, draws i k = Ok (map lift cs) /\ centres 1 2 p cs) ->
  fit_input (other_metric p) i Xzz = Ok Xzz /\ variable_length Xzz = Ok Xzz /\ check_initial_guess (other_metric p) i = Ok tt.
Proof.
  intros Hi. assert (R : forall x, In x [zz] -> real_series 1 x) by (intros x [<-|[]]; apply real_zz).
  destruct (soft_input p i 1 2 (lmax [zz]) [zz] ltac:(discriminate) R ltac:(intros x [<-|[]]; cbn; lia) Hi) as [A B].
  split; [exact A|split; [|exact B]]. exact (variable_length_padded 1 (lmax [zz]) [zz] R).
Qed.
Lemma full_length_one c : real_series 1 c -> length c = 2%nat -> check_full_length [lift c] = Ok [lift c].
Proof. intros Hc Lc. exact (check_full_length_shape 2 1 [c] ltac:(discriminate) ltac:(intros x [<-|[]]; auto)). Qed.
(** the last assignment of [fit] *)
Lemma post_zz en m b n c v st : engine_ok en -> real_series 1 c -> length c = 2%nat ->
  exists s', soft_post_fit (one_cluster m b n) Xzz (Some [lift c]) (XR v) st = (s', Ok tt) /\ inertia_ s' = XR v /\ cluster_centers_ s' = Some [lift c] /\ X_fit_ s' <> None.
Proof.
  intros HE Hc Lc. unfold soft_post_fit. cbn [xisfinite]. rewrite (assign_zz en m b n c) by auto. eexists. split; [reflexivity|]. split; [reflexivity|]. split; [reflexivity|discriminate].
Qed.
Lemma fit_zz en m b c c' v t : engine_ok en -> real_series 1 c -> length c = 2%nat -> real_series 1 c' -> length c' = 2%nat ->
  soft_one_init en (one_cluster m b 1) Xzz (draws (InitArray [lift c]) 0) (reset fresh) = (t, Ok tt) -> inertia_ t = XR v -> cluster_centers_ t = Some [lift c'] ->
  exists s', soft_fit en (one_cluster m b 1) (InitArray [lift c]) Xzz fresh = (s', Ok tt) /\ inertia_ s' = XR v /\ cluster_centers_ s' = Some [lift c'].
Proof.
  intros HE Hc Lc Hc' Lc' E EI EC. set (p := one_cluster m b 1) in *.
  destruct (input_zz p (InitArray [lift c])) as (I1 & I2 & I3); [intros k; exists [c]; split; [reflexivity|apply centre_one; auto]|].
  unfold soft_fit. rewrite I1, I2, I3. unfold seqm. change (Nat.max (sk_n_init p) 10) with 10%nat. rewrite soft_attempts_S.
  change (sk_n_init p <=? 0)%nat with false. cbn iota. rewrite E, EI, EC. cbn [xltb]. rewrite soft_attempts_done by (cbn; lia). cbn [fst snd].
  destruct (post_zz en m b 1 c' v (set_n_iter (iter_ t) t)) as (s' & S1 & S2 & S3 & _); auto. exists s'. auto.
Qed.
Lemma soft_lloyd_O en p X it old s : soft_lloyd en p X it 0 old s = (set_iter it s, Ok tt).
Proof. reflexivity. Qed.
(** an iteration moves the centre to (0, 0) *)
Lemma iteration_zz m n more it old c st : real_series 1 c -> length c = 2%nat -> cluster_centers_ st = Some [lift c] ->
  soft_value (one_cluster m 100 n) zz zz <= soft_value (one_cluster m 100 n) zz c ->
  let v := soft_value (one_cluster m 100 n) zz c * soft_value (one_cluster m 100 n) zz c in
  exists t, inertia_ t = XR v /\ cluster_centers_ t = Some [lift zz] /\
    soft_lloyd zero_engine (one_cluster m 100 n) Xzz it (S more) old st =
    (if xltb (xabs (xsub old (XR v))) (XR (1 / 1000000)) then (set_iter (S it) t, Ok tt)
     else soft_lloyd zero_engine (one_cluster m 100 n) Xzz (S it) more (XR v) t).
Proof.
  intros Hc Lc Hst Le v. eexists. split; [|split; [|rewrite soft_lloyd_step, (assign_zz zero_engine m 100 n c) by (auto; apply zero_engine_ok);
    change (seq 0 (sk_clusters (one_cluster m 100 n))) with [0%nat]; rewrite (update_zz m n c) by auto; reflexivity]]; reflexivity.
Qed.
(** With one more iteration the reported [inertia_] is larger although the mean
    soft-DTW value never increases: from the centre (1, 1), one iteration and two. *)
Theorem C164_iterations_refuted : exists en xs c v1 v2 t1 t2, engine_ok en /\ soft_setting 1 (one_cluster 1 100 1) xs /\
  centres 1 2 (one_cluster 1 100 1) [c] /\
  soft_fit en (one_cluster 1 100 1) (InitArray [lift c]) (map lift xs) fresh = (t1, Ok tt) /\ inertia_ t1 = XR v1 /\
  soft_fit en (one_cluster 2 100 1) (InitArray [lift c]) (map lift xs) fresh = (t2, Ok tt) /\ inertia_ t2 = XR v2 /\ v1 < v2.
Proof.
  destruct (value_oo 1 100 1) as (Z & HZ & V1). pose proof (value_zz 1 100 1) as V0. destruct (squares_lt Z HZ) as [Q1 Q2]. rewrite <- V1, <- V0 in Q1, Q2.
  set (a := soft_value (one_cluster 1 100 1) zz oo) in *. set (b := soft_value (one_cluster 1 100 1) zz zz) in *.
  assert (A2 : soft_value (one_cluster 2 100 1) zz oo = a) by reflexivity. assert (B2 : soft_value (one_cluster 2 100 1) zz zz = b) by reflexivity.
  destruct (iteration_zz 1 1 0 0 XInf oo (set_centers [lift oo] (set_centers [lift oo] (reset fresh))) real_oo eq_refl eq_refl) as (u & U1 & U2 & U3); [fold a b; lra|].
  destruct (iteration_zz 2 1 1 0 XInf oo (set_centers [lift oo] (set_centers [lift oo] (reset fresh))) real_oo eq_refl eq_refl) as (w & W1 & W2 & W3); [rewrite A2, B2; lra|].
  destruct (iteration_zz 2 1 0 1 (XR (a * a)) zz w real_zz eq_refl W2 ltac:(lra)) as (w' & P1 & P2 & P3).
  rewrite A2 in W1, W3. rewrite B2 in P1, P3. fold a in U1, U3. change (xltb (xabs (xsub XInf (XR (a * a)))) (XR (1 / 1000000))) with false in U3, W3. cbn iota in U3, W3. rewrite soft_lloyd_O in U3, P3.
  destruct (fit_zz zero_engine 1 100 oo zz (a * a) (set_iter 1 u)) as (t1 & T1 & T2 & _); auto using zero_engine_ok, real_oo, real_zz.
  { cbn [draws]. unfold soft_one_init. rewrite (full_length_one oo real_oo eq_refl). cbn [sk_max_iter one_cluster Nat.eqb]. rewrite U3. reflexivity. }
  destruct (fit_zz zero_engine 2 100 oo zz (b * b) (set_iter 2 w')) as (t2 & S1 & S2 & _); auto using zero_engine_ok, real_oo, real_zz.
  { cbn [draws]. unfold soft_one_init. rewrite (full_length_one oo real_oo eq_refl). cbn [sk_max_iter one_cluster Nat.eqb]. rewrite W3, P3. destruct (xltb _ _); reflexivity. }
  exists zero_engine, [zz], oo, (a * a), (b * b), t1, t2. change (map lift [zz]) with Xzz.
  split; [apply zero_engine_ok|]. split; [apply zz_setting|]. split; [apply centre_one; [apply real_oo|reflexivity]|].
  split; [exact T1|]. split; [exact T2|]. split; [exact S1|]. split; [exact S2|]. exact Q1.
Qed.
Print Assumptions C164_iterations_refuted.

(** With two initialisations the centre (1, 1), tried first, is kept although the
    other one, (0, 0), has the smaller soft-DTW value; whatever the optimiser
    (max_iter_barycenter = 0: the centres stay). *)
Lemma stay_zz en m n c st : real_series 1 c -> length c = 2%nat -> cluster_centers_ st = Some [lift c] -> labels_ st = Some [0%nat] ->
  soft_update en (one_cluster m 0 n) Xzz [0%nat] st = (set_centers [lift c] st, Ok tt).
Proof.
  intros Hc Lc Hst Hl. cbn [soft_update]. rewrite Hst, Hl. cbn [nth].
  assert (EC : soft_center en (one_cluster m 0 n) Xzz [0%nat] 0 (lift c) = Ok (lift c)); [|rewrite EC; reflexivity].
  unfold soft_center. change (members Xzz [0%nat] 0) with Xzz.
  pose proof (variable_length_padded 1 (lmax [zz]) [zz] ltac:(intros x [<-|[]]; apply real_zz)) as EV. fold (lmax [zz]) in EV. fold Xzz in EV. unfold variable_length in EV.
  unfold softdtw_barycenter. rewrite EV. reflexivity.
Qed.
Lemma one_stay en n c st : engine_ok en -> real_series 1 c -> length c = 2%nat ->
  exists t, soft_one_init en (one_cluster 1 0 n) Xzz (Ok ([lift c] : array3)) st = (t, Ok tt) /\ cluster_centers_ t = Some [lift c] /\
    inertia_ t = XR (soft_value (one_cluster 1 0 n) zz c * soft_value (one_cluster 1 0 n) zz c).
Proof.
  intros HE Hc Lc. unfold soft_one_init. rewrite (full_length_one c Hc Lc). cbn [sk_max_iter one_cluster Nat.eqb]. rewrite soft_lloyd_step.
  match goal with |- context [soft_assign ?p Xzz ?s] => rewrite (assign_zz en 1 0 n c s HE Hc Lc eq_refl : soft_assign p Xzz s = _) end.
  change (seq 0 (sk_clusters (one_cluster 1 0 n))) with [0%nat].
  match goal with |- context [soft_update en ?p Xzz [0%nat] ?s] => rewrite (stay_zz en 1 n c s Hc Lc eq_refl eq_refl : soft_update en p Xzz [0%nat] s = _) end.
  rewrite soft_lloyd_O. eexists. split; [|split].
  - destruct (xltb _ _); reflexivity.
  - reflexivity.
  - reflexivity.
Qed.
Theorem C164_selection_refuted : exists xs c0 c1 p, soft_setting 1 p xs /\ sk_n_init p = 2%nat /\ centres 1 2 p [c0] /\ centres 1 2 p [c1] /\
  mean_loss (soft_value p) xs [c1] [0%nat] < mean_loss (soft_value p) xs [c0] [0%nat] /\
  forall en, engine_ok en ->
    (exists t, soft_one_init en p (map lift xs) (Ok ([lift c1] : array3)) fresh = (t, Ok tt) /\ cluster_centers_ t = Some [lift c1]) /\
    exists s', soft_fit en p (InitDrawn (fun n => Ok [lift (match n with O => c0 | _ => c1 end)])) (map lift xs) fresh = (s', Ok tt) /\
      cluster_centers_ s' = Some [lift c0] /\ X_fit_ s' <> None.
Proof.
  set (p := one_cluster 1 0 2).
  destruct (value_oo 1 0 2) as (Z & HZ & V1). pose proof (value_zz 1 0 2) as V0. fold p in V0, V1. destruct (squares_lt Z HZ) as [Q1 Q2]. rewrite <- V1, <- V0 in Q1, Q2.
  exists [zz], oo, zz, p. split; [apply zz_setting|]. split; [reflexivity|]. split; [apply centre_one; [apply real_oo|reflexivity]|].
  split; [apply centre_one; [apply real_zz|reflexivity]|]. split; [unfold mean_loss; cbn [combine map fst snd nth rsum fold_right length INR]; lra|].
  intros en HE. change (map lift [zz]) with Xzz. split.
  { destruct (one_stay en 2 zz fresh HE real_zz eq_refl) as (t & T1 & T2 & _). exists t. split; [exact T1|exact T2]. }
  set (i := InitDrawn _).
  destruct (input_zz p i) as (I1 & I2 & I3).
  { intros [|k]; [exists [oo]|exists [zz]]; (split; [reflexivity|apply centre_one; [first [apply real_oo|apply real_zz]|reflexivity]]). }
  unfold soft_fit. rewrite I1, I2, I3. unfold seqm. change (Nat.max (sk_n_init p) 10) with 10%nat. rewrite soft_attempts_S.
  change (sk_n_init p <=? 0)%nat with false. cbn iota.
  destruct (one_stay en 2 oo (reset fresh) HE real_oo eq_refl) as (t & T1 & T2 & T3). fold p in T1, T3.
  change (draws i 0) with (@Ok array3 [lift oo]). rewrite T1, T2, T3. cbn [xltb]. rewrite soft_attempts_S.
  change (sk_n_init p <=? 1)%nat with false. cbn iota.
  destruct (one_stay en 2 zz (set_n_iter (iter_ t) t) HE real_zz eq_refl) as (u & U1 & U2 & U3). fold p in U1, U3.
  change (draws i 1) with (@Ok array3 [lift zz]). rewrite U1, U3. cbn [xltb]. rewrite (proj2 (Rltb_false _ _)) by lra.
  rewrite soft_attempts_done by (cbn; lia). cbn [fst snd].
  destruct (post_zz en 1 0 2 oo (soft_value p zz oo * soft_value p zz oo) u HE real_oo eq_refl) as (s' & S1 & _ & S3). exists s'. split; [exact S1|exact S3].
Qed.
Print Assumptions C164_selection_refuted.
(** the hypotheses of C163 hold for series of different lengths with a band *)
Example C163_nontrivial : engine_ok zero_engine /\
  let p := {| sk_clusters := 2; sk_max_iter := 5; sk_tol := XR 0; sk_n_init := 1; sk_max_bary := 100; sk_dtw_inertia := true;
              sk_gamma := 1; sk_gc := GcSakoeChiba; sk_radius := Some 1%Z; sk_slope := None |} in
  soft_setting 1 p [[[0]; [1]; [2]]; [[5]; [6]]] /\ centres 1 2 p [[[0]; [1]]; [[4]; [4]]].
Proof.
  assert (R : forall l, l <> [] -> real_series 1 (map (fun v => [v]) l)).
  { intros l Hl. split; [lia|]. split; [destruct l; [congruence|discriminate]|]. intros r Hr. apply in_map_iff in Hr. destruct Hr as (v & <- & _). reflexivity. }
  split; [apply zero_engine_ok|]. cbn zeta. split.
  - split; [discriminate|]. split; [intros x [<-|[<-|[]]]; [apply (R [0; 1; 2])|apply (R [5; 6])]; discriminate|]. split; [cbn; lra|]. split; [exact I|].
    split; [split; [discriminate|right; reflexivity]|]. exists 3%nat, 2%nat, (band 3 2 1). cbn. split; [lia|reflexivity].
  - split; [reflexivity|]. split; [discriminate|]. intros x [<-|[<-|[]]]; (split; [|reflexivity]); [apply (R [0; 1])|apply (R [4; 4])]; discriminate.
Qed.

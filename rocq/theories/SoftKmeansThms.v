(** Lloyd's iterations of SoftKmeansModel.v, for any loss that the distance matrix
    holds and any update that does not increase it. *)
From Coq Require Import Bool List Arith Lia ZArith QArith Reals Lra.
From Verif Require Import Num NumLaws Py Series Masks DtwModel Spec SpecDtw RList RealSeries PaaModel PaaThms PreModel PropScale PropResample PropCtw
  GakModel SoftModel Dataset BaryModel SoftBaryModel ClusterModel ClusterThms KInitModel SoftKmeansModel.
Import ListNotations.
Local Open Scope R_scope.

Lemma soft_lloyd_step en p X it more old s : soft_lloyd en p X it (S more) old s =
  match soft_assign p X s with
  | (s1, Ok _) => match soft_update en p X (seq 0 (sk_clusters p)) s1 with
                  | (s2, Ok _) => if xltb (xabs (xsub old (inertia_ s2))) (sk_tol p) then (set_iter (S it) s2, Ok tt)
                                  else soft_lloyd en p X (S it) more (inertia_ s2) s2
                  | (s2, Err e) => (s2, Err e) end
  | (s1, Err e) => (s1, Err e) end.
Proof. reflexivity. Qed.

(** [mean_loss] of the squares: what [inertia_] holds *)
Definition squares (idist : rser -> rser -> R) (x c : rser) : R := idist x c * idist x c.

Section Lloyd.
Variables (en : engine) (p : soft_params) (inj : rser -> series Xnum) (xs : list rser) (good : rser -> Prop)
  (loss idist : rser -> rser -> R).
Let X := map inj xs.
Let K := sk_clusters p.
Hypothesis Hxs : xs <> [].
Hypothesis HT : forall cs, cs <> [] -> (forall c, In c cs -> good c) ->
  soft_transform p (map lift cs) (map inj xs) = Ok (map (fun x => map (fun c => XR (loss x c)) cs) xs).
Hypothesis HI : forall cs, cs <> [] -> (forall c, In c cs -> good c) ->
  (if sk_dtw_inertia p then cdist_dtw_rows GcNone None None (map inj xs) (map lift cs)
   else Ok (map (fun x => map (fun c => XR (loss x c)) cs) xs)) = Ok (map (fun x => map (fun c => XR (idist x c)) cs) xs).
Hypothesis HU : forall labels k c, length labels = length xs -> cluster xs labels k <> [] -> good c ->
  exists c', soft_center en p (map inj xs) labels k (lift c) = Ok (lift c') /\ good c' /\
    rsum (map (fun x => loss x c') (cluster xs labels k)) <= rsum (map (fun x => loss x c) (cluster xs labels k)).
Definition admissible (cs : list rser) : Prop := length cs = K /\ cs <> [] /\ forall c, In c cs -> good c.
Let near := nearests xs loss.

Lemma xs_pos : 0 < INR (length xs).
Proof. apply lt_0_INR. destruct xs; [congruence|simpl; lia]. Qed.
Lemma soft_assign_run cs s : admissible cs -> cluster_centers_ s = Some (map lift cs) ->
  soft_assign p X s =
    if no_empty_cluster (near cs) K then (set_inertia (XR (mean_loss (squares idist) xs cs (near cs))) (set_labels (near cs) s), Ok (near cs))
    else (set_labels (near cs) s, Err EmptyClusterError).
Proof.
  intros (Hl & NE & Hg) Hc. unfold soft_assign. rewrite Hc. unfold X. rewrite (HT cs NE Hg). rewrite map_map.
  assert (EL : map (fun x => argmin (map (fun c => XR (loss x c)) cs)) xs = near cs).
  { unfold near, nearests, nearest. apply map_ext. intros x. rewrite map_map. reflexivity. }
  rewrite EL. fold K. destruct (no_empty_cluster (near cs) K); [|reflexivity]. rewrite (HI cs NE Hg). do 2 f_equal.
  unfold compute_inertia. rewrite map_length. unfold near, nearests at 1. rewrite combine_map_same, map_map. cbn [fst snd].
  rewrite (map_ext_in _ (fun x => XR (squares idist x (nth (nearest loss cs x) cs [])))).
  - rewrite <- (map_map (fun x => squares idist x (nth (nearest loss cs x) cs [])) XR), xsum_reals, xdiv_real by (pose proof xs_pos; lra).
    unfold mean_loss, nearests. rewrite combine_self, map_map. reflexivity.
  - intros x Hx. destruct (nearest_spec loss cs x NE) as (A & _). set (k := nearest loss cs x) in *.
    assert (E : nth k (map (fun c => XR (idist x c)) cs) XNaN = XR (idist x (nth k cs []))).
    { rewrite (nth_indep _ XNaN (XR (idist x []))) by (rewrite map_length; auto). apply (map_nth (fun c => XR (idist x c))). }
    cbn zeta. rewrite E. reflexivity.
Qed.
Lemma soft_update_run labels : length labels = length xs -> (forall k, (k < K)%nat -> In k labels) -> (forall l, In l labels -> (l < K)%nat) ->
  forall ks cs s, (forall k, In k ks -> (k < K)%nat) -> admissible cs -> cluster_centers_ s = Some (map lift cs) -> labels_ s = Some labels ->
  exists cs', soft_update en p X ks s = (set_centers (map lift cs') s, Ok tt) /\ admissible cs' /\
    mean_loss loss xs cs' labels <= mean_loss loss xs cs labels.
Proof.
  intros Hl Hfull Hlt. induction ks as [|k ks IH]; intros cs s Hks Hv Hc Hlab.
  - exists cs. simpl. split; [|split; [auto|lra]]. f_equal. destruct s; simpl in *. rewrite Hc. reflexivity.
  - cbn [soft_update]. rewrite Hc, Hlab. assert (Hk : (k < K)%nat) by (apply Hks; left; auto). destruct Hv as (Lc & NE & Hg).
    assert (E : nth k (map lift cs) [] = lift (nth k cs [])) by (exact (map_nth lift cs [] k)). rewrite E.
    assert (Gk : good (nth k cs [])) by (apply Hg; apply nth_In; lia).
    destruct (HU labels k (nth k cs []) Hl (cluster_ne xs labels k Hl (Hfull k Hk)) Gk) as (c' & E' & G' & L').
    unfold X. rewrite E'. fold X. assert (ER : replace_nth k (lift c') (map lift cs) = map lift (replace_nth k c' cs)) by apply replace_nth_map.
    set (cs1 := replace_nth k c' cs) in *.
    assert (L1 : length cs1 = K) by (unfold cs1; rewrite replace_nth_len; auto).
    assert (V1 : admissible cs1).
    { split; auto. split; [intros Z; rewrite Z in L1; simpl in L1; lia|]. intros c Hc'. apply in_replace_nth in Hc'. destruct Hc'; subst; auto. }
    destruct (IH cs1 (set_centers (replace_nth k (lift c') (map lift cs)) s) ltac:(intros; apply Hks; simpl; auto) V1) as (cs2 & E2 & V2 & D2).
    { simpl. f_equal. exact ER. }
    { exact Hlab. }
    exists cs2. split; [rewrite E2; destruct s; reflexivity|]. split; auto.
    eapply Rle_trans; [exact D2|]. unfold mean_loss. apply Rmult_le_compat_r; [left; apply Rinv_0_lt_compat; apply xs_pos|].
    apply replace_loss; [unfold rser in *; rewrite Lc; exact Hk|intros l Hi; unfold rser in *; rewrite Lc; auto|exact L'].
Qed.
Lemma near_lt cs : admissible cs -> forall l, In l (near cs) -> (l < K)%nat.
Proof.
  intros (Lc & NE & _) l Hl. apply in_map_iff in Hl. destruct Hl as (x & <- & _). destruct (nearest_spec loss cs x NE) as (A & _). lia.
Qed.
Lemma near_least cs labels : admissible cs -> length labels = length xs -> (forall l, In l labels -> (l < K)%nat) ->
  mean_loss loss xs cs (near cs) <= mean_loss loss xs cs labels.
Proof.
  intros (Lc & NE & _) Hl Hlt. unfold mean_loss. apply Rmult_le_compat_r; [left; apply Rinv_0_lt_compat; apply xs_pos|].
  unfold near, nearests. clear -Hl Hlt NE Lc. revert labels Hl Hlt. induction xs as [|x l IH]; intros [|j labels] Hl Hlt; simpl in *; try discriminate; try lra.
  apply Rplus_le_compat; [|apply IH; auto].
  destruct (nearest_spec loss cs x NE) as (_ & B). apply B. rewrite Lc. auto.
Qed.
(** what one iteration from the centres [cs] leaves behind *)
Definition soft_settled (cs : list rser) (s : km_state) : Prop :=
  exists cs', admissible cs' /\ cluster_centers_ s = Some (map lift cs') /\
    labels_ s = Some (near cs) /\ (forall k, (k < K)%nat -> In k (near cs)) /\
    inertia_ s = XR (mean_loss (squares idist) xs cs (near cs)) /\
    mean_loss loss xs cs' (near cs) <= mean_loss loss xs cs (near cs).
Lemma soft_iteration cs s : admissible cs -> cluster_centers_ s = Some (map lift cs) ->
  (no_empty_cluster (near cs) K = false /\ soft_assign p X s = (set_labels (near cs) s, Err EmptyClusterError)) \/
  exists s1 s2, soft_assign p X s = (s1, Ok (near cs)) /\ inertia_ s1 = XR (mean_loss (squares idist) xs cs (near cs)) /\
    soft_update en p X (seq 0 (sk_clusters p)) s1 = (s2, Ok tt) /\ soft_settled cs s2.
Proof.
  intros Hv Hc. pose proof (soft_assign_run cs s Hv Hc) as EA. destruct (no_empty_cluster (near cs) K) eqn:En; [right|left; auto].
  pose proof (proj1 (no_empty_spec _ _) En) as Hfull.
  set (s1 := set_inertia (XR (mean_loss (squares idist) xs cs (near cs))) (set_labels (near cs) s)) in *.
  destruct (soft_update_run (near cs) (nearests_len xs loss cs) Hfull (near_lt cs Hv) (seq 0 K) cs s1) as (cs' & EU & V' & D').
  - intros k Hk. apply in_seq in Hk. lia.
  - exact Hv.
  - exact Hc.
  - reflexivity.
  - exists s1, (set_centers (map lift cs') s1). split; [exact EA|]. split; [reflexivity|]. split; [exact EU|]. exists cs'.
    split; [auto|]. split; [reflexivity|]. split; [reflexivity|]. split; [auto|]. split; [reflexivity|auto].
Qed.
Lemma settled_next cs cs' : admissible cs' -> admissible cs -> mean_loss loss xs cs' (near cs) <= mean_loss loss xs cs (near cs) ->
  mean_loss loss xs cs' (near cs') <= mean_loss loss xs cs (near cs).
Proof. intros V V' H. eapply Rle_trans; [|exact H]. apply near_least; auto; [apply nearests_len|apply near_lt; auto]. Qed.
(** the loop either raises EmptyClusterError or ends with centres that are no worse
    than those it starts from *)
Lemma soft_lloyd_run more : forall it old s cs, admissible cs -> cluster_centers_ s = Some (map lift cs) ->
  let r := soft_lloyd en p X it (S more) old s in
  snd r = Err EmptyClusterError \/
  snd r = Ok tt /\ exists cs' v, admissible cs' /\ cluster_centers_ (fst r) = Some (map lift cs') /\ inertia_ (fst r) = XR v /\
    mean_loss loss xs cs' (near cs') <= mean_loss loss xs cs (near cs).
Proof.
  induction more as [|more IH]; intros it old s cs Hv Hc; cbn zeta; rewrite soft_lloyd_step;
  (destruct (soft_iteration cs s Hv Hc) as [[_ EA]|(s1 & s2 & EA & _ & EU & cs' & V2 & C2 & L2 & F2 & I2 & D2)]; rewrite EA; [simpl; left; auto|]; rewrite EU);
  pose proof (settled_next cs cs' V2 Hv D2) as D3.
  - right. destruct (xltb _ _); [|cbn [soft_lloyd]]; (split; [reflexivity|]; exists cs'; eexists; split; [auto|]; split; [exact C2|]; split; [exact I2|auto]).
  - destruct (xltb _ _); [right; split; [reflexivity|]; exists cs'; eexists; split; [auto|]; split; [exact C2|]; split; [exact I2|auto]|].
    destruct (IH (S it) (inertia_ s2) s2 cs' V2 C2) as [B|(B & c3 & v & V3 & C3 & I3 & D4)]; [left; auto|right]. split; auto.
    exists c3, v. split; auto. split; auto. split; auto. lra.
Qed.
(** more iterations never end with a larger loss *)
Lemma soft_lloyd_mono m : forall j it old s cs, admissible cs -> cluster_centers_ s = Some (map lift cs) ->
  forall s1 s2, soft_lloyd en p X it (S m) old s = (s1, Ok tt) -> soft_lloyd en p X it (S (m + j)) old s = (s2, Ok tt) ->
  exists cs1 cs2, admissible cs1 /\ admissible cs2 /\ cluster_centers_ s1 = Some (map lift cs1) /\ cluster_centers_ s2 = Some (map lift cs2) /\
    mean_loss loss xs cs2 (near cs2) <= mean_loss loss xs cs1 (near cs1).
Proof.
  induction m as [|m IH]; intros j it old s cs Hv Hc s1 s2 E1 E2; rewrite soft_lloyd_step in E1, E2;
  (destruct (soft_iteration cs s Hv Hc) as [[_ EA]|(t1 & t2 & EA & _ & EU & cs' & V2 & C2 & L2 & F2 & I2 & D2)]; rewrite EA in E1, E2; [discriminate|]; rewrite EU in E1, E2).
  - assert (J1 : cluster_centers_ s1 = Some (map lift cs')).
    { destruct (xltb _ _); [|cbn [soft_lloyd] in E1]; injection E1 as <-; exact C2. }
    destruct (xltb _ _).
    + exists cs', cs'. injection E2 as <-. repeat (split; [auto|]). lra.
    + destruct j as [|j]; [cbn [soft_lloyd] in E2; injection E2 as <-; exists cs', cs'; repeat (split; [auto|]); lra|].
      pose proof (soft_lloyd_run j (S it) (inertia_ t2) t2 cs' V2 C2) as B. cbn zeta in B. change (0 + S j)%nat with (S j) in E2. rewrite E2 in B.
      destruct B as [B|(_ & c3 & v & V3 & C3 & I3 & D4)]; [discriminate|]. exists cs', c3. repeat (split; [auto|]). exact D4.
  - destruct (xltb _ _).
    + injection E1 as <-. injection E2 as <-. exists cs', cs'. repeat (split; [auto|]). lra.
    + eapply (IH j (S it) _ t2 cs'); eauto.
Qed.

(** ** fit *)
Variables (X0 : array3) (i : km_init).
Hypothesis HX : fit_input (other_metric p) i X0 = Ok X0.
Hypothesis HV : variable_length X0 = Ok X.
Hypothesis HG : check_initial_guess (other_metric p) i = Ok tt.
Hypothesis Hit : sk_max_iter p <> 0%nat.
Hypothesis Hinit : forall n, exists C cs, draws i n = Ok C /\ check_full_length C = Ok (map lift cs) /\ admissible cs.
(** centres no worse than the start of some attempt *)
Definition improves (cs' : list rser) : Prop := exists n C cs, draws i n = Ok C /\ check_full_length C = Ok (map lift cs) /\ admissible cs /\
  mean_loss loss xs cs' (near cs') <= mean_loss loss xs cs (near cs).
Lemma soft_one_init_run n s : exists s', (soft_one_init en p X (draws i n) s = (s', Err EmptyClusterError)) \/
  (soft_one_init en p X (draws i n) s = (s', Ok tt) /\ exists cs' v, admissible cs' /\ cluster_centers_ s' = Some (map lift cs') /\ inertia_ s' = XR v /\ improves cs').
Proof.
  destruct (Hinit n) as (C & cs & ED & EC & Hv). unfold soft_one_init. rewrite ED, EC.
  destruct (sk_max_iter p =? 0)%nat eqn:E0; [apply Nat.eqb_eq in E0; congruence|]. apply Nat.eqb_neq in E0.
  destruct (sk_max_iter p) as [|m]; [congruence|].
  pose proof (soft_lloyd_run m 0 XInf (set_centers (map lift cs) (set_centers C s)) cs Hv eq_refl) as B. cbn zeta in B.
  destruct (soft_lloyd en p X 0 (S m) XInf _) as [s' r]. simpl in B. exists s'.
  destruct B as [->|(-> & cs' & v & V & C' & I' & D)]; [left; auto|right; split; auto]. exists cs', v. repeat (split; [auto|]). exists n, C, cs. auto.
Qed.
Definition soft_best (best : option array3) (mi : xr) : Prop :=
  (best = None /\ mi = XInf) \/ exists cs' v, admissible cs' /\ improves cs' /\ best = Some (map lift cs') /\ mi = XR v.
Lemma soft_attempts_run remaining : forall n ns best mi s, soft_best best mi ->
  exists s' best' mi', soft_attempts en p X (draws i) n remaining ns best mi s = (s', Ok (best', mi')) /\ soft_best best' mi'.
Proof.
  induction remaining as [|r IH]; intros n ns best mi s HB; cbn [soft_attempts].
  - exists s, best, mi. auto.
  - destruct (sk_n_init p <=? ns)%nat; [exists s, best, mi; auto|].
    destruct (soft_one_init_run n s) as (s' & [E|(E & cs' & v & V & C' & I' & D)]); rewrite E; [apply IH; auto|].
    destruct (xltb _ _); [|apply IH; auto]. apply IH. right. exists cs', v. auto.
Qed.
Lemma soft_fit_run s : let r := soft_fit en p i X0 s in
  (snd r = Ok tt /\ X_fit_ (fst r) = None) \/
  (snd r = Ok tt /\ X_fit_ (fst r) = Some X /\ exists cs', admissible cs' /\ improves cs' /\
     cluster_centers_ (fst r) = Some (map lift cs') /\ labels_ (fst r) = Some (near cs') /\ forall k, (k < K)%nat -> In k (near cs')) \/
  (snd r = Err EmptyClusterError /\ exists cs', admissible cs' /\ cluster_centers_ (fst r) = Some (map lift cs') /\ no_empty_cluster (near cs') K = false).
Proof.
  cbn zeta. unfold soft_fit. rewrite HX, HV, HG. unfold seqm.
  destruct (soft_attempts_run (Nat.max (sk_n_init p) 10) 0 0 None XInf (reset s)) as (s1 & best & mi & E & HB); [left; auto|]. rewrite E. cbn [fst snd].
  destruct HB as [(-> & ->)|(cs' & v & V & Im & -> & ->)].
  - left. unfold soft_post_fit. cbn [xisfinite]. split; reflexivity.
  - unfold soft_post_fit. cbn [xisfinite]. rewrite (soft_assign_run cs' (set_centers (map lift cs') s1) V eq_refl).
    destruct (no_empty_cluster (near cs') K) eqn:En.
    + right. left. cbn [fst snd]. split; [reflexivity|]. split; [reflexivity|]. exists cs'.
      pose proof (proj1 (no_empty_spec _ _) En) as Hfull. repeat (split; [auto|]). exact Hfull.
    + right. right. cbn [fst snd]. split; [reflexivity|]. exists cs'. auto.
Qed.
End Lloyd.

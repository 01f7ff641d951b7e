(** Barycenter updates on series of reals. *)
From Coq Require Import Bool List Arith Lia ZArith QArith Reals Lra.
From Verif Require Import Num NumLaws Py Series Masks DtwModel Spec SpecDtw DpProofs DtwProofs DtwThms
  LimitedThms MaskThms RList PathSum RealSeries PaaModel PaaThms CdistThms PropCtw PreModel PropScale PropResample
  GakModel SoftModel Dataset BaryModel BaryThms.
Import ListNotations.
Local Open Scope R_scope.

Lemma mapM_ok {A B} (f : A -> res B) (g : A -> B) l : (forall x, In x l -> f x = Ok (g x)) -> mapM f l = Ok (map g l).
Proof.
  induction l as [|x l IH]; intros H; simpl; auto. rewrite H by (simpl; auto). simpl. rewrite IH by (intros; apply H; simpl; auto). reflexivity.
Qed.
Lemma mapM_map' {A B C} (f : A -> B) (g : B -> res C) l : mapM g (map f l) = mapM (fun x => g (f x)) l.
Proof. induction l as [|x l IH]; simpl; auto. rewrite IH. reflexivity. Qed.
Lemma combine_map {A B C D} (f : A -> C) (g : B -> D) la lb : combine (map f la) (map g lb) = map (fun p => (f (fst p), g (snd p))) (combine la lb).
Proof. revert lb. induction la as [|a la IH]; intros [|b lb]; simpl; auto. f_equal. apply IH. Qed.
Lemma strip_pad_to d m x : real_series d x -> strip (pad_to d m x) = lift x.
Proof. intros H. unfold strip, to_time_series. simpl reshape. rewrite (ts_size_pad_to d) by auto. apply firstn_pad_to. Qed.

Definition wcost (vs w : list R) : R := rsum (map (fun p => fst p * snd p) (combine vs w)).

Section Data.
Variables (d M : nat) (xs : list (list (list R))) (w : list R).
Hypothesis Hx : forall x, In x xs -> real_series d x.
Hypothesis Hne : xs <> [].
Hypothesis Hlw : length w = length xs.
Hypothesis Hw : forall a, In a w -> 0 < a.
Let X := map (pad_to d M) xs.

Lemma w_pos : 0 < rsum w.
Proof. clear Hx X. apply rsum_pos; auto. destruct w; [|discriminate]. destruct xs; [congruence|discriminate]. Qed.
Lemma arr_d_pad : arr_d X = d.
Proof.
  unfold X. destruct xs as [|x xs']; [congruence|]. unfold arr_d. simpl.
  destruct (Hx x (or_introl eq_refl)) as (_ & Hs & R). destruct x as [|r x]; [congruence|]. unfold pad_to, ncols. simpl.
  etransitivity; [apply map_length|]. apply R. simpl. auto.
Qed.

(** *** assignment *)
Lemma assign_list (f : list (list R) -> res (list cell * xr)) (P : list (list R) -> list cell -> R -> Prop) :
  (forall x, In x xs -> exists p v, f x = Ok (p, XR (sqrt v)) /\ 0 <= v /\ P x p v) ->
  exists pvs, mapM f xs = Ok (map (fun pv => (fst pv, XR (sqrt (snd pv)))) pvs) /\
    Forall2 (fun x pv => 0 <= snd pv /\ P x (fst pv) (snd pv)) xs pvs.
Proof.
  clear. induction xs as [|x l IH]; intros H.
  - exists []. split; auto.
  - destruct (H x (or_introl eq_refl)) as (p & v & E & Hv & HP). destruct IH as (pvs & E2 & F); [intros; apply H; simpl; auto|].
    exists ((p, v) :: pvs). split; [|constructor; auto]. simpl. rewrite E. simpl. rewrite E2. reflexivity.
Qed.
Lemma weighted_cost_real pvs : (forall pv, In pv pvs -> 0 <= snd pv) -> length pvs = length w ->
  weighted_cost (map (fun pv : list cell * R => (fst pv, XR (sqrt (snd pv)))) pvs) (map XR w) = XR (wcost (map snd pvs) w / rsum w).
Proof.
  intros Hv Hl. unfold weighted_cost. rewrite combine_map, map_map, xsum_reals.
  rewrite (map_ext_in _ (fun p : (list cell * R) * R => XR (snd (fst p) * snd p))).
  - rewrite <- (map_map (fun p : (list cell * R) * R => snd (fst p) * snd p) XR), xsum_reals.
    rewrite xdiv_real by (pose proof w_pos; lra). do 2 f_equal. unfold wcost.
    replace (combine (map snd pvs) w) with (map (fun p : (list cell * R) * R => (snd (fst p), snd p)) (combine pvs w)).
    + rewrite map_map. reflexivity.
    + rewrite <- (map_id w) at 2. rewrite combine_map. reflexivity.
  - intros [pv a] Hp. apply in_combine_l in Hp. simpl. f_equal. rewrite sqrt_sqrt by auto. reflexivity.
Qed.

(** *** observations *)
Definition obs_of (p : list cell) (a : R) (x : list (list R)) : list obs := map (fun c => (fst c, (a, nth (snd c) x []))) p.
Definition entries (ps : list (list cell)) : list obs :=
  concat (map (fun t => obs_of (fst (fst t)) (snd (fst t)) (snd t)) (combine (combine ps w) xs)).

Lemma total_entries b ps : length ps = length xs -> total b (entries ps) = wcost (map (fun px => cost (costs b (snd px)) (fst px)) (combine ps xs)) w.
Proof.
  clear Hx Hne Hw X. intros Hp. unfold entries, wcost. revert ps w Hlw Hp. induction xs as [|x l IH]; intros [|p ps] [|a w'] Hlw Hp; simpl in *; try discriminate; auto.
  unfold total in *. rewrite map_app, rsum_app. f_equal; [|apply IH; lia].
  unfold obs_of. rewrite map_map. simpl. unfold cost. rewrite rsum_map_scal. unfold costs. rewrite Rmult_comm. reflexivity.
Qed.
Lemma concat_filter {A} (f : A -> bool) l : filter f (concat l) = concat (map (filter f) l).
Proof. induction l as [|a l IH]; simpl; auto. rewrite filter_app, IH. reflexivity. Qed.
Lemma wsum_concat {A} (g : A -> list obs) t l : wsum (at_step t (concat (map g l))) = rsum (map (fun a => wsum (at_step t (g a))) l).
Proof.
  unfold at_step. rewrite concat_filter, map_map. unfold wsum. rewrite concat_map, map_map, rsum_concat, map_map. reflexivity.
Qed.
Lemma wxsum_concat {A} (g : A -> list obs) k t l : wxsum k (at_step t (concat (map g l))) = rsum (map (fun a => wxsum k (at_step t (g a))) l).
Proof.
  unfold at_step. rewrite concat_filter, map_map. unfold wxsum. rewrite concat_map, map_map, rsum_concat, map_map. reflexivity.
Qed.
Lemma at_step_obs t p a x : at_step t (obs_of p a x) = obs_of (filter (fun c => (fst c =? t)%nat) p) a x.
Proof.
  unfold at_step, obs_of. induction p as [|c p IH]; simpl; auto. destruct (fst c =? t)%nat; simpl; rewrite IH; reflexivity.
Qed.

(** *** the update *)
Variables (n : nat) (ok : nat -> nat -> nat -> bool) (ps : list (list cell)).
Hypothesis Hn : (0 < n)%nat.
Hypothesis Hps : Forall2 (fun p x => warping_path n (length x) (ok (length x)) p) ps xs.

Lemma ps_len : length ps = length xs. Proof. eapply Forall2_len; eauto. Qed.
Lemma path_ok p a x : In ((p, a), x) (combine (combine ps w) xs) -> In x xs /\ 0 < a /\ warping_path n (length x) (ok (length x)) p.
Proof.
  intros H. split; [eapply in_combine_r; eauto|]. split; [apply in_combine_l, in_combine_r in H; auto|].
  clear Hx Hne Hw X. revert w Hlw H. induction Hps as [|p0 x0 ps' xs' H0 H1 IH]; intros [|a0 w'] Hl H; simpl in *; try contradiction; try discriminate.
  destruct H as [E|H]; [injection E as -> -> ->; auto|]. apply (IH H1 w'); auto.
Qed.
Lemma entries_ok e : In e (entries ps) -> (fst e < n)%nat /\ length (snd (snd e)) = d /\ 0 < fst (snd e).
Proof.
  intros H. apply in_concat in H. destruct H as (l & H & He). apply in_map_iff in H. destruct H as ([[p a] x] & <- & H).
  destruct (path_ok p a x H) as (Hxs & Ha & Hp). simpl in He. apply in_map_iff in He. destruct He as ([i j] & <- & Hc). simpl.
  destruct (wpath_bounds _ _ _ _ Hn (real_len d x (Hx x Hxs)) Hp i j Hc) as [Hi Hj]. split; auto. split; auto.
  destruct (Hx x Hxs) as (_ & _ & R). apply R. apply nth_In. auto.
Qed.
Lemma entries_pos t : (t < n)%nat -> 0 < wsum (at_step t (entries ps)).
Proof.
  intros Ht. assert (NE : at_step t (entries ps) <> []).
  { assert (T : exists p a x, In ((p, a), x) (combine (combine ps w) xs)).
    { pose proof ps_len as Lp. clear -Hne Lp Hlw. destruct xs as [|x xs'], ps as [|p ps'], w as [|a w']; try congruence; try discriminate.
      exists p, a, x. left. reflexivity. }
    destruct T as (p & a & x & HT). destruct (path_ok p a x HT) as (Hxs & _ & Hp).
    destruct (wpath_cover _ _ _ _ Hn (real_len d x (Hx x Hxs)) Hp) as (C & _ & _).
    destruct (C t Ht) as (u & Hu). intros K. assert (I : In (t, (a, nth u x [])) (at_step t (entries ps))).
    { apply filter_In. split; [|simpl; apply Nat.eqb_refl]. unfold entries. apply in_concat. eexists. split.
      - apply in_map_iff. eexists. split; [|exact HT]. reflexivity.
      - simpl. apply in_map_iff. exists (t, u). auto. }
    rewrite K in I. contradiction. }
  unfold wsum. apply rsum_pos; [destruct (at_step t (entries ps)); [congruence|discriminate]|].
  intros v Hv. apply in_map_iff in Hv. destruct Hv as (e & <- & He). apply filter_In in He. apply entries_ok. apply He.
Qed.
Lemma path_width_ok p x : In x xs -> warping_path n (length x) (ok (length x)) p -> path_width p = length x.
Proof.
  intros Hxs (F & La & _). unfold path_width. unfold last_is in La.
  assert (E : last p (0, 0)%nat = (n - 1, length x - 1)%nat).
  { destruct (exists_last (l := p)) as (q & c & Ep); [intros ->; discriminate|]. subst p. rewrite last_last.
    rewrite app_length in La. simpl in La. replace (length q + 1 - 1)%nat with (length q) in La by lia.
    rewrite nth_error_app2, Nat.sub_diag in La by lia. simpl in La. congruence. }
  unfold cell in *. rewrite E. simpl. pose proof (real_len d x (Hx x Hxs)). lia.
Qed.
Lemma on_path_ind p i j : on_path p i j = XR (ind p i j).
Proof. unfold on_path, ind. destruct (existsb _ p); reflexivity. Qed.
Lemma filt_sum p x i (f : nat -> R) : In x xs -> warping_path n (length x) (ok (length x)) p ->
  rsum (map (fun j => ind p i j * f j) (seq 0 (length x))) = rsum (map (fun c => f (snd c)) (filter (fun c => (fst c =? i)%nat) p)).
Proof.
  intros Hxs Hp. pose proof (real_len d x (Hx x Hxs)) as L. destruct (wpath_cover _ _ _ _ Hn L Hp) as (_ & _ & ND).
  apply path_row_sum; auto. intros [a b] Hc. simpl. apply (wpath_bounds _ _ _ _ Hn L Hp a b Hc).
Qed.
Lemma valence_real p a x i : In x xs -> warping_path n (length x) (ok (length x)) p ->
  valence p (XR a) i = XR (wsum (at_step i (obs_of p a x))).
Proof.
  intros Hxs Hp. unfold valence. rewrite (path_width_ok p x) by auto.
  rewrite (map_ext _ (fun j => XR (ind p i j * 1))) by (intros; rewrite on_path_ind; f_equal; lra).
  rewrite <- (map_map (fun j => ind p i j * 1) XR), xsum_reals. rewrite filt_sum by auto. rewrite at_step_obs. simpl. f_equal.
  unfold wsum, obs_of. rewrite map_map. simpl. rewrite !rsum_const. ring.
Qed.
Lemma warped_real p a x : In x xs -> warping_path n (length x) (ok (length x)) p ->
  exists f, warped d p (XR a) (lift x) = Ok f /\ forall i k, (k < d)%nat -> f i k = XR (wxsum k (at_step i (obs_of p a x))).
Proof.
  intros Hxs Hp. unfold warped. rewrite (path_width_ok p x) by auto. rewrite lift_length, Nat.eqb_refl. eexists. split; [reflexivity|].
  intros i k Hk. cbv beta.
  rewrite (map_ext_in _ (fun j => XR (ind p i j * (a * nth k (nth j x []) 0)))).
  - rewrite <- (map_map (fun j => ind p i j * (a * nth k (nth j x []) 0)) XR), xsum_reals. rewrite filt_sum by auto. f_equal.
    rewrite at_step_obs. unfold wxsum, obs_of. rewrite map_map. reflexivity.
  - intros j Hj. apply in_seq in Hj. unfold warping. rewrite on_path_ind. pose proof (lift_nth x j) as E. norm. rewrite E.
    rewrite nth_XR; [simpl; f_equal; ring|]. destruct (Hx x Hxs) as (_ & _ & R). rewrite R; auto. apply nth_In. lia.
Qed.
Lemma wsum_obs i p a x : wsum (at_step i (obs_of p a x)) = a * INR (length (filter (fun c => (fst c =? i)%nat) p)).
Proof.
  rewrite at_step_obs. unfold wsum, obs_of. rewrite map_map. simpl.
  transitivity (INR (length (filter (fun c : cell => (fst c =? i)%nat) p)) * a); [apply rsum_const|apply Rmult_comm].
Qed.
Lemma combine_ext_r {A B} (l : list A) (l' : list B) y : length l = length l' -> In y l -> exists x, In (y, x) (combine l l').
Proof.
  revert l'. induction l as [|z l IH]; intros [|x l'] L H; simpl in *; try discriminate; try contradiction.
  destruct H as [->|H]; [eexists; left; reflexivity|]. destruct (IH l' ltac:(lia) H) as (x' & Hx'). eauto.
Qed.
Lemma combine_fst {A B C} (f : A -> C) (l : list A) (l' : list B) : length l = length l' -> map (fun t => f (fst t)) (combine l l') = map f l.
Proof. revert l'. induction l as [|z l IH]; intros [|x l'] L; simpl in *; try discriminate; auto. f_equal. apply IH. lia. Qed.
Lemma pw_len : length (combine ps w) = length xs.
Proof. rewrite combine_length, ps_len. lia. Qed.
Lemma mm_update_real : mm_update X ps n (map XR w) = Ok (lift (mean_bary n d (entries ps))).
Proof.
  unfold mm_update. rewrite arr_d_pad. set (diag := map _ (seq 0 n)).
  assert (ED : forall i, (i < n)%nat -> nth i diag XNaN = XR (wsum (at_step i (entries ps)))).
  { intros i Hi. unfold diag. rewrite map_seq_nth by auto. simpl plus.
    rewrite <- (map_id ps), (combine_map (fun x => x) XR), map_map, map_id.
    rewrite (map_ext_in _ (fun pw => XR (snd pw * INR (length (filter (fun c : cell => (fst c =? i)%nat) (fst pw)))))).
    - rewrite <- (map_map (fun pw => snd pw * INR (length (filter (fun c : cell => (fst c =? i)%nat) (fst pw)))) XR), xsum_reals. f_equal.
      unfold entries. rewrite wsum_concat. rewrite <- (combine_fst _ _ xs pw_len). apply rsum_map_ext. intros t _. rewrite wsum_obs. reflexivity.
    - intros [p a] Hp. simpl. destruct (combine_ext_r _ xs _ pw_len Hp) as (x & Hi2).
      destruct (path_ok p a x Hi2) as (Hxs & _ & Hpw). rewrite (valence_real p a x) by auto. f_equal. apply wsum_obs. }
  assert (EW : exists ws, mapM (fun pwx => warped d (fst (fst pwx)) (snd (fst pwx)) (strip (snd pwx))) (combine (combine ps (map XR w)) X) = Ok ws /\
     forall i k, (k < d)%nat -> map (fun m : nat -> nat -> xr => m i k) ws =
       map (fun t => XR (wxsum k (at_step i (obs_of (fst (fst t)) (snd (fst t)) (snd t))))) (combine (combine ps w) xs)).
  { assert (T : forall t, In t (combine (combine ps w) xs) -> exists f, warped d (fst (fst t)) (XR (snd (fst t))) (lift (snd t)) = Ok f /\
       forall i k, (k < d)%nat -> f i k = XR (wxsum k (at_step i (obs_of (fst (fst t)) (snd (fst t)) (snd t))))).
    { intros [[p a] x] Ht. destruct (path_ok p a x Ht) as (Hxs & _ & Hp). simpl. apply warped_real; auto. }
    assert (TX : forall t, In t (combine (combine ps w) xs) -> real_series d (snd t)).
    { intros [[p a] x] Ht. apply Hx. eapply in_combine_r; eauto. }
    unfold X. replace (combine (combine ps (map XR w)) (map (pad_to d M) xs)) with
      (map (fun t : (list cell * R) * list (list R) => ((fst (fst t), XR (snd (fst t))), pad_to d M (snd t))) (combine (combine ps w) xs)).
    2: { rewrite <- (map_id ps) at 2. rewrite (combine_map (fun x => x) XR), combine_map. reflexivity. }
    rewrite mapM_map'. revert T TX. generalize (combine (combine ps w) xs). induction l as [|t l IH]; intros T TX.
    - exists []. split; auto. 
    - destruct (T t (or_introl eq_refl)) as (f & Ef & Hf). destruct IH as (ws & Ew & Hws); [intros; apply T; simpl; auto|intros; apply TX; simpl; auto|].
      exists (f :: ws). split.
      + cbn [mapM]. cbn [fst snd] in *. rewrite (strip_pad_to d) by (apply TX; simpl; auto). rewrite Ef. cbn [bind]. rewrite Ew. reflexivity.
      + intros i k Hk. cbn [map]. rewrite Hf, Hws by auto. reflexivity. }
  destruct EW as (ws & EW & HW0). refine (eq_trans (f_equal (fun r => bind r _) EW) _). cbn [bind].
  assert (HW : forall i k, (k < d)%nat -> xsum (map (fun m : nat -> nat -> xr => m i k) ws) = XR (wxsum k (at_step i (entries ps)))).
  { intros i k Hk. rewrite HW0 by auto.
    rewrite <- (map_map (fun t => wxsum k (at_step i (obs_of (fst (fst t)) (snd (fst t)) (snd t)))) XR), xsum_reals.
    unfold entries. rewrite wxsum_concat. reflexivity. }
  apply (f_equal (@Ok (list (list xr)))). unfold lift, mean_bary. rewrite map_map. apply map_ext_in.
  intros i Hi. apply in_seq in Hi. rewrite map_map. apply map_ext_in. intros k Hk. apply in_seq in Hk.
  rewrite (map_ext_in _ (fun s => XR ((if (i =? s)%nat then 1 else 0) * (wxsum k (at_step s (entries ps)) / wsum (at_step s (entries ps)))))).
  - rewrite <- (map_map (fun s => (if (i =? s)%nat then 1 else 0) * (wxsum k (at_step s (entries ps)) / wsum (at_step s (entries ps)))) XR), xsum_reals.
    rewrite rsum_single by lia. reflexivity.
  - intros s Hs. apply in_seq in Hs. rewrite HW by lia. rewrite ED by lia. rewrite xdiv_real by (pose proof (entries_pos s ltac:(lia)); lra).
    rewrite (Nat.eqb_sym i s). destruct (s =? i)%nat; simpl; f_equal; [field; pose proof (entries_pos s ltac:(lia)); lra|ring].
Qed.

(** *** Petitjean's update: the same mean, from paths in the other direction *)
Definition assigned (qs : list (list cell)) (t : nat) : list (nat * nat) :=
  concat (map (fun i => map (fun c => (i, fst c)) (filter (fun c : cell => (snd c =? t)%nat) (nth i qs []))) (seq 0 (length qs))).
Lemma filter_swap t q : filter (fun c : cell => (fst c =? t)%nat) (map swap q) = map swap (filter (fun c : cell => (snd c =? t)%nat) q).
Proof. induction q as [|c q IH]; simpl; auto. destruct (snd c =? t)%nat; simpl; rewrite IH; reflexivity. Qed.
Lemma entries_index : entries ps = concat (map (fun i => obs_of (nth i ps []) (nth i w 0) (nth i xs [])) (seq 0 (length xs))).
Proof.
  unfold entries. f_equal. pose proof ps_len as L. pose proof pw_len as L2.
  rewrite (map_nth_seq _ (combine (combine ps w) xs) (([], 0), [])). rewrite combine_length, L2, Nat.min_id.
  apply map_ext_in. intros i Hi. apply in_seq in Hi. rewrite combine_nth by auto. rewrite combine_nth by lia. reflexivity.
Qed.
Variable qs : list (list cell).
Hypothesis Hqs : ps = map (map swap) qs.
Lemma nth_ps i : nth i ps [] = map swap (nth i qs []).
Proof. rewrite Hqs. change (@nil cell) with (map swap []) at 1. apply map_nth. Qed.
Lemma qs_len : length qs = length xs.
Proof. pose proof ps_len as L. rewrite Hqs, map_length in L. auto. Qed.
Lemma at_step_assigned t : at_step t (entries ps) =
  map (fun a => (t, (nth (fst a) w 0, nth (snd a) (nth (fst a) xs []) []))) (assigned qs t).
Proof.
  rewrite entries_index. unfold at_step, assigned. rewrite concat_filter, map_map, concat_map, map_map, qs_len. f_equal. apply map_ext.
  intros i. rewrite map_map. cbn [fst snd]. refine (eq_trans (at_step_obs t _ _ _) _). rewrite nth_ps, filter_swap.
  unfold obs_of. rewrite map_map. apply map_ext_in. intros c Hc. apply filter_In in Hc. destruct Hc as [_ Hc]. apply Nat.eqb_eq in Hc.
  unfold swap. simpl. rewrite Hc. reflexivity.
Qed.
Lemma assigned_ok t a : In a (assigned qs t) -> (fst a < length xs)%nat /\ (snd a < length (nth (fst a) xs []))%nat.
Proof.
  intros H. apply in_concat in H. destruct H as (l & Hl & Ha). apply in_map_iff in Hl. destruct Hl as (i & <- & Hi). apply in_seq in Hi.
  rewrite qs_len in Hi. apply in_map_iff in Ha. destruct Ha as (c & <- & Hc). simpl. split; [lia|]. apply filter_In in Hc.
  assert (HP : In ((nth i ps [], nth i w 0), nth i xs []) (combine (combine ps w) xs)).
  { pose proof ps_len. pose proof pw_len as L2. replace (nth i ps [], nth i w 0) with (nth i (combine ps w) ([], 0)) by (apply combine_nth; lia).
    rewrite <- combine_nth by auto. apply nth_In. rewrite combine_length, L2. lia. }
  destruct (path_ok _ _ _ HP) as (Hxs & _ & Hp). rewrite nth_ps in Hp.
  assert (K : In (swap c) (map swap (nth i qs []))) by (apply in_map; apply Hc). destruct c as [u v]. unfold swap in K at 1. simpl in K.
  apply (wpath_bounds _ _ _ _ Hn (real_len d _ (Hx _ Hxs)) Hp v u K).
Qed.
Lemma pj_update_real : petitjean_update X (assigned qs) n (map XR w) = Ok (lift (mean_bary n d (entries ps))).
Proof.
  unfold petitjean_update, mean_bary, lift. rewrite map_map. apply mapM_ok. intros t Ht. apply in_seq in Ht. rewrite arr_d_pad.
  unfold average_rows.
  assert (EW : map (fun a => nth (fst a) (map XR w) XNaN) (assigned qs t) = map XR (map (fun a => nth (fst a) w 0) (assigned qs t))).
  { rewrite map_map. apply map_ext_in. intros a Ha. apply assigned_ok in Ha. apply nth_XR. lia. }
  assert (ER : map (fun a => nth (snd a) (nth (fst a) X []) []) (assigned qs t) = map (fun a => map XR (nth (snd a) (nth (fst a) xs []) [])) (assigned qs t)).
  { apply map_ext_in. intros a Ha. apply assigned_ok in Ha. destruct Ha as [H1 H2]. unfold X.
    rewrite (nth_indep _ [] (pad_to d M [])) by (rewrite map_length; auto). rewrite map_nth. unfold pad_to.
    rewrite app_nth1 by (rewrite lift_length; auto). apply lift_nth. }
  norm. rewrite EW, ER. rewrite xsum_reals.
  assert (WS : rsum (map (fun a => nth (fst a) w 0) (assigned qs t)) = wsum (at_step t (entries ps))).
  { rewrite at_step_assigned. unfold wsum. rewrite map_map. reflexivity. }
  rewrite WS. pose proof (entries_pos t ltac:(lia)) as HP.
  assert (EZ : is_xzero (XR (wsum (at_step t (entries ps)))) = false).
  { unfold is_xzero, is_zero. destruct (Req_EM_T (wsum (at_step t (entries ps))) 0); [lra|reflexivity]. }
  rewrite EZ. f_equal. rewrite (map_map (fun k => wxsum k (at_step t (entries ps)) / wsum (at_step t (entries ps))) XR (seq 0 d)). apply map_ext_in. intros k Hk. apply in_seq in Hk.
  rewrite map_map, combine_map_same, map_map. cbn [fst snd].
  rewrite (map_ext_in _ (fun a => XR (nth (fst a) w 0 * nth k (nth (snd a) (nth (fst a) xs []) []) 0))).
  - rewrite <- (map_map (fun a => nth (fst a) w 0 * nth k (nth (snd a) (nth (fst a) xs []) []) 0) XR), xsum_reals.
    rewrite xdiv_real by lra. do 2 f_equal. rewrite at_step_assigned. unfold wxsum. rewrite map_map. reflexivity.
  - intros a Ha. apply assigned_ok in Ha. destruct Ha as [H1 H2]. rewrite nth_XR; [simpl; f_equal; ring|].
    destruct (Hx (nth (fst a) xs [])) as (_ & _ & Rw); [apply nth_In; auto|]. rewrite Rw; [lia|]. apply nth_In. auto.
Qed.
End Data.

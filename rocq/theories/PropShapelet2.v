(** C106: LearningShapelets.transform and locate, from the series given to the result. *)
From Coq Require Import Bool List Arith ZArith Reals Lia Lra.
From Verif Require Import Num NumLaws Py Series Dataset RList SoftModel GakModel PaaModel PreModel KernelModel RealSeries DtwProofs DtwThms CdistThms ValidThms PropCdist PropSoftCdist PropKernel2 PropScale ShapeletModel PropShapelet.
Import ListNotations.
Local Open Scope R_scope.

(** ** Specification *)
(** the mean squared distances of shapelet [s] to the windows of [ts], in order of time *)
Definition window_dists (L d : nat) (ts s : list (list R)) : list R := map (fun t => mean_sq_dist L d (window L t ts) s) (seq 0 (length ts - L + 1)).
(** the least element of a list; the first place where it is attained *)
Definition least (l : list R) (v : R) : Prop := In v l /\ forall x, In x l -> v <= x.
Definition first_place (l : list R) (i : nat) : Prop := (i < length l)%nat /\ forall j, (j < length l)%nat -> nth i l 0 <= nth j l 0 /\ ((j < i)%nat -> nth i l 0 < nth j l 0).
(** a layer that computes the distances (C70): one feature or one shapelet *)
Definition good_layer (d : nat) (ly : layer) : Prop :=
  (1 <= ly_len ly)%nat /\ (forall s, In s (ly_kernel ly) -> shape2 (ly_len ly) d s) /\ (d = 1%nat \/ length (ly_kernel ly) = 1%nat).
(** the columns of the result: shapelets with their lengths *)
Definition shapelets (layers : list layer) : list (nat * list (list R)) := concat (map (fun ly => map (pair (ly_len ly)) (ly_kernel ly)) layers).

(** the series after the optional scaling: every feature of every series is mapped to [0, 1], a constant one to 0 *)
Definition feature (k : nat) (ts : list (list R)) : list R := map (fun r => nth k r 0) ts.
Definition unit_scale (c : list R) (v : R) : R := (v - rmin c) / (if Req_EM_T (rmax c) (rmin c) then 1 else rmax c - rmin c).
Definition scaled (d : nat) (ts : list (list R)) : list (list R) := map (fun r => map (fun k => unit_scale (feature k ts) (nth k r 0)) (seq 0 d)) ts.
Definition normalised (h : ls_hyper) (d : nat) (ts : list (list R)) : list (list R) := if ls_scale h then scaled d ts else ts.

(** ** minima *)
Lemma least_unique l v w : least l v -> least l w -> v = w.
Proof. intros (A & B) (C & D). apply Rle_antisym; auto. Qed.
Lemma least_rmin l : l <> [] -> least l (rmin l).
Proof. intros H. split; [apply rmin_in; auto|intros; apply rmin_le; auto]. Qed.
Lemma first_place_unique l i j : first_place l i -> first_place l j -> i = j.
Proof.
  intros (A & B) (C & D). destruct (lt_eq_lt_dec i j) as [[H|H]|H]; auto; exfalso.
  - destruct (B j C) as (P & _). destruct (D i A) as (_ & Q). specialize (Q H). lra.
  - destruct (D i A) as (P & _). destruct (B j C) as (_ & Q). specialize (Q H). lra.
Qed.
Lemma first_place_rargmin l : l <> [] -> first_place l (rargmin l).
Proof. intros H. apply rargmin_spec. auto. Qed.
(** values at the end that are no smaller do not matter *)
Lemma least_app l r v : least l v -> (forall x, In x r -> v <= x) -> least (l ++ r) v.
Proof. intros (A & B) C. split; [apply in_or_app; auto|]. intros x Hx. apply in_app_iff in Hx. destruct Hx; auto. Qed.
Lemma first_place_app l r i : first_place l i -> (forall x, In x r -> nth i l 0 <= x) -> first_place (l ++ r) i.
Proof.
  intros (A & B) C. split; [rewrite app_length; lia|]. intros j Hj. rewrite (app_nth1 l r 0 A). destruct (lt_dec j (length l)) as [H|H].
  - rewrite app_nth1 by auto. auto.
  - rewrite app_nth2 by lia. split; [apply C, nth_In; rewrite app_length in Hj; lia|lia].
Qed.

(** ** one padded series *)
Definition padding (d sz : nat) (ts : list (list R)) : series Xnum := lift ts ++ repeat (repeat XNaN d) (sz - length ts).
Lemma padding_rows d sz ts : (forall r, In r ts -> length r = d) -> forall r, In r (padding d sz ts) -> length r = d.
Proof.
  intros H r Hr. unfold padding in Hr. apply in_app_iff in Hr. destruct Hr as [Hr|Hr].
  - unfold lift in Hr. apply in_map_iff in Hr. destruct Hr as (x & <- & Hx). rewrite map_length. auto.
  - apply repeat_spec in Hr. subst. apply repeat_length.
Qed.
Lemma padding_length d sz ts : (length ts <= sz)%nat -> length (padding d sz ts) = sz.
Proof. intros H. unfold padding. rewrite app_length, lift_length, repeat_length. lia. Qed.
Lemma window_inside d sz ts L t : (t + L <= length ts)%nat -> window L t (padding d sz ts) = lift (window L t ts).
Proof.
  intros H. unfold window, padding. rewrite skipn_app, firstn_app, skipn_length, lift_length. replace (L - (length ts - t))%nat with 0%nat by lia. cbn [firstn]. rewrite app_nil_r. unfold lift. rewrite skipn_map, firstn_map. auto.
Qed.
Lemma valid_lift w : valid (lift w) = true.
Proof. unfold valid, lift. apply forallb_forall. intros r Hr. apply in_map_iff in Hr. destruct Hr as (x & <- & _). apply forallb_forall. intros v Hv. apply in_map_iff in Hv. destruct Hv as (y & <- & _). auto. Qed.
Lemma window_outside d sz ts L t : (0 < d)%nat -> (1 <= L)%nat -> (length ts < t + L)%nat -> (t + L <= sz)%nat -> valid (window L t (padding d sz ts)) = false.
Proof.
  intros Hd HL H H'. destruct (valid _) eqn:E; auto. exfalso. unfold valid in E. rewrite forallb_forall in E. specialize (E (repeat XNaN d)).
  assert (I : In (repeat XNaN d) (window L t (padding d sz ts))).
  { unfold window, padding. rewrite skipn_app, firstn_app, skipn_length, lift_length. apply in_or_app. right. change (carrier Xnum) with xr.
    set (n := (L - (length ts - t))%nat). assert (1 <= n)%nat by lia. set (m := (sz - length ts - (t - length ts))%nat).
    match goal with |- context [skipn ?a (repeat ?x ?b)] => replace (skipn a (repeat x b)) with (repeat x m) end.
    - assert (1 <= m)%nat by lia. clearbody n m. destruct n as [|n]; [lia|]. destruct m as [|m]; [lia|]. left. reflexivity.
    - unfold m. generalize (sz - length ts)%nat, (t - length ts)%nat. intros u. induction u as [|u IH]; intros [|b]; cbn; auto. }
  specialize (E I). destruct d; [lia|]. discriminate.
Qed.

Section BATCH.
Variables (d sz : nat) (B : list (list (list R))) (ly : layer).
Hypotheses (Hd : (0 < d)%nat) (HB : forall ts, In ts B -> real_series d ts /\ (ly_len ly <= length ts <= sz)%nat) (HG : good_layer d ly).
Let L := ly_len ly.
Let X := map (padding d sz) B.
Let dists := map (map (local_distances (ly_kernel ly) L d)) (map (patches L d) X).
Let mask := map (map valid) (map (patches L d) X).

Lemma patches_padding ts : In ts B -> patches L d (padding d sz ts) = map (fun t => window L t (padding d sz ts)) (seq 0 (sz - L + 1)).
Proof.
  intros H. destruct (HB ts H) as ((_ & _ & R) & HL). destruct HG as (G1 & _). rewrite patches_spec; rewrite ?padding_length by lia; auto; [apply padding_rows; auto|unfold L in *; lia].
Qed.
(** the values that are pooled for series [i] and shapelet [k]: the distances to the windows, then values no smaller than them *)
Lemma pooled i k : (i < length B)%nat -> (k < length (ly_kernel ly))%nat -> exists r,
  nth i (masked_by_max dists mask k) [] = window_dists L d (nth i B []) (nth k (ly_kernel ly) []) ++ r /\
  forall x y, In x (window_dists L d (nth i B []) (nth k (ly_kernel ly) [])) -> In y r -> x <= y.
Proof.
  intros Hi Hk. set (ts := nth i B []). assert (Its : In ts B) by (apply nth_In; auto). destruct (HB ts Its) as (RS & HL). destruct HG as (G1 & G2 & G3).
  set (mx := rmax (concat (concat dists))).
  assert (Ed : nth i dists [] = map (fun t => local_distances (ly_kernel ly) L d (window L t (padding d sz ts))) (seq 0 (sz - L + 1))).
  { unfold dists, X. rewrite !map_map. rewrite (nth_indep _ [] ((fun ts => map (local_distances (ly_kernel ly) L d) (patches L d (padding d sz ts))) [])) by (rewrite map_length; auto). rewrite (map_nth (fun ts => map (local_distances (ly_kernel ly) L d) (patches L d (padding d sz ts)))). fold ts. rewrite patches_padding, map_map; auto. }
  assert (Em : nth i mask [] = map (fun t => valid (window L t (padding d sz ts))) (seq 0 (sz - L + 1))).
  { unfold mask, X. rewrite !map_map. rewrite (nth_indep _ [] ((fun ts => map valid (patches L d (padding d sz ts))) [])) by (rewrite map_length; auto). rewrite (map_nth (fun ts => map valid (patches L d (padding d sz ts)))). fold ts. rewrite patches_padding, map_map; auto. }
  assert (Ei : nth i (masked_by_max dists mask k) [] = map (fun t => if valid (window L t (padding d sz ts)) then nth k (local_distances (ly_kernel ly) L d (window L t (padding d sz ts))) 0 else mx) (seq 0 (sz - L + 1))).
  { unfold masked_by_max. fold mx. assert (LL : length (combine dists mask) = length B) by (rewrite combine_length; unfold dists, mask, X; rewrite !map_length; lia).
    rewrite (nth_indep _ [] ((fun p : list (list R) * list bool => map (fun q : list R * bool => if snd q then nth k (fst q) 0%R else mx) (combine (fst p) (snd p))) ([], []))) by (rewrite map_length, LL; auto).
    rewrite (map_nth (fun p : list (list R) * list bool => map (fun q : list R * bool => if snd q then nth k (fst q) 0%R else mx) (combine (fst p) (snd p)))), combine_nth by (unfold dists, mask; rewrite !map_length; auto). cbn [fst snd]. rewrite Ed, Em.
    generalize (seq 0 (sz - L + 1)). intros l. induction l as [|t l IH]; auto. cbn [map combine]. f_equal. apply IH. }
  set (n := (length ts - L + 1)%nat). assert (Es : seq 0 (sz - L + 1) = seq 0 n ++ seq n (sz - length ts)) by (rewrite <- seq_app; f_equal; unfold n, L in *; lia).
  assert (D : forall t, In t (seq 0 n) -> nth k (local_distances (ly_kernel ly) L d (window L t (padding d sz ts))) 0 = mean_sq_dist L d (window L t ts) (nth k (ly_kernel ly) [])).
  { intros t Ht. apply in_seq in Ht. rewrite window_inside by (unfold n, L in *; lia). apply C70_distance_partial; auto. apply shape2_window; [apply RS|unfold n, L in *; lia]. }
  rewrite Ei, Es, map_app. exists (map (fun _ => mx) (seq n (sz - length ts))). split.
  - f_equal.
    + unfold window_dists. fold n. apply map_ext_in. intros t Ht. rewrite D by auto. apply in_seq in Ht. rewrite window_inside by (unfold n, L in *; lia). rewrite valid_lift. auto.
    + apply map_ext_in. intros t Ht. apply in_seq in Ht. rewrite window_outside; auto; unfold n, L in *; lia.
  - intros x y Hx Hy. apply in_map_iff in Hy. destruct Hy as (_ & <- & _). unfold window_dists in Hx. fold n in Hx. apply in_map_iff in Hx. destruct Hx as (t & <- & Ht). rewrite <- D by auto. apply rmax_ge. apply in_concat. exists (local_distances (ly_kernel ly) L d (window L t (padding d sz ts))). split; [|apply nth_In; rewrite distances_len; auto].
    apply in_concat. exists (nth i dists []). split; [apply nth_In; unfold dists, X; rewrite !map_length; auto|]. rewrite Ed. apply in_map_iff. exists t. split; auto. rewrite Es. apply in_or_app. auto.
Qed.
Lemma dists_ne ts s : In ts B -> window_dists L d ts s <> [].
Proof. intros H E. apply (f_equal (@length R)) in E. unfold window_dists in E. rewrite map_length, seq_length in E. cbn in E. lia. Qed.
Lemma layer_result {A} (f : list R -> A) : (forall l r, l <> [] -> (forall x y, In x l -> In y r -> x <= y) -> f (l ++ r) = f l) ->
  run_layer (pool f) d X ly = map (fun ts => map (fun s => f (window_dists L d ts s)) (ly_kernel ly)) B.
Proof.
  intros Hf. unfold run_layer. fold L dists mask. unfold pool. 
  assert (LD : length dists = length B) by (unfold dists, X; rewrite !map_length; auto). rewrite LD.
  apply nth_ext with (d := []) (d' := []); rewrite !map_length, seq_length; auto. intros i Hi. rewrite nth_map_seq by auto.
  rewrite (nth_indep (map _ B) [] ((fun ts => map (fun s => f (window_dists L d ts s)) (ly_kernel ly)) [])) by (rewrite map_length; auto). rewrite (map_nth (fun ts => map (fun s => f (window_dists L d ts s)) (ly_kernel ly))).
  apply nth_ext with (d := f []) (d' := f []); rewrite !map_length, seq_length; auto. intros k Hk. rewrite nth_map_seq by auto. destruct (pooled i k Hi Hk) as (r & -> & Hr). rewrite Hf; auto; [|apply dists_ne, nth_In; auto].
  rewrite (nth_indep _ _ (f (window_dists L d (nth i B []) []))) by (rewrite map_length; auto). rewrite (map_nth (fun s => f (window_dists L d (nth i B []) s))). auto.
Qed.
End BATCH.
Lemma rmin_app l r : l <> [] -> (forall x y, In x l -> In y r -> x <= y) -> rmin (l ++ r) = rmin l.
Proof.
  intros N H. assert (N' : l ++ r <> []) by (destruct l; [congruence|discriminate]). apply (least_unique (l ++ r)); [apply least_rmin; auto|]. apply least_app; [apply least_rmin; auto|]. intros x Hx. apply H; auto. apply rmin_in. auto.
Qed.
Lemma rargmin_app l r : l <> [] -> (forall x y, In x l -> In y r -> x <= y) -> rargmin (l ++ r) = rargmin l.
Proof.
  intros N H. assert (N' : l ++ r <> []) by (destruct l; [congruence|discriminate]). apply (first_place_unique (l ++ r)); [apply first_place_rargmin; auto|]. apply first_place_app; [apply first_place_rargmin; auto|]. intros x Hx. apply H; auto. apply nth_In. apply first_place_rargmin. auto.
Qed.

(** ** batches *)
Lemma chunks_concat {A} bs (l : list A) n : (length l <= n * bs)%nat -> concat (rows_of bs n l) = l.
Proof.
  revert l. unfold rows_of. induction n as [|n IH]; intros l H; [destruct l; [auto|cbn in H; lia]|]. cbn [seq map concat]. rewrite <- seq_shift, map_map. cbn [Nat.mul skipn].
  rewrite (map_ext _ (fun i => firstn bs (skipn (i * bs) (skipn bs l)))).
  - rewrite IH by (rewrite skipn_length; lia). apply firstn_skipn.
  - intros i. f_equal. clear. revert l. generalize (i * bs)%nat. induction bs as [|b IHb]; intros a l; auto. cbn [Nat.add]. destruct l; [rewrite !skipn_nil; auto|]. cbn [skipn]. rewrite <- IHb. auto.
Qed.
Lemma in_batches_map {A B} bs (f : list A -> list B) (g : A -> B) l : (1 <= bs)%nat -> (forall c, (forall x, In x c -> In x l) -> f c = map g c) -> in_batches bs f l = map g l.
Proof.
  intros Hb Hf. unfold in_batches. set (n := ((length l + bs - 1) / bs)%nat). assert (Hn : (length l <= n * bs)%nat).
  { unfold n. pose proof (Nat.div_mod (length l + bs - 1) bs ltac:(lia)). pose proof (Nat.mod_upper_bound (length l + bs - 1) bs ltac:(lia)). nia. }
  rewrite <- (chunks_concat bs l n Hn) at 2. rewrite concat_map. f_equal. apply map_ext_in. intros c Hc. apply Hf. intros x Hx. rewrite <- (chunks_concat bs l n Hn). apply in_concat. eauto.
Qed.
(** ** preparation of the series *)
Lemma strip_lift d ts : real_series d ts -> to_time_series (N:=Xnum) true (Raw2 (lift ts)) = lift ts.
Proof. intros H. apply (to_time_series_finite Xnum xnn xfin Xlaws d). apply lift_finite. auto. Qed.
Lemma dataset_reals d X : (forall ts, In ts X -> real_series d ts) -> to_dataset (N:=Xnum) (reals X) = Ok (map (padding d (longest X)) X).
Proof.
  intros H. pose proof (proper_uniform _ _ _ (lift_proper d X H)) as U. fold (reals X) in U. rewrite (to_dataset_ok Xnum d (reals X) U). f_equal. rewrite (max_size_reals d) by auto. unfold reals. rewrite map_map. apply map_ext_in. intros ts Hts.
  etransitivity; [apply f_equal2; [apply (strip_lift d); auto|apply f_equal, f_equal, f_equal, (strip_lift d); auto]|]. unfold padding. rewrite lift_length. auto.
Qed.
Lemma longest_le X m : (forall ts, In ts X -> (length ts <= m)%nat) -> (longest X <= m)%nat.
Proof.
  unfold longest. intros H. assert (G : forall l a, (a <= m)%nat -> (forall x, In x l -> (x <= m)%nat) -> (fold_left Nat.max l a <= m)%nat).
  { induction l as [|y l IH]; cbn; intros a Ha Hl; auto. apply IH; auto. specialize (Hl y (or_introl eq_refl)). lia. }
  apply G; [lia|]. intros x Hx. apply in_map_iff in Hx. destruct Hx as (ts & <- & Ht). auto.
Qed.
Lemma head_shape d m X : X <> [] -> (forall ts, In ts X -> real_series d ts /\ (length ts <= m)%nat) -> arr_sz (map (padding d m) X) = m /\ arr_d (map (padding d m) X) = d.
Proof.
  intros N H. destruct X as [|ts X]; [congruence|]. destruct (H ts (or_introl eq_refl)) as (RS & L). unfold arr_sz, arr_d. cbn [map hd]. split; [apply padding_length; auto|]. unfold ncols.
  assert (R : forall r, In r (padding d m ts) -> length r = d) by (apply padding_rows, RS). pose proof (padding_length d m ts L) as E. destruct (padding d m ts) as [|r rest]; [|apply R; left; auto]. pose proof (real_len d ts RS). cbn in E. lia.
Qed.
Lemma padding_more d a m ts : (length ts <= a <= m)%nat -> padding d a ts ++ repeat (repeat XNaN d) (m - a) = padding d m ts.
Proof. intros H. unfold padding. rewrite <- app_assoc. f_equal. etransitivity; [symmetry; apply repeat_app|]. f_equal. lia. Qed.
(** *** scaling *)
Lemma mapi_seq {A B} (f : nat -> A -> B) a l : mapi f l = map (fun k => f k (nth k l a)) (seq 0 (length l)).
Proof.
  destruct l as [|x l]; auto. set (l' := x :: l). apply nth_ext with (d := f 0%nat a) (d' := f 0%nat a); [rewrite mapi_len, map_length, seq_length; auto|]. intros i Hi. rewrite mapi_len in Hi. rewrite (mapi_nth f l' i a) by auto. rewrite nth_map_seq by auto. auto.
Qed.
Lemma scaled_length d ts : length (scaled d ts) = length ts.
Proof. apply map_length. Qed.
Lemma scaled_real d ts : real_series d ts -> real_series d (scaled d ts).
Proof.
  intros (A & B & _). split; auto. split; [intros E; apply map_eq_nil in E; auto|]. intros r Hr. unfold scaled in Hr. apply in_map_iff in Hr. destruct Hr as (x & <- & _). rewrite map_length, seq_length. auto.
Qed.
Lemma normalised_real h d ts : real_series d ts -> real_series d (normalised h d ts).
Proof. unfold normalised. destruct (ls_scale h); auto. apply scaled_real. Qed.
Lemma normalised_length h d ts : length (normalised h d ts) = length ts.
Proof. unfold normalised. destruct (ls_scale h); auto. apply scaled_length. Qed.
Lemma column_padding d m ts k : (k < d)%nat -> column k (padding d m ts) = map XR (feature k ts) ++ repeat XNaN (m - length ts) \/ exists r, In r ts /\ length r <> d.
Proof.
  intros Hk. destruct (forallb (fun r => length r =? d)%nat ts) eqn:E.
  - left. rewrite forallb_forall in E. unfold column, padding, feature, lift. rewrite map_app, !map_map. f_equal.
    + apply map_ext_in. intros r Hr. specialize (E r Hr). apply Nat.eqb_eq in E. rewrite (nth_indep _ XNaN (XR 0)) by (rewrite map_length; lia). apply map_nth.
    + induction (m - length ts)%nat as [|n IH]; cbn; auto. f_equal; auto. clear. revert k. induction d; intros [|k]; cbn; auto.
  - right. clear - E. induction ts as [|r ts IH]; [discriminate|]. cbn in E. destruct (Nat.eqb_spec (length r) d).
    + cbn in E. destruct (IH E) as (x & H1 & H2). exists x. split; auto. right. auto.
    + exists r. split; auto. left. auto.
Qed.
Lemma numbers_padding l n : numbers (map XR l ++ repeat XNaN n) = l.
Proof. unfold numbers. rewrite flat_map_concat_map. induction l as [|x l IH]; cbn; [induction n; cbn; auto|]. f_equal. auto. Qed.
Lemma plain_padding l n : plain (map XR l ++ repeat XNaN n).
Proof. intros x Hx. apply in_app_iff in Hx. destruct Hx as [Hx|Hx]; [apply in_map_iff in Hx; destruct Hx as (y & <- & _); right; eauto|apply repeat_spec in Hx; left; auto]. Qed.
Definition unit_params : mm_params := {| mm_lo := 0; mm_hi := 1; mm_per_ts := true; mm_per_feat := true |}.
Lemma scale_padded d m X : X <> [] -> (forall ts, In ts X -> real_series d ts /\ (length ts <= m)%nat) ->
  (do st <- mm_fit unit_params (map (padding d m) X) ;; mm_transform unit_params st (map (padding d m) X)) = Ok (map (padding d m) (map (scaled d) X)).
Proof.
  intros N H. set (Y := map (padding d m) X). 
  assert (Sh : shape3 (length X) m d Y).
  { split; [unfold Y; apply map_length|]. intros s Hs. unfold Y in Hs. apply in_map_iff in Hs. destruct Hs as (ts & <- & Hts). destruct (H ts Hts) as (RS & L). split; [apply padding_length; auto|apply padding_rows, RS]. }
  assert (Hn : (0 < length X)%nat) by (destruct X; [congruence|cbn; lia]).
  assert (Hm : (0 < m)%nat) by (destruct X as [|ts X]; [congruence|]; destruct (H ts (or_introl eq_refl)) as (RS & L); pose proof (real_len d ts RS); lia).
  unfold mm_fit. rewrite (check_arr_shape (length X) m d Y Sh Hn Hm). cbn [bind]. unfold mm_transform. cbn [mm_hi mm_lo unit_params]. destruct (Rleb 1 0) eqn:E; [apply Rleb_true in E; lra|].
  rewrite (check_arr_shape (length X) m d Y Sh Hn Hm). cbn [bind mm_d]. unfold check_features. rewrite Nat.eqb_refl. cbn [bind mm_per_ts unit_params]. apply (f_equal (@Ok array3)).
  unfold map_entries. rewrite (mapi_seq (A:=series Xnum) _ []). rewrite (proj1 Sh). rewrite map_map. change array3 with (list (series Xnum)).
  transitivity (map (fun i => padding d m (scaled d (nth i X []))) (seq 0 (length X))).
  2: { transitivity (map (fun ts => padding d m (scaled d ts)) (map (fun i => nth i X []) (seq 0 (length X)))); [rewrite map_map; auto|]. f_equal. clear. induction X as [|x X IH]; auto. cbn [length seq map nth]. f_equal. rewrite <- seq_shift, map_map. auto. }
  apply map_ext_in. intros i Hi. apply in_seq in Hi. destruct Hi as (_ & Hi). cbn in Hi. assert (Eq : nth i Y [] = padding d m (nth i X [])).
  { unfold Y. rewrite (nth_indep _ [] (padding d m [])) by (rewrite map_length; auto). apply map_nth. }
  rewrite Eq. set (ts := nth i X []) in *. destruct (H ts ltac:(apply nth_In; auto)) as ((Hd & Hne & Hr) & L).
  assert (ST : forall k, (k < d)%nat -> mm_process unit_params Y i k = (XR (rmin (feature k ts)), XR (rmax (feature k ts)))).
  { intros k Hk. unfold mm_process, group. cbn [mm_per_ts mm_per_feat unit_params]. rewrite Eq. destruct (column_padding d m ts k Hk) as [-> |(r & Q1 & Q2)]; [|destruct Q2; auto].
    rewrite nanmin_numbers, nanmax_numbers by apply plain_padding. rewrite numbers_padding. destruct (feature k ts) eqn:F; auto. unfold feature in F. apply map_eq_nil in F. contradiction. }
  unfold padding. rewrite map_app, scaled_length. apply f_equal2.
  - unfold lift, scaled. rewrite !map_map. apply map_ext_in. intros r Hr'. rewrite (mapi_seq _ (XR 0)), map_length, (Hr r Hr'), map_map. apply map_ext_in. intros k Hk. apply in_seq in Hk. rewrite ST by lia. cbn [fst snd]. rewrite map_nth, mm_value_affine. f_equal. unfold mm_affine, unit_scale. cbn [mm_lo mm_hi unit_params].
    destruct (Req_EM_T (rmax (feature k ts) - rmin (feature k ts)) 0), (Req_EM_T (rmax (feature k ts)) (rmin (feature k ts))); try lra.
  - induction (m - length ts)%nat as [|n IHn]; cbn [repeat map]; auto. apply f_equal2; auto. rewrite (mapi_seq _ XNaN), repeat_length. clear. 
    transitivity (map (fun _ : nat => XNaN) (seq 0 d)).
    + apply map_ext. intros k. replace (nth k (repeat XNaN d) XNaN) with XNaN; [apply mm_value_nan|]. revert k. induction d; intros [|k]; cbn; auto.
    + generalize 0%nat. induction d; intros a; cbn; auto. f_equal. auto.
Qed.
Lemma prepare_reals h dims d X : X <> [] -> (forall ts, In ts X -> real_series d ts) ->
  prepare h dims (reals X) = Ok (map (padding d (Nat.max (longest X) (allowed_size h dims (longest X)))) (map (normalised h d) X)).
Proof.
  intros N H. unfold prepare. rewrite (dataset_reals d) by auto. cbn [bind]. assert (H' : forall ts, In ts X -> real_series d ts /\ (length ts <= longest X)%nat) by (intros; split; auto; apply longest_ge; auto).
  assert (E : (if ls_scale h then let p := unit_params in do st <- mm_fit p (map (padding d (longest X)) X) ;; mm_transform p st (map (padding d (longest X)) X) else Ok (map (padding d (longest X)) X)) = Ok (map (padding d (longest X)) (map (normalised h d) X))).
  { unfold normalised. destruct (ls_scale h); [apply scale_padded; auto|rewrite map_id; auto]. }
  unfold unit_params in E. rewrite E. cbn [bind]. 
  assert (H2 : forall ts, In ts (map (normalised h d) X) -> real_series d ts /\ (length ts <= longest X)%nat).
  { intros ts Hts. apply in_map_iff in Hts. destruct Hts as (x & <- & Hx). destruct (H' x Hx). split; [apply normalised_real; auto|rewrite normalised_length; auto]. }
  assert (N2 : map (normalised h d) X <> []) by (intros Q; apply map_eq_nil in Q; auto).
  destruct (head_shape d (longest X) (map (normalised h d) X) N2 H2) as (-> & ->). set (m := allowed_size h dims (longest X)). destruct (Nat.leb_spec m (longest X)) as [Q|Q].
  - rewrite Nat.max_l by lia. auto.
  - rewrite Nat.max_r by lia. apply (f_equal (@Ok array3)). rewrite map_map. apply map_ext_in. intros ts Hts. apply padding_more. destruct (H2 ts Hts). lia.
Qed.
Lemma size_padding d m ts : real_series d ts -> ts_size (N:=Xnum) (padding d m ts) = length ts.
Proof.
  intros H. unfold padding. etransitivity; [apply ts_size_pad|apply (ts_size_lift d); auto]. intros r Hr. apply repeat_spec in Hr. subst r. unfold nan_row. apply forallb_forall. intros x Hx. apply repeat_spec in Hx. subst. auto.
Qed.
Lemma strip_padding d m ts : map (map num_of) (firstn (length ts) (padding d m ts)) = ts.
Proof.
  unfold padding. rewrite <- (lift_length ts) at 1. rewrite firstn_app, firstn_all, Nat.sub_diag. cbn [firstn]. rewrite app_nil_r. unfold lift. rewrite map_map. rewrite <- (map_id ts) at 2. apply map_ext. intros r. rewrite map_map. apply map_id.
Qed.
Lemma min_le_all (l : list nat) a b : (b <= a)%nat -> (forall x, In x l -> (b <= x)%nat) -> (b <= fold_right Nat.min a l)%nat.
Proof. induction l as [|x l IH]; cbn; intros Ha Hl; auto. specialize (IH Ha ltac:(auto)). specialize (Hl x (or_introl eq_refl)). lia. Qed.
Lemma check_ok h dims d m X : X <> [] -> (forall ts, In ts X -> real_series d ts /\ (length ts <= m)%nat) -> allowed_size h dims m = m ->
  (forall sizes, ls_sizes h = Some sizes -> forall n ts, In n sizes -> In ts X -> (n <= length ts)%nat) -> check_lengths h dims (map (padding d m) X) = Ok tt.
Proof.
  intros N H HA HS. unfold check_lengths. destruct (head_shape d m X N H) as (-> & _). rewrite HA, Nat.ltb_irrefl.
  assert (Q : match ls_sizes h with Some sizes => (fold_right Nat.min (ts_size (hd [] (map (padding d m) X))) (map (ts_size (N:=Xnum)) (map (padding d m) X)) <? list_max sizes)%nat | None => false end = false).
  { destruct (ls_sizes h) as [sizes|] eqn:E; auto. apply Nat.ltb_ge. 
    assert (B : forall ts, In ts X -> (list_max sizes <= ts_size (N:=Xnum) (padding d m ts))%nat). { intros ts Hts. rewrite (size_padding d) by (apply H; auto). apply list_max_le, Forall_forall. intros n Hn. eapply HS; eauto. }
    apply min_le_all; [destruct X as [|ts X]; [congruence|]; apply B; left; auto|]. intros x Hx. rewrite map_map in Hx. apply in_map_iff in Hx. destruct Hx as (ts & <- & Hts). auto. }
  rewrite Q. auto.
Qed.

(** ** the whole *)
(** a model fitted on series of at most [m] steps and [d] features *)
Definition fitted_on (h : ls_hyper) (m d : nat) (layers : list layer) : Prop :=
  (1 <= ls_batch h)%nat /\ (ls_max_size h = None \/ ls_max_size h = Some m) /\ (ls_sizes h = None \/ ls_sizes h = Some (map ly_len layers)).
Definition long_enough (d m : nat) (layers : list layer) (X : list (list (list R))) : Prop :=
  forall ts, In ts X -> real_series d ts /\ (length ts <= m)%nat /\ forall ly, In ly layers -> (ly_len ly <= length ts)%nat.

Lemma apply_result {A} (f : list R -> A) h m d layers X : (forall l r, l <> [] -> (forall x y, In x l -> In y r -> x <= y) -> f (l ++ r) = f l) ->
  fitted_on h m d layers -> (forall ly, In ly layers -> good_layer d ly) -> X <> [] -> long_enough d m layers X ->
  apply_network (pool f) h (m, d) layers (reals X) = Ok (map (fun ts => map (fun p => f (window_dists (fst p) d (normalised h d ts) (snd p))) (shapelets layers)) X).
Proof.
  intros Hf (H2 & H3 & H4) HG N0 HX0. set (X' := map (normalised h d) X).
  assert (N : X' <> []) by (intros Q; apply map_eq_nil in Q; auto).
  assert (HX : long_enough d m layers X').
  { intros ts Hts. apply in_map_iff in Hts. destruct Hts as (x & <- & Hx). destruct (HX0 x Hx) as (A1 & A2 & A3). rewrite normalised_length. split; [apply normalised_real; auto|auto]. }
  transitivity (Ok (map (fun ts => map (fun p => f (window_dists (fst p) d ts (snd p))) (shapelets layers)) X')); [|unfold X'; rewrite map_map; auto].
  unfold apply_network. assert (AL : forall sz, allowed_size h (Some (m, d)) sz = m) by (intros sz; unfold allowed_size; destruct H3 as [-> | ->]; auto).
  rewrite (prepare_reals h (Some (m, d)) d) by (auto; intros; apply HX0; auto). rewrite AL. rewrite Nat.max_r by (apply longest_le; intros; apply HX0; auto). fold X'. clearbody X'. clear HX0 N0 X. rename X' into X. 
  assert (Hd : (0 < d)%nat) by (destruct X as [|ts X]; [congruence|]; apply (HX ts (or_introl eq_refl))).
  assert (HX' : forall ts, In ts X -> real_series d ts /\ (length ts <= m)%nat) by (intros ts Hts; destruct (HX ts Hts) as (A1 & A2 & _); auto).
  cbn [bind snd]. unfold check_features. destruct (head_shape d m X N HX') as (_ & ->). rewrite Nat.eqb_refl. cbn [bind].
  rewrite (check_ok h (Some (m, d)) d m X); auto.
  - cbn [bind]. f_equal. rewrite (in_batches_map _ _ (fun s => map (fun p => f (window_dists (fst p) d (map (map num_of) (firstn (ts_size (N:=Xnum) s) s)) (snd p))) (shapelets layers))); auto.
    + rewrite map_map. apply map_ext_in. intros ts Hts. apply map_ext. intros p. f_equal. f_equal. destruct (HX' ts Hts) as (RS & L). rewrite (size_padding d) by auto. apply strip_padding.
    + intros c Hc. assert (exists B, c = map (padding d m) B /\ forall ts, In ts B -> In ts X) as (B & -> & HB).
      { clear - Hc. induction c as [|s c IH]; [exists []; split; auto; intros ? []|]. destruct IH as (B & -> & HB); [intros; apply Hc; right; auto|]. pose proof (Hc s (or_introl eq_refl)) as I; apply in_map_iff in I; destruct I as (ts & <- & Hts); exists (ts :: B); split; auto; intros x [<-|Hx]; auto. }
      unfold run_network. rewrite map_length. apply nth_ext with (d := []) (d' := []); rewrite !map_length, ?seq_length; auto. intros i Hi. rewrite nth_map_seq by auto.
      rewrite (map_map (padding d m)). rewrite (nth_indep (map _ B) [] ((fun ts => map (fun p => f (window_dists (fst p) d (map (map num_of) (firstn (ts_size (N:=Xnum) (padding d m ts)) (padding d m ts))) (snd p))) (shapelets layers)) [])) by (rewrite map_length; auto).
      rewrite (map_nth (fun ts => map (fun p => f (window_dists (fst p) d (map (map num_of) (firstn (ts_size (N:=Xnum) (padding d m ts)) (padding d m ts))) (snd p))) (shapelets layers))).
      unfold shapelets. rewrite concat_map, map_map. f_equal. rewrite map_map. apply map_ext_in. intros ly Hly. assert (Iln : In (nth i B []) B) by (apply nth_In; auto).
      rewrite (layer_result d m B ly Hd); auto; [|intros ts Hts; destruct (HX ts (HB ts Hts)) as (A1 & A2 & A3); split; auto; split; auto].
      rewrite (nth_indep _ [] ((fun ts => map (fun s => f (window_dists (ly_len ly) d ts s)) (ly_kernel ly)) [])) by (rewrite map_length; auto). rewrite (map_nth (fun ts => map (fun s => f (window_dists (ly_len ly) d ts s)) (ly_kernel ly))). rewrite map_map. apply map_ext. intros s. cbn [fst snd]. f_equal. f_equal.
      destruct (HX' _ (HB _ Iln)) as (RS & L). set (ts := nth i B []) in *. rewrite (size_padding d) by auto. symmetry. apply strip_padding.
  - intros sizes E n ts Hn Hts. destruct H4 as [E'|E']; rewrite E in E'; [discriminate|]. injection E' as ->. apply in_map_iff in Hn. destruct Hn as (ly & <- & Hly). apply HX; auto.
Qed.

Lemma dists_ne' L d ts s : window_dists L d ts s <> [].
Proof. intros E. apply (f_equal (@length R)) in E. unfold window_dists in E. rewrite map_length, seq_length in E. cbn in E. lia. Qed.
(** C106: for every batch size, and whatever the other series are, [transform] gives for each series and each shapelet the least mean squared
    distance over the windows of the series (scaled if asked for), and [locate] gives the first window where it is attained; padding never counts.
    Missing: layers with several features and several shapelets (C70_refuted). *)
Theorem C106_transform_partial h m d layers X : fitted_on h m d layers -> (forall ly, In ly layers -> good_layer d ly) -> X <> [] -> long_enough d m layers X ->
  exists out, transform h (m, d) layers (reals X) = Ok out /\ length out = length X /\
  forall i, (i < length X)%nat -> length (nth i out []) = length (shapelets layers) /\
  forall j L s, nth_error (shapelets layers) j = Some (L, s) -> exists v, nth_error (nth i out []) j = Some v /\ least (window_dists L d (normalised h d (nth i X [])) s) v.
Proof.
  intros HF HG N HX. unfold transform, min_pooling. rewrite (apply_result rmin h m d layers X rmin_app HF HG N HX). eexists. split; [reflexivity|]. rewrite map_length. split; auto. intros i Hi.
  rewrite (nth_indep _ [] ((fun ts => map (fun p => rmin (window_dists (fst p) d (normalised h d ts) (snd p))) (shapelets layers)) [])) by (rewrite map_length; auto). rewrite (map_nth (fun ts => map (fun p => rmin (window_dists (fst p) d (normalised h d ts) (snd p))) (shapelets layers))). rewrite map_length. split; auto.
  intros j L s E. exists (rmin (window_dists L d (normalised h d (nth i X [])) s)). split; [rewrite nth_error_map, E; auto|]. apply least_rmin, dists_ne'.
Qed.
Print Assumptions C106_transform_partial.
Theorem C106_locate_partial h m d layers X : fitted_on h m d layers -> (forall ly, In ly layers -> good_layer d ly) -> X <> [] -> long_enough d m layers X ->
  exists out, locate h (m, d) layers (reals X) = Ok out /\ length out = length X /\
  forall i, (i < length X)%nat -> length (nth i out []) = length (shapelets layers) /\
  forall j L s, nth_error (shapelets layers) j = Some (L, s) -> exists t, nth_error (nth i out []) j = Some t /\ (t + L <= length (nth i X []))%nat /\ first_place (window_dists L d (normalised h d (nth i X [])) s) t.
Proof.
  intros HF HG N HX. unfold locate, argmin_pooling. rewrite (apply_result rargmin h m d layers X rargmin_app HF HG N HX). eexists. split; [reflexivity|]. rewrite map_length. split; auto. intros i Hi.
  rewrite (nth_indep _ [] ((fun ts => map (fun p => rargmin (window_dists (fst p) d (normalised h d ts) (snd p))) (shapelets layers)) [])) by (rewrite map_length; auto). rewrite (map_nth (fun ts => map (fun p => rargmin (window_dists (fst p) d (normalised h d ts) (snd p))) (shapelets layers))). rewrite map_length. split; auto.
  intros j L s E. exists (rargmin (window_dists L d (normalised h d (nth i X [])) s)). split; [rewrite nth_error_map, E; auto|]. assert (FP : first_place (window_dists L d (normalised h d (nth i X [])) s) (rargmin (window_dists L d (normalised h d (nth i X [])) s))) by apply first_place_rargmin, dists_ne'. split; auto.
  destruct FP as (FP & _). unfold window_dists in FP at 2. rewrite map_length, seq_length, normalised_length in FP. apply nth_error_In in E. unfold shapelets in E. apply in_concat in E. destruct E as (c & Hc & E). apply in_map_iff in Hc. destruct Hc as (ly & <- & Hly). apply in_map_iff in E. destruct E as (s' & E & _). injection E as <- _.
  destruct (HX (nth i X []) ltac:(apply nth_In; auto)) as (_ & _ & Q). specialize (Q ly Hly). lia.
Qed.
Print Assumptions C106_locate_partial.
(** The hypothesis that the series are long enough is needed and is not checked when the sizes were chosen automatically
    (n_shapelets_per_size=None): a shorter series gets the greatest distance of its batch, so its features depend on the other series. *)
Theorem C106_short_refuted h m a b : fitted_on h m 1 [{| ly_len := 2; ly_kernel := [[[0]; [0]]] |}] -> ls_scale h = false -> ls_sizes h = None -> (2 <= ls_batch h)%nat -> m = 2%nat -> a * a < b * b ->
  exists v w u, transform h (m, 1%nat) [{| ly_len := 2; ly_kernel := [[[0]; [0]]] |}] (reals [[[a]]]) = Ok [[v]] /\
                transform h (m, 1%nat) [{| ly_len := 2; ly_kernel := [[[0]; [0]]] |}] (reals [[[a]]; [[b]; [b]]]) = Ok [[w]; [u]] /\ v < w.
Proof.
  intros (H2 & H3 & _) H1 H4 H5 -> H6.
  assert (RS : forall ts, In ts [[[a]]; [[b]; [b]]] -> real_series 1 ts /\ (length ts <= 2)%nat).
  { intros ts [<-|[<-|[]]]; (split; [split; [lia|split; [discriminate|]]; intros r; cbn; intros [<-|Hr]; auto; try destruct Hr as [<-|[]]; auto; try contradiction|cbn; lia]). }
  assert (AL : forall sz, allowed_size h (Some (2%nat, 1%nat)) sz = 2%nat) by (intros sz; unfold allowed_size; destruct H3 as [-> | ->]; auto).
  assert (G : forall X, X <> [] -> (forall ts, In ts X -> real_series 1 ts /\ (length ts <= 2)%nat) ->
    transform h (2%nat, 1%nat) [{| ly_len := 2; ly_kernel := [[[0]; [0]]] |}] (reals X) = Ok (in_batches (ls_batch h) (run_network min_pooling 1 [{| ly_len := 2; ly_kernel := [[[0]; [0]]] |}]) (map (padding 1 2) X))).
  { intros X N HX. unfold transform, apply_network. rewrite (prepare_reals h (Some (2%nat, 1%nat)) 1) by (auto; intros; apply HX; auto). unfold normalised. rewrite H1, map_id. rewrite AL, Nat.max_r by (apply longest_le; intros; apply HX; auto). cbn [bind snd]. unfold check_features. destruct (head_shape 1 2 X N HX) as (_ & ->). cbn [Nat.eqb bind].
    rewrite (check_ok h (Some (2%nat, 1%nat)) 1 2 X); auto. rewrite H4. intros; discriminate. }
  assert (B1 : forall (f : list (series Xnum) -> list (list R)) x, in_batches (ls_batch h) f [x] = f [x] ++ []).
  { intros f x. unfold in_batches. cbn [length]. replace ((1 + ls_batch h - 1) / ls_batch h)%nat with 1%nat by (replace (1 + ls_batch h - 1)%nat with (ls_batch h) by lia; rewrite Nat.div_same; lia). unfold rows_of. cbn [seq map concat Nat.mul skipn]. rewrite firstn_all2 by (cbn; lia). auto. }
  assert (B2 : forall (f : list (series Xnum) -> list (list R)) x y, in_batches (ls_batch h) f [x; y] = f [x; y] ++ []).
  { intros f x y. unfold in_batches. cbn [length]. replace ((2 + ls_batch h - 1) / ls_batch h)%nat with 1%nat. 2: { apply Nat.div_unique with (r := 1%nat); lia. } unfold rows_of. cbn [seq map concat Nat.mul skipn]. rewrite firstn_all2 by (cbn; lia). auto. }
  do 3 eexists. rewrite !G; [|discriminate|auto|discriminate|intros ts [<-|[]]; apply RS; left; auto].
  cbn [map]. rewrite B1, B2, !app_nil_r. split; [reflexivity|]. split; [reflexivity|].
  assert (D : forall x y : xr, local_distances [[[0]; [0]]] 2 1 [[x]; [y]] = [(num_of x * num_of x + num_of y * num_of y) / 2]).
  { intros x y. unfold local_distances, rows_of, transpose102, sq, rsum. cbn. f_equal. lra. }
  assert (P : forall x y : xr, patches 2 1 [[x]; [y]] = [[[x]; [y]]]) by reflexivity.
  change (padding 1 2 [[a]]) with [[XR a]; [XNaN]]. change (padding 1 2 [[b]; [b]]) with [[XR b]; [XR b]]. cbn [map ly_kernel ly_len]. change (carrier Xnum) with xr. rewrite !P. cbn [map]. rewrite !D. cbn. unfold Rmax. destruct (Rle_dec _ _) as [Q|Q]; nra.
Qed.
Print Assumptions C106_short_refuted.
(** a non-trivial instance: two sizes, three series of different lengths *)
Example C106_instance : let layers := [{| ly_len := 2; ly_kernel := [[[0]; [1]]; [[2]; [2]]] |}; {| ly_len := 3; ly_kernel := [[[1]; [1]; [1]]] |}] in
  let h := {| ls_sizes := Some [2%nat; 3%nat]; ls_max_size := None; ls_scale := true; ls_batch := 2 |} in
  fitted_on h 5 1 layers /\ (forall ly, In ly layers -> good_layer 1 ly) /\ long_enough 1 5 layers [[[0]; [1]; [2]]; [[5]; [4]; [3]; [2]; [1]]; [[7]; [7]; [8]; [9]]].
Proof.
  cbv zeta. split; [repeat split; cbn; auto|]. split.
  - intros ly [<-|[<-|[]]]; (split; [cbn; lia|split; [|left; auto]]); cbn [ly_kernel ly_len]; intros s Hs; repeat (destruct Hs as [<-|Hs]; [split; [reflexivity|intros r Hr; repeat (destruct Hr as [<-|Hr]; [reflexivity|]); destruct Hr]|]); destruct Hs.
  - intros ts Hts. repeat (destruct Hts as [<-|Hts]; [split; [split; [lia|split; [discriminate|]]; intros r Hr; repeat (destruct Hr as [<-|Hr]; [reflexivity|]); destruct Hr|split; [cbn; lia|intros ly [<-|[<-|[]]]; cbn; lia]]|]). destruct Hts.
Qed.

(** C221: KernelKMeans under a reordering of the series. *)
From Coq Require Import Bool List Arith Lia Reals Lra Permutation.
From Verif Require Import Num NumLaws Py RList PathSum KernelModel PropKernel2.
Import ListNotations.
Local Open Scope R_scope.

(** ** Specification *)
(** entry [i] is entry [nth i o] of [l] *)
Definition rearranged {A} (o : list nat) (x : A) (l : list A) : list A := map (fun i => nth i l x) o.
(** the matrix of kernel values *)
Definition kernels {S} (kf : S -> S -> R) (X Y : list S) : list (list R) := map (fun x => map (kf x) Y) X.
Definition rearranged_run (o : list nat) (r : res best_run) : res best_run :=
  match r with Ok (Some (labels, v, it)) => Ok (Some (rearranged o 0%nat labels, v, it)) | r => r end.

(** ** lists *)
Lemma all_nth {A} (x : A) l : map (fun i => nth i l x) (seq 0 (length l)) = l.
Proof. induction l as [|y l IH]; auto. cbn [length seq map nth]. f_equal. rewrite <- seq_shift, map_map. exact IH. Qed.
Lemma rearranged_perm {A} o (x : A) l : Permutation o (seq 0 (length l)) -> Permutation (rearranged o x l) l.
Proof. intros H. rewrite <- (all_nth x l) at 2. apply Permutation_map, H. Qed.
Lemma rearranged_map {A B} (f : A -> B) o x l : map f (rearranged o x l) = rearranged o (f x) (map f l).
Proof. unfold rearranged. rewrite map_map. apply map_ext. intros i. symmetry. apply map_nth. Qed.
Lemma rearranged_default {A} o (x y : A) l : Permutation o (seq 0 (length l)) -> rearranged o x l = rearranged o y l.
Proof. intros H. apply map_ext_in. intros i Hi. apply (Permutation_in _ H) in Hi. apply in_seq in Hi. apply nth_indep. lia. Qed.
Lemma rearranged_combine {A B} o (x : A) (y : B) l k : length l = length k -> combine (rearranged o x l) (rearranged o y k) = rearranged o (x, y) (combine l k).
Proof.
  intros H. unfold rearranged. induction o as [|i o IH]; [reflexivity|]. cbn [map combine]. rewrite IH. f_equal. symmetry. apply combine_nth, H.
Qed.
Lemma rearranged_length {A} o (x : A) l n : Permutation o (seq 0 n) -> length (rearranged o x l) = n.
Proof. intros H. unfold rearranged. rewrite map_length, (Permutation_length H), seq_length. reflexivity. Qed.
Lemma filter_perm {A} (f : A -> bool) l l' : Permutation l l' -> Permutation (filter f l) (filter f l').
Proof.
  induction 1 as [|x l l' H IH|x y l|l l' l'' H1 IH1 H2 IH2]; [constructor| | |etransitivity; eassumption]; cbn.
  - destruct (f x); [constructor|]; exact IH.
  - destruct (f x), (f y); try apply perm_swap; reflexivity.
Qed.
Lemma masked_perm {A} o (x : A) labels a j n : Permutation o (seq 0 n) -> length labels = n -> length a = n ->
  Permutation (masked (rearranged o 0%nat labels) j (rearranged o x a)) (masked labels j a).
Proof.
  intros H L1 L2. unfold masked. apply Permutation_map, filter_perm. rewrite rearranged_combine by lia. apply rearranged_perm. rewrite combine_length, L1, L2, Nat.min_id. exact H.
Qed.
Lemma masked_combine {A B} labels j (a : list A) (b : list B) : length a = length b -> combine (masked labels j a) (masked labels j b) = masked labels j (combine a b).
Proof.
  revert a b. induction labels as [|l labels IH]; intros [|x a] [|y b] H; try discriminate; try reflexivity. injection H as H. specialize (IH a b H).
  unfold masked in *. cbn [combine filter fst]. destruct (l =? j)%nat; cbn [map snd combine]; [f_equal|]; exact IH.
Qed.
Lemma forallb_same {A} (f g : A -> bool) l : (forall x, f x = g x) -> forallb f l = forallb g l.
Proof. intros H. induction l as [|x l IH]; cbn; congruence. Qed.
Lemma covers_perm o labels k : Permutation o (seq 0 (length labels)) -> covers (rearranged o 0%nat labels) k = covers labels k.
Proof.
  intros H. unfold covers. apply forallb_same. intros j. pose proof (rearranged_perm o 0%nat labels H) as P. clear H.
  induction P; cbn; try congruence. rewrite !orb_assoc. f_equal. apply orb_comm.
Qed.

Section Order.
Variables (p : kk_params) (n : nat) (o : list nat) (sw : list R).
Hypothesis HO : Permutation o (seq 0 n).
Hypothesis HS : length sw = n.
Notation T := (rearranged o).

Lemma entry_same labels row j : length labels = n -> length row = n -> kdist_entry (T 0 sw) (T 0%nat labels) (T 0 row) j = kdist_entry sw labels row j.
Proof.
  intros HL HR. unfold kdist_entry.
  rewrite !masked_combine by (rewrite ?(rearranged_length o _ _ n HO); lia). rewrite rearranged_combine by lia.
  rewrite (rsum_perm _ _ (Permutation_map (fun q => fst q * snd q) (masked_perm o (0, 0) labels (combine sw row) j n HO HL ltac:(rewrite combine_length; lia)))).
  rewrite (rsum_perm _ _ (masked_perm o 0 labels sw j n HO HL HS)). reflexivity.
Qed.
Lemma dist_rows labels K k : length labels = n -> (forall r, In r K -> length r = n) ->
  compute_dist k (T 0 sw) (T 0%nat labels) (map (T 0) K) = compute_dist k sw labels K.
Proof.
  intros HL HK. unfold compute_dist. rewrite covers_perm by (rewrite HL; exact HO). destruct (covers labels k); [|reflexivity]. f_equal. rewrite map_map. apply map_ext_in. intros row Hr.
  apply map_ext. intros j. apply entry_same; auto.
Qed.
Lemma loop_order K : square n K -> forall more it old s, length (kk_labels s) = n ->
  let move s := {| kk_labels := T 0%nat (kk_labels s); kk_inertia := kk_inertia s; kk_iter := kk_iter s |} in
  kk_loop p (T 0 sw) (T [] (map (T 0) K)) it more old (move s) = (move (fst (kk_loop p sw K it more old s)), snd (kk_loop p sw K it more old s)).
Proof.
  intros (LK & HK) more. induction more as [|more IH]; intros it old s HL move; [reflexivity|]. cbn [kk_loop]. change (kk_labels (move s)) with (T 0%nat (kk_labels s)).
  assert (ED : compute_dist (kk_clusters p) (T 0 sw) (T 0%nat (kk_labels s)) (T [] (map (T 0) K)) =
     match compute_dist (kk_clusters p) sw (kk_labels s) K with Ok dist => Ok (T [] dist) | Err e => Err e end).
  { rewrite <- (dist_rows (kk_labels s) K (kk_clusters p) HL HK). unfold compute_dist. destruct (covers _ _); [|reflexivity]. f_equal.
    rewrite rearranged_map. apply rearranged_default. rewrite !map_length, LK. exact HO. }
  rewrite ED. destruct (compute_dist (kk_clusters p) sw (kk_labels s) K) as [dist|e] eqn:EC; [|reflexivity].
  assert (LD : length dist = n). { unfold compute_dist in EC. destruct (covers _ _); [|discriminate]. injection EC as <-. rewrite map_length. exact LK. }
  assert (EL : map rargmin (T [] dist) = T 0%nat (map rargmin dist)) by apply rearranged_map.
  assert (EI : kinertia (T [] dist) = kinertia dist). { unfold kinertia. apply rsum_perm, Permutation_map, rearranged_perm. rewrite LD. exact HO. }
  rewrite EL, EI. assert (LL : length (map rargmin dist) = n) by (rewrite map_length; exact LD). rewrite covers_perm by (rewrite LL; exact HO).
  destruct (covers (map rargmin dist) (kk_clusters p)); [|reflexivity]. cbv zeta.
  destruct (match old with Some o0 => Rltb (Rabs (o0 - kinertia dist)) (kk_tol p) | None => false end); [reflexivity|].
  exact (IH (S it) (Some (kinertia dist)) {| kk_labels := map rargmin dist; kk_inertia := kinertia dist; kk_iter := kk_iter s |} LL).
Qed.
Definition moved_best (b : best_run) : best_run := match b with Some (l, v, it) => Some (T 0%nat l, v, it) | None => None end.
Lemma attempts_order K draw : square n K -> (forall a, length (draw a) = n) -> forall remaining a ns best s s',
  kk_inertia s' = kk_inertia s -> kk_iter s' = kk_iter s ->
  match kk_attempts p (T 0 sw) (T [] (map (T 0) K)) (fun a => T 0%nat (draw a)) a remaining ns (moved_best best) s', kk_attempts p sw K draw a remaining ns best s with
  | Ok (b', _), Ok (b, _) => b' = moved_best b
  | Err e', Err e => e' = e
  | _, _ => False
  end.
Proof.
  intros HK HD remaining. induction remaining as [|remaining IH]; intros a ns best s s' E1 E2; [reflexivity|]. cbn [kk_attempts]. destruct (kk_n_init p <=? ns)%nat; [reflexivity|].
  unfold kk_one_init. destruct (kk_max_iter p =? 0)%nat; [reflexivity|]. rewrite E1, E2.
  pose proof (loop_order K HK (kk_max_iter p) 0 None {| kk_labels := draw a; kk_inertia := kk_inertia s; kk_iter := kk_iter s |} (HD a)) as L. cbn [kk_labels kk_inertia kk_iter] in L. rewrite L. clear L.
  destruct (kk_loop p sw K 0 (kk_max_iter p) None _) as [t [[]|e]]; cbn [fst snd].
  - cbn [kk_inertia kk_iter kk_labels].
    replace (match moved_best best with Some (_, m, _) => Rltb (kk_inertia t) m | None => true end) with (match best with Some (_, m, _) => Rltb (kk_inertia t) m | None => true end) by (destruct best as [[[? ?] ?]|]; reflexivity).
    destruct (match best with Some (_, m, _) => Rltb (kk_inertia t) m | None => true end);
      [apply (IH (S a) (S ns) (Some (kk_labels t, kk_inertia t, kk_iter t)) t); reflexivity|apply (IH (S a) (S ns) best t); reflexivity].
  - destruct e; try reflexivity. apply IH; reflexivity.
Qed.
End Order.

(** C221: training on the series in another order, with their weights and the initial labels in that order, gives every series the same
    label, the same inertia and the same number of iterations. *)
Theorem C221_fit {S} (kf : S -> S -> R) (x0 : S) p sw X o draw : Permutation o (seq 0 (length X)) -> length sw = length X -> (forall a, length (draw a) = length X) ->
  kk_fit p (rearranged o 0 sw) (kernels kf (rearranged o x0 X) (rearranged o x0 X)) (fun a => rearranged o 0%nat (draw a)) =
  rearranged_run o (kk_fit p sw (kernels kf X X) draw).
Proof.
  intros HO HS HD. set (K := kernels kf X X). assert (HK : square (length X) K).
  { split; [apply map_length|]. intros r Hr. apply in_map_iff in Hr. destruct Hr as (x & <- & _). apply map_length. }
  assert (EK : kernels kf (rearranged o x0 X) (rearranged o x0 X) = rearranged o [] (map (rearranged o 0) K)).
  { unfold K, kernels. rewrite rearranged_map. rewrite (rearranged_default o _ []) by (rewrite map_length; exact HO). f_equal. rewrite map_map. apply map_ext. intros x.
    rewrite rearranged_map. apply rearranged_default. rewrite map_length. exact HO. }
  rewrite EK. unfold kk_fit.
  pose proof (attempts_order p (length X) o sw HO HS K draw HK HD (Nat.max (kk_n_init p) 10) 0 0 None {| kk_labels := []; kk_inertia := 0; kk_iter := 0 |} {| kk_labels := []; kk_inertia := 0; kk_iter := 0 |} eq_refl eq_refl) as H.
  cbn [moved_best] in H. destruct (kk_attempts p (rearranged o 0 sw) _ _ _ _ _ _ _) as [[b' t']|e'], (kk_attempts p sw K draw _ _ _ _ _) as [[b t]|e]; try contradiction; cbn [bind fst].
  - subst b'. destruct b as [[[l v] it]|]; reflexivity.
  - subst e'. reflexivity.
Qed.
Print Assumptions C221_fit.
(** ... and new series get the same labels *)
Theorem C221_predict {S} (kf : S -> S -> R) (x0 : S) p sw X o labels Y : Permutation o (seq 0 (length X)) -> length sw = length X -> length labels = length X ->
  kk_predict p (rearranged o 0 sw) (rearranged o 0%nat labels) (kernels kf Y (rearranged o x0 X)) = kk_predict p sw labels (kernels kf Y X).
Proof.
  intros HO HS HL. unfold kk_predict. rewrite <- (dist_rows (length X) o sw HO HS labels (kernels kf Y X) (kk_clusters p) HL).
  - do 2 f_equal. unfold kernels. rewrite map_map. apply map_ext. intros y. rewrite rearranged_map. apply rearranged_default. rewrite map_length. exact HO.
  - intros r Hr. apply in_map_iff in Hr. destruct Hr as (x & <- & _). apply map_length.
Qed.
Print Assumptions C221_predict.
(** ... in any order of the new series *)
Theorem C221_predict_order {S} (kf : S -> S -> R) (x0 : S) p sw X o labels Y : Permutation o (seq 0 (length Y)) ->
  kk_predict p sw labels (kernels kf (rearranged o x0 Y) X) = match kk_predict p sw labels (kernels kf Y X) with Ok l => Ok (rearranged o 0%nat l) | Err e => Err e end.
Proof.
  intros HO. unfold kk_predict, compute_dist. destruct (covers labels (kk_clusters p)); [|reflexivity]. cbn [bind]. f_equal.
  unfold kernels. rewrite !map_map, rearranged_map. apply rearranged_default. rewrite map_length. exact HO.
Qed.
Print Assumptions C221_predict_order.
(** Non-triviality: [C221_fit] applies to a run that moves series between the clusters; the reordering is not its own inverse *)
Example C221_nontrivial : kk_fit (two 2) [1;1;1;1] (linear_kernel (rearranged [2;0;3;1]%nat [] unit_vectors)) (fun _ => [1;0;1;1]%nat) = Ok (Some ([1;0;1;0]%nat, 58/21, 2%nat)).
Proof.
  assert (P : Permutation [2;0;3;1]%nat (seq 0 (length unit_vectors))).
  { cbn. apply perm_trans with [0;2;3;1]%nat; [constructor|]. constructor. apply perm_trans with [2;1;3]%nat; [constructor; constructor|]. constructor. }
  pose proof (C221_fit dot [] (two 2) [1;1;1;1] unit_vectors [2;0;3;1]%nat (fun _ => [0;1;1;1]%nat) P eq_refl (fun _ => eq_refl)) as H.
  change (kernels dot unit_vectors unit_vectors) with (linear_kernel unit_vectors) in H. rewrite ex_fit2 in H. exact H.
Qed.

(** C224: normalised cross-correlation under a change of unit of each series. *)
From Coq Require Import Bool List Arith ZArith Reals Lia Lra.
From Verif Require Import Num NumLaws Py RList PaaThms RealSeries CyccModel CyccThms PropCycc.
Import ListNotations.
Local Open Scope R_scope.

(** ** Specification *)
Definition times (a : R) (s : list (list R)) : list (list R) := map (map (Rmult a)) s.
(** the product of the norms is not taken for zero by the code *)
Definition loud (s1 s2 : list (list R)) : Prop := 1 / 10 ^ 9 <= l2norm s1 * l2norm s2.

(** ** the transforms are linear *)
Lemma at2_times a s t c : at2 (times a s) t c = a * at2 s t c.
Proof.
  unfold at2, times. replace (@nil R) with (map (Rmult a) []) at 1 by reflexivity. rewrite map_nth.
  replace (nth c (map (Rmult a) (nth t s [])) 0) with (nth c (map (Rmult a) (nth t s [])) (a * 0)) by (f_equal; lra). apply map_nth.
Qed.
Lemma csum_times {A} a (f g : A -> cpx) l : (forall x, f x = cscal a (g x)) -> csum (map f l) = cscal a (csum (map g l)).
Proof.
  intros H. induction l as [|x l IH]; cbn [map csum fold_right].
  - unfold cscal. cbn. f_equal; ring.
  - change (fold_right cadd (0, 0) (map f l)) with (csum (map f l)). change (fold_right cadd (0, 0) (map g l)) with (csum (map g l)). rewrite IH, H. unfold cscal, cadd. cbn. f_equal; ring.
Qed.
Lemma dft_times a n x y m : (forall t, y t = a * x t) -> dft n y m = cscal a (dft n x m).
Proof. intros H. apply csum_times. intros t. rewrite H. unfold cscal. cbn. f_equal; ring. Qed.
Lemma idft_times a n z w k : (forall m, w m = cscal a (z m)) -> idft n w k = cscal a (idft n z k).
Proof.
  intros H. unfold idft. rewrite (csum_times a _ (fun m => cmul (z m) (cis (2 * PI * INR m * INR k / INR n)))).
  - unfold cscal. cbn. f_equal; ring.
  - intros m. rewrite H. unfold cscal, cmul. cbn. f_equal; ring.
Qed.
Lemma circ_times a b s1 s2 n k c : circ_cc (times a s1) (times b s2) n k c = a * b * circ_cc s1 s2 n k c.
Proof.
  unfold circ_cc. rewrite (idft_times (a * b) n (fun m => cmul (dft n (fun t => at2 s1 t c) m) (cconj (dft n (fun t => at2 s2 t c) m)))); [reflexivity|].
  intros m. rewrite (dft_times a n (fun t => at2 s1 t c) (fun t => at2 (times a s1) t c)) by (intros t; apply at2_times). rewrite (dft_times b n (fun t => at2 s2 t c) (fun t => at2 (times b s2) t c)) by (intros t; apply at2_times).
  unfold cscal, cmul, cconj. cbn. f_equal; ring.
Qed.
Lemma norm_times a s : l2norm (times a s) = Rabs a * l2norm s.
Proof.
  unfold l2norm, times. rewrite <- concat_map, map_map.
  replace (rsum (map (fun x => a * x * (a * x)) (concat s))) with (a * a * rsum (map (fun x => x * x) (concat s))).
  2:{ induction (concat s) as [|x l IH]; cbn; [ring|]. change (fold_right Rplus 0) with rsum in *. rewrite <- IH. ring. }
  rewrite sqrt_mult; [|nra|]. { f_equal. fold (Rsqr a). apply sqrt_Rsqr_abs. }
  induction (concat s) as [|x l IH]; cbn; [lra|]. change (fold_right Rplus 0) with rsum in *. nra.
Qed.
Lemma cc_times d a b s1 s2 n1 n2 n1' n2' q : 
  1 / 10 ^ 9 <= own_norm n1 s1 * own_norm n2 s2 -> 1 / 10 ^ 9 <= own_norm n1' (times a s1) * own_norm n2' (times b s2) -> 
  a * b * (own_norm n1 s1 * own_norm n2 s2) = q * (own_norm n1' (times a s1) * own_norm n2' (times b s2)) ->
  normalized_cc d (times a s1) (times b s2) n1' n2' = map (Rmult q) (normalized_cc d s1 s2 n1 n2).
Proof.
  intros H H' Hq. unfold normalized_cc. cbv zeta. replace (length (times a s1)) with (length s1) by (symmetry; apply map_length).
  set (sz := length s1). set (n := fft_size sz).
  assert (EC : map (fun k => map (circ_cc (times a s1) (times b s2) n k) (seq 0 d)) (seq 0 n) = map (map (Rmult (a * b))) (map (fun k => map (circ_cc s1 s2 n k) (seq 0 d)) (seq 0 n))).
  { rewrite map_map. apply map_ext. intros k. rewrite map_map. apply map_ext. intros c. apply circ_times. }
  rewrite EC. generalize (map (fun k => map (circ_cc s1 s2 n k) (seq 0 d)) (seq 0 n)). intros L.
  assert (E : py_from (- (Z.of_nat sz - 1)) (map (map (Rmult (a * b))) L) ++ py_upto (Z.of_nat sz) (map (map (Rmult (a * b))) L) =
     map (map (Rmult (a * b))) (py_from (- (Z.of_nat sz - 1)) L ++ py_upto (Z.of_nat sz) L)).
  { unfold py_from, py_upto. rewrite map_length, map_app, skipn_map, firstn_map. reflexivity. }
  rewrite E, !map_map. apply map_ext. intros row.
  replace (rsum (map (Rmult (a * b)) row)) with (a * b * rsum row).
  2:{ induction row as [|x l IH]; cbn; [ring|]. change (fold_right Rplus 0) with rsum in *. rewrite <- IH. ring. }
  assert (P : 0 < 1 / 10 ^ 9) by (apply Rdiv_lt_0_compat; [lra|apply pow_lt; lra]).
  unfold normalize. rewrite !(proj2 (Rltb_false _ _)) by assumption.
  set (D := own_norm n1 s1 * own_norm n2 s2) in *. set (D' := own_norm n1' (times a s1) * own_norm n2' (times b s2)) in *.
  replace (a * b) with (q * D' / D) by (rewrite <- Hq; field; lra). field. lra.
Qed.

(** Multiplying either series by a positive number changes no entry; multiplying one of them by a negative number changes all signs. *)
Theorem C224_unit d a b s1 s2 : 0 < a -> 0 < b -> loud s1 s2 -> loud (times a s1) (times b s2) ->
  normalized_cc d (times a s1) (times b s2) (-1) (-1) = normalized_cc d s1 s2 (-1) (-1).
Proof.
  intros Ha Hb H H'. rewrite (cc_times d a b s1 s2 (-1) (-1) (-1) (-1) 1); rewrite ?norm_used_own, ?norm_used_own_norm; try assumption.
  - rewrite <- (map_id (normalized_cc d s1 s2 (-1) (-1))) at 2. apply map_ext. intros x. ring.
  - rewrite !norm_times, !Rabs_pos_eq by lra. ring.
Qed.
Print Assumptions C224_unit.
Theorem C224_sign d a b s1 s2 : a < 0 -> 0 < b -> loud s1 s2 -> loud (times a s1) (times b s2) ->
  normalized_cc d (times a s1) (times b s2) (-1) (-1) = map Ropp (normalized_cc d s1 s2 (-1) (-1)).
Proof.
  intros Ha Hb H H'. rewrite (cc_times d a b s1 s2 (-1) (-1) (-1) (-1) (-1)); rewrite ?norm_used_own, ?norm_used_own_norm; try assumption.
  - apply map_ext. intros x. ring.
  - rewrite !norm_times, (Rabs_left a), (Rabs_pos_eq b) by lra. ring.
Qed.
Print Assumptions C224_sign.
(** the matrix of shape similarities: every series in its own unit, norms recomputed *)
Theorem C224_matrix d ds1 ds2 u1 u2 norms1 norms2 self : (forall i, 0 < u1 i) -> (forall j, 0 < u2 j) ->
  let moved (u : nat -> R) ds := map (fun i => times (u i) (nth i ds [])) (seq 0 (length ds)) in
  In (-1) norms1 -> In (-1) norms2 ->
  (forall i j, (i < length ds1)%nat -> (j < length ds2)%nat -> loud (nth i ds1 []) (nth j ds2 []) /\ loud (times (u1 i) (nth i ds1 [])) (times (u2 j) (nth j ds2 []))) ->
  (self = true -> length ds2 = length ds1) ->
  forall i j, (i < length ds1)%nat -> (j < length ds2)%nat ->
    cdist_ncc d (moved u1 ds1) (moved u2 ds2) norms1 norms2 self i j = cdist_ncc d ds1 ds2 norms1 norms2 self i j.
Proof.
  intros H1 H2 moved I1 I2 HL HS.
  assert (FN : forall norms ds, In (-1) norms -> fill_norms norms ds = map l2norm ds).
  { intros norms ds HI. unfold fill_norms. replace (existsb (fun x => Rltb x 0) norms) with true; [apply map_ext; intros; symmetry; apply l2norm_frob|].
    symmetry. apply existsb_exists. exists (-1). split; [exact HI|]. apply Rltb_true. lra. }
  assert (EN : forall u ds i, (i < length ds)%nat -> nth i (moved u ds) [] = times (u i) (nth i ds [])).
  { intros u ds i Hi. unfold moved. rewrite (map_seq_nth (fun i => times (u i) (nth i ds []))) by exact Hi. reflexivity. }
  assert (EV : forall ds i, (i < length ds)%nat -> nth i (map l2norm ds) 0 = l2norm (nth i ds [])).
  { intros ds i Hi. rewrite (nth_indep _ 0 (l2norm [])) by (rewrite map_length; exact Hi). apply map_nth. }
  assert (LM : forall u ds, length (moved u ds) = length ds) by (intros; unfold moved; rewrite map_length, seq_length; reflexivity).
  assert (EE : forall i j, (i < length ds1)%nat -> (j < length ds2)%nat ->
     rmax (normalized_cc d (nth i (moved u1 ds1) []) (nth j (moved u2 ds2) []) (nth i (map l2norm (moved u1 ds1)) 0) (nth j (map l2norm (moved u2 ds2)) 0)) =
     rmax (normalized_cc d (nth i ds1 []) (nth j ds2 []) (nth i (map l2norm ds1) 0) (nth j (map l2norm ds2) 0))).
  { intros i j Hi Hj. f_equal. rewrite !EV, !EN by (rewrite ?LM; assumption). destruct (HL i j Hi Hj) as (A & B).
    rewrite (cc_times d _ _ _ _ (l2norm (nth i ds1 [])) (l2norm (nth j ds2 [])) _ _ 1); rewrite ?norm_used_own, ?norm_used_l2; try assumption.
    - rewrite <- (map_id (normalized_cc d _ _ (l2norm (nth i ds1 [])) _)) at 2. apply map_ext. intros x. ring.
    - specialize (H1 i). specialize (H2 j). rewrite !norm_times, !Rabs_pos_eq by lra. ring. }
  intros i j Hi Hj. unfold cdist_ncc. cbv zeta. rewrite !FN by assumption. destruct self; [|apply EE; assumption]. specialize (HS eq_refl).
  destruct (j <? i)%nat eqn:E1, (i <? j)%nat eqn:E2; rewrite ?EE by lia; reflexivity.
Qed.
Print Assumptions C224_matrix.
(** A series multiplied by 1e-5 is taken for zero: its similarity to itself drops from 1 to 0. *)
Theorem C224_small_refuted :
  ~ forall d a b s1 s2, same_size d s1 s2 -> 0 < a -> 0 < b -> 0 < l2norm s1 -> 0 < l2norm s2 ->
      normalized_cc d (times a s1) (times b s2) (-1) (-1) = normalized_cc d s1 s2 (-1) (-1).
Proof.
  intros H. set (s := [[1]; [1]]). assert (NS : l2norm s = sqrt 2) by (unfold l2norm, s; cbn; f_equal; ring).
  assert (R2 : sqrt 2 * sqrt 2 = 2) by (apply sqrt_sqrt; lra). assert (P2 : 0 < sqrt 2) by (apply sqrt_lt_R0; lra).
  assert (SS : same_size 1 s s). { split; [|split; [|reflexivity]]; (split; [lia|split; [discriminate|intros r [<-|[<-|[]]]; reflexivity]]). }
  specialize (H 1%nat (1 / 10 ^ 5) (1 / 10 ^ 5) s s SS ltac:(lra) ltac:(lra) ltac:(lra) ltac:(lra)).
  apply (f_equal rmax) in H. rewrite (C80_self_correlation 1 s (proj1 SS)) in H by (rewrite NS, R2; lra).
  assert (Z : forall x, In x (normalized_cc 1 (times (1 / 10 ^ 5) s) (times (1 / 10 ^ 5) s) (-1) (-1)) -> x = 0).
  { intros x Hx. unfold normalized_cc in Hx. cbv zeta in Hx. apply in_map_iff in Hx. destruct Hx as (row & <- & _). unfold normalize.
    rewrite (proj2 (Rltb_true _ _)); [reflexivity|]. rewrite norm_used_own, norm_used_own_norm, norm_times, NS, Rabs_pos_eq by lra. nra. }
  revert H Z. generalize (normalized_cc 1 (times (1 / 10 ^ 5) s) (times (1 / 10 ^ 5) s) (-1) (-1)). intros L H Z.
  assert (I : In (rmax L) L) by (apply rmax_in; intros ->; cbn in H; lra). apply Z in I. lra.
Qed.
Print Assumptions C224_small_refuted.
(** a case: two series in different units *)
Example C224_instance : loud [[1]; [2]] [[3]; [0]] /\ loud (times 2 [[1]; [2]]) (times 5 [[3]; [0]]) /\
  normalized_cc 1 (times 2 [[1]; [2]]) (times 5 [[3]; [0]]) (-1) (-1) = normalized_cc 1 [[1]; [2]] [[3]; [0]] (-1) (-1).
Proof.
  assert (A : l2norm [[1]; [2]] = sqrt 5) by (unfold l2norm; cbn; f_equal; ring). assert (B : l2norm [[3]; [0]] = sqrt (3 * 3)) by (unfold l2norm; cbn; f_equal; ring).
  rewrite sqrt_square in B by lra. assert (Q : 1 <= sqrt 5) by (rewrite <- sqrt_1; apply sqrt_le_1; lra).
  assert (L1 : loud [[1]; [2]] [[3]; [0]]) by (unfold loud; rewrite A, B; lra).
  assert (L2 : loud (times 2 [[1]; [2]]) (times 5 [[3]; [0]])) by (unfold loud; rewrite !norm_times, A, B, !Rabs_pos_eq by lra; lra).
  split; [exact L1|split; [exact L2|]]. apply C224_unit; try assumption; lra.
Qed.

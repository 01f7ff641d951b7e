(** Properties C39, C77, C78, C79: SAX inverse transform, 1d-SAX; exact arithmetic. *)
From Coq Require Import Bool List Arith Lia ZArith QArith Reals Lra.
From Verif Require Import Num NumLaws Py Series Spec RList SoftModel GakModel RealSeries PropSoft PaaModel PaaThms PropPaa PropSax.
Import ListNotations.
Local Open Scope R_scope.

(** ** specification *)
(** a non-empty array [_ x m x d] of symbols; entry [k] of a row is below [bound k] *)
Definition symbol_array (m d : nat) (bound : nat -> nat) (sy : list (list (list nat))) : Prop :=
  sy <> [] /\ forall p, In p sy -> length p = m /\ forall i, (i < m)%nat ->
    length (nth i p []) = d /\ forall k, (k < d)%nat -> (nth k (nth i p []) 0 < bound k)%nat.
(** sum of squared errors of the line [a + b t] at times [t0, t0+1, ...] *)
Definition sse (t0 : nat) (ys : list R) (a b : R) : R :=
  rsum (map (fun i => (nth i ys 0 - (a + b * INR (t0 + i))) * (nth i ys 0 - (a + b * INR (t0 + i)))) (seq 0 (length ys))).
(** [b] is the slope of a least-squares line *)
Definition least_squares_slope (t0 : nat) (ys : list R) (b : R) : Prop :=
  exists a, forall a' b', sse t0 ys a b <= sse t0 ys a' b'.
(** feature [k] over the [i]-th block of [q] time steps *)
Definition block (s : list (list R)) (q i k : nat) : list R := map (fun u => entry s u k) (seq (i * q) q).

(** ** C77 *)
Lemma list_ngrid m d (p : list (list nat)) : length p = m -> (forall i, (i < m)%nat -> length (nth i p []) = d) ->
  p = ngrid m d (fun i k => nth k (nth i p []) 0%nat).
Proof.
  intros Hl Hr. apply nth_ext with (d := []) (d' := []).
  - unfold ngrid. rewrite map_length, seq_length. auto.
  - intros i Hi. unfold ngrid. rewrite map_seq_nth by lia. simpl plus.
    apply nth_ext with (d := 0%nat) (d' := 0%nat).
    + rewrite map_length, seq_length. apply Hr. lia.
    + intros k Hk. rewrite Hr in Hk by lia. rewrite map_seq_nth by lia. reflexivity.
Qed.
Lemma write_fold_hi (q m : nat) (hi : nat -> nat) (step : nat -> nat -> list xr) z u : (forall t, hi t = t * q + q)%nat ->
  fold_left (fun out t => fun u => if ((t * q <=? u) && (u <? hi t))%nat then step t u else out u) (seq 0 m) z u =
  if (u <? m * q)%nat then step (u / q)%nat u else z u.
Proof.
  intros Hh. rewrite <- (write_fold_general q m step z u). 
  generalize (seq 0 m) z. induction l as [|t l IH]; intros z'; simpl; auto. rewrite IH.
  clear IH. revert u. 
  assert (E : forall z1 z2 : nat -> list xr, (forall u, z1 u = z2 u) -> forall l u,
     fold_left (fun out t => fun u => if ((t * q <=? u) && (u <? t * q + q))%nat then step t u else out u) l z1 u =
     fold_left (fun out t => fun u => if ((t * q <=? u) && (u <? t * q + q))%nat then step t u else out u) l z2 u).
  { intros z1 z2 Hz l'. revert z1 z2 Hz. induction l' as [|t' l' IH]; intros z1 z2 Hz u; simpl; auto.
    apply IH. intros v. rewrite Hz. reflexivity. }
  apply E. intros v. rewrite Hh. reflexivity.
Qed.
Lemma mul_div_bound u m q : (u < m * q)%nat -> (u / q < m)%nat.
Proof. intros H. apply Nat.div_lt_upper_bound; [intros E; rewrite E in H; lia|lia]. Qed.
Lemma repeat_grow d : repeat (XR 0) d = grow d (fun _ => 0).
Proof. unfold grow. generalize 0%nat. induction d; intros a; simpl; auto. f_equal. auto. Qed.
Lemma inv_sax_grid mid sz m d f : (0 < m)%nat ->
  inv_sax_series mid sz d (ngrid m d f) =
  xgrid sz d (fun u k => if (u <? m * (sz / m))%nat then nth (f (u / (sz / m))%nat k) mid 0 else 0).
Proof.
  intros Hm. unfold inv_sax_series.
  assert (L : length (ngrid m d f) = m) by (unfold ngrid; rewrite map_length, seq_length; auto). rewrite L. unfold rows_of, xgrid.
  apply map_ext_in. intros u Hu. apply in_seq in Hu. unfold write_rows.
  rewrite (write_fold_general (sz / m) m (fun t _ => map (fun a => XR (nth a mid 0)) (nth t (ngrid m d f) []))).
  destruct (Nat.ltb_spec u (m * (sz / m))) as [B|B].
  - unfold ngrid. rewrite map_seq_nth by (apply mul_div_bound; auto). rewrite map_map. reflexivity.
  - apply repeat_grow.
Qed.
Lemma grids_check (sz d : nat) (A : Type) (F : A -> nat -> nat -> R) l : l <> [] -> (0 < sz)%nat ->
  check_arr (map (fun x => xgrid sz d (F x)) l) = Ok (map (fun x => xgrid sz d (F x)) l) /\
  arr_d (map (fun x => xgrid sz d (F x)) l) = d /\ arr_sz (map (fun x => xgrid sz d (F x)) l) = sz.
Proof.
  intros Hl Hs. rewrite <- (map_map F (xgrid sz d)). split; [apply check_arr_grids; [apply map_ne|]; auto|].
  destruct l as [|x l]; [congruence|]. split; [apply (arr_d_grids sz d (F x)); auto|apply (arr_sz_grids sz d (F x))].
Qed.
Lemma gavg_const f (c : R) a len k : (0 < len)%nat -> (forall u, (a <= u < a + len)%nat -> f u k = c) -> gavg f a len k = c.
Proof.
  intros Hl H. unfold gavg. rewrite (rsum_map_ext _ (fun _ => c)).
  - rewrite rsum_const, seq_length. field. apply not_0_INR. lia.
  - intros u Hu. apply in_seq in Hu. apply H. lia.
Qed.
Lemma in_block i u q m : (i < m)%nat -> (i * q <= u < i * q + q)%nat -> (u <? m * q)%nat = true /\ (u / q = i)%nat.
Proof.
  intros Hi Hu. split.
  - apply Nat.ltb_lt. assert ((i + 1) * q <= m * q)%nat by (apply Nat.mul_le_mono_r; lia). lia.
  - symmetry. apply (Nat.div_unique u q i (u - i * q)); lia.
Qed.
Lemma unscale_grids ppf m a scale d sz X (A : Type) (F : A -> nat -> nat -> R) n l :
  exists G : A -> nat -> nat -> R,
    sax_unscale (fitted ppf m a scale d sz X) (map (fun x => xgrid n d (F x)) l) = map (fun x => xgrid n d (G x)) l /\
    sax_scale (fitted ppf m a scale d sz X) (map (fun x => xgrid n d (G x)) l) = map (fun x => xgrid n d (F x)) l.
Proof.
  destruct scale.
  - exists (fun x u k => F x u k * dev X k + avg_of (values X k)). unfold sax_unscale, sax_scale. cbn [fitted s_scaling]. split.
    + rewrite map_map. apply map_ext. intros x. unfold xgrid. rewrite map_map. apply map_ext. intros u. apply unscale_row_grow.
    + rewrite map_map. apply map_ext. intros x. unfold xgrid. rewrite map_map. apply map_ext. intros u.
      rewrite scale_row_grow by (intros k _; pose proof (dev_pos X k); lra). apply grow_ext. intros k _. field.
      pose proof (dev_pos X k). lra.
  - exists F. auto.
Qed.
(** [transform(inverse_transform(S)) = S] for SAX, scaled or not *)
Theorem C77_sax_transform_inverse ppf m a scale d sz X sy :
  quantile ppf -> real_dataset d sz X -> (0 < m <= sz)%nat -> symbol_array m d (fun _ => a) sy ->
  bind (sax_fit ppf m a scale (map lift X)) (fun st => bind (sax_inverse st sy) (sax_transform st)) = Ok sy.
Proof.
  intros Hp HX Hm [Hne Hsy]. pose proof (dataset_pos _ _ _ HX) as [Hn Hd].
  rewrite (sax_fit_value _ _ _ _ _ _ _ HX). simpl bind. fold (fitted ppf m a scale d sz X).
  unfold sax_inverse. cbn [fitted s_mid s_paa p_sz p_d].
  assert (L0 : length (hd [] sy) = m) by (destruct sy as [|p sy]; [congruence|]; apply Hsy; left; auto).
  rewrite L0. destruct (Nat.eqb_spec m 0); [lia|]. simpl bind.
  set (F := fun (p : list (list nat)) u k => if (u <? m * (sz / m))%nat then nth (nth k (nth (u / (sz / m)) p []) 0%nat) (bin_medians ppf a 1) 0 else 0).
  assert (E1 : map (inv_sax_series (bin_medians ppf a 1) sz d) sy = map (fun p => xgrid sz d (F p)) sy).
  { apply map_ext_in. intros p Hin. destruct (Hsy p Hin) as [Hl Hr]. rewrite (list_ngrid m d p Hl) at 1 by (intros; apply Hr; auto).
    rewrite inv_sax_grid by lia. reflexivity. }
  rewrite E1. fold (fitted ppf m a scale d sz X). destruct (unscale_grids ppf m a scale d sz X _ F sz sy) as (G & U1 & U2). rewrite U1.
  unfold sax_transform. destruct (grids_check sz d _ G sy) as (C1 & C2 & C3); auto. rewrite C1. simpl bind.
  unfold check_features. rewrite C2. cbn [fitted s_paa p_d]. rewrite Nat.eqb_refl. simpl bind. unfold sax_transform_.
  fold (fitted ppf m a scale d sz X). rewrite U2. cbn [fitted s_paa p_nseg s_bp]. unfold paa_transform_.
  destruct (Nat.eqb_spec m 0); [lia|]. simpl bind. f_equal. unfold paa_to_symbols. rewrite !map_map.
  destruct (grids_check sz d _ F sy) as (_ & C4 & _); auto. rewrite C4.
  transitivity (map (fun p => p) sy); [|apply map_id]. apply map_ext_in. intros p Hin. destruct (Hsy p Hin) as [Hl Hr]. rewrite paa_grid by lia.
  etransitivity; [|symmetry; apply (list_ngrid m d p Hl); intros; apply Hr; auto]. unfold xgrid, ngrid. rewrite map_map.
  apply map_ext_in. intros i Hi. apply in_seq in Hi. unfold grow. rewrite map_map. apply map_ext_in. intros k Hk. apply in_seq in Hk.
  assert (Hq : (0 < sz / m)%nat) by (apply Nat.div_str_pos; lia).
  rewrite (gavg_const _ (nth (nth k (nth i p []) 0%nat) (bin_medians ppf a 1) 0)); auto.
  - apply median_symbol; auto; [lra|]. apply Hr; lia.
  - intros u Hu. unfold F. destruct (in_block i u (sz / m) m) as [B1 B2]; [lia|lia|]. rewrite B1, B2. reflexivity.
Qed.
Print Assumptions C77_sax_transform_inverse.

(** ** lines *)
Lemma rsum_INR_seq a q : rsum (map INR (seq a q)) = INR q * INR a + INR q * (INR q - 1) / 2.
Proof.
  induction q as [|q IH]; [simpl; lra|]. rewrite seq_S, map_app, rsum_app, IH. simpl map. simpl rsum.
  rewrite plus_INR, S_INR. lra.
Qed.
Definition centre (a q : nat) : R := INR a + 1 / 2 * (INR q - 1).
Lemma rmean_seq a q : (0 < q)%nat -> rmean (map INR (seq a q)) = centre a q.
Proof.
  intros H. unfold rmean, centre. rewrite rsum_INR_seq, map_length, seq_length. field. apply not_0_INR. lia.
Qed.
Lemma centred_zero a q : (0 < q)%nat -> rsum (map (fun u => INR u - centre a q) (seq a q)) = 0.
Proof.
  intros H. rewrite (rsum_map_ext _ (fun u => INR u + - centre a q)) by (intros; lra).
  rewrite rsum_map_plus, rsum_const, rsum_INR_seq, seq_length. unfold centre. field.
Qed.
Lemma spread_pos a q : (2 <= q)%nat -> 0 < rsum (map (fun u => (INR u - centre a q) * (INR u - centre a q)) (seq a q)).
Proof.
  intros H. destruct q as [|q]; [lia|]. simpl seq. simpl map. simpl rsum.
  assert (0 <= rsum (map (fun u => (INR u - centre a (S q)) * (INR u - centre a (S q))) (seq (S a) q))).
  { apply rsum_nonneg. intros x Hx. apply in_map_iff in Hx. destruct Hx as (u & <- & _). apply Rle_0_sqr. }
  assert (0 < (INR a - centre a (S q)) * (INR a - centre a (S q))); [|lra].
  apply Rsqr_pos_lt. unfold centre. rewrite S_INR. assert (1 <= INR q) by (apply (le_INR 1); lia). lra.
Qed.
(** [ls_slope] on values given by a function of time *)
Lemma ls_slope_fun a q (y : nat -> R) : (2 <= q)%nat ->
  ls_slope a (map y (seq a q)) =
  rsum (map (fun u => (INR u - centre a q) * (y u - rmean (map y (seq a q)))) (seq a q)) /
  rsum (map (fun u => (INR u - centre a q) * (INR u - centre a q)) (seq a q)).
Proof.
  intros H. unfold ls_slope. rewrite map_length, seq_length. destruct (Nat.eqb_spec q 1); [lia|].
  rewrite rmean_seq by lia. rewrite map_map. f_equal. rewrite combine_map_same, map_map. reflexivity.
Qed.
Lemma rmean_dev_zero (y : nat -> R) l : l <> [] -> rsum (map (fun u => y u - rmean (map y l)) l) = 0.
Proof.
  intros H. set (m := rmean (map y l)). rewrite (rsum_map_ext _ (fun u => y u + - m)) by (intros; lra).
  rewrite rsum_map_plus, rsum_const. unfold m, rmean. rewrite map_length. field. apply not_0_INR. destruct l; [congruence|simpl; lia].
Qed.
Lemma seq_add t0 q c : map (fun i => t0 + i)%nat (seq c q) = seq (t0 + c) q.
Proof. revert c. induction q as [|q IH]; intros c; simpl; auto. f_equal. rewrite IH. f_equal. lia. Qed.
Lemma sse_fun t0 ys a b : sse t0 ys a b =
  rsum (map (fun u => sq (nth (u - t0) ys 0 - (a + b * INR u))) (seq t0 (length ys))).
Proof.
  unfold sse. replace (seq t0 (length ys)) with (map (fun i => t0 + i)%nat (seq 0 (length ys))).
  - rewrite map_map. apply rsum_map_ext. intros i _. replace (t0 + i - t0)%nat with i by lia. reflexivity.
  - rewrite seq_add. f_equal. lia.
Qed.
Lemma ls_slope_optimal t0 ys : ys <> [] -> least_squares_slope t0 ys (ls_slope t0 ys).
Proof.
  intros Hne. set (q := length ys). assert (Hq : (0 < q)%nat) by (unfold q; destruct ys; [congruence|simpl; lia]).
  set (y := fun u => nth (u - t0) ys 0).
  assert (Ey : ys = map y (seq t0 q)).
  { apply nth_ext with (d := 0) (d' := 0); [rewrite map_length, seq_length; auto|]. intros i Hi. rewrite map_seq_nth by auto.
    unfold y. f_equal. lia. }
  set (tm := centre t0 q). set (ym := rmean (map y (seq t0 q))).
  set (Stt := rsum (map (fun u => (INR u - tm) * (INR u - tm)) (seq t0 q))).
  set (Sty := rsum (map (fun u => (INR u - tm) * (y u - ym)) (seq t0 q))).
  set (Syy := rsum (map (fun u => (y u - ym) * (y u - ym)) (seq t0 q))).
  assert (D : forall a b, sse t0 ys a b = Syy - 2 * b * Sty + b * b * Stt + INR q * sq (ym - a - b * tm)).
  { intros a b. rewrite sse_fun. fold q. set (c := ym - a - b * tm).
    rewrite (rsum_map_ext _ (fun u => ((y u - ym) * (y u - ym) + (-2 * b) * ((INR u - tm) * (y u - ym)) + (b * b) * ((INR u - tm) * (INR u - tm)))
        + ((2 * c) * (y u - ym) + (-2 * b * c) * (INR u - tm) + sq c))).
    - rewrite rsum_map_plus. rewrite rsum_map_plus. rewrite rsum_map_plus. rewrite rsum_map_scal. rewrite rsum_map_scal. rewrite rsum_map_plus. rewrite rsum_map_plus.
      rewrite rsum_map_scal. rewrite rsum_map_scal.
      unfold ym at 4. rewrite rmean_dev_zero by (destruct q; [lia|discriminate]). unfold tm at 4. rewrite centred_zero by auto.
      rewrite rsum_const, seq_length. fold Syy Sty Stt. ring.
    - intros u _. unfold sq, c, y. ring. }
  exists (ym - ls_slope t0 ys * tm). intros a' b'. rewrite !D.
  replace (ym - (ym - ls_slope t0 ys * tm) - ls_slope t0 ys * tm) with 0 by ring.
  assert (0 <= INR q * sq (ym - a' - b' * tm)) by (apply Rmult_le_pos; [apply pos_INR|apply sq_nonneg]).
  replace (INR q * sq 0) with 0 by (unfold sq; ring).
  destruct (Nat.eq_dec q 1) as [E1|E1].
  - assert (Z : Stt = 0 /\ Sty = 0).
    { unfold Stt, Sty. rewrite E1. simpl. unfold tm, centre. rewrite E1. simpl. split; ring. }
    destruct Z as [-> ->]. lra.
  - assert (P : 0 < Stt) by (apply spread_pos; lia).
    assert (Es : ls_slope t0 ys = Sty / Stt) by (rewrite Ey; apply ls_slope_fun; lia).
    rewrite Es. set (s := Sty / Stt). assert (Hs : Sty = s * Stt) by (unfold s; field; lra). rewrite Hs.
    assert (0 <= Stt * sq (b' - s)) by (apply Rmult_le_pos; [lra|apply sq_nonneg]). unfold sq in *. nra.
Qed.

(** ** fitting and transforming *)
Lemma mapr_ok {A B} (f : A -> res B) (g : A -> B) l : (forall x, In x l -> f x = Ok (g x)) -> mapr f l = Ok (map g l).
Proof.
  induction l as [|x l IH]; intros H; simpl; auto. rewrite H by (left; auto). simpl. rewrite IH by (intros; apply H; right; auto). reflexivity.
Qed.
Lemma as_reals_ok l : as_reals (map XR l) = Ok l.
Proof. induction l; simpl; auto. rewrite IHl. reflexivity. Qed.
Lemma cyslope_ok t0 l : l <> [] -> cyslope t0 (map XR l) = Ok (ls_slope t0 l).
Proof. intros H. unfold cyslope. destruct l as [|x l]; [congruence|]. rewrite as_reals_ok. reflexivity. Qed.
Lemma slopes_grid n sz d f : (0 < n <= sz)%nat ->
  slopes_series n d sz (xgrid sz d f) =
  Ok (map (fun i => map (fun k => ls_slope (i * (sz / n)) (map (fun u => f u k) (seq (i * (sz / n)) (sz / n)))) (seq 0 d)) (seq 0 n)).
Proof.
  intros Hn. unfold slopes_series. apply mapr_ok. intros i Hi. apply in_seq in Hi. apply mapr_ok. intros k Hk. apply in_seq in Hk.
  rewrite column_grid by (try apply seg_fit; lia). rewrite <- (map_map (fun u => f u k) XR). apply cyslope_ok.
  assert (0 < sz / n)%nat by (apply Nat.div_str_pos; lia). destruct (sz / n)%nat; [lia|discriminate].
Qed.
(** slope bin width: given, or sqrt(0.03 / segment size) *)
Definition sigma_of (sigma_l : option R) (q : nat) : R := match sigma_l with Some s => s | None => sqrt (3 / 100 / INR q) end.
Definition fitted1d (ppf : R -> R) (m a b : nat) (sigma : R) scale d sz X : sax1d_state :=
  {| o_sax := fitted ppf m a scale d sz X; o_bp := breakpoints ppf b sigma; o_mid := bin_medians ppf b sigma |}.
Lemma sax1d_fit_value ppf m a b sigma_l scale d sz X : real_dataset d sz X -> (0 < m <= sz)%nat ->
  sax1d_fit ppf m a b sigma_l scale (map lift X) = Ok (fitted1d ppf m a b (sigma_of sigma_l (sz / m)) scale d sz X).
Proof.
  intros HX Hm. unfold sax1d_fit. rewrite (sax_fit_value _ _ _ _ _ _ _ HX). simpl bind.
  destruct (Nat.eqb_spec m 0); [lia|]. destruct (real_check _ _ _ HX) as (_ & _ & ->).
  assert (0 < sz / m)%nat by (apply Nat.div_str_pos; lia).
  destruct sigma_l; [reflexivity|]. destruct (Nat.eqb_spec (sz / m) 0); [lia|]. reflexivity.
Qed.
Lemma sigma_pos sigma_l q : (0 < q)%nat -> match sigma_l with Some s => 0 < s | None => True end -> 0 < sigma_of sigma_l q.
Proof.
  intros Hq H. destruct sigma_l; auto. simpl. apply sqrt_lt_R0. apply Rmult_lt_0_compat; [lra|]. apply Rinv_0_lt_compat, lt_0_INR. auto.
Qed.
Lemma get_slopes_real d n m Y : real_dataset d n Y -> (0 < m <= n)%nat ->
  get_slopes m (map lift Y) =
  Ok (map (fun s => map (fun i => map (fun k => ls_slope (i * (n / m)) (block s (n / m) i k)) (seq 0 d)) (seq 0 m)) Y).
Proof.
  intros H Hm. unfold get_slopes. destruct (real_check _ _ _ H) as (_ & -> & ->). rewrite (dataset_grids _ _ _ H).
  rewrite map_map. 
  assert (G : forall l, mapr (slopes_series m d n) (map (fun s => xgrid n d (entry s)) l) =
    Ok (map (fun s => map (fun i => map (fun k => ls_slope (i * (n / m)) (block s (n / m) i k)) (seq 0 d)) (seq 0 m)) l)).
  { induction l as [|s l IH]; [reflexivity|]. simpl map. cbn [mapr]. rewrite slopes_grid by auto. rewrite IH. reflexivity. }
  apply G.
Qed.
Lemma join_ngrid m d f g : join_rows (ngrid m d f) (ngrid m d g) = map (fun i => map (f i) (seq 0 d) ++ map (g i) (seq 0 d)) (seq 0 m).
Proof. unfold join_rows, ngrid. rewrite combine_map_same, map_map. reflexivity. Qed.
Lemma sax1d_value ppf m a b sigma scale d sz X n Y : real_dataset d n Y -> (0 < m <= n)%nat ->
  sax1d_transform (fitted1d ppf m a b sigma scale d sz X) (map lift Y) =
  Ok (map (fun s => map (fun i =>
        map (fun k => to_symbol (breakpoints ppf a 1) (XR (block_mean (scaled scale X (scaled scale X s)) (n / m) i k))) (seq 0 d) ++
        map (fun k => to_symbol (breakpoints ppf b sigma) (XR (ls_slope (i * (n / m)) (block (scaled scale X s) (n / m) i k)))) (seq 0 d))
        (seq 0 m)) Y).
Proof.
  intros HY Hm. unfold sax1d_transform. destruct (real_check _ _ _ HY) as (C1 & C2 & _). rewrite C1. simpl bind.
  unfold check_features. rewrite C2. cbn [fitted1d o_sax fitted s_paa p_d]. rewrite Nat.eqb_refl. simpl bind.
  fold (fitted1d ppf m a b sigma scale d sz X). unfold sax1d_transform_. cbn [fitted1d o_sax].
  rewrite (scale_dataset _ _ _ _ _ _ _ n) by auto. pose proof (scaled_dataset d n scale X Y HY) as HS.
  rewrite (sax_transform_value _ _ _ _ _ _ _ n) by auto. simpl bind at 1. cbn [fitted s_paa p_nseg].
  rewrite (get_slopes_real d n m) by auto. simpl bind. f_equal. cbn [o_bp fitted1d]. unfold paa_to_symbols.
  rewrite !map_map. rewrite combine_map_same, map_map. apply map_ext. intros s. cbn [fst snd].
  etransitivity; [|apply (join_ngrid m d)]. f_equal. unfold ngrid. rewrite !map_map. apply map_ext. intros i.
  rewrite !map_map. reflexivity.
Qed.

(** ** C39 *)
(** The symbols of 1d-SAX: [d] for the averages, then [d] for the slopes.  The slopes are
    those of the series standardised once; the averages those of the series
    standardised twice when [scale] is set. *)
Theorem C39_sax1d_symbols ppf m a b sigma_l scale d sz X n Y :
  quantile ppf -> real_dataset d sz X -> real_dataset d n Y -> (0 < m <= n)%nat -> (m <= sz)%nat ->
  match sigma_l with Some s => 0 < s | None => True end ->
  exists T sl, bind (sax1d_fit ppf m a b sigma_l scale (map lift X)) (fun st => sax1d_transform st (map lift Y)) = Ok T /\
    length T = length Y /\
    forall j i k, (j < length Y)%nat -> (i < m)%nat -> (k < d)%nat ->
      let row := nth i (nth j T []) [] in
      let s1 := scaled scale X (nth j Y []) in
      length row = (2 * d)%nat /\
      nth k row 0%nat = at_or_below (breakpoints ppf a 1) (block_mean (scaled scale X s1) (n / m) i k) /\
      least_squares_slope (i * (n / m)) (block s1 (n / m) i k) (sl j i k) /\
      nth (d + k) row 0%nat = at_or_below (breakpoints ppf b (sigma_of sigma_l (sz / m))) (sl j i k).
Proof.
  intros Hp HX HY Hm Hms Hsig. rewrite (sax1d_fit_value _ _ _ _ _ _ _ _ _ HX) by lia. simpl bind.
  rewrite (sax1d_value _ _ _ _ _ _ _ _ _ n) by auto. eexists.
  exists (fun j i k => ls_slope (i * (n / m)) (block (scaled scale X (nth j Y [])) (n / m) i k)).
  split; [reflexivity|]. rewrite map_length. split; auto. intros j i k Hj Hi Hk. cbv zeta.
  match goal with |- context [nth j (map ?F Y) []] => rewrite (nth_indep (map F Y) [] (F [])) by (rewrite map_length; auto); rewrite (map_nth F) end.
  rewrite map_seq_nth by auto. simpl plus.
  assert (Hq : (0 < n / m)%nat) by (apply Nat.div_str_pos; lia).
  assert (Hq' : (0 < sz / m)%nat) by (apply Nat.div_str_pos; lia).
  split; [rewrite app_length, !map_length, seq_length; lia|]. split; [|split].
  - rewrite app_nth1 by (rewrite map_length, seq_length; auto). rewrite map_seq_nth by auto. apply count_real; auto; lra.
  - apply ls_slope_optimal. unfold block. destruct (n / m)%nat; [lia|discriminate].
  - rewrite app_nth2 by (rewrite map_length, seq_length; lia). rewrite map_length, seq_length.
    replace (d + k - d)%nat with k by lia. rewrite map_seq_nth by auto. apply count_real; auto. apply sigma_pos; auto.
Qed.
Print Assumptions C39_sax1d_symbols.
(** without scaling the averages are those of the series itself (and so they agree
    with plain SAX, [C37_sax_transform_symbols]) *)
Theorem C39_unscaled_partial ppf m a b sigma_l d sz X n Y :
  quantile ppf -> real_dataset d sz X -> real_dataset d n Y -> (0 < m <= n)%nat -> (m <= sz)%nat ->
  match sigma_l with Some s => 0 < s | None => True end ->
  exists T S, bind (sax1d_fit ppf m a b sigma_l false (map lift X)) (fun st => sax1d_transform st (map lift Y)) = Ok T /\
    bind (sax_fit ppf m a false (map lift X)) (fun st => sax_transform st (map lift Y)) = Ok S /\
    forall j i, (j < length Y)%nat -> (i < m)%nat -> firstn d (nth i (nth j T []) []) = nth i (nth j S []) [].
Proof.
  intros Hp HX HY Hm Hms Hsig. rewrite (sax1d_fit_value _ _ _ _ _ _ _ _ _ HX) by lia. rewrite (sax_fit_value _ _ _ _ _ _ _ HX). simpl bind.
  fold (fitted ppf m a false d sz X).
  rewrite (sax1d_value _ _ _ _ _ _ _ _ _ n) by auto. rewrite (sax_public _ _ _ _ _ _ _ n) by auto. eexists. eexists.
  split; [reflexivity|]. split; [reflexivity|]. intros j i Hj Hi.
  match goal with |- context [nth j (map ?F Y) []] => rewrite (nth_indep (map F Y) [] (F [])) by (rewrite map_length; auto); rewrite (map_nth F) end.
  match goal with |- context [nth j (map ?F Y) []] => rewrite (nth_indep (map F Y) [] (F [])) by (rewrite map_length; auto); rewrite (map_nth F) end.
  unfold ngrid. rewrite !map_seq_nth by auto. rewrite firstn_app, firstn_all2 by (rewrite map_length, seq_length; lia).
  rewrite map_length, seq_length, Nat.sub_diag. simpl. apply app_nil_r.
Qed.
Print Assumptions C39_unscaled_partial.
(** with scaling they differ from those of the series standardised once, whatever the
    quantile function with median 0 *)
Definition ex_pos : list (list R) := [[10]; [12]].
Lemma ex_pos_real : real_dataset 1 2 [ex_pos].
Proof. split; [discriminate|]. intros s [<-|[]]. split; [|reflexivity]. split; [lia|split; [discriminate|]]. intros r [<-|[<-|[]]]; reflexivity. Qed.
Lemma ex_pos_avg : avg_of (values [ex_pos] 0) = 11. Proof. unfold avg_of, values. simpl. lra. Qed.
Lemma ex_pos_dev : dev [ex_pos] 0 = 1.
Proof.
  unfold dev. assert (E : std_of (values [ex_pos] 0) = 1).
  { unfold std_of. rewrite ex_pos_avg. unfold avg_of, values. simpl. replace (_ / _) with 1 by lra. apply sqrt_1. }
  rewrite E. destruct (Req_EM_T 1 0); lra.
Qed.
Lemma ex_pos_scaled s0 s1 : scaled true [ex_pos] [[s0]; [s1]] = [[s0 - 11]; [s1 - 11]].
Proof.
  unfold scaled, standardised. cbn [map length seq nth]. rewrite ex_pos_avg, ex_pos_dev.
  assert (E : forall x, (x - 11) / 1 = x - 11) by (intros; field). rewrite !E. reflexivity.
Qed.
Theorem C39_scaled_twice_refuted ppf : quantile ppf -> ppf (1 / 2) = 0 ->
  exists m a b d X T, real_dataset d 2 X /\
    bind (sax1d_fit ppf m a b None true (map lift X)) (fun st => sax1d_transform st (map lift X)) = Ok T /\
    nth 0 (nth 1 (nth 0 T []) []) 0%nat <>
      at_or_below (breakpoints ppf a 1) (block_mean (standardised X (nth 0 X [])) 1 1 0).
Proof.
  intros Hp H0. exists 2%nat, 2%nat, 2%nat, 1%nat, [ex_pos].
  destruct (C39_sax1d_symbols ppf 2 2 2 None true 1 2 [ex_pos] 2 [ex_pos]) as (T & sl & E & _ & H); auto using ex_pos_real.
  exists T. split; [apply ex_pos_real|]. split; [exact E|].
  destruct (H 0%nat 1%nat 0%nat) as (_ & H1 & _); [simpl; lia|lia|lia|]. cbv zeta in H1. rewrite H1. cbn [nth].
  change (standardised [ex_pos] ex_pos) with (scaled true [ex_pos] ex_pos). pose proof (ex_pos_scaled 10 12) as E1. fold ex_pos in E1. rewrite !E1, ex_pos_scaled.
  assert (B : breakpoints ppf 2 1 = [0]) by (unfold breakpoints; simpl; replace (1 / (1 + 1)) with (1 / 2) by lra; rewrite H0; f_equal; ring).
  rewrite B. unfold at_or_below, block_mean, entry. simpl.
  rewrite (proj2 (Rleb_false 0 ((12 - 11 - 11 + 0) / 1))) by lra. rewrite (proj2 (Rleb_true 0 ((12 - 11 + 0) / 1))) by lra. simpl. lia.
Qed.
Print Assumptions C39_scaled_twice_refuted.

(** ** C78 *)
Definition tab (n d : nat) (f : nat -> nat -> R) : list (list R) := map (fun i => map (f i) (seq 0 d)) (seq 0 n).
Lemma lift_tab n d f : lift (tab n d f) = xgrid n d f.
Proof. unfold lift, tab, xgrid, grow. rewrite map_map. apply map_ext. intros i. rewrite map_map. reflexivity. Qed.
Lemma tab_real n d f : (0 < n)%nat -> (0 < d)%nat -> real_series d (tab n d f) /\ length (tab n d f) = n.
Proof.
  intros Hn Hd. unfold tab. rewrite map_length, seq_length. split; auto. split; auto. split; [destruct n; [lia|discriminate]|].
  intros r Hr. apply in_map_iff in Hr. destruct Hr as (i & <- & _). rewrite map_length, seq_length. auto.
Qed.
Lemma tab_entry n d f i k : (i < n)%nat -> (k < d)%nat -> entry (tab n d f) i k = f i k.
Proof. intros Hi Hk. unfold entry, tab. rewrite !map_seq_nth by auto. reflexivity. Qed.
(** value of a 1d-SAX representation at time [u]: line of the segment through its
    average at the centre of the segment *)
Definition line_value (mid_avg mid_slope : list R) (q d : nat) (p : list (list nat)) (u k : nat) : R :=
  let row := nth (u / q) p [] in
  nth (nth k row 0%nat) mid_avg 0 + nth (nth (k + d) row 0%nat) mid_slope 0 * (INR u - centre (u / q * q) q).
Lemma inv_1d_grid ma ms sz m d junk jf p : (0 < m)%nat -> length p = m -> (forall u, (u < sz)%nat -> junk u = grow d (jf u)) ->
  inv_1d_series ma ms sz d junk p =
  xgrid sz d (fun u k => if (u <? m * (sz / m))%nat then line_value ma ms (sz / m) d p u k else jf u k).
Proof.
  intros Hm Hl Hj. unfold inv_1d_series. rewrite Hl. unfold rows_of, xgrid. apply map_ext_in. intros u Hu. apply in_seq in Hu.
  rewrite (write_fold_hi (sz / m) m (fun t => sz / m * (t + 1))%nat
     (fun t tt => map (fun di => XR (line1d (nth (nth di (nth t p []) 0%nat) ma 0) (nth (nth (di + d) (nth t p []) 0%nat) ms 0)
        (INR tt) (INR (t * (sz / m)) + 1 / 2 * (INR (sz / m) - 1)))) (seq 0 d))) by (intros; lia).
  destruct (Nat.ltb_spec u (m * (sz / m))); [reflexivity|]. apply Hj. lia.
Qed.
Lemma line_mean a q (av sl : R) : (0 < q)%nat ->
  rsum (map (fun u => av + sl * (INR u - centre a q)) (seq a q)) / INR q = av.
Proof.
  intros Hq. rewrite rsum_map_plus, rsum_map_scal, centred_zero, rsum_const, seq_length by auto. field. apply not_0_INR. lia.
Qed.
Lemma line_slope a q (av sl : R) : (2 <= q)%nat ->
  ls_slope a (map (fun u => av + sl * (INR u - centre a q)) (seq a q)) = sl.
Proof.
  intros Hq. rewrite (ls_slope_fun a q (fun u => av + sl * (INR u - centre a q))) by auto.
  unfold rmean. rewrite map_length, seq_length, line_mean by lia. pose proof (spread_pos a q Hq).
  rewrite (rsum_map_ext _ (fun u => sl * ((INR u - centre a q) * (INR u - centre a q)))) by (intros; ring).
  rewrite rsum_map_scal. field. lra.
Qed.
Lemma combine_seq_map {A B} (f : nat * A -> B) (g : A -> B) a l : (forall i x, In x l -> f (i, x) = g x) ->
  map f (combine (seq a (length l)) l) = map g l.
Proof. revert a. induction l as [|x l IH]; intros a H; simpl; auto. rewrite H by (left; auto). f_equal. apply IH. intros; apply H; right; auto. Qed.
(** Without scaling and with at least two time steps per segment,
    [transform(inverse_transform(S)) = S], whatever numbers the uninitialised tail of the
    inverse holds. *)
Theorem C78_sax1d_transform_inverse_partial ppf m a b sigma_l d sz X sy junk :
  quantile ppf -> real_dataset d sz X -> (0 < m)%nat -> (2 <= sz / m)%nat ->
  match sigma_l with Some s => 0 < s | None => True end ->
  symbol_array m (2 * d) (fun k => if (k <? d)%nat then a else b) sy ->
  (forall j u, exists v, length v = d /\ junk j u = map XR v) ->
  bind (sax1d_fit ppf m a b sigma_l false (map lift X)) (fun st => bind (sax1d_inverse st junk sy) (sax1d_transform st)) = Ok sy.
Proof.
  intros Hp HX Hm Hq Hsig [Hne Hsy] Hj. pose proof (dataset_pos _ _ _ HX) as [Hn Hd].
  assert (Hms : (m <= sz)%nat). { destruct (le_lt_dec m sz); auto. rewrite Nat.div_small in Hq by auto. lia. }
  rewrite (sax1d_fit_value _ _ _ _ _ _ _ _ _ HX) by lia. simpl bind. set (sigma := sigma_of sigma_l (sz / m)).
  assert (Hs : 0 < sigma) by (apply sigma_pos; auto; lia).
  assert (L0 : length (hd [] sy) = m) by (destruct sy as [|p sy]; [congruence|]; apply Hsy; left; auto).
  set (ma := bin_medians ppf a 1). set (ms := bin_medians ppf b sigma). set (q := (sz / m)%nat) in *.
  (* the series produced by the inverse *)
  assert (E : forall l j0, (forall p, In p l -> In p sy) -> exists Y, length Y = length l /\
     map (fun ip => inv_1d_series ma ms sz d (junk (fst ip)) (snd ip)) (combine (seq j0 (length l)) l) = map lift Y /\
     (forall s, In s Y -> real_series d s /\ length s = sz) /\
     forall i, (i < length l)%nat -> forall u k, (u < m * q)%nat -> (k < d)%nat -> entry (nth i Y []) u k = line_value ma ms q d (nth i l []) u k).
  { induction l as [|p l IH]; intros j0 Hin.
    - exists []. repeat split; auto; try contradiction. intros i Hi. simpl in Hi. lia.
    - destruct (IH (S j0)) as (Y & LY & EY & RY & VY); [intros; apply Hin; right; auto|].
      destruct (Hsy p) as [Hl Hr]; [apply Hin; left; auto|].
      assert (J : exists jf, forall u, (u < sz)%nat -> junk j0 u = grow d (jf u)).
      { exists (fun u k => match nth k (junk j0 u) (XR 0) with XR r => r | _ => 0 end). intros u _. destruct (Hj j0 u) as (v & Lv & ->).
        unfold grow. transitivity (map (fun i => XR (nth i v 0)) (seq 0 d)); [rewrite <- Lv; apply (map_nth_seq XR v 0)|].
        apply map_ext. intros k. rewrite (map_nth XR v 0 k). reflexivity. }
      destruct J as (jf & Hjf).
      set (F := fun u k => if (u <? m * q)%nat then line_value ma ms q d p u k else jf u k).
      exists (tab sz d F :: Y). destruct (tab_real sz d F Hn Hd) as [T1 T2].
      split; [simpl; auto|]. split; [|split].
      + cbn [length seq combine map fst snd]. rewrite (inv_1d_grid ma ms sz m d _ jf) by auto. rewrite lift_tab. f_equal. exact EY.
      + intros s [<-|Hs']; [split; assumption|auto].
      + intros i Hi u k Hu Hk. destruct i as [|i]; simpl in Hi.
        * cbn [nth]. assert (u < sz)%nat by (pose proof (Nat.mul_div_le sz m ltac:(lia)); unfold q in Hu; lia). rewrite tab_entry by auto. unfold F.
          destruct (Nat.ltb_spec u (m * q)); [reflexivity|lia].
        * cbn [nth]. apply VY; auto. lia. }
  destruct (E sy 0%nat) as (Y & LY & EY & RY & VY); auto.
  assert (I1 : sax1d_inverse (fitted1d ppf m a b sigma false d sz X) junk sy = Ok (map lift Y)).
  { unfold sax1d_inverse. rewrite L0. destruct (Nat.eqb_spec m 0); [lia|]. f_equal. exact EY. }
  rewrite I1. simpl bind.
  assert (HY : real_dataset d sz Y) by (split; [destruct Y; destruct sy; simpl in LY; congruence|auto]).
  rewrite (sax1d_value _ _ _ _ _ _ _ _ _ sz) by (auto; lia). f_equal. simpl scaled.
  apply nth_ext with (d := []) (d' := []); [rewrite map_length; auto|]. rewrite map_length. intros j Hjl.
  match goal with |- nth j (map ?F Y) [] = _ => rewrite (nth_indep (map F Y) [] (F [])) by (rewrite map_length; auto); rewrite (map_nth F) end.
  rewrite LY in Hjl. specialize (VY j Hjl). destruct (Hsy (nth j sy [])) as [Hl Hr]; [apply nth_In; auto|].
  apply nth_ext with (d := []) (d' := []); [rewrite map_length, seq_length; auto|]. rewrite map_length, seq_length. intros i Hi.
  rewrite map_seq_nth by auto. simpl plus. fold q. destruct (Hr i Hi) as [Hw Hb].
  assert (V : forall k, (k < d)%nat -> map (fun u => entry (nth j Y []) u k) (seq (i * q) q) =
     map (fun u => nth (nth k (nth i (nth j sy []) []) 0%nat) ma 0 + nth (nth (k + d) (nth i (nth j sy []) []) 0%nat) ms 0 * (INR u - centre (i * q) q)) (seq (i * q) q)).
  { intros k Hk. apply map_ext_in. intros u Hu. apply in_seq in Hu. destruct (in_block i u q m Hi ltac:(lia)) as [B1 B2].
    apply Nat.ltb_lt in B1. rewrite VY by auto. unfold line_value. rewrite B2. reflexivity. }
  apply nth_ext with (d := 0%nat) (d' := 0%nat); [rewrite app_length, !map_length, seq_length, Hw; lia|].
  rewrite app_length, !map_length, seq_length. intros k Hk. destruct (lt_dec k d) as [Lk|Lk].
  - rewrite app_nth1 by (rewrite map_length, seq_length; auto). rewrite map_seq_nth by auto. simpl plus. unfold block_mean.
    rewrite V by auto. rewrite line_mean by lia. unfold ma. apply median_symbol; auto; [lra|].
    specialize (Hb k ltac:(lia)). destruct (Nat.ltb_spec k d); [auto|lia].
  - rewrite app_nth2 by (rewrite map_length, seq_length; lia). rewrite map_length, seq_length. rewrite map_seq_nth by lia. simpl plus.
    unfold block. rewrite V by lia. rewrite line_slope by auto. replace (k - d + d)%nat with k by lia. unfold ms. apply median_symbol; auto.
    specialize (Hb k ltac:(lia)). destruct (Nat.ltb_spec k d); [lia|auto].
Qed.
Print Assumptions C78_sax1d_transform_inverse_partial.
(** with scaling the averages do not come back (the upper quartile of the normal
    distribution is 0.67...) *)
Theorem C78_scaled_refuted ppf : quantile ppf -> ppf (1 / 2) = 0 -> ppf (3 / 4) < 1 ->
  exists m a b d X sy T, real_dataset d 2 X /\ symbol_array m (2 * d) (fun k => if (k <? d)%nat then a else b) sy /\
    bind (sax1d_fit ppf m a b None true (map lift X)) (fun st => bind (sax1d_inverse st (fun _ _ => repeat (XR 0) d) sy) (sax1d_transform st)) = Ok T /\
    T <> sy.
Proof.
  intros Hp H0 H1. exists 1%nat, 2%nat, 1%nat, 1%nat, [ex_pos], [[[1; 0]%nat]].
  pose proof (Hp (1 / 2) (3 / 4)) as P. rewrite H0 in P. specialize (P ltac:(lra) ltac:(lra) ltac:(lra)).
  set (c := ppf (3 / 4)) in *. set (Y := [[11 + c]; [11 + c]]).
  assert (HY : real_dataset 1 2 [Y]).
  { split; [discriminate|]. intros s [<-|[]]. split; [|reflexivity]. split; [lia|split; [discriminate|]]. intros r [<-|[<-|[]]]; reflexivity. }
  rewrite (sax1d_fit_value ppf 1 2 1 None true 1 2 [ex_pos] ex_pos_real) by lia. cbn [bind].
  eexists. split; [apply ex_pos_real|]. split; [|split].
  - split; [discriminate|]. intros p [<-|[]]. split; auto. intros i Hi. assert (i = 0)%nat as -> by lia. split; auto.
    intros k Hk. destruct k as [|[|k]]; simpl in *; lia.
  - assert (E : sax1d_inverse (fitted1d ppf 1 2 1 (sigma_of None (2 / 1)) true 1 2 [ex_pos]) (fun _ _ => repeat (XR 0) 1) [[[1; 0]%nat]] = Ok (map lift [Y])).
    { unfold sax1d_inverse. cbn [fitted1d o_sax o_mid fitted s_mid s_paa p_sz p_d hd length Nat.eqb].
      f_equal. unfold sax_unscale. cbn [s_scaling seq combine map fst snd].
      rewrite (inv_1d_grid _ _ 2 1 1 _ (fun _ _ => 0)) by (auto; lia). f_equal. unfold xgrid. cbn [map seq].
      cbn [fitted s_scaling]. rewrite !unscale_row_grow. unfold grow, lift, Y. cbn [map seq]. rewrite ex_pos_avg, ex_pos_dev.
      change (2 / 1)%nat with 2%nat. change (0 <? 1 * 2)%nat with true. change (1 <? 1 * 2)%nat with true. cbv iota.
      unfold line_value. change (0 / 2)%nat with 0%nat. change (1 / 2)%nat with 0%nat. cbn [nth Nat.add].
      rewrite !mid_nth by lia.
      replace (INR (2 * 0 + 1) / INR (2 * 1)) with (1 / 2) by (simpl; lra).
      replace (INR (2 * 1 + 1) / INR (2 * 2)) with (3 / 4) by (simpl; lra). rewrite H0. fold c.
      assert (Z : forall x y, (c * 1 + 0 * x * y) * 1 + 11 = 11 + c) by (intros; ring). rewrite !Z. reflexivity. }
    rewrite E. cbn [bind]. apply (sax1d_value ppf 1 2 1 _ true 1 2 [ex_pos] 2 [Y]); auto.
  - unfold Y. cbn [map seq]. rewrite ex_pos_scaled. rewrite ex_pos_scaled.
    assert (B : breakpoints ppf 2 1 = [0]) by (unfold breakpoints; simpl; replace (1 / (1 + 1)) with (1 / 2) by lra; rewrite H0; f_equal; ring).
    rewrite B. unfold block_mean, entry. simpl.
    intros A. apply (f_equal (fun l => nth 0 (nth 0 (nth 0 l []) []) 0%nat)) in A. cbn [nth] in A. destruct (to_symbol_first [0] (XR ((11 + c - 11 - 11 + (11 + c - 11 - 11 + 0)) / (1 + 1)))) as (_ & A2 & _).
    rewrite A in A2. specialize (A2 0%nat ltac:(lia)). simpl in A2. apply Rltb_false in A2. lra.
Qed.
Print Assumptions C78_scaled_refuted.

(** ** C79 *)
(** The distance of two 1d-SAX representations is computed with lines through the average
    half a time step after the centre, so it is not the distance of the reconstructions: *)
Theorem C79_distance_of_reconstructions_refuted ppf : quantile ppf ->
  exists m a b d X s1 s2 Y u, real_dataset d 2 X /\
    symbol_array m (2 * d) (fun k => if (k <? d)%nat then a else b) [s1; s2] /\
    bind (sax1d_fit ppf m a b (Some 1) false (map lift X)) (fun st => sax1d_inverse st (fun _ _ => repeat (XR 0) d) [s1; s2]) = Ok (map lift Y) /\
    bind (sax1d_fit ppf m a b (Some 1) false (map lift X)) (fun st => distance_1d_sax st s1 s2) = Ok u /\
    euclid (nth 0 Y []) (nth 1 Y []) < u.
Proof.
  intros Hp. pose proof (Hp (1 / 4) (3 / 4) ltac:(lra) ltac:(lra) ltac:(lra)) as P.
  set (c0 := ppf (1 / 4)) in *. set (c1 := ppf (3 / 4)) in *. set (v := ppf (1 / 2)).
  exists 1%nat, 1%nat, 2%nat, 1%nat, [ex_pos], [[0; 0]%nat], [[0; 1]%nat], [[[v - c0 / 2]; [v + c0 / 2]]; [[v - c1 / 2]; [v + c1 / 2]]].
  rewrite (sax1d_fit_value ppf 1 1 2 (Some 1) false 1 2 [ex_pos] ex_pos_real) by lia. cbn [bind].
  assert (M0 : nth 0 (bin_medians ppf 2 1) 0 = c0).
  { rewrite mid_nth by lia. replace (INR (2 * 0 + 1) / INR (2 * 2)) with (1 / 4) by (simpl; lra). fold c0. ring. }
  assert (M1 : nth 1 (bin_medians ppf 2 1) 0 = c1).
  { rewrite mid_nth by lia. replace (INR (2 * 1 + 1) / INR (2 * 2)) with (3 / 4) by (simpl; lra). fold c1. ring. }
  assert (MV : nth 0 (bin_medians ppf 1 1) 0 = v).
  { rewrite mid_nth by lia. replace (INR (2 * 0 + 1) / INR (2 * 1)) with (1 / 2) by (simpl; lra). fold v. ring. }
  eexists. split; [apply ex_pos_real|]. split; [|split; [|split; [reflexivity|]]].
  - split; [discriminate|]. intros p [<-|[<-|[]]]; (split; [reflexivity|]; intros i Hi; assert (i = 0)%nat as -> by lia; split; [reflexivity|];
      intros k Hk; destruct k as [|[|k]]; simpl in *; lia).
  - unfold sax1d_inverse. cbn [fitted1d o_sax o_mid fitted s_mid s_paa p_sz p_d hd length Nat.eqb]. f_equal.
    unfold sax_unscale. cbn [s_scaling seq combine map fst snd fitted].
    rewrite !(inv_1d_grid _ _ 2 1 1 _ (fun _ _ => 0)) by (auto; lia). unfold xgrid. cbn [map seq].
    unfold grow, lift. cbn [map seq sigma_of].
    change (2 / 1)%nat with 2%nat. change (0 <? 1 * 2)%nat with true. change (1 <? 1 * 2)%nat with true. cbv iota.
    unfold line_value. change (0 / 2)%nat with 0%nat. change (1 / 2)%nat with 0%nat. cbn [nth Nat.add]. rewrite M0, M1, MV.
    assert (Z0 : forall x, v + x * (INR 0 - centre (0 * 2) 2) = v - x / 2) by (intros; unfold centre; simpl; lra).
    assert (Z1 : forall x, v + x * (INR 1 - centre (0 * 2) 2) = v + x / 2) by (intros; unfold centre; simpl; lra).
    rewrite !Z0, !Z1. reflexivity.
  - cbn [nth]. unfold euclid. apply sqrt_lt_1_alt. cbn [length seq map nth].
    unfold sqd. cbn [combine map fst snd fitted1d o_sax o_mid fitted s_mid sigma_of Nat.mul hd length].
    change (2 / 1)%nat with 2%nat. change (2 / 2)%nat with 1%nat. cbn [seq flat_map map app rsum fold_right nth Nat.add].
    rewrite M0, M1, MV. unfold line1d. simpl. nra.
Qed.
Print Assumptions C79_distance_of_reconstructions_refuted.
(** ... it is when the slope symbols agree (and the segments cover the series) *)
Lemma rsum_flat_map {A} (f : A -> list R) l : rsum (flat_map f l) = rsum (map (fun x => rsum (f x)) l).
Proof. induction l; simpl; auto. rewrite rsum_app, IHl. reflexivity. Qed.
Theorem C79_equal_slopes_partial ppf m a b sigma_l d sz X s1 s2 junk :
  real_dataset d sz X -> (0 < m)%nat -> Nat.divide m sz ->
  symbol_array m (2 * d) (fun k => if (k <? d)%nat then a else b) [s1; s2] ->
  (forall i k, (i < m)%nat -> (k < d)%nat -> nth (d + k) (nth i s1 []) 0%nat = nth (d + k) (nth i s2 []) 0%nat) ->
  exists y1 y2, real_series d y1 /\ real_series d y2 /\ length y1 = sz /\ length y2 = sz /\
    bind (sax1d_fit ppf m a b sigma_l false (map lift X)) (fun st => sax1d_inverse st junk [s1; s2]) = Ok (map lift [y1; y2]) /\
    bind (sax1d_fit ppf m a b sigma_l false (map lift X)) (fun st => distance_1d_sax st s1 s2) = Ok (euclid y1 y2).
Proof.
  intros HX Hm [q Hq] [_ Hsy] Hsl. pose proof (dataset_pos _ _ _ HX) as [Hn Hd].
  assert (Eq : (sz / m = q)%nat) by (rewrite Hq; apply Nat.div_mul; lia).
  assert (Q : (0 < q)%nat) by (destruct q; lia).
  assert (Hms : (m <= sz)%nat) by (rewrite Hq; rewrite <- (Nat.mul_1_l m) at 1; apply Nat.mul_le_mono_r; lia).
  destruct (Hsy s1) as [L1 R1]; [left; auto|]. destruct (Hsy s2) as [L2 R2]; [right; left; auto|].
  rewrite (sax1d_fit_value _ _ _ _ _ _ _ _ _ HX) by lia. cbn [bind]. rewrite Eq.
  set (sigma := sigma_of sigma_l q). set (ma := bin_medians ppf a 1). set (ms := bin_medians ppf b sigma).
  set (F := fun p u k => line_value ma ms q d p u k).
  exists (tab sz d (F s1)), (tab sz d (F s2)).
  destruct (tab_real sz d (F s1) Hn Hd) as [T1 N1], (tab_real sz d (F s2) Hn Hd) as [T2 N2].
  split; [exact T1|]. split; [exact T2|]. split; [exact N1|]. split; [exact N2|]. split.
  - assert (I1 : forall p jk, length p = m -> inv_1d_series ma ms sz d jk p = lift (tab sz d (F p))).
    { intros p jk Lp. rewrite lift_tab. unfold inv_1d_series. rewrite Lp. unfold rows_of, xgrid. apply map_ext_in. intros u Hu. apply in_seq in Hu. rewrite Eq.
      rewrite (write_fold_hi q m (fun t => q * (t + 1))%nat
        (fun t tt => map (fun di => XR (line1d (nth (nth di (nth t p []) 0%nat) ma 0) (nth (nth (di + d) (nth t p []) 0%nat) ms 0)
        (INR tt) (INR (t * q) + 1 / 2 * (INR q - 1)))) (seq 0 d))) by (intros; lia).
      destruct (Nat.ltb_spec u (m * q)); [reflexivity|lia]. }
    unfold sax1d_inverse. cbn [hd]. rewrite L1. destruct (Nat.eqb_spec m 0); [lia|]. f_equal. unfold sax_unscale.
    cbn [length seq combine map fst snd]. cbn [fitted1d o_sax o_mid fitted s_mid s_paa p_sz p_d s_scaling]. fold ma. fold ms. rewrite !I1 by auto. reflexivity.
  - unfold distance_1d_sax, cydist_1d_sax.
    assert (SS : same_shape s1 s2 = true).
    { rewrite (list_ngrid m (2 * d) s1 L1) by (intros; apply R1; auto). rewrite (list_ngrid m (2 * d) s2 L2) by (intros; apply R2; auto). apply same_shape_ngrid. }
    rewrite SS. cbn [negb]. rewrite L1. destruct (Nat.eqb_spec m 0); [lia|]. f_equal.
    rewrite (euclid_gsum d) by (auto; lia). f_equal. rewrite N1.
    cbn [fitted1d o_sax o_mid fitted s_mid s_paa p_sz p_d]. fold ma. fold ms. rewrite Eq.
    replace (length (hd [] s1) / 2)%nat with d.
    2:{ destruct s1 as [|r s1]; [simpl in L1; lia|]. cbn [hd]. destruct (R1 0%nat Hm) as [W _]. cbn [nth] in W. rewrite W. rewrite Nat.mul_comm, Nat.div_mul; lia. }
    rewrite rsum_flat_map.
    rewrite (gsum_ext sz d _ (fun u k => sq (nth (nth k (nth (u / q) s1 []) 0%nat) ma 0 - nth (nth k (nth (u / q) s2 []) 0%nat) ma 0))).
    2:{ intros u k Hu Hk. rewrite !tab_entry by auto. unfold F, line_value. f_equal.
        assert (Hi : (u / q < m)%nat) by (apply mul_div_bound; lia).
        specialize (Hsl (u / q)%nat k Hi Hk). rewrite !(Nat.add_comm d k) in Hsl. rewrite Hsl. ring. }
    unfold gsum. rewrite (rsum_swap _ (seq 0 sz)).
    rewrite (rsum_map_ext _ (fun t => rsum (map (fun di => rsum (map (fun u => sq (nth (nth di (nth (u / q) s1 []) 0%nat) ma 0 - nth (nth di (nth (u / q) s2 []) 0%nat) ma 0)) (seq (t * q) q))) (seq 0 d)))).
    + rewrite (rsum_swap (fun t di => rsum (map (fun u => sq (nth (nth di (nth (u / q) s1 []) 0%nat) ma 0 - nth (nth di (nth (u / q) s2 []) 0%nat) ma 0)) (seq (t * q) q))) (seq 0 m)).
      apply rsum_map_ext. intros k _. rewrite rsum_blocks. rewrite Hq, Nat.mul_comm. reflexivity.
    + intros t Ht. apply in_seq in Ht. rewrite rsum_flat_map. apply rsum_map_ext. intros k Hk. apply in_seq in Hk. apply rsum_map_ext. intros u Hu. apply in_seq in Hu.
      destruct (in_block t u q m) as [_ ->]; [lia|lia|]. specialize (Hsl t k ltac:(lia) ltac:(lia)). rewrite !(Nat.add_comm d k) in Hsl. rewrite Hsl. unfold line1d, sq. ring.
Qed.
Print Assumptions C79_equal_slopes_partial.

(** the hypotheses are met: a quantile function with the values of the normal one at 1/2
    and below 1 at 3/4, a dataset, an array of symbols *)
Example ex_quantile : quantile (fun q => 2 * q - 1) /\ 2 * (1 / 2) - 1 = 0 /\ 2 * (3 / 4) - 1 < 1.
Proof. unfold quantile. repeat split; intros; lra. Qed.
Example ex_symbols : symbol_array 2 2 (fun k => if (k <? 1)%nat then 5%nat else 3%nat) [[[4; 2]; [0; 1]]%nat].
Proof.
  split; [discriminate|]. intros p [<-|[]]. split; [reflexivity|]. intros i Hi.
  destruct i as [|[|i]]; [| |lia]; (split; [reflexivity|]); intros k Hk; destruct k as [|[|k]]; simpl; lia.
Qed.
Example ex_round_trip : bind (sax_fit (fun q => 2 * q - 1) 2 5 true (map lift [ex_pos]))
  (fun st => bind (sax_inverse st [[[4]; [0]]%nat]) (sax_transform st)) = Ok [[[4]; [0]]%nat].
Proof.
  apply (C77_sax_transform_inverse _ 2 5 true 1 2 [ex_pos]); [apply ex_quantile|apply ex_pos_real|lia|].
  split; [discriminate|]. intros p [<-|[]]. split; [reflexivity|]. intros i Hi.
  destruct i as [|[|i]]; [| |lia]; (split; [reflexivity|]); intros k Hk; destruct k as [|k]; simpl; lia.
Qed.

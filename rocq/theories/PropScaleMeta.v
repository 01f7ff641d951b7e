(** C200: the scalers do not see the unit and the origin of the data, and scaling what
    is scaled changes nothing. *)
From Coq Require Import Bool List Arith Lia Reals Lra.
From Verif Require Import Num NumLaws Py Series RList SoftModel GakModel PaaModel PaaThms PreModel PropScale.
Import ListNotations.
Local Open Scope R_scope.

(** ** Specification *)
(** [X'] is [X] measured in another unit and from another origin: the number [v] at
    [(i, t, k)] reads [a i k * v + b i k] *)
Definition remeasured (a b : nat -> nat -> R) (n sz d : nat) (X X' : array3) : Prop :=
  shape3 n sz d X /\ shape3 n sz d X' /\
  forall i t k, (i < n)%nat -> (t < sz)%nat -> (k < d)%nat ->
    entry3 X' i t k = match entry3 X i t k with XR v => XR (a i k * v + b i k) | x => x end.
(** entries that share their scale share unit and origin, the units are positive *)
Definition units (per_ts per_feat : bool) (a b : nat -> nat -> R) : Prop :=
  forall i k i' k', 0 < a i k /\ (shares per_ts per_feat i k i' k' -> a i' k' = a i k /\ b i' k' = b i k).
(** [scaler.fit(X).transform(Z)] *)
Definition min_max (p : mm_params) (X Z : array3) : res array3 := do st <- mm_fit p X ;; mm_transform p st Z.
Definition mean_var (p : mv_params) (X Z : array3) : res array3 := do st <- mv_fit p X ;; mv_transform p st Z.

(** ** Arrays *)
Lemma nth_ext_at {A} (l l' : list A) x : length l = length l' -> (forall i, (i < length l)%nat -> nth i l x = nth i l' x) -> l = l'.
Proof. intros L H. apply (nth_ext l l' x x L). auto. Qed.
Lemma array_ext n sz d X Y : shape3 n sz d X -> shape3 n sz d Y ->
  (forall i t k, (i < n)%nat -> (t < sz)%nat -> (k < d)%nat -> entry3 X i t k = entry3 Y i t k) -> X = Y.
Proof.
  intros HX HY H. pose proof HX as [LX _]. pose proof HY as [LY _].
  apply (nth_ext_at X Y []); [lia|]. intros i Hi. rewrite LX in Hi.
  destruct (shape_series n sz d X i HX Hi) as [A1 _]. destruct (shape_series n sz d Y i HY Hi) as [A2 _].
  apply (nth_ext_at _ _ []); [norm; lia|]. intros t Ht. norm. rewrite A1 in Ht.
  pose proof (shape_row n sz d X i t HX Hi Ht) as B1. pose proof (shape_row n sz d Y i t HY Hi Ht) as B2.
  apply (nth_ext_at _ _ XNaN); [norm; lia|]. intros k Hk. norm. rewrite B1 in Hk. apply (H i t k); auto.
Qed.
Lemma remeasured_numeric a b n sz d X X' : remeasured a b n sz d X X' -> numeric X -> numeric X'.
Proof.
  intros (HX & HX' & H) HN s r x Hs Hr Hx. pose proof HX' as [L' _]. norm.
  destruct (In_nth _ _ [] Hs) as (i & Hi & <-). rewrite L' in Hi.
  destruct (shape_series n sz d X' i HX' Hi) as [A _].
  destruct (In_nth _ _ [] Hr) as (t & Ht & <-). norm. rewrite A in Ht.
  pose proof (shape_row n sz d X' i t HX' Hi Ht) as B.
  destruct (In_nth _ _ XNaN Hx) as (k & Hk & <-). norm. rewrite B in Hk.
  specialize (H i t k Hi Ht Hk). match goal with |- ?x = _ \/ _ => change x with (entry3 X' i t k) end. rewrite H.
  destruct (entry_numeric n sz d X i t k HX HN Hi Ht Hk) as [->|[v ->]]; eauto.
Qed.
(** the numbers that share a scale, measured anew *)
Lemma scope_remeasured pt pf a b n sz d X X' i k : units pt pf a b -> remeasured a b n sz d X X' -> numeric X ->
  (i < n)%nat -> (k < d)%nat ->
  scope pt pf n sz d X' i k = map (fun v => a i k * v + b i k) (scope pt pf n sz d X i k).
Proof.
  intros U (HX & HX' & H) HN Hi Hk. rewrite !scope_cells.
  rewrite <- (numbers_map (fun x => match x with XR v => XR (a i k * v + b i k) | x => x end)); auto;
    [|apply (group_plain pt pf n sz d X i k HX HN Hi Hk)].
  rewrite map_map. f_equal. apply map_ext_in. intros ((i', t), k') Hc. apply cells_in in Hc; auto. destruct Hc as (H1 & H2 & H3 & H4).
  unfold at3. rewrite H by auto. destruct (U i k i' k') as [_ E]. destruct (E H4) as [-> ->]. destruct (entry3 X i' t k'); reflexivity.
Qed.
Lemma rmin_affine a b l : 0 < a -> l <> [] -> rmin (map (fun v => a * v + b) l) = a * rmin l + b.
Proof.
  intros Ha Hl. apply Rle_antisym.
  - apply rmin_le. apply in_map_iff. exists (rmin l). split; auto. apply rmin_in; auto.
  - assert (Hm : map (fun v => a * v + b) l <> []) by (intros E; apply map_eq_nil in E; auto).
    pose proof (rmin_in _ Hm) as I. apply in_map_iff in I. destruct I as (v & <- & Hv). pose proof (rmin_le l v Hv). nra.
Qed.
Lemma rmax_affine a b l : 0 < a -> l <> [] -> rmax (map (fun v => a * v + b) l) = a * rmax l + b.
Proof.
  intros Ha Hl. apply Rle_antisym.
  - assert (Hm : map (fun v => a * v + b) l <> []) by (intros E; apply map_eq_nil in E; auto).
    pose proof (rmax_in _ Hm) as I. apply in_map_iff in I. destruct I as (v & <- & Hv). pose proof (rmax_ge l v Hv). nra.
  - apply rmax_ge. apply in_map_iff. exists (rmax l). split; auto. apply rmax_in; auto.
Qed.
Lemma mean_aff a b l : l <> [] -> mean (map (fun v => a * v + b) l) = a * mean l + b.
Proof.
  intros H. rewrite <- (map_map (fun v => a * v) (fun v => v + b)). rewrite mean_plus by (intros E; apply map_eq_nil in E; auto).
  rewrite mean_scal. reflexivity.
Qed.
Lemma std_aff a b l : 0 < a -> l <> [] -> std_dev (map (fun v => a * v + b) l) = a * std_dev l.
Proof.
  intros Ha H. unfold std_dev. rewrite mean_aff by auto. rewrite map_map.
  rewrite (map_ext _ (fun v => (a * a) * ((v - mean l) * (v - mean l)))) by (intros; ring).
  rewrite <- (map_map (fun v => (v - mean l) * (v - mean l)) (fun v => (a * a) * v)). rewrite mean_scal.
  rewrite sqrt_mult_alt by apply Rle_0_sqr. rewrite sqrt_square by lra. reflexivity.
Qed.
(** a value of [l], or values of [l] differ *)
Definition spread (l : list R) (v : R) : Prop := In v l \/ exists u w, In u l /\ In w l /\ u <> w.
Lemma mm_affine_aff p a b l v : 0 < a -> spread l v -> mm_affine p (map (fun v => a * v + b) l) (a * v + b) = mm_affine p l v.
Proof.
  intros Ha Hl. assert (Hne : l <> []) by (intros ->; destruct Hl as [[]|(u & w & [] & _)]).
  unfold mm_affine. rewrite rmin_affine, rmax_affine by auto.
  destruct (Req_EM_T (a * rmax l + b - (a * rmin l + b)) 0) as [E|E]; destruct (Req_EM_T (rmax l - rmin l) 0) as [F|F].
  - destruct Hl as [Hv|(u & w & Hu & Hw & Huw)].
    + pose proof (rmin_le l v Hv). pose proof (rmax_ge l v Hv). replace v with (rmin l) by lra.
      replace (a * rmin l + b - (a * rmin l + b)) with 0 by ring. replace (rmin l - rmin l) with 0 by ring. reflexivity.
    + exfalso. apply Huw. pose proof (rmin_le l u Hu). pose proof (rmax_ge l u Hu). pose proof (rmin_le l w Hw). pose proof (rmax_ge l w Hw). lra.
  - exfalso. apply F. apply Rmult_eq_reg_l with a; lra.
  - exfalso. apply E. replace (a * rmax l + b - (a * rmin l + b)) with (a * (rmax l - rmin l)) by ring. rewrite F. ring.
  - field. split; auto.
Qed.
Lemma std_flat l v : std_dev l = 0 -> In v l -> v = mean l.
Proof. intros E Hv. apply (std_zero 1 1 (le_n _) (le_n _) l); auto. intros ->. contradiction. Qed.
Lemma mv_affine_aff p a b l v : 0 < a -> spread l v -> mv_affine p (map (fun v => a * v + b) l) (a * v + b) = mv_affine p l v.
Proof.
  intros Ha Hl. assert (Hne : l <> []) by (intros ->; destruct Hl as [[]|(u & w & [] & _)]).
  unfold mv_affine. rewrite mean_aff, std_aff by auto.
  destruct (Req_EM_T (a * std_dev l) 0) as [E|E]; destruct (Req_EM_T (std_dev l) 0) as [F|F].
  - destruct Hl as [Hv|(u & w & Hu & Hw & Huw)].
    + rewrite (std_flat l v F Hv).
      replace (a * mean l + b - (a * mean l + b)) with 0 by ring. replace (mean l - mean l) with 0 by ring. reflexivity.
    + exfalso. apply Huw. rewrite (std_flat l u F Hu), (std_flat l w F Hw). reflexivity.
  - exfalso. apply F. apply Rmult_eq_reg_l with a; lra.
  - exfalso. apply E. rewrite F. ring.
  - field. split; auto. lra.
Qed.

(** ** The entries of [fit(X).transform(Z)] *)
(** the numbers the scaling of entry [(i, _, k)] is learnt from *)
Definition learnt (pt pf : bool) (n sz n' sz' d : nat) (X Z : array3) (i k : nat) : list R :=
  if pt then scope true pf n' sz' d Z i k else scope false pf n sz d X 0 k.
Lemma value_of_nan p a b : mv_value p a b XNaN = XNaN.
Proof. unfold mv_value, xsub. destruct a, b; simpl; auto; match goal with |- context [Req_EM_T ?x 0] => destruct (Req_EM_T x 0) end; auto. Qed.
Section Entries.
Variables (n sz n' sz' d : nat) (X Z : array3).
Hypotheses (Hn : (0 < n)%nat) (Hsz : (0 < sz)%nat) (HS : shape3 n sz d X) (HN : numeric X)
  (Hn' : (0 < n')%nat) (Hsz' : (0 < sz')%nat) (HS' : shape3 n' sz' d Z) (HN' : numeric Z).
Lemma mm_entries p : mm_lo p < mm_hi p -> exists Y, min_max p X Z = Ok Y /\ shape3 n' sz' d Y /\
  forall i t k, (i < n')%nat -> (t < sz')%nat -> (k < d)%nat ->
  entry3 Y i t k = match entry3 Z i t k, learnt (mm_per_ts p) (mm_per_feat p) n sz n' sz' d X Z i k with
                   | XR v, x :: l => XR (mm_affine p (x :: l) v)
                   | _, _ => XNaN end.
Proof.
  intros Hp. unfold min_max, mm_fit. rewrite (check_arr_shape n sz d X HS Hn Hsz). cbn [bind].
  unfold mm_transform. destruct (Rleb (mm_hi p) (mm_lo p)) eqn:E; [apply Rleb_true in E; lra|].
  rewrite (check_arr_shape n' sz' d Z HS' Hn' Hsz'). cbn [bind mm_d mm_stats]. unfold check_features.
  rewrite (arr_d_shape n sz d X), (arr_d_shape n' sz' d Z) by auto. rewrite Nat.eqb_refl. cbn [bind]. eexists. split; [reflexivity|].
  split; [apply map_entries_shape; auto|]. intros i t k Hi Ht Hk. rewrite (map_entries_entry _ n' sz' d) by auto.
  assert (G : forall mn mx, (mn, mx) = (if mm_per_ts p then mm_process p Z else mm_process p X) i k ->
    match learnt (mm_per_ts p) (mm_per_feat p) n sz n' sz' d X Z i k with
    | [] => mn = XNaN /\ mx = XNaN | l => mn = XR (rmin l) /\ mx = XR (rmax l) end).
  { intros mn mx Es. unfold learnt, mm_process in *. destruct (mm_per_ts p) eqn:Ep.
    - rewrite (group_cells true _ n' sz' d Z i k HS' Hi) in Es. pose proof (group_plain true (mm_per_feat p) n' sz' d Z i k HS' HN' Hi Hk) as P.
      rewrite (nanmin_numbers _ P), (nanmax_numbers _ P) in Es. rewrite <- scope_cells in Es. injection Es as -> ->.
      destruct (scope _ _ _ _ _ _ _ _); auto.
    - change (group false (mm_per_feat p) X i k) with (group false (mm_per_feat p) X 0 k) in Es.
      rewrite (group_cells false _ n sz d X 0 k HS Hn) in Es. pose proof (group_plain false (mm_per_feat p) n sz d X 0 k HS HN Hn Hk) as P.
      rewrite (nanmin_numbers _ P), (nanmax_numbers _ P) in Es. rewrite <- scope_cells in Es. injection Es as -> ->.
      destruct (scope _ _ _ _ _ _ _ _); auto. }
  destruct ((if mm_per_ts p then mm_process p Z else mm_process p X) i k) as [mn mx]. specialize (G mn mx eq_refl). cbn [fst snd].
  destruct (entry_numeric n' sz' d Z i t k HS' HN' Hi Ht Hk) as [->|[v ->]].
  - rewrite mm_value_nan. reflexivity.
  - destruct (learnt _ _ _ _ _ _ _ _ _ _ _) as [|x l]; destruct G as [-> ->].
    + unfold mm_value. simpl. reflexivity.
    + apply mm_value_affine.
Qed.
Lemma mv_entries p : exists Y, mean_var p X Z = Ok Y /\ shape3 n' sz' d Y /\
  forall i t k, (i < n')%nat -> (t < sz')%nat -> (k < d)%nat ->
  entry3 Y i t k = match entry3 Z i t k, learnt (mv_per_ts p) (mv_per_feat p) n sz n' sz' d X Z i k with
                   | XR v, x :: l => XR (mv_affine p (x :: l) v)
                   | _, _ => XNaN end.
Proof.
  unfold mean_var, mv_fit. rewrite (check_arr_shape n sz d X HS Hn Hsz). cbn [bind]. unfold mv_transform.
  rewrite (check_arr_shape n' sz' d Z HS' Hn' Hsz'). cbn [bind mm_d mm_stats]. unfold check_features.
  rewrite (arr_d_shape n sz d X), (arr_d_shape n' sz' d Z) by auto. rewrite Nat.eqb_refl. cbn [bind]. eexists. split; [reflexivity|].
  split; [apply map_entries_shape; auto|]. intros i t k Hi Ht Hk. rewrite (map_entries_entry _ n' sz' d) by auto.
  assert (G : forall mn sd, (mn, sd) = (if mv_per_ts p then mv_process p Z else mv_process p X) i k ->
    match learnt (mv_per_ts p) (mv_per_feat p) n sz n' sz' d X Z i k with
    | [] => mn = XNaN
    | l => mn = XR (mean l) /\ sd = XR (if Req_EM_T (std_dev l) 0 then 1 else std_dev l) end).
  { assert (G0 : forall mn sd l, plain l -> (mn, sd) = (nanmean l, if is_xzero (nanstd l) then XR 1 else nanstd l) ->
      match numbers l with [] => mn = XNaN | l => mn = XR (mean l) /\ sd = XR (if Req_EM_T (std_dev l) 0 then 1 else std_dev l) end).
    { intros mn sd l P Es. injection Es as -> ->. rewrite (nanmean_numbers l P).
      destruct (numbers l) as [|x l0] eqn:El; auto. split; auto.
      rewrite (nanstd_numbers l P) by congruence. rewrite El. unfold is_xzero, is_zero.
      destruct (Req_EM_T (std_dev (x :: l0)) 0); auto. }
    intros mn sd Es. unfold learnt, mv_process in *. destruct (mv_per_ts p) eqn:Ep.
    - rewrite (group_cells true _ n' sz' d Z i k HS' Hi) in Es. 
      rewrite scope_cells. apply G0; auto. apply (group_plain true (mv_per_feat p) n' sz' d Z i k HS' HN' Hi Hk).
    - change (group false (mv_per_feat p) X i k) with (group false (mv_per_feat p) X 0 k) in Es.
      rewrite (group_cells false _ n sz d X 0 k HS Hn) in Es.
      rewrite scope_cells. apply G0; auto. apply (group_plain false (mv_per_feat p) n sz d X 0 k HS HN Hn Hk). }
  destruct ((if mv_per_ts p then mv_process p Z else mv_process p X) i k) as [mn sd]. specialize (G mn sd eq_refl). cbn [fst snd].
  destruct (entry_numeric n' sz' d Z i t k HS' HN' Hi Ht Hk) as [->|[v ->]].
  - rewrite value_of_nan. reflexivity.
  - destruct (learnt _ _ _ _ _ _ _ _ _ _ _) as [|x l]; [subst mn|destruct G as [-> ->]].
    + unfold mv_value. simpl. destruct sd; simpl; auto. destruct (Req_EM_T r 0); auto.
    + unfold mv_value, mv_affine, xsub. cbn [xadd xopp xmul].
      set (e := if Req_EM_T _ 0 then 1 else _). assert (e <> 0) by (unfold e; destruct (Req_EM_T (std_dev (x :: l)) 0); auto; lra).
      rewrite xdiv_real by auto. reflexivity.
Qed.
End Entries.

(** ** C200: unit and origin *)
(** Every number of [Z] is one of those the scaling is learnt from, or those differ.
    The first holds for [fit_transform] and for [per_timeseries=True]. *)
Definition well_spread (pt pf : bool) (n sz n' sz' d : nat) (X Z : array3) : Prop :=
  forall i t k v, (i < n')%nat -> (t < sz')%nat -> (k < d)%nat -> entry3 Z i t k = XR v ->
    let l := if pt then scope true pf n' sz' d Z i k else scope false pf n sz d X 0 k in
    In v l \/ exists u w, In u l /\ In w l /\ u <> w.
Lemma learnt_remeasured pt pf a b n sz n' sz' d X X' Z Z' i k : (0 < n)%nat -> units pt pf a b -> numeric X -> numeric Z ->
  remeasured a b n sz d X X' -> remeasured a b n' sz' d Z Z' -> (i < n')%nat -> (k < d)%nat ->
  learnt pt pf n sz n' sz' d X' Z' i k = map (fun v => a i k * v + b i k) (learnt pt pf n sz n' sz' d X Z i k).
Proof.
  intros Hn U HX HZ R1 R2 Hi Hk. unfold learnt. destruct pt.
  - apply scope_remeasured; auto.
  - rewrite (scope_remeasured false pf a b n sz d X X' 0 k U R1 HX Hn Hk).
    destruct (U i k 0%nat k) as [_ E]. destruct E as [-> ->]; [split; congruence|reflexivity].
Qed.
Theorem C200_minmax p a b n sz n' sz' d X X' Z Z' :
  mm_lo p < mm_hi p -> units (mm_per_ts p) (mm_per_feat p) a b ->
  (0 < n)%nat -> (0 < sz)%nat -> numeric X -> remeasured a b n sz d X X' ->
  (0 < n')%nat -> (0 < sz')%nat -> numeric Z -> remeasured a b n' sz' d Z Z' ->
  well_spread (mm_per_ts p) (mm_per_feat p) n sz n' sz' d X Z ->
  exists Y, min_max p X Z = Ok Y /\ min_max p X' Z' = Ok Y.
Proof.
  intros Hp U Hn Hsz HX R1 Hn' Hsz' HZ R2 W. pose proof R1 as (A1 & A2 & _). pose proof R2 as (A3 & A4 & R2').
  pose proof (remeasured_numeric _ _ _ _ _ _ _ R1 HX) as HX'. pose proof (remeasured_numeric _ _ _ _ _ _ _ R2 HZ) as HZ'.
  destruct (mm_entries n sz n' sz' d X Z Hn Hsz A1 HX Hn' Hsz' A3 HZ p Hp) as (Y & E & S1 & G).
  destruct (mm_entries n sz n' sz' d X' Z' Hn Hsz A2 HX' Hn' Hsz' A4 HZ' p Hp) as (Y' & E' & S2 & G').
  exists Y. split; auto. rewrite E'. f_equal. apply (array_ext n' sz' d); auto. intros i t k Hi Ht Hk.
  rewrite G, G', (R2' i t k) by auto.
  rewrite (learnt_remeasured _ _ a b n sz n' sz' d X X' Z Z' i k) by auto.
  specialize (W i t k). cbv zeta in W. fold (learnt (mm_per_ts p) (mm_per_feat p) n sz n' sz' d X Z i k) in W.
  destruct (entry3 Z i t k) as [v| | |]; auto. specialize (W v Hi Ht Hk eq_refl).
  pose proof (mm_affine_aff p (a i k) (b i k) (learnt (mm_per_ts p) (mm_per_feat p) n sz n' sz' d X Z i k) v (proj1 (U i k i k)) W) as K.
  destruct (learnt _ _ _ _ _ _ _ _ _ _ _) as [|x l]; auto. cbn [map] in *. rewrite K. reflexivity.
Qed.
Theorem C200_meanvariance p a b n sz n' sz' d X X' Z Z' :
  units (mv_per_ts p) (mv_per_feat p) a b ->
  (0 < n)%nat -> (0 < sz)%nat -> numeric X -> remeasured a b n sz d X X' ->
  (0 < n')%nat -> (0 < sz')%nat -> numeric Z -> remeasured a b n' sz' d Z Z' ->
  well_spread (mv_per_ts p) (mv_per_feat p) n sz n' sz' d X Z ->
  exists Y, mean_var p X Z = Ok Y /\ mean_var p X' Z' = Ok Y.
Proof.
  intros U Hn Hsz HX R1 Hn' Hsz' HZ R2 W. pose proof R1 as (A1 & A2 & _). pose proof R2 as (A3 & A4 & R2').
  pose proof (remeasured_numeric _ _ _ _ _ _ _ R1 HX) as HX'. pose proof (remeasured_numeric _ _ _ _ _ _ _ R2 HZ) as HZ'.
  destruct (mv_entries n sz n' sz' d X Z Hn Hsz A1 HX Hn' Hsz' A3 HZ p) as (Y & E & S1 & G).
  destruct (mv_entries n sz n' sz' d X' Z' Hn Hsz A2 HX' Hn' Hsz' A4 HZ' p) as (Y' & E' & S2 & G').
  exists Y. split; auto. rewrite E'. f_equal. apply (array_ext n' sz' d); auto. intros i t k Hi Ht Hk.
  rewrite G, G', (R2' i t k) by auto.
  rewrite (learnt_remeasured _ _ a b n sz n' sz' d X X' Z Z' i k) by auto.
  specialize (W i t k). cbv zeta in W. fold (learnt (mv_per_ts p) (mv_per_feat p) n sz n' sz' d X Z i k) in W.
  destruct (entry3 Z i t k) as [v| | |]; auto. specialize (W v Hi Ht Hk eq_refl).
  pose proof (mv_affine_aff p (a i k) (b i k) (learnt (mv_per_ts p) (mv_per_feat p) n sz n' sz' d X Z i k) v (proj1 (U i k i k)) W) as K.
  destruct (learnt _ _ _ _ _ _ _ _ _ _ _) as [|x l]; auto. cbn [map] in *. rewrite K. reflexivity.
Qed.

(** [fit_transform]: whatever the data, constant or not *)
Lemma own_spread pt pf n sz d X : (0 < n)%nat -> well_spread pt pf n sz n sz d X X.
Proof.
  intros Hn i t k v Hi Ht Hk E l. left. unfold l. destruct pt.
  - apply (in_scope true pf n sz d X i t k i k); auto. split; auto.
  - apply (in_scope false pf n sz d X 0 t k i k); auto. split; congruence.
Qed.
Theorem C200_minmax_fit_transform p a b n sz d X X' :
  mm_lo p < mm_hi p -> units (mm_per_ts p) (mm_per_feat p) a b ->
  (0 < n)%nat -> (0 < sz)%nat -> numeric X -> remeasured a b n sz d X X' ->
  exists Y, min_max p X X = Ok Y /\ min_max p X' X' = Ok Y.
Proof. intros. apply (C200_minmax p a b n sz n sz d); auto. apply own_spread; auto. Qed.
Theorem C200_meanvariance_fit_transform p a b n sz d X X' :
  units (mv_per_ts p) (mv_per_feat p) a b ->
  (0 < n)%nat -> (0 < sz)%nat -> numeric X -> remeasured a b n sz d X X' ->
  exists Y, mean_var p X X = Ok Y /\ mean_var p X' X' = Ok Y.
Proof. intros. apply (C200_meanvariance p a b n sz n sz d); auto. apply own_spread; auto. Qed.

(** Without the condition the result does follow the unit: the training values of one
    feature are all equal to [c], another value is transformed *)
Theorem C200_constant_training p c v : mm_lo p < mm_hi p -> mm_per_ts p = false ->
  min_max p [[[XR c]]] [[[XR v]]] = Ok [[[XR (mm_lo p + (v - c) * (mm_hi p - mm_lo p))]]].
Proof.
  intros Hp Hts. assert (S : forall x, shape3 1 1 1 [[[XR x]]]).
  { intros x. split; auto. intros s [<-|[]]. split; auto. intros r [<-|[]]. auto. }
  assert (N : forall x, numeric [[[XR x]]]) by (intros x s r y [<-|[]] [<-|[]] [<-|[]]; eauto).
  destruct (mm_entries 1 1 1 1 1 [[[XR c]]] [[[XR v]]] (le_n _) (le_n _) (S c) (N c) (le_n _) (le_n _) (S v) (N v) p Hp) as (Y & -> & HS & G).
  f_equal. apply (array_ext 1 1 1); auto. intros i t k Hi Ht Hk. rewrite G by auto.
  destruct i; [|lia]. destruct t; [|lia]. destruct k; [|lia]. unfold learnt. rewrite Hts. unfold entry3. simpl.
  assert (E : scope false (mm_per_feat p) 1 1 1 [[[XR c]]] 0 0 = [c]) by (destruct (mm_per_feat p); reflexivity).
  rewrite E. unfold mm_affine. simpl. destruct (Req_EM_T (c - c) 0); [|lra]. f_equal. field.
Qed.

(** ** C200: scaling twice *)
Lemma mm_affine_twice p l v : mm_lo p < mm_hi p -> In v l -> mm_affine p (map (mm_affine p l) l) (mm_affine p l v) = mm_affine p l v.
Proof.
  intros Hp Hv. pose proof (rmin_le l v Hv) as B1. pose proof (rmax_ge l v Hv) as B2. assert (Hne : l <> []) by (intros ->; contradiction).
  destruct (Req_dec (rmax l) (rmin l)) as [F|F].
  - assert (C : forall w, In w l -> mm_affine p l w = mm_lo p).
    { intros w Hw. pose proof (rmin_le l w Hw). pose proof (rmax_ge l w Hw). unfold mm_affine, Rdiv. replace (w - rmin l) with 0 by lra. ring. }
    rewrite (C v Hv). assert (Hm : map (mm_affine p l) l <> []) by (intros E; apply map_eq_nil in E; auto).
    pose proof (rmin_in _ Hm) as I. apply in_map_iff in I. destruct I as (w & E & Hw). rewrite (C w Hw) in E.
    unfold mm_affine at 1. rewrite <- E. unfold Rdiv. ring.
  - set (c := (mm_hi p - mm_lo p) / (rmax l - rmin l)). set (e := mm_lo p - c * rmin l).
    assert (A : forall w, mm_affine p l w = c * w + e).
    { intros w. unfold mm_affine, e, c. destruct (Req_EM_T (rmax l - rmin l) 0); [lra|]. field. auto. }
    rewrite (map_ext _ (fun w => c * w + e)) by apply A. rewrite (A v) at 1. apply mm_affine_aff; [|left; auto].
    unfold c. apply Rdiv_lt_0_compat; lra.
Qed.
Lemma mv_affine_twice p l v : 0 <= mv_std p -> In v l -> mv_affine p (map (mv_affine p l) l) (mv_affine p l v) = mv_affine p l v.
Proof.
  intros Hp Hv. assert (Hne : l <> []) by (intros ->; contradiction).
  destruct (Req_dec (mv_std p * std_dev l) 0) as [F|F].
  - assert (C : forall w, In w l -> mv_affine p l w = mv_mu p).
    { intros w Hw. unfold mv_affine, Rdiv. apply Rmult_integral in F. destruct F as [F|F]; [rewrite F; ring|].
      rewrite (std_flat l w F Hw). ring. }
    rewrite (C v Hv). assert (Hm : map (mv_affine p l) l <> []) by (intros E; apply map_eq_nil in E; auto).
    destruct (std_const (map (mv_affine p l) l) (mv_mu p) Hm) as [M _].
    { intros w Hw. apply in_map_iff in Hw. destruct Hw as (u & <- & Hu). auto. }
    unfold mv_affine at 1. rewrite M. unfold Rdiv. ring.
  - assert (F1 : std_dev l <> 0) by (intros E; apply F; rewrite E; ring). assert (F2 : mv_std p <> 0) by (intros E; apply F; rewrite E; ring).
    assert (P : 0 <= std_dev l) by apply sqrt_pos.
    set (c := mv_std p / std_dev l). set (e := mv_mu p - c * mean l).
    assert (A : forall w, mv_affine p l w = c * w + e).
    { intros w. unfold mv_affine, e, c. destruct (Req_EM_T (std_dev l) 0); [lra|]. field. auto. }
    rewrite (map_ext _ (fun w => c * w + e)) by apply A. rewrite (A v) at 1. apply mv_affine_aff; [|left; auto].
    unfold c. apply Rdiv_lt_0_compat; lra.
Qed.
(** an array obtained by one function of the numbers in every scope *)
Lemma scope_image pt pf n sz d X Y i k (g : R -> R) : shape3 n sz d X -> numeric X -> (i < n)%nat -> (k < d)%nat ->
  (forall i' t k', (i' < n)%nat -> (t < sz)%nat -> (k' < d)%nat -> shares pt pf i k i' k' ->
    entry3 Y i' t k' = match entry3 X i' t k' with XR v => XR (g v) | _ => XNaN end) ->
  scope pt pf n sz d Y i k = map g (scope pt pf n sz d X i k).
Proof.
  intros HX HN Hi Hk H. rewrite !scope_cells.
  rewrite <- (numbers_map (fun x => match x with XR v => XR (g v) | _ => XNaN end)); auto; [|apply (group_plain pt pf n sz d X i k HX HN Hi Hk)].
  rewrite map_map. f_equal. apply map_ext_in. intros ((i', t), k') Hc. apply cells_in in Hc; auto. destruct Hc as (H1 & H2 & H3 & H4).
  unfold at3. apply H; auto.
Qed.
Lemma numeric_of n sz d (Y : array3) : shape3 n sz d Y ->
  (forall i t k, (i < n)%nat -> (t < sz)%nat -> (k < d)%nat -> entry3 Y i t k = XNaN \/ exists v, entry3 Y i t k = XR v) -> numeric Y.
Proof.
  intros S1 H s r x Hs Hr Hx. pose proof S1 as [L' _]. norm.
  destruct (In_nth _ _ [] Hs) as (i & Hi & <-). rewrite L' in Hi. destruct (shape_series n sz d Y i S1 Hi) as [A _].
  destruct (In_nth _ _ [] Hr) as (t & Ht & <-). norm. rewrite A in Ht. pose proof (shape_row n sz d Y i t S1 Hi Ht) as B.
  destruct (In_nth _ _ XNaN Hx) as (k & Hk & <-). norm. rewrite B in Hk. apply (H i t k); auto.
Qed.
Section Twice.
Variables (n sz d : nat) (X : array3) (pt pf : bool) (aff : list R -> R -> R).
Hypotheses (Hn : (0 < n)%nat) (Hsz : (0 < sz)%nat) (HS : shape3 n sz d X) (HN : numeric X)
  (aff_twice : forall l v, In v l -> aff (map (aff l) l) (aff l v) = aff l v).
Let out (Z : array3) i t k := match entry3 Z i t k, learnt pt pf n sz n sz d Z Z i k with XR v, x :: l => XR (aff (x :: l) v) | _, _ => XNaN end.
Lemma twice Y Y' : shape3 n sz d Y -> shape3 n sz d Y' ->
  (forall i t k, (i < n)%nat -> (t < sz)%nat -> (k < d)%nat -> entry3 Y i t k = out X i t k) ->
  (forall i t k, (i < n)%nat -> (t < sz)%nat -> (k < d)%nat -> entry3 Y' i t k = out Y i t k) -> Y' = Y.
Proof.
  intros S1 S2 G G'. apply (array_ext n sz d); auto. intros i t k Hi Ht Hk. rewrite G' by auto. unfold out. rewrite G by auto. unfold out.
  assert (W : forall i t k v, (i < n)%nat -> (t < sz)%nat -> (k < d)%nat -> entry3 X i t k = XR v -> In v (learnt pt pf n sz n sz d X X i k)).
  { intros i0 t0 k0 v H1 H2 H3 E. unfold learnt. destruct pt.
    - apply (in_scope true pf n sz d X i0 t0 k0 i0 k0); auto. split; auto.
    - apply (in_scope false pf n sz d X 0 t0 k0 i0 k0); auto. split; congruence. }
  assert (K : learnt pt pf n sz n sz d Y Y i k = map (aff (learnt pt pf n sz n sz d X X i k)) (learnt pt pf n sz n sz d X X i k)).
  { assert (K0 : forall i k, (i < n)%nat -> (k < d)%nat -> scope pt pf n sz d Y i k = map (aff (learnt pt pf n sz n sz d X X i k)) (scope pt pf n sz d X i k)).
    { intros i0 k0 H1 H2. apply scope_image; auto. intros i' t' k' H3 H4 H5 H6. rewrite G by auto. unfold out.
      assert (El : learnt pt pf n sz n sz d X X i' k' = learnt pt pf n sz n sz d X X i0 k0).
      { unfold learnt. rewrite !scope_cells. destruct pt.
        - rewrite (cells_shared true pf n sz d i0 k0 i' k' H6). reflexivity.
        - rewrite (cells_shared false pf n sz d 0 k0 0 k'); [reflexivity|]. split; [congruence|apply H6]. }
      destruct (entry3 X i' t' k') eqn:Ev; auto. pose proof (W i' t' k' r H3 H4 H5 Ev) as I. rewrite El in I. rewrite El.
      destruct (learnt pt pf n sz n sz d X X i0 k0); [contradiction|reflexivity]. }
    unfold learnt at 1. destruct pt; [rewrite K0 by auto; reflexivity|]. rewrite K0 by auto. reflexivity. }
  rewrite K. destruct (entry3 X i t k) eqn:Ev; auto. pose proof (W i t k r Hi Ht Hk Ev) as I.
  pose proof (aff_twice _ _ I) as T. destruct (learnt pt pf n sz n sz d X X i k) as [|x l]; [contradiction|]. cbn [map] in *. rewrite T. reflexivity.
Qed.
End Twice.
Theorem C200_minmax_twice p n sz d X : mm_lo p < mm_hi p -> (0 < n)%nat -> (0 < sz)%nat -> shape3 n sz d X -> numeric X ->
  exists Y, min_max p X X = Ok Y /\ min_max p Y Y = Ok Y.
Proof.
  intros Hp Hn Hsz HS HN.
  destruct (mm_entries n sz n sz d X X Hn Hsz HS HN Hn Hsz HS HN p Hp) as (Y & E & S1 & G). exists Y. split; auto.
  assert (NY : numeric Y).
  { apply (numeric_of n sz d); auto. intros i t k Hi Ht Hk. rewrite G by auto. destruct (entry3 X i t k); auto.
    destruct (learnt _ _ _ _ _ _ _ _ _ _ _); eauto. }
  destruct (mm_entries n sz n sz d Y Y Hn Hsz S1 NY Hn Hsz S1 NY p Hp) as (Y' & E' & S2 & G'). rewrite E'. f_equal.
  apply (twice n sz d X (mm_per_ts p) (mm_per_feat p) (mm_affine p)); auto. intros. apply mm_affine_twice; auto.
Qed.
Theorem C200_meanvariance_twice p n sz d X : 0 <= mv_std p -> (0 < n)%nat -> (0 < sz)%nat -> shape3 n sz d X -> numeric X ->
  exists Y, mean_var p X X = Ok Y /\ mean_var p Y Y = Ok Y.
Proof.
  intros Hp Hn Hsz HS HN.
  destruct (mv_entries n sz n sz d X X Hn Hsz HS HN Hn Hsz HS HN p) as (Y & E & S1 & G). exists Y. split; auto.
  assert (NY : numeric Y).
  { apply (numeric_of n sz d); auto. intros i t k Hi Ht Hk. rewrite G by auto. destruct (entry3 X i t k); auto.
    destruct (learnt _ _ _ _ _ _ _ _ _ _ _); eauto. }
  destruct (mv_entries n sz n sz d Y Y Hn Hsz S1 NY Hn Hsz S1 NY p) as (Y' & E' & S2 & G'). rewrite E'. f_equal.
  apply (twice n sz d X (mv_per_ts p) (mv_per_feat p) (mv_affine p)); auto. intros. apply mv_affine_twice; auto.
Qed.
Print Assumptions C200_minmax.
Print Assumptions C200_meanvariance.
Print Assumptions C200_minmax_fit_transform.
Print Assumptions C200_meanvariance_fit_transform.
Print Assumptions C200_constant_training.
Print Assumptions C200_minmax_twice.
Print Assumptions C200_meanvariance_twice.

(** a dataset with gaps and the same in degrees Fahrenheit, one feature only *)
Definition ex_fahrenheit : array3 := [[[XR (9/5 * 1 + 32); XR (1 * 5 + 0)]; [XR (9/5 * 3 + 32); XNaN]]; [[XR (9/5 * 2 + 32); XR (1 * 7 + 0)]; [XNaN; XNaN]]].
Definition ex_unit (i k : nat) : R := if (k =? 0)%nat then 9/5 else 1.
Definition ex_origin (i k : nat) : R := if (k =? 0)%nat then 32 else 0.
Example C200_nontrivial : units false true ex_unit ex_origin /\ remeasured ex_unit ex_origin 2 2 2 ex_scale ex_fahrenheit /\ numeric ex_scale /\
  well_spread false true 2 2 2 2 2 ex_scale ex_scale.
Proof.
  split; [|split; [|split]].
  - intros i k i' k'. split; [unfold ex_unit; destruct (k =? 0)%nat; lra|]. intros [_ H]. rewrite (H eq_refl). auto.
  - split; [apply scale_nontrivial|]. split.
    + split; auto. intros s [<-|[<-|[]]]; (split; auto; intros r [<-|[<-|[]]]; auto).
    + intros i t k Hi Ht Hk. destruct i as [|[|]], t as [|[|]], k as [|[|]]; try lia; reflexivity.
  - apply scale_nontrivial.
  - apply own_spread. auto.
Qed.

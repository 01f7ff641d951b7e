(** Properties C157 ([cdist_ctw]) and C158 ([cdist_sax]). *)
From Coq Require Import Bool List Arith ZArith QArith Reals Lia Lra Permutation.
From Verif Require Import Num NumLaws Py Series RList RealSeries Masks Spec SpecDtw Dataset DtwModel DtwProofs DtwThms CtwModel PaaModel PaaThms
  CdistThms PropDtw PropCdist PropCtw PropSoftCdist PropPaa PropSax CdistMoreModel.
Import ListNotations.
Local Open Scope nat_scope.

(** ** C157 *)
Lemma ctw_stripped cca fit tr d ds1 ds2 o1 o2 mi n g r s i k :
  uniform (N:=Xnum) d ds1 -> uniform (N:=Xnum) d ds2 -> to_dataset ds1 = Ok o1 -> to_dataset ds2 = Ok o2 ->
  i < length ds1 -> k < length ds2 ->
  ctw (cca:=cca) fit tr (Raw2 (to_time_series true (Raw2 (nth i o1 [])))) (Raw2 (to_time_series true (Raw2 (nth k o2 []))))
    mi n g r s = ctw fit tr (item ds1 i) (item ds2 k) mi n g r s.
Proof.
  intros U1 U2 E1 E2 Hi Hk.
  destruct (strip_nth Xnum eq_refl d ds1 o1 i U1 E1 Hi) as [_ ->].
  destruct (strip_nth Xnum eq_refl d ds2 o2 k U2 E2 Hk) as [_ ->].
  unfold ctw, ctw_path. rewrite !strip_idem. reflexivity.
Qed.

(** Cross matrix: entry (i, k) is the canonical time warping score of the pair, for every number of components, every
    constraint and every schedule of the workers. *)
Theorem C157_cross : forall cca fit transform d ds1 ds2 max_iter n_components g radius slope j M,
  proper (N:=Xnum) d ds1 -> proper (N:=Xnum) d ds2 -> valid_jobs j (length ds1 * length ds2) ->
  cdist_ctw (cca:=cca) fit transform ds1 (Some ds2) max_iter n_components g radius slope j = Ok M ->
  forall i k, i < length ds1 -> k < length ds2 ->
  ctw fit transform (item ds1 i) (item ds2 k) max_iter n_components g radius slope = Ok (M i k).
Proof.
  intros cca fit tr d ds1 ds2 mi n g r s j M P1 P2 Hj E i k Hi Hk. unfold cdist_ctw in E.
  destruct (to_dataset ds1) as [o1|] eqn:E1; [|discriminate]. cbn [bind] in E.
  destruct (to_dataset ds2) as [o2|] eqn:E2; [|discriminate]. cbn [bind] in E.
  pose proof (proper_uniform Xnum d _ P1) as U1. pose proof (proper_uniform Xnum d _ P2) as U2.
  rewrite <- (ctw_stripped cca fit tr d ds1 ds2 o1 o2 mi n g r s i k) by auto.
  destruct (strip_nth Xnum eq_refl d ds1 o1 i U1 E1 Hi) as [L1 _].
  destruct (strip_nth Xnum eq_refl d ds2 o2 k U2 E2 Hk) as [L2 _].
  refine (cdist_cross_spec Xnum (series Xnum) _ [] o1 o2 j M _ E i k _ _); rewrite ?L1, ?L2, ?row_major_len; auto.
Qed.
Print Assumptions C157_cross.

(** Self matrix: zero diagonal, symmetric, the upper triangle pairwise. *)
Theorem C157_self : forall cca fit transform d ds max_iter n_components g radius slope j M,
  proper (N:=Xnum) d ds -> valid_jobs j (length ds * (length ds - 1) / 2) ->
  cdist_ctw (cca:=cca) fit transform ds None max_iter n_components g radius slope j = Ok M ->
  forall i k, i < length ds -> k < length ds ->
  M i k = M k i /\ M i i = XR 0 /\
  (i < k -> ctw fit transform (item ds i) (item ds k) max_iter n_components g radius slope = Ok (M i k)).
Proof.
  intros cca fit tr d ds mi n g r s j M P Hj E i k Hi Hk. unfold cdist_ctw in E.
  destruct (to_dataset ds) as [o|] eqn:E1; [|discriminate]. cbn [bind] in E.
  pose proof (proper_uniform Xnum d _ P) as U.
  destruct (strip_nth Xnum eq_refl d ds o i U E1 Hi) as [L _]. rewrite <- triu_len in Hj.
  destruct (cdist_self_spec Xnum (series Xnum) _ [] o false j M ltac:(rewrite L; exact Hj) E) as [H1 H2]. rewrite L in H1, H2.
  split; [|split].
  - destruct (Nat.lt_trichotomy i k) as [Q|[->|Q]]; [symmetry; apply H1; auto|reflexivity|apply H1; auto].
  - exact (H2 i Hi).
  - intros Q. rewrite <- (ctw_stripped cca fit tr d ds ds o o mi n g r s i k) by auto. apply H1; auto.
Qed.
Print Assumptions C157_self.

(** It returns when all the pairs do. *)
Theorem C157_returns : forall cca fit transform d ds1 ds2 max_iter n_components g radius slope j,
  proper (N:=Xnum) d ds1 -> proper (N:=Xnum) d ds2 -> valid_jobs j (length ds1 * length ds2) ->
  (forall i k, i < length ds1 -> k < length ds2 ->
     exists v, ctw (cca:=cca) fit transform (item ds1 i) (item ds2 k) max_iter n_components g radius slope = Ok v) ->
  exists M, cdist_ctw fit transform ds1 (Some ds2) max_iter n_components g radius slope j = Ok M.
Proof.
  intros cca fit tr d ds1 ds2 mi n g r s j P1 P2 Hj H. unfold cdist_ctw.
  pose proof (proper_uniform Xnum d _ P1) as U1. pose proof (proper_uniform Xnum d _ P2) as U2.
  pose proof (to_dataset_ok Xnum d ds1 U1) as E1. pose proof (to_dataset_ok Xnum d ds2 U2) as E2.
  rewrite E1, E2. cbn [bind].
  match type of E1 with _ = Ok ?o => set (o1 := o) in * end. match type of E2 with _ = Ok ?o => set (o2 := o) in * end.
  assert (L1 : @length (series Xnum) o1 = length ds1) by apply map_length.
  assert (L2 : @length (series Xnum) o2 = length ds2) by apply map_length.
  refine (cdist_cross_returns Xnum (series Xnum) _ [] o1 o2 j _ _); rewrite ?L1, ?L2, ?row_major_len; [exact Hj|].
  intros i k Hi Hk. cbv beta. rewrite (ctw_stripped cca fit tr d ds1 ds2 o1 o2 mi n g r s i k) by auto. auto.
Qed.
Print Assumptions C157_returns.

Lemma item_reals ss i : i < length ss -> item (reals ss) i = Raw2 (lift (nth i ss [])).
Proof. intros H. unfold item, reals. rewrite (nth_indep _ _ (Raw2 (lift []))) by (rewrite map_length; auto).
  exact (map_nth (fun s => Raw2 (lift s)) ss [] i). Qed.

(** With the default number of components the matrix is that of dynamic time warping, entry by entry, in both modes and
    for every constraint: the alignment by canonical correlation never shows. *)
Theorem C157_is_cdist_dtw : forall cca fit transform d ss1 ss2 max_iter g radius slope j j' M M',
  (forall s, In s ss1 -> real_series d s) ->
  (forall ss, ss2 = Some ss -> forall s, In s ss -> real_series d s) ->
  (forall ss, ss2 = Some ss -> valid_jobs j (length ss1 * length ss) /\ valid_jobs j' (length ss1 * length ss)) ->
  (ss2 = None -> valid_jobs j (length ss1 * (length ss1 - 1) / 2) /\ valid_jobs j' (length ss1 * (length ss1 - 1) / 2)) ->
  cdist_ctw (cca:=cca) fit transform (reals ss1) (option_map reals ss2) max_iter None g radius slope j = Ok M ->
  cdist_dtw (N:=Xnum) (reals ss1) (option_map reals ss2) g radius slope j' = Ok M' ->
  forall i k, i < length ss1 -> k < length (match ss2 with Some ss => ss | None => ss1 end) -> M i k = M' i k.
Proof.
  intros cca fit tr d ss1 ss2 mi g r s j j' M M' F1 F2 J1 J2 E E' i k Hi Hk.
  assert (L : forall ss, length (reals ss) = length ss) by (intros; apply map_length).
  destruct ss2 as [ss2|].
  - specialize (F2 ss2 eq_refl). destruct (J1 ss2 eq_refl) as [Ja Jb]. cbn [option_map] in E, E'.
    assert (A := C157_cross cca fit tr d (reals ss1) (reals ss2) mi None g r s j M (lift_proper d _ F1) (lift_proper d _ F2)
      ltac:(rewrite !L; auto) E i k ltac:(rewrite L; auto) ltac:(rewrite L; auto)).
    assert (B := C10_cdist_dtw_cross Xnum eq_refl d (reals ss1) (reals ss2) g r s j' M' (lift_proper d _ F1) (lift_proper d _ F2)
      ltac:(rewrite !L; auto) E' i k ltac:(rewrite L; auto) ltac:(rewrite L; auto)).
    rewrite !item_reals in A, B by auto.
    apply (C33_ctw_is_dtw cca fit tr d) in A; [|apply F1; apply nth_In; auto|apply F2; apply nth_In; auto]. congruence.
  - destruct (J2 eq_refl) as [Ja Jb]. cbn [option_map] in E, E'.
    assert (G : forall a b, a < b -> a < length ss1 -> b < length ss1 -> M a b = M' a b).
    { intros a b Hab Ha Hb.
      destruct (C157_self cca fit tr d (reals ss1) mi None g r s j M (lift_proper d _ F1) ltac:(rewrite L; auto) E a b
        ltac:(rewrite L; auto) ltac:(rewrite L; auto)) as (_ & _ & A). specialize (A Hab).
      destruct (C10_cdist_dtw_self Xnum eq_refl d (reals ss1) g r s j' M' (lift_proper d _ F1) ltac:(rewrite L; auto) E' a b
        ltac:(rewrite L; auto) ltac:(rewrite L; auto)) as (_ & _ & B). specialize (B Hab).
      rewrite !item_reals in A, B by auto.
      apply (C33_ctw_is_dtw cca fit tr d) in A; [|apply F1; apply nth_In; auto|apply F1; apply nth_In; auto]. congruence. }
    destruct (C157_self cca fit tr d (reals ss1) mi None g r s j M (lift_proper d _ F1) ltac:(rewrite L; auto) E i k
      ltac:(rewrite L; auto) ltac:(rewrite L; auto)) as (A & A0 & _).
    destruct (C10_cdist_dtw_self Xnum eq_refl d (reals ss1) g r s j' M' (lift_proper d _ F1) ltac:(rewrite L; auto) E' i k
      ltac:(rewrite L; auto) ltac:(rewrite L; auto)) as (B & B0 & _).
    destruct (Nat.lt_trichotomy i k) as [Q|[<-|Q]]; [auto| |rewrite A, B; auto].
    rewrite A0, B0. reflexivity.
Qed.
Print Assumptions C157_is_cdist_dtw.

(** both theorems speak about something: a correlation analysis that changes nothing always returns *)
Example C157_nonvacuous : forall j, valid_jobs j 2 -> exists M M',
  cdist_ctw (fun _ _ _ => Ok tt) (fun _ a b => Ok (a, b)) (reals [ctw_ex1; ctw_ex2]) (Some (reals [ctw_ex2])) 100 None GcNone None None j = Ok M /\
  cdist_dtw (N:=Xnum) (reals [ctw_ex1; ctw_ex2]) (Some (reals [ctw_ex2])) GcNone None None j = Ok M' /\ M 0 0 <> XR 0.
Proof.
  intros j Hj. destruct ctw_ex_real as [H1 H2].
  assert (P1 : forall s, In s [ctw_ex1; ctw_ex2] -> real_series 1 s) by (intros s [<-|[<-|[]]]; auto).
  assert (P2 : forall s, In s [ctw_ex2] -> real_series 1 s) by (intros s [<-|[]]; auto).
  assert (R : forall s1 s2, real_series 1 s1 -> real_series 1 s2 ->
    exists v, ctw (fun _ _ _ => Ok tt) (fun _ a b => Ok (a, b)) (Raw2 (lift s1)) (Raw2 (lift s2)) 100 None GcNone None None = Ok v).
  { intros s1 s2 A B. unfold ctw, ctw_path. rewrite (strip_lift 1 s1), (strip_lift 1 s2) by auto. cbv zeta.
    rewrite (ncols_lift 1 s1), (ncols_lift 1 s2) by auto. rewrite Nat.min_id.
    rewrite !times_eye_real, !first_features_id by (apply A || apply B).
    destruct (C02_dtw_path_returns Xnum xnn xfin Xlaws 1 (lift s1) (lift s2) GcNone None None everywhere
      (lift_finite _ _ A) (lift_finite _ _ B) eq_refl) as (q & u & E). rewrite E. cbn [bind fst snd].
    change (Z.to_nat (100 - 1)) with (S 98). rewrite ctw_loop_one. cbn [ctw_loop bind fst snd]. rewrite E. cbn [bind fst snd].
    destruct path_eqb; eexists; reflexivity. }
  assert (R2 : forall s1 s2, real_series 1 s1 -> real_series 1 s2 -> exists v, dtw (N:=Xnum) (Raw2 (lift s1)) (Raw2 (lift s2)) GcNone None None = Ok v).
  { intros s1 s2 A B. destruct (R s1 s2 A B) as (v & E). exists v. exact (C33_ctw_is_dtw _ _ _ 1 s1 s2 _ _ _ _ v A B E). }
  assert (In1 : forall i, i < 2 -> real_series 1 (nth i [ctw_ex1; ctw_ex2] [])) by (intros [|[|i]] ?; [auto|auto|lia]).
  assert (In2 : forall i, i < 1 -> real_series 1 (nth i [ctw_ex2] [])) by (intros [|i] ?; [auto|lia]).
  destruct (C157_returns unit (fun _ _ _ => Ok tt) (fun _ a b => Ok (a, b)) 1 (reals [ctw_ex1; ctw_ex2]) (reals [ctw_ex2]) 100 None GcNone None None j
    (lift_proper _ _ P1) (lift_proper _ _ P2) Hj) as (M & E).
  { intros i k Hi Hk. rewrite !item_reals by auto. apply R; auto. }
  destruct (C10_cdist_dtw_cross_returns Xnum eq_refl 1 (reals [ctw_ex1; ctw_ex2]) (reals [ctw_ex2]) GcNone None None j
    (lift_proper _ _ P1) (lift_proper _ _ P2) ltac:(discriminate) Hj) as (M' & E').
  { intros i k Hi Hk. rewrite !item_reals by auto. apply R2; auto. }
  exists M, M'. split; [exact E|split; [exact E'|]].
  assert (A := C10_cdist_dtw_cross Xnum eq_refl 1 _ _ GcNone None None j M' (lift_proper _ _ P1) (lift_proper _ _ P2) Hj E' 0 0 ltac:(simpl; lia) ltac:(simpl; lia)).
  assert (B := C157_is_cdist_dtw _ _ _ 1 [ctw_ex1; ctw_ex2] (Some [ctw_ex2]) _ _ _ _ j j M M' P1
    ltac:(intros ss [= <-]; exact P2) ltac:(intros ss [= <-]; split; exact Hj) ltac:(discriminate) E E' 0 0 ltac:(simpl; lia) ltac:(simpl; lia)).
  intros Z. rewrite B in Z. rewrite Z in A. exact (dtw_ex_not_zero A).
Qed.

(** ** C158 *)
(** *** specification *)
(** [m] rows of [d] symbols between 0 and the number of breakpoints *)
Definition is_word (m d : nat) (bps : list R) (w : zword) : Prop :=
  length w = m /\ forall row, In row w -> length row = d /\ forall x, In x row -> (0 <= x <= Z.of_nat (length bps))%Z.
Definition symbol_at (w : zword) (t k : nat) : Z := nth k (nth t w []) 0%Z.
(** the gap between the bins of two symbols; symbol [u] covers the values from breakpoint [u - 1] to breakpoint [u] *)
Definition bin_gap (bps : list R) (u v : Z) : R :=
  if (u + 1 <? v)%Z then (nth (Z.to_nat (v - 1)) bps 0 - nth (Z.to_nat u) bps 0)%R
  else if (v + 1 <? u)%Z then (nth (Z.to_nat (u - 1)) bps 0 - nth (Z.to_nat v) bps 0)%R else 0%R.
(** MINDIST of two words of [m] segments for series of length [n] *)
Definition word_dist (bps : list R) (n m d : nat) (w1 w2 : zword) : R :=
  sqrt (INR n / INR m * gsum m d (fun t k => sq (bin_gap bps (symbol_at w1 t k) (symbol_at w2 t k)))).
Definition machine_sized (bps : list R) : Prop := (Z.of_nat (length bps) < 2 ^ 62)%Z.

(** *** lemmas *)
Lemma wrap64_id z : (- 2 ^ 63 <= z < 2 ^ 63)%Z -> wrap64 z = z.
Proof. intros H. unfold wrap64. rewrite Z.mod_small; lia. Qed.
Lemma zterm_gap bps junk a b : machine_sized bps -> (0 <= a <= Z.of_nat (length bps))%Z -> (0 <= b <= Z.of_nat (length bps))%Z ->
  zterm bps junk a b = sq (bin_gap bps a b).
Proof.
  unfold machine_sized. intros Hm Ha Hb. unfold zterm, bin_gap, sq. rewrite (wrap64_id (a - b)) by lia. rewrite wrap64_id by lia.
  destruct (Z.ltb_spec 1 (Z.abs (a - b))) as [L|L].
  - rewrite wrap64_id by lia. unfold read.
    destruct (Z.ltb_spec (Z.max a b - 1) 0); [lia|]. destruct (Z.ltb_spec (Z.min a b) 0); [lia|].
    destruct (Z.leb_spec 0 (Z.max a b - 1)); [|lia]. destruct (Z.ltb_spec (Z.max a b - 1) (Z.of_nat (length bps))); [|lia].
    destruct (Z.leb_spec 0 (Z.min a b)); [|lia]. destruct (Z.ltb_spec (Z.min a b) (Z.of_nat (length bps))); [|lia]. cbn [andb].
    destruct (Z.ltb_spec (a + 1) b); [rewrite Z.max_r, Z.min_l by lia; ring|].
    destruct (Z.ltb_spec (b + 1) a); [rewrite Z.max_l, Z.min_r by lia; ring|]. lia.
  - destruct (Z.ltb_spec (a + 1) b); [lia|]. destruct (Z.ltb_spec (b + 1) a); [lia|]. ring.
Qed.
Lemma word_grid m d bps w : is_word m d bps w -> w = map (fun t => map (symbol_at w t) (seq 0 d)) (seq 0 m).
Proof.
  intros [L H]. rewrite <- (map_id w) at 1. rewrite (map_nth_seq (fun x => x) w []). rewrite L. apply map_ext_in.
  intros t Ht. apply in_seq in Ht. rewrite <- (map_id (nth t w [])). rewrite (map_nth_seq (fun x => x) (nth t w []) 0%Z).
  destruct (H (nth t w [])) as [E _]; [apply nth_In; lia|]. rewrite E. reflexivity.
Qed.
Lemma symbol_range m d bps w t k : is_word m d bps w -> t < m -> k < d -> (0 <= symbol_at w t k <= Z.of_nat (length bps))%Z.
Proof. intros [L H] Ht Hk. destruct (H (nth t w [])) as [E R]; [apply nth_In; lia|]. apply R. apply nth_In. lia. Qed.
Lemma zdist_word bps junk n m d w1 w2 : machine_sized bps -> 0 < m -> is_word m d bps w1 -> is_word m d bps w2 ->
  zdist_sax bps junk n w1 w2 = Ok (XR (word_dist bps n m d w1 w2)).
Proof.
  intros Hb Hm H1 H2.
  assert (S : rsum (map (fun p => zterm bps junk (fst p) (snd p)) (combine (concat w1) (concat w2))) =
    gsum m d (fun t k => sq (bin_gap bps (symbol_at w1 t k) (symbol_at w2 t k)))).
  { rewrite (word_grid m d bps w1 H1) at 1. rewrite (word_grid m d bps w2 H2) at 1.
    rewrite combine_concat by (intros; rewrite !map_length; auto). rewrite concat_map, rsum_concat, !map_map. unfold gsum.
    f_equal. apply map_ext_in. intros t Ht. apply in_seq in Ht. rewrite combine_map_same, map_map. f_equal. apply map_ext_in.
    intros k Hk. apply in_seq in Hk. cbn [fst snd]. apply zterm_gap; [auto|eapply symbol_range; eauto; lia|eapply symbol_range; eauto; lia]. }
  unfold zdist_sax. replace (same_shape w1 w2) with true.
  2: { symmetry. rewrite (word_grid m d bps w1 H1), (word_grid m d bps w2 H2). unfold same_shape. rewrite !map_length, Nat.eqb_refl.
    cbn [andb]. apply forallb_forall. intros p Hp. rewrite combine_map_same in Hp. apply in_map_iff in Hp.
    destruct Hp as (i & <- & _). cbn [fst snd]. rewrite !map_length. apply Nat.eqb_refl. }
  cbn [negb]. rewrite (proj1 H1). destruct (Nat.eqb_spec m 0); [lia|]. rewrite S. unfold word_dist. do 3 f_equal.
  unfold Rdiv. ring.
Qed.
Lemma mapM_same {A} (f : A -> res A) l : (forall x, In x l -> f x = Ok x) -> mapM f l = Ok l.
Proof. induction l as [|x l IH]; intros H; simpl; auto. rewrite H by (left; auto). cbn [bind]. rewrite IH by (intros; apply H; right; auto). reflexivity. Qed.
Lemma zmax_same m ws : ws <> [] -> (forall w, In w ws -> length w = m) -> zmax_size ws = m.
Proof.
  intros N H. unfold zmax_size. destruct ws as [|w ws]; [congruence|]. cbn [map fold_left]. rewrite (H w) by (left; auto). rewrite Nat.max_0_l.
  assert (G : forall l : list zword, (forall w, In w l -> length w = m) -> fold_left Nat.max (map (@length (list Z)) l) m = m).
  { induction l as [|a l IH]; intros Hl; cbn [map fold_left]; auto. rewrite (Hl a) by (left; auto). rewrite Nat.max_id. apply IH. intros; apply Hl; right; auto. }
  apply G. intros; apply H; right; auto.
Qed.
Lemma int_dataset_words nan m d bps ws : 0 < m -> (forall w, In w ws -> is_word m d bps w) -> int_dataset nan ws = Ok ws.
Proof.
  intros Hm H. destruct ws as [|w0 ws]; [reflexivity|]. unfold int_dataset.
  rewrite (zmax_same m) by (try discriminate; intros; apply H; auto).
  assert (Z : zcols w0 = d).
  { destruct (H w0 (or_introl eq_refl)) as [L R]. destruct w0 as [|r w0]; [cbn in L; lia|]. apply R. left; auto. }
  rewrite Z. apply mapM_same. intros w Hw. destruct (H w Hw) as [L R]. unfold zpadded.
  rewrite mapM_same; [cbn [bind]; rewrite L, Nat.sub_diag; cbn [repeat]; rewrite app_nil_r; reflexivity|].
  intros r Hr. unfold zbroadcast. rewrite (proj1 (R r Hr)), Nat.eqb_refl. reflexivity.
Qed.

(** *** theorems *)
(** Words of one shape with symbols of the alphabet: the call returns, and entry (i, k) is MINDIST of the words, whatever
    the schedule and whatever surrounds the breakpoints in memory. *)
Theorem C158_cross : forall nan_int junk m d bps n ws1 ws2 j,
  machine_sized bps -> 0 < m -> (forall w, In w ws1 -> is_word m d bps w) -> (forall w, In w ws2 -> is_word m d bps w) ->
  valid_jobs j (length ws1 * length ws2) ->
  exists M, public_cdist_sax nan_int junk ws1 bps n (Some ws2) j = Ok M /\
    forall i k, i < length ws1 -> k < length ws2 -> M i k = XR (word_dist bps n m d (nth i ws1 []) (nth k ws2 [])).
Proof.
  intros nan junk m d bps n ws1 ws2 j Hb Hm H1 H2 Hj. unfold public_cdist_sax.
  rewrite (int_dataset_words nan m d bps ws1), (int_dataset_words nan m d bps ws2) by auto. cbn [bind].
  assert (V : forall i k, i < length ws1 -> k < length ws2 ->
    zdist_sax bps junk n (nth i ws1 []) (nth k ws2 []) = Ok (XR (word_dist bps n m d (nth i ws1 []) (nth k ws2 [])))).
  { intros i k Hi Hk. apply zdist_word; auto using nth_In. }
  rewrite <- row_major_len in Hj.
  destruct (cdist_cross_returns Xnum zword (zdist_sax bps junk n) [] ws1 ws2 j Hj) as (M & E).
  { intros i k Hi Hk. eexists. apply V; auto. }
  exists M. split; [exact E|]. intros i k Hi Hk.
  pose proof (cdist_cross_spec Xnum zword (zdist_sax bps junk n) [] ws1 ws2 j M Hj E i k Hi Hk) as W.
  rewrite V in W by auto. inversion W. reflexivity.
Qed.
Print Assumptions C158_cross.

Lemma bin_gap_sym bps u v : bin_gap bps u v = bin_gap bps v u.
Proof. unfold bin_gap. destruct (Z.ltb_spec (u + 1) v); destruct (Z.ltb_spec (v + 1) u); try lia; reflexivity. Qed.
Lemma bin_gap_self bps u : bin_gap bps u u = 0%R.
Proof. unfold bin_gap. destruct (Z.ltb_spec (u + 1) u); [lia|]. reflexivity. Qed.
Lemma word_dist_sym bps n m d w1 w2 : word_dist bps n m d w1 w2 = word_dist bps n m d w2 w1.
Proof. unfold word_dist. do 2 f_equal. apply gsum_ext. intros. rewrite bin_gap_sym. reflexivity. Qed.
Lemma word_dist_self bps n m d w : word_dist bps n m d w w = 0%R.
Proof.
  unfold word_dist. replace (gsum m d _) with 0%R; [rewrite Rmult_0_r; apply sqrt_0|].
  symmetry. transitivity (gsum m d (fun _ _ => 0 * 0)%R); [apply gsum_ext; intros; rewrite bin_gap_self; reflexivity|].
  rewrite (gsum_scal 0 m d (fun _ _ => 0%R)). ring.
Qed.

(** One dataset: every entry of the matrix, on both sides of the diagonal and on it. *)
Theorem C158_self : forall nan_int junk m d bps n ws j,
  machine_sized bps -> 0 < m -> (forall w, In w ws -> is_word m d bps w) ->
  valid_jobs j (length ws * (length ws - 1) / 2) ->
  exists M, public_cdist_sax nan_int junk ws bps n None j = Ok M /\
    forall i k, i < length ws -> k < length ws -> M i k = XR (word_dist bps n m d (nth i ws []) (nth k ws [])).
Proof.
  intros nan junk m d bps n ws j Hb Hm H1 Hj. unfold public_cdist_sax.
  rewrite (int_dataset_words nan m d bps ws) by auto. cbn [bind].
  assert (V : forall i k, i < length ws -> k < length ws ->
    zdist_sax bps junk n (nth i ws []) (nth k ws []) = Ok (XR (word_dist bps n m d (nth i ws []) (nth k ws [])))).
  { intros i k Hi Hk. apply zdist_word; auto using nth_In. }
  rewrite <- triu_len in Hj.
  destruct (cdist_self_returns Xnum zword (zdist_sax bps junk n) [] ws false j Hj) as (M & E).
  { intros i k Hi Hk. eexists. apply V; auto. }
  exists M. split; [exact E|].
  destruct (cdist_self_spec Xnum zword (zdist_sax bps junk n) [] ws false j M Hj E) as [A B].
  assert (U : forall i k, i < k -> k < length ws -> M i k = XR (word_dist bps n m d (nth i ws []) (nth k ws [])) /\ M k i = M i k).
  { intros i k Q Hk. destruct (A i k Q Hk) as [W S]. rewrite V in W by lia. split; [congruence|exact S]. }
  intros i k Hi Hk. destruct (Nat.lt_trichotomy i k) as [Q|[->|Q]].
  - apply U; auto.
  - rewrite word_dist_self. exact (B k Hk).
  - destruct (U k i Q Hi) as [W S]. rewrite S, W, word_dist_sym. reflexivity.
Qed.
Print Assumptions C158_self.

Lemma run_jobs_err {A B} j (f : A -> res B) args e : valid_jobs j (length args) -> args <> [] ->
  (forall a, In a args -> f a = Err e) -> run_jobs j f args = Err e.
Proof.
  intros Hj N H. destruct j as [|sched]; cbn [run_jobs].
  - destruct args as [|a args]; [congruence|]. cbn [mapM]. rewrite H by (left; auto). reflexivity.
  - cbn [valid_jobs] in Hj. unfold parallel. destruct sched as [|k sched].
    + apply Permutation_nil in Hj. destruct args; [congruence|discriminate].
    + assert (Hk : In k (seq 0 (length args))) by (eapply Permutation_in; [exact Hj|left; auto]). apply in_seq in Hk.
      destruct (nth_error args k) as [a|] eqn:Ea; [|apply nth_error_None in Ea; lia].
      cbn [run_tasks]. rewrite Ea, H by (eapply nth_error_In; eauto). reflexivity.
Qed.
(** Words of two lengths, one per dataset: AssertionError. *)
Theorem C158_lengths : forall nan_int junk m1 m2 d bps n ws1 ws2 j,
  0 < m1 -> 0 < m2 -> m1 <> m2 -> ws1 <> [] -> ws2 <> [] ->
  (forall w, In w ws1 -> is_word m1 d bps w) -> (forall w, In w ws2 -> is_word m2 d bps w) ->
  valid_jobs j (length ws1 * length ws2) ->
  public_cdist_sax nan_int junk ws1 bps n (Some ws2) j = Err AssertionError.
Proof.
  intros nan junk m1 m2 d bps n ws1 ws2 j Hm1 Hm2 Hne N1 N2 H1 H2 Hj. unfold public_cdist_sax.
  rewrite (int_dataset_words nan m1 d bps ws1), (int_dataset_words nan m2 d bps ws2) by auto. cbn [bind].
  rewrite <- row_major_len in Hj. unfold cdist_cross. rewrite (run_jobs_err j _ _ AssertionError Hj); [reflexivity| |].
  - destruct ws1, ws2; try congruence. discriminate.
  - intros [i k] Hin. apply in_row_major' in Hin. cbn [fst snd]. unfold zdist_sax, same_shape.
    rewrite (proj1 (H1 _ (nth_In ws1 [] (proj1 Hin)))), (proj1 (H2 _ (nth_In ws2 [] (proj2 Hin)))).
    destruct (Nat.eqb_spec m1 m2); [congruence|]. reflexivity.
Qed.
Print Assumptions C158_lengths.

(** The words SAX itself produces: the matrix holds the distances [SymbolicAggregateApproximation.distance] computes from
    the series. *)
Definition to_z (w : list (list nat)) : zword := map (map Z.of_nat) w.
Theorem C158_transformed : forall nan_int junk ppf m a scale d sz X Y j,
  machine_sized (breakpoints ppf a 1) -> real_dataset d sz X -> real_dataset d sz Y -> (0 < m <= sz)%nat ->
  valid_jobs j (length Y * (length Y - 1) / 2) ->
  exists T M, bind (sax_fit ppf m a scale (map lift X)) (fun st => sax_transform st (map lift Y)) = Ok T /\
    public_cdist_sax nan_int junk (map to_z T) (breakpoints ppf a 1) sz None j = Ok M /\
    forall i k, i < length Y -> k < length Y -> exists v,
      bind (sax_fit ppf m a scale (map lift X)) (fun st => sax_distance st (lift (nth i Y [])) (lift (nth k Y []))) = Ok v /\
      M i k = XR v.
Proof.
  intros nan junk ppf m a scale d sz X Y j Hb HX HY Hm Hj.
  rewrite (sax_fit_value _ _ _ _ _ _ _ HX). simpl bind. fold (fitted ppf m a scale d sz X).
  rewrite (sax_public _ _ _ _ _ _ _ sz) by auto.
  set (sym := fun s i k => to_symbol (breakpoints ppf a 1) (XR (block_mean (scaled scale X s) (sz / m) i k))).
  exists (map (fun s => ngrid m d (sym s)) Y).
  assert (Len : length (map to_z (map (fun s => ngrid m d (sym s)) Y)) = length Y) by (rewrite !map_length; auto).
  assert (W : forall w, In w (map to_z (map (fun s => ngrid m d (sym s)) Y)) -> is_word m d (breakpoints ppf a 1) w).
  { intros w Hw. rewrite map_map in Hw. apply in_map_iff in Hw. destruct Hw as (s & <- & _). unfold to_z, ngrid. split; [rewrite !map_length, seq_length; auto|].
    intros row Hr. rewrite map_map in Hr. apply in_map_iff in Hr. destruct Hr as (t & <- & _). rewrite !map_length, seq_length. split; auto.
    intros x Hx. rewrite map_map in Hx. apply in_map_iff in Hx. destruct Hx as (k & <- & _).
    destruct (to_symbol_first (breakpoints ppf a 1) (XR (block_mean (scaled scale X s) (sz / m) t k))) as (B & _).
    unfold sym. lia. }
  destruct (C158_self nan junk m d (breakpoints ppf a 1) sz _ j Hb (proj1 Hm) W ltac:(rewrite Len; auto)) as (M & E & V).
  exists M. split; [reflexivity|split; [exact E|]]. intros i k Hi Hk.
  rewrite V by (rewrite Len; auto).
  assert (R : forall i, i < length Y -> real_series d (nth i Y []) /\ length (nth i Y []) = sz).
  { intros q Hq. apply HY. apply nth_In. auto. }
  destruct (R i Hi) as [Ri Li]. destruct (R k Hk) as [Rk Lk].
  assert (D : sax_distance (fitted ppf m a scale d sz X) (lift (nth i Y [])) (lift (nth k Y [])) =
    Ok (sqrt (gsum m d (fun t u => sax_term (breakpoints ppf a 1) (sym (nth i Y []) t u) (sym (nth k Y []) t u)) * INR sz / INR m))).
  { unfold sax_distance. change [lift (nth i Y []); lift (nth k Y [])] with (map lift [nth i Y []; nth k Y []]).
    rewrite (sax_public ppf m a scale d sz X sz [nth i Y []; nth k Y []]) by (auto using pair_dataset). simpl bind.
    exact (cydist_ngrid m d (sym (nth i Y [])) (sym (nth k Y [])) (breakpoints ppf a 1) sz (proj1 Hm)). }
  eexists. split; [exact D|]. do 2 f_equal. unfold word_dist.
  replace (INR sz / INR m * gsum m d (fun t u => sq (bin_gap (breakpoints ppf a 1)
     (symbol_at (nth i (map to_z (map (fun s => ngrid m d (sym s)) Y)) []) t u)
     (symbol_at (nth k (map to_z (map (fun s => ngrid m d (sym s)) Y)) []) t u))))%R
   with (gsum m d (fun t u => sq (bin_gap (breakpoints ppf a 1)
     (symbol_at (nth i (map to_z (map (fun s => ngrid m d (sym s)) Y)) []) t u)
     (symbol_at (nth k (map to_z (map (fun s => ngrid m d (sym s)) Y)) []) t u))) * INR sz / INR m)%R by (unfold Rdiv; ring).
  do 2 f_equal. f_equal. apply gsum_ext. intros t u Ht Hu.
  assert (S : forall q, q < length Y -> symbol_at (nth q (map to_z (map (fun s => ngrid m d (sym s)) Y)) []) t u = Z.of_nat (sym (nth q Y []) t u)).
  { intros q Hq. rewrite map_map. rewrite (nth_indep _ [] (to_z (ngrid m d (sym [])))) by (rewrite map_length; auto).
    rewrite (map_nth (fun s => to_z (ngrid m d (sym s)))). unfold symbol_at, to_z, ngrid. rewrite map_map, map_seq_nth by auto.
    rewrite map_map, map_seq_nth by auto. reflexivity. }
  rewrite !S by auto. set (x := sym (nth i Y []) t u). set (y := sym (nth k Y []) t u).
  unfold sax_term, bin_gap, sq.
  destruct (Z.ltb_spec (Z.of_nat x + 1) (Z.of_nat y)); destruct (Z.ltb_spec (Z.of_nat y + 1) (Z.of_nat x)); try lia;
    destruct (Nat.ltb_spec 1 (x - y)); destruct (Nat.ltb_spec 1 (y - x)); try lia; cbn [orb]; try ring.
  - rewrite Nat.max_r, Nat.min_l by lia. rewrite Nat2Z.id. replace (Z.to_nat (Z.of_nat y - 1)) with (y - 1) by lia. ring.
  - rewrite Nat.max_l, Nat.min_r by lia. rewrite Nat2Z.id. replace (Z.to_nat (Z.of_nat x - 1)) with (x - 1) by lia. ring.
Qed.
Print Assumptions C158_transformed.

(** the hypotheses of the four theorems at once: two series of two values, the words [0] and [2] on three symbols *)
Example C158_nonvacuous : let bps := [0%R; 1%R] in
  machine_sized bps /\ is_word 1 1 bps [[0%Z]] /\ is_word 1 1 bps [[2%Z]] /\ is_word 2 1 bps [[0%Z]; [2%Z]] /\
  word_dist bps 4 1 1 [[0%Z]] [[2%Z]] = 2%R /\
  machine_sized (breakpoints (fun x => x) 4 1) /\ real_dataset 1 2 [[[0%R]; [1%R]]; [[3%R]; [5%R]]].
Proof.
  intros bps. split; [unfold machine_sized; cbn; lia|].
  assert (W : forall m w, (w = [[0%Z]] \/ w = [[2%Z]]) /\ m = 1 \/ w = [[0%Z]; [2%Z]] /\ m = 2 -> is_word m 1 bps w).
  { intros m w [[[->| ->] ->]|[-> ->]]; (split; [reflexivity|]); intros row Hr; repeat destruct Hr as [<-|Hr]; try destruct Hr;
      (split; [reflexivity|]); intros x [<-|[]]; cbn; lia. }
  do 3 (split; [apply W; tauto|]). split; [|split].
  - unfold word_dist, gsum, sq, bin_gap, symbol_at, bps. cbn -[sqrt].
    change (Pos.to_nat 1) with 1. transitivity (sqrt (2 * 2)); [f_equal; cbv iota; field|apply sqrt_square; lra].
  - unfold machine_sized. cbn. lia.
  - split; [discriminate|]. intros s [<-|[<-|[]]]; (split; [split; [lia|split; [discriminate|]]|reflexivity]); intros r [<-|[<-|[]]]; reflexivity.
Qed.

(** Words of different lengths in one dataset are neither rejected nor compared: on a platform where NaN becomes the
    smallest integer, the padding of the shorter word is an index far outside of the breakpoints, and the distance can be
    any number, depending on the memory found there. *)
Definition min_int : Z := (- 2 ^ 63)%Z.
Theorem C158_unequal_refuted : exists bps ws, machine_sized bps /\
  (forall w, In w ws -> exists m, 0 < m /\ is_word m 1 bps w) /\
  forall v, (0 <= v)%R -> exists junk M, public_cdist_sax min_int junk ws bps 2 None Sequential = Ok M /\ M 0 1 = XR v.
Proof.
  exists [0%R; 1%R], [[[1%Z]]; [[1%Z]; [1%Z]]]. split; [unfold machine_sized; cbn; lia|]. split.
  - intros w [<-|[<-|[]]]; [exists 1|exists 2]; (split; [lia|]); (split; [reflexivity|]); intros row Hr;
      repeat destruct Hr as [<-|Hr]; try destruct Hr; (split; [reflexivity|]); intros x [<-|[]]; cbn; lia.
  - intros v Hv. exists (fun _ => v). eexists. split; [reflexivity|]. unfold assign, upd. cbn.
    unfold zterm. cbn -[sqrt]. f_equal.
    match goal with |- sqrt ?x = _ => replace x with (v * v)%R by (cbn; field) end.
    apply sqrt_square. exact Hv.
Qed.
Print Assumptions C158_unequal_refuted.

(** Nor does an entry depend on its own two words only: the presence of a third, longer word changes the distance of the
    first two, whatever the memory holds. *)
Theorem C158_context_refuted : exists bps w1 w2 w3, machine_sized bps /\
  is_word 1 1 bps w1 /\ is_word 1 1 bps w2 /\ is_word 2 1 bps w3 /\
  forall junk, exists M M', public_cdist_sax min_int junk [w1; w2] bps 4 None Sequential = Ok M /\
    public_cdist_sax min_int junk [w1; w2; w3] bps 4 None Sequential = Ok M' /\ M 0 1 <> M' 0 1.
Proof.
  exists [0%R; 1%R; 2%R], [[0%Z]], [[3%Z]], [[0%Z]; [0%Z]]. split; [unfold machine_sized; cbn; lia|].
  assert (W : forall m w, (w = [[0%Z]] \/ w = [[3%Z]]) /\ m = 1 \/ w = [[0%Z]; [0%Z]] /\ m = 2 -> is_word m 1 [0%R; 1%R; 2%R] w).
  { intros m w [[[->| ->] ->]|[-> ->]]; (split; [reflexivity|]); intros row Hr; repeat destruct Hr as [<-|Hr]; try destruct Hr;
      (split; [reflexivity|]); intros x [<-|[]]; cbn; lia. }
  do 3 (split; [apply W; tauto|]).
  intros junk. eexists. eexists. split; [reflexivity|split; [reflexivity|]]. unfold assign, upd. cbn.
  unfold zterm. cbn -[sqrt]. intros E. injection E. clear E. intros E.
  match type of E with sqrt ?x = sqrt ?y => replace x with 16%R in E by (cbn; field); replace y with 8%R in E by (cbn; field) end.
  apply sqrt_inj in E; lra.
Qed.
Print Assumptions C158_context_refuted.

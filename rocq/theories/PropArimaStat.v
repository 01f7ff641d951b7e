(** C206, C207: the differencing order chosen by AutoVARIMA, and the samples given to the stationarity test. *)
From Coq Require Import Bool List Arith Lia ZArith Reals Lra.
From Verif Require Import Num NumLaws Py RList ArimaModel ArimaLaws ArimaStatModel.
Import ListNotations.
Local Open Scope R_scope.

(** ** Specification *)
(** [x(t + s) - x(t)] *)
Definition lagged (s : nat) (x : nat -> R) : nat -> R := fun t => x (s + t)%nat - x t.
Fixpoint differenced (d : nat) (x : nat -> R) : nat -> R := match d with O => x | S d => differenced d (lagged 1 x) end.
Definition seasoned (s : nat) (x : nat -> R) : nat -> R := match s with O => x | _ => lagged s x end.
(** the values of feature [k], without seasonality and differenced [d] times: [length rows - s - d] of them *)
Definition values (s d k : nat) (rows : list row) : list R :=
  map (differenced d (seasoned s (fun t => nth k (nth t rows []) 0))) (seq 0 (length rows - s - d)).
(** a series in an array of longer ones *)
Definition padded (rows : list row) (pad : nat) : list orow := map Some rows ++ repeat None pad.
Definition rows_ok (m : nat) (rows : list row) : Prop := forall r, In r rows -> length r = m.

(** ** lemmas *)
Lemma nth_firstn_lt {A} (l : list A) : forall n i x, (i < n)%nat -> nth i (firstn n l) x = nth i l x.
Proof. induction l as [|y l IH]; intros [|n] [|i] x H; try lia; auto. cbn. apply IH. lia. Qed.
Lemma forallb_map {A B} (f : B -> bool) (g : A -> B) l : forallb f (map g l) = forallb (fun x => f (g x)) l.
Proof. induction l as [|x l IH]; auto. cbn. rewrite IH. auto. Qed.
Lemma forallb_ext_in {A} (f g : A -> bool) l : (forall x, In x l -> f x = g x) -> forallb f l = forallb g l.
Proof. induction l as [|x l IH]; intros H; auto. cbn. rewrite H by (left; auto). f_equal. apply IH. intros y Hy. apply H. right. auto. Qed.
Lemma map_nth_None {A B} (f : A -> B) (X : list (option A)) t : nth t (map (option_map f) X) None = option_map f (nth t X None).
Proof. revert t. induction X as [|x X IH]; intros [|t]; auto. apply IH. Qed.
Lemma trim_none n : trim (repeat None n) = []. Proof. induction n as [|n IH]; auto. cbn [repeat trim]. rewrite IH. auto. Qed.
Lemma trim_padded rows pad : trim (padded rows pad) = map Some rows.
Proof. unfold padded. induction rows as [|r rows IH]; cbn [map app trim]; [apply trim_none|]. rewrite IH. auto. Qed.
Lemma size_padded rows pad : ts_size (padded rows pad) = length rows.
Proof. unfold ts_size. rewrite trim_padded. apply map_length. Qed.
Lemma padded_len rows pad : length (padded rows pad) = (length rows + pad)%nat.
Proof. unfold padded. rewrite app_length, map_length, repeat_length. auto. Qed.
(** [X] has the values [x] of feature [k] in its first [n] rows *)
Definition holds (m k n : nat) (X : list orow) (x : nat -> R) : Prop :=
  (n <= length X)%nat /\ forall t, (t < n)%nat -> exists r, nth t X None = Some r /\ length r = m /\ nth k r 0 = x t.
Lemma vsub_nth a : forall b k, length a = length b -> nth k (vsub a b) 0 = nth k a 0 - nth k b 0.
Proof. induction a as [|x a IH]; intros [|y b] [|k] L; try discriminate; cbn; try lra. apply IH. cbn in L. lia. Qed.
Lemma holds_lag m k n s X x : holds m k n X x -> holds m k (n - s) (lag_diff s X) (lagged s x).
Proof.
  intros [L H]. split; [rewrite lag_len; lia|]. intros t Ht. rewrite lag_nth.
  destruct (H (s + t)%nat ltac:(lia)) as (r & -> & Lr & Er). destruct (H t ltac:(lia)) as (q & -> & Lq & Eq). cbn [osub].
  exists (vsub r q). split; auto. split; [rewrite vsub_len; lia|]. rewrite vsub_nth by lia. unfold lagged. lra.
Qed.
Lemma holds_seasonal m k n s X x : holds m k n X x -> holds m k (n - s) (seasonal s X) (seasoned s x).
Proof. intros H. unfold seasonal, seasoned. destruct s as [|s]; [rewrite Nat.sub_0_r; exact H|]. cbn [Nat.eqb]. apply holds_lag. auto. Qed.
Lemma holds_diffs m k d : forall n X x, holds m k n X x -> holds m k (n - d) (diffs d X) (differenced d x).
Proof.
  induction d as [|d IH]; intros n X x H; [rewrite Nat.sub_0_r; exact H|]. cbn [diffs differenced]. replace (n - S d)%nat with (n - 1 - d)%nat by lia.
  apply IH, holds_lag. auto.
Qed.
Lemma holds_padded m k rows pad : rows_ok m rows -> holds m k (length rows) (padded rows pad) (fun t => nth k (nth t rows []) 0).
Proof.
  intros H. split; [rewrite padded_len; lia|]. intros t Ht. exists (nth t rows []). unfold padded.
  rewrite app_nth1 by (rewrite map_length; auto). split; [|split; auto; apply H, nth_In; auto].
  unfold orow. rewrite (nth_indep (map Some rows) None (Some [])) by (rewrite map_length; auto). apply map_nth.
Qed.
Lemma holds_feature m k n X x : holds m k n X x -> firstn n (feature k X) = map (fun t => Some (x t)) (seq 0 n).
Proof.
  intros [L H]. assert (LF : length (feature k X) = length X) by apply map_length. apply (nth_ext _ _ None None).
  - rewrite firstn_length, LF, map_length, seq_length. lia.
  - intros t Ht. rewrite firstn_length, LF in Ht.
    rewrite nth_firstn_lt by lia. unfold feature.
    destruct (H t ltac:(lia)) as (r & Er & _ & Ek).
    rewrite (map_nth_None _ X t). unfold orow in Er. rewrite Er. cbn [option_map].
    assert (Hn : (t < n)%nat) by lia. symmetry. etransitivity; [apply (nth_indep _ None (Some (x 0%nat))); rewrite map_length, seq_length; exact Hn|].
    rewrite (map_nth (fun t => Some (x t))). rewrite seq_nth by exact Hn. rewrite Ek. reflexivity.
Qed.

(** ** The theorems *)
(** what the test is given is exactly the differenced values of the series, without the padding *)
Theorem C206_sample m s d k rows pad : rows_ok m rows -> (s + d <= length rows)%nat ->
  kpss_sample s d k (padded rows pad) = map Some (values s d k rows).
Proof.
  intros H L. unfold kpss_sample. rewrite size_padded. unfold upto. destruct (Z.ltb_spec (Z.of_nat (length rows) - Z.of_nat s - Z.of_nat d) 0); [lia|].
  replace (Z.to_nat (Z.of_nat (length rows) - Z.of_nat s - Z.of_nat d)) with (length rows - s - d)%nat by lia.
  rewrite (holds_feature m k _ _ _ (holds_diffs m k d _ _ _ (holds_seasonal m k _ s _ _ (holds_padded m k rows pad H)))).
  unfold values. rewrite map_map. reflexivity.
Qed.
Print Assumptions C206_sample.

Lemma all_lazy_pure {A} (f : A -> res bool) (g : A -> bool) l : (forall x, In x l -> f x = Ok (g x)) -> all_lazy f l = Ok (forallb g l).
Proof.
  induction l as [|x l IH]; intros H; auto. cbn [all_lazy forallb]. rewrite (H x (or_introl eq_refl)). cbn [bind]. destruct (g x); auto. apply IH. intros y Hy. apply H. right. auto.
Qed.
Lemma determine_spec (st : nat -> res bool) (P : nat -> Prop) default more : forall from, 
  (forall d, (from <= d <= from + more)%nat -> exists b, st d = Ok b /\ (b = true <-> P d)) ->
  (forall d, (from <= d <= from + more)%nat -> P d -> (forall k, (from <= k < d)%nat -> ~ P k) -> determine_data st default more from = Ok d) /\
  ((forall d, (from <= d <= from + more)%nat -> ~ P d) -> determine_data st default more from = match default with Some d => Ok d | None => Err ValueError end).
Proof.
  induction more as [|more IH]; intros from H.
  - destruct (H from ltac:(lia)) as (b & E & Eb). cbn [determine_data]. rewrite E. cbn [bind]. split.
    + intros d Hd Pd _. assert (d = from) by lia. subst d. apply Eb in Pd. subst b. auto.
    + intros N. destruct b; auto. exfalso. apply (N from ltac:(lia)). apply Eb. auto.
  - destruct (H from ltac:(lia)) as (b & E & Eb). cbn [determine_data]. rewrite E. cbn [bind].
    destruct (IH (S from)) as [I1 I2]. { intros d Hd. apply H. lia. } split.
    + intros d Hd Pd N. destruct b.
      * f_equal. destruct (Nat.eq_dec d from); auto. exfalso. apply (N from ltac:(lia)). apply Eb. auto.
      * apply I1; auto; [|intros k Hk; apply N; lia]. destruct (Nat.eq_dec d from); [|lia]. subst d. apply Eb in Pd. discriminate.
    + intros N. destruct b; [exfalso; apply (N from ltac:(lia)); apply Eb; auto|]. apply I2. intros d Hd. apply N. lia.
Qed.
(** the order is the least one up to [max_d] at which the test accepts every feature of every series; when there is none,
    the default, or ValueError *)
Theorem C206_order kpss p m s max_d default (data : list (list row * nat)) :
  (forall rows pad, In (rows, pad) data -> rows_ok m rows /\ (s + max_d <= length rows)%nat) ->
  (forall x : list R, kpss (map Some x) = Ok (p x)) ->
  let Xs := map (fun rp => padded (fst rp) (snd rp)) data in
  let stationary d := forall k rows pad, (k < m)%nat -> In (rows, pad) data -> 1 / 20 < p (values s d k rows) in
  (forall d, (d <= max_d)%nat -> stationary d -> (forall d', (d' < d)%nat -> ~ stationary d') -> auto_d kpss m s max_d default Xs = Ok d) /\
  ((forall d, (d <= max_d)%nat -> ~ stationary d) -> auto_d kpss m s max_d default Xs = match default with Some d => Ok d | None => Err ValueError end).
Proof.
  intros HD HK Xs stationary. unfold auto_d.
  replace (existsb (fun X => (ts_size X <? s)%nat) Xs) with false.
  2: { symmetry. apply Bool.not_true_iff_false. intros E. apply existsb_exists in E. destruct E as (X & HX & E). apply in_map_iff in HX. destruct HX as ([rows pad] & <- & Hi).
       cbn [fst snd] in E. rewrite size_padded in E. apply Nat.ltb_lt in E. destruct (HD rows pad Hi). lia. }
  assert (S1 : forall d, (0 <= d <= 0 + max_d)%nat -> exists b, is_stationary kpss m s Xs d = Ok b /\ (b = true <-> stationary d)).
  { intros d Hd. unfold is_stationary.
    exists (forallb (fun kr => Rltb (1 / 20) (p (values s d (fst kr) (fst (snd kr))))) (list_prod (seq 0 m) data)). split.
    - assert (E : list_prod (seq 0 m) Xs = map (fun kr => (fst kr, padded (fst (snd kr)) (snd (snd kr)))) (list_prod (seq 0 m) data)).
      { unfold Xs. generalize (seq 0 m). intros l. induction l as [|k l IH]; auto. cbn [list_prod]. rewrite map_app, IH, !map_map. reflexivity. }
      rewrite E. rewrite (all_lazy_pure _ (fun kx => match kpss (kpss_sample s d (fst kx) (snd kx)) with Ok v => Rltb (1 / 20) v | Err _ => false end)).
      + f_equal. rewrite forallb_map. apply forallb_ext_in. intros [k [rows pad]] Hi. apply in_prod_iff in Hi. destruct Hi as [_ Hi]. cbn [fst snd].
        destruct (HD rows pad Hi). rewrite (C206_sample m) by (auto; lia). rewrite HK. reflexivity.
      + intros kx Hi. apply in_map_iff in Hi. destruct Hi as ([k [rows pad]] & <- & Hi). apply in_prod_iff in Hi. destruct Hi as [_ Hi]. cbn [fst snd].
        destruct (HD rows pad Hi). rewrite (C206_sample m) by (auto; lia). rewrite HK. reflexivity.
    - rewrite forallb_forall. split.
      + intros H k rows pad Hk Hi. apply Rltb_true. apply (H (k, (rows, pad))). apply in_prod; auto. apply in_seq. lia.
      + intros H [k [rows pad]] Hi. apply in_prod_iff in Hi. destruct Hi as [Hk Hi]. apply in_seq in Hk. cbn [fst snd]. apply Rltb_true. apply (H k rows pad); auto. lia. }
  destruct (determine_spec _ stationary default max_d 0 S1) as [A B]. split.
  - intros d Hd P N. apply A; auto; try lia. intros k Hk. apply N. lia.
  - intros N. apply B. intros d Hd. apply N. lia.
Qed.
Print Assumptions C206_order.

(** the condition on the lengths is needed, and [fit] does not check it: it only requires [seasonal_period] values.  Here a
    series of one value beside a series of five is accepted, the order 2 is tried, and the test is given missing values;
    a test that refuses them makes [fit] fail although a default order is set *)
Definition long_rows : list row := [[0]; [1]; [4]; [9]; [16]].
Definition short_rows : list row := [[7]].
Definition testing (x : list (option R)) : res R :=
  if existsb (fun v => match v with None => true | _ => false end) x then Err ValueError else Ok (if (length x <=? 3)%nat then 1 else 0).
Theorem C207_sample_refuted : exists kpss Xs d, 
  (forall x : list R, exists p, kpss (map Some x) = Ok p) /\ (forall X, In X Xs -> (1 <= ts_size X)%nat) /\ (d <= 2)%nat /\
  (exists X, In X Xs /\ In None (kpss_sample 0 d 0 X)) /\ auto_d kpss 1 0 2 (Some 0%nat) Xs = Err ValueError.
Proof.
  exists testing, [padded long_rows 0; padded short_rows 4], 2%nat. split.
  - intros x. unfold testing. replace (existsb _ (map Some x)) with false; [eexists; reflexivity|]. induction x as [|v x IH]; auto.
  - split; [intros X [<-|[<-|[]]]; vm_compute; lia|]. split; [lia|]. split.
    + exists (padded short_rows 4). split; [right; left; auto|]. left. reflexivity.
    + unfold auto_d, is_stationary. cbn [existsb map orb].
      change (ts_size (padded long_rows 0) <? 0)%nat with false. change (ts_size (padded short_rows 4) <? 0)%nat with false. cbn [orb].
      cbn [determine_data list_prod seq map app all_lazy fst snd].
      change (testing (kpss_sample 0 0 0 (padded long_rows 0))) with (@Ok R 0). change (testing (kpss_sample 0 1 0 (padded long_rows 0))) with (@Ok R 0).
      change (testing (kpss_sample 0 2 0 (padded long_rows 0))) with (@Ok R 1). change (testing (kpss_sample 0 2 0 (padded short_rows 4))) with (@Err R ValueError).
      cbn [bind]. replace (Rltb (1 / 20) 0) with false by (symmetry; apply Rltb_false; lra). replace (Rltb (1 / 20) 1) with true by (symmetry; apply Rltb_true; lra). reflexivity.
Qed.
Print Assumptions C207_sample_refuted.
(** the samples contain only actual values, for every series long enough *)
Theorem C207_long_enough m s d k rows pad : rows_ok m rows -> (s + d <= length rows)%nat ->
  ~ In None (kpss_sample s d k (padded rows pad)) /\ length (kpss_sample s d k (padded rows pad)) = (length rows - s - d)%nat.
Proof.
  intros H L. rewrite (C206_sample m) by auto. split.
  - intros E. apply in_map_iff in E. destruct E as (v & E & _). discriminate.
  - unfold values. rewrite !map_length, seq_length. auto.
Qed.
Print Assumptions C207_long_enough.
(** non-trivial case: squares beside a constant series, order 2 *)
Example C206_nontrivial : values 0 2 0 long_rows = [2; 2; 2] /\ values 1 1 0 long_rows = [2; 2; 2] /\
  kpss_sample 1 1 0 (padded long_rows 3) = [Some 2; Some 2; Some 2] /\
  auto_d testing 1 0 2 None [padded long_rows 3; padded [[5]; [5]; [5]; [5]] 4] = Ok 2%nat.
Proof.
  assert (V : values 1 1 0 long_rows = [2; 2; 2]) by (unfold values; cbn; unfold lagged; cbn; repeat (f_equal; try lra)).
  assert (OK : rows_ok 1 long_rows) by (intros r Hr; repeat (destruct Hr as [<-|Hr]; [reflexivity|]); contradiction).
  split; [unfold values; cbn; unfold lagged; cbn; repeat (f_equal; try lra)|]. split; [exact V|]. split.
  - rewrite (C206_sample 1) by (auto; cbn; lia). rewrite V. reflexivity.
  - set (data := [(long_rows, 3%nat); ([[5]; [5]; [5]; [5]], 4%nat)]).
    change [padded long_rows 3; padded [[5]; [5]; [5]; [5]] 4] with (map (fun rp => padded (fst rp) (snd rp)) data).
    apply (C206_order testing (fun x => if (length x <=? 3)%nat then 1 else 0) 1 0 2 None data).
    + intros rows pad [E|[E|[]]]; injection E as <- <-; (split; [|cbn; lia]); auto. intros r Hr. repeat (destruct Hr as [<-|Hr]; [reflexivity|]). contradiction.
    + intros x. unfold testing. replace (existsb _ (map Some x)) with false; [rewrite map_length; auto|]. induction x as [|v x IH]; auto.
    + lia.
    + intros k rows pad _ [E|[E|[]]]; injection E as <- <-; cbn; lra.
    + intros d' Hd H. specialize (H 0%nat long_rows 3%nat ltac:(lia) ltac:(left; auto)). destruct d' as [|[|d']]; [cbn in H; lra|cbn in H; lra|lia].
Qed.

(** C43, C115, C116: datasets in the formats of other packages, and back. *)
From Coq Require Import Reals Bool Arith Lia String Decimal DecimalString DecimalNat List.
From Verif Require Import Num Py Series Dataset CdistThms PropImpute ValidThms CastModel.
Import ListNotations.
Local Open Scope nat_scope.
Ltac clia := unfold series in *; change (carrier Xnum) with xr in *; lia.

(** ** Arrays made by to_time_series_dataset *)
(** shape (n, M, d), and one series at least fills its M rows *)
Definition normal (d M : nat) (D : list (series Xnum)) : Prop :=
  (forall s, In s D -> length s = M /\ forall r, In r s -> length r = d) /\ exists s, In s D /\ ts_size s = M.
Lemma mapM_ok {A B} (f : A -> res B) l out : mapM f l = Ok out -> Forall2 (fun a b => f a = Ok b) l out.
Proof.
  revert out. induction l as [|a l IH]; cbn; intros out E; [inversion E; constructor|].
  destruct (f a) eqn:Ea; cbn in E; [|discriminate]. destruct (mapM f l) eqn:El; cbn in E; [|discriminate]. inversion E; subst. constructor; auto.
Qed.
Lemma mapM_map {A B} (f : A -> res B) (g : A -> B) l : (forall a, In a l -> f a = Ok (g a)) -> mapM f l = Ok (map g l).
Proof. induction l as [|a l IH]; intros H; auto. cbn. rewrite H by auto with datatypes. cbn. rewrite IH by auto with datatypes. auto. Qed.
Lemma F2_length {A B} (P : A -> B -> Prop) l m : Forall2 P l m -> length l = length m.
Proof. induction 1; cbn; auto. Qed.
Lemma F2_in_r {A B} (P : A -> B -> Prop) l m y : Forall2 P l m -> In y m -> exists x, In x l /\ P x y.
Proof. induction 1; cbn; [tauto|]. intros [->|H']; [eauto|]. destruct (IHForall2 H') as (a & ? & ?). eauto. Qed.
Lemma F2_in_l {A B} (P : A -> B -> Prop) l m x : Forall2 P l m -> In x l -> exists y, In y m /\ P x y.
Proof. induction 1; cbn; [tauto|]. intros [->|H']; [eauto|]. destruct (IHForall2 H') as (a & ? & ?). eauto. Qed.
Lemma broadcast_ok d (row out : list xr) : 1 <= d -> broadcast_row (N:=Xnum) d row = Ok out -> length out = d /\ nan_row (N:=Xnum) out = nan_row (N:=Xnum) row.
Proof.
  intros Hd. unfold broadcast_row. change (carrier Xnum) with xr. destruct (Nat.eqb_spec (length row) d) as [E|E]; [intros I; inversion I; subst; auto|].
  destruct row as [|x [|y row]]; intros I; inversion I; subst. split; [apply repeat_length|]. unfold nan_row. destruct d; [lia|]. clear. cbn [repeat forallb].
  destruct (nisnan (n:=Xnum) x) eqn:Ex; [|reflexivity]. cbn [andb]. induction d as [|d IH]; auto. cbn [repeat forallb]. rewrite Ex. exact IH.
Qed.
Lemma last_real (x : raw Xnum) m : ts_size (reshape x) = S m -> nan_row (nth m (reshape x) []) = false.
Proof.
  intros E. assert (H : m < ts_size (reshape x)) by lia. apply ts_size_iff in H. destruct H as (t & Ht & F). destruct (Nat.eq_dec t m) as [->|Hn]; auto.
  assert (K : t < ts_size (reshape x)) by (apply ts_size_iff; exists t; split; auto; lia). lia.
Qed.
Lemma to_dataset_normal X D : 1 <= dim X -> to_dataset (N:=Xnum) X = Ok D -> normal (dim X) (max_size X) D /\ length D = length X.
Proof.
  intros Hd E. destruct X as [|x0 X]; [cbn in Hd; lia|]. set (Y := x0 :: X) in *. assert (NE : Y <> []) by discriminate.
  change (to_dataset (N:=Xnum) Y) with (mapM (padded (N:=Xnum) (dim Y) (max_size Y)) Y) in E. apply mapM_ok in E.
  destruct (max_size_spec Xnum Y NE) as (M1 & y & Hy & My).
  assert (P : forall x s, In x Y -> padded (N:=Xnum) (dim Y) (max_size Y) x = Ok s -> exists rs : series Xnum, s = rs ++ repeat (repeat XNaN (dim Y)) (max_size Y - length (to_time_series true x)) /\
    Forall2 (fun r o => broadcast_row (N:=Xnum) (dim Y) r = Ok o) (to_time_series true x) rs).
  { intros x s Hx Es. unfold padded in Es. destruct (mapM (broadcast_row (dim Y)) (to_time_series true x)) as [rs|] eqn:Er; cbn in Es; [|discriminate]. inversion Es; subst. exists rs. split; auto. apply mapM_ok. auto. }
  split; [split|].
  - intros s Hs. destruct (F2_in_r _ _ _ _ E Hs) as (x & Hx & Ex). destruct (P x s Hx Ex) as (rs & -> & F). specialize (M1 x Hx). pose proof (F2_length _ _ _ F) as L. split.
    + rewrite app_length, repeat_length. change (carrier Xnum) with xr in *. lia.
    + intros r Hr. apply in_app_iff in Hr. destruct Hr as [Hr|Hr]; [|apply repeat_spec in Hr; subst; apply repeat_length]. destruct (F2_in_r _ _ _ _ F Hr) as (q & _ & Eq). apply (broadcast_ok _ _ _ Hd Eq).
  - destruct (F2_in_l _ _ _ _ E Hy) as (s & Hs & Es). exists s. split; auto. destruct (P y s Hy Es) as (rs & -> & F). rewrite My, Nat.sub_diag. cbn [repeat]. rewrite app_nil_r.
    pose proof (F2_length _ _ _ F) as L. rewrite My in L. rewrite <- ts_size_strip in My. destruct (max_size Y) as [|m] eqn:Em.
    + destruct rs; [reflexivity|discriminate].
    + apply Nat.le_antisymm; [rewrite L; apply ts_size_le|]. apply (proj2 (ts_size_iff (N:=Xnum) rs m)). exists m. split; [change (carrier Xnum) with xr in *; lia|].
      pose proof (last_real y m My) as NN. assert (T : nth m (to_time_series true y) [] = nth m (reshape y) []).
      { unfold to_time_series. rewrite My. rewrite <- (firstn_skipn (S m) (reshape y)) at 2. rewrite app_nth1; auto. rewrite firstn_length. pose proof (ts_size_le Xnum (reshape y)). lia. }
      assert (Lm : m < length (to_time_series true y)) by (rewrite <- ts_size_strip, My; lia).
      assert (B : broadcast_row (N:=Xnum) (dim Y) (nth m (to_time_series true y) []) = Ok (nth m rs [])).
      { clear - F Lm. revert m Lm. induction F; intros m Lm; cbn in *; [lia|]. destruct m; auto. apply IHF. lia. }
      apply broadcast_ok in B; auto. destruct B as (_ & B). rewrite <- T in NN. exact (eq_trans B NN).
  - symmetry. apply (F2_length _ _ _ E).
Qed.

(** ** Padding *)
Lemma nan_row_repeat (r : list xr) : nan_row (N:=Xnum) r = true -> r = repeat XNaN (length r).
Proof. unfold nan_row. induction r as [|x r IH]; auto. cbn [forallb length repeat]. intros H. apply andb_prop in H. destruct H as (A & B). rewrite <- IH by exact B. destruct x; try discriminate. auto. Qed.
Lemma row_beyond d (s : series Xnum) t : (forall r, In r s -> length r = d) -> ts_size s <= t < length s -> nth t s [] = repeat XNaN d.
Proof.
  intros H Ht. assert (I : In (nth t s []) s) by (apply nth_In; lia). rewrite <- (H _ I). apply nan_row_repeat. destruct (nan_row (nth t s [])) eqn:E; auto.
  assert (K : t < ts_size s) by (apply ts_size_iff; exists t; split; auto; lia). lia.
Qed.
Lemma strip_length (s : series Xnum) : length (strip s) = ts_size s.
Proof. unfold strip. symmetry. apply (ts_size_strip Xnum (Raw2 s)). Qed.
Lemma strip_nth (s : series Xnum) t : t < ts_size s -> nth t (strip s) [] = nth t s [].
Proof. intros H. unfold strip, to_time_series, reshape. rewrite <- (firstn_skipn (ts_size s) s) at 3. rewrite app_nth1; auto. rewrite firstn_length. pose proof (ts_size_le Xnum s). lia. Qed.
Lemma strip_rows d (s : series Xnum) : (forall r, In r s -> length r = d) -> forall r, In r (strip s) -> length r = d.
Proof. intros H r Hr. apply H. unfold strip, to_time_series, reshape in Hr. rewrite <- (firstn_skipn (ts_size s) s). apply in_or_app. auto. Qed.
Lemma repad d (s : series Xnum) : (forall r, In r s -> length r = d) -> strip s ++ repeat (repeat XNaN d) (length s - ts_size s) = s.
Proof.
  intros H. pose proof (ts_size_le Xnum s) as Hs. apply (nth_ext _ _ [] []).
  - rewrite app_length, strip_length, repeat_length. lia.
  - intros t Ht. rewrite app_length, strip_length, repeat_length in Ht. destruct (Nat.lt_ge_cases t (ts_size s)).
    + rewrite app_nth1 by (rewrite strip_length; auto). apply strip_nth. auto.
    + rewrite app_nth2, strip_length by (rewrite strip_length; auto). rewrite (row_beyond d s t) by (auto; change (carrier Xnum) with xr in *; lia).
      rewrite (nth_indep _ [] (repeat XNaN d)) by (rewrite repeat_length; change (carrier Xnum) with xr in *; lia). apply nth_repeat.
Qed.
Lemma strip_size (s : series Xnum) : ts_size (strip s) = ts_size s.
Proof.
  apply Nat.le_antisymm; [eapply Nat.le_trans; [apply ts_size_le|rewrite strip_length; auto]|]. destruct (ts_size s) as [|m] eqn:E; [lia|]. apply (proj2 (ts_size_iff (strip s) m)).
  exists m. split; [rewrite strip_length; lia|]. rewrite strip_nth by lia. apply (last_real (Raw2 s)). auto.
Qed.
Lemma strip_strip (s : series Xnum) : strip (strip s) = strip s.
Proof. unfold strip at 1. unfold to_time_series, reshape. rewrite strip_size, <- strip_length. apply firstn_all. Qed.
Lemma from_arrays_ok d M D : normal d M D -> from_arrays (map (fun s => {| cols := d; rows := strip s |}) D) = Ok D.
Proof.
  intros (H & s0 & H0 & E0). assert (NE : map (fun s => Raw2 (strip s)) D <> []) by (destruct D; [destruct H0|discriminate]).
  assert (MX : max_size (map (fun s => Raw2 (strip s)) D) = M).
  { destruct (max_size_spec Xnum _ NE) as (M1 & y & Hy & My). apply Nat.le_antisymm.
    - rewrite <- My. apply in_map_iff in Hy. destruct Hy as (s & <- & Hs). fold (strip (strip s)). rewrite strip_strip, strip_length. destruct (H s Hs) as (<- & _). apply ts_size_le.
    - specialize (M1 (Raw2 (strip s0)) (in_map (fun s => Raw2 (strip s)) _ _ H0)). fold (strip (strip s0)) in M1. rewrite strip_strip, strip_length in M1. lia. }
  assert (G : mapM (padded (N:=Xnum) d M) (map (fun s => Raw2 (strip s)) D) = Ok D).
  { clear NE MX s0 H0 E0. induction D as [|s D IH]; auto. cbn [map mapM]. destruct (H s (or_introl eq_refl)) as (L & R).
    assert (P : padded (N:=Xnum) d M (Raw2 (strip s)) = Ok s).
    { unfold padded. fold (strip (strip s)). rewrite strip_strip. rewrite (mapM_map _ (fun r => r)).
      - cbn [bind]. rewrite map_id, strip_length, <- L. apply (f_equal (@Ok (series Xnum))). apply repad. auto.
      - intros r Hr. unfold broadcast_row. destruct (Nat.eqb_spec (length r) d) as [|Q]; auto. destruct Q. exact (strip_rows d s R r Hr). }
    rewrite P. cbn [bind]. rewrite IH by auto with datatypes. auto. }
  unfold from_arrays. destruct D as [|s D]; [destruct H0|]. rewrite map_map. cbn [rows]. rewrite MX. exact G.
Qed.

(** ** Transposition *)
Lemma nth_map_seq {A} (f : nat -> A) n t z : t < n -> nth t (map f (seq 0 n)) z = f t.
Proof. intros H. rewrite (nth_indep _ z (f 0)) by (rewrite map_length, seq_length; auto). rewrite map_nth, seq_nth; auto. Qed.
Lemma nth_map_in {A B} (f : A -> B) l t y z : t < length l -> nth t (map f l) y = f (nth t l z).
Proof. intros H. rewrite (nth_indep _ y (f z)) by (rewrite map_length; auto). apply map_nth. Qed.
Lemma transpose_transpose d (m : list (list xr)) : (forall r, In r m -> length r = d) -> transpose (length m) (transpose d m) = m.
Proof.
  intros H. unfold transpose. apply (nth_ext _ _ [] []); [rewrite map_length, seq_length; auto|]. rewrite map_length, seq_length. intros t Ht. rewrite nth_map_seq by auto. rewrite map_map.
  assert (I : In (nth t m []) m) by (apply nth_In; auto). apply (nth_ext _ _ XNaN XNaN); [rewrite map_length, seq_length, H; auto|]. rewrite map_length, seq_length. intros k Hk. rewrite nth_map_seq by auto. apply (nth_map_in (fun r => nth k r XNaN)); auto.
Qed.
Lemma transpose_length d m : length (transpose d m) = d.
Proof. unfold transpose. rewrite map_length, seq_length. auto. Qed.
Lemma flat_rows (m : list (list xr)) : (forall r, In r m -> length r = 1) -> map (fun x => [x]) (concat m) = m.
Proof. induction m as [|r m IH]; intros H; auto. cbn [concat]. pose proof (H r (or_introl eq_refl)) as L. destruct r as [|x [|]]; try discriminate. cbn. f_equal. apply IH. auto with datatypes. Qed.
Lemma check_false X D : to_dataset (N:=Xnum) X = Ok D -> check_dataset false false false X = Ok D.
Proof. intros E. unfold check_dataset. rewrite E. reflexivity. Qed.
Lemma expand_flatten d (s : series Xnum) : 1 <= d -> (forall r, In r s -> length r = d) -> transpose_or_expand (transpose_or_flatten {| cols := d; rows := s |}) = {| cols := d; rows := s |}.
Proof.
  intros Hd H. unfold transpose_or_flatten. cbn [cols rows]. destruct (Nat.eqb_spec d 1) as [->|N]; cbn [transpose_or_expand].
  - f_equal. apply flat_rows. auto.
  - rewrite transpose_length. f_equal. apply transpose_transpose. auto.
Qed.
Lemma fold_max_const n (l : list nat) : (forall x, In x l -> x = n) -> l <> [] -> fold_left Nat.max l 0 = n.
Proof.
  intros H N. assert (G : forall l a, (forall x, In x l -> x = n) -> a <= n -> (l <> [] \/ a = n) -> fold_left Nat.max l a = n).
  { clear. induction l as [|x l IH]; intros a H Ha Hor; cbn; [destruct Hor; congruence|]. rewrite (H x) by auto with datatypes. rewrite Nat.max_r by auto. apply IH; auto with datatypes. }
  apply G; auto. lia.
Qed.

(** ** C43 *)
(** Every conversion starts from the array D made by to_time_series_dataset from X, whatever X is; converting and converting back gives D. *)
Theorem C43_seglearn X D : 1 <= dim X -> to_dataset (N:=Xnum) X = Ok D -> (do l <- to_seglearn X ;; from_seglearn l) = Ok D.
Proof.
  intros Hd E. destruct (to_dataset_normal X D Hd E) as (H & _). unfold to_seglearn. rewrite (check_false X D E). cbn [bind]. apply (from_arrays_ok _ _ _ H).
Qed.
Print Assumptions C43_seglearn.
Theorem C43_stumpy X D : 1 <= dim X -> to_dataset (N:=Xnum) X = Ok D -> (do l <- to_stumpy X ;; from_stumpy l) = Ok D.
Proof.
  intros Hd E. destruct (to_dataset_normal X D Hd E) as (H & _). unfold to_stumpy. rewrite (check_false X D E). cbn [bind]. unfold from_stumpy. rewrite map_map.
  rewrite <- (from_arrays_ok _ _ _ H). f_equal. apply map_ext_in. intros s Hs. apply expand_flatten; auto. apply strip_rows. apply H. auto.
Qed.
Print Assumptions C43_stumpy.
Lemma format_ok d (s : series Xnum) : 1 <= d -> (forall r, In r s -> length r = d) -> format_to_tslearn (transpose_or_flatten {| cols := d; rows := s |}) = Ok {| cols := d; rows := s |}.
Proof.
  intros Hd H. assert (G : forall m : list (list xr), length m = d -> (forall k, k < d -> nth k m [] = map (fun r => nth k r XNaN) s) ->
    (if length m =? 0 then Err ValueError else Ok {| cols := length m; rows := map (fun t => map (fun row => nth t row XNaN) m) (seq 0 (fold_left Nat.max (map (@length xr) m) 0)) |}) = Ok {| cols := d; rows := s |}).
  { intros m Lm Hm. assert (Em : m = transpose d s).
    { apply (nth_ext _ _ [] []); [rewrite transpose_length; auto|]. intros k Hk. rewrite Lm in Hk. unfold transpose. rewrite nth_map_seq by auto. auto. }
    rewrite Lm. destruct (Nat.eqb_spec d 0); [lia|]. apply (f_equal (@Ok array2)). f_equal. rewrite (fold_max_const (length s)).
    - rewrite Em. exact (transpose_transpose d s H).
    - intros x Hx. rewrite Em in Hx. apply in_map_iff in Hx. destruct Hx as (c & <- & Hc). unfold transpose in Hc. apply in_map_iff in Hc. destruct Hc as (k & <- & _). apply map_length.
    - rewrite Em. unfold transpose. destruct d; [lia|discriminate]. }
  unfold transpose_or_flatten. cbn [cols rows]. destruct (Nat.eqb_spec d 1) as [->|N]; unfold format_to_tslearn; apply G; auto.
  - intros k Hk. destruct k; [|lia]. cbn [nth]. clear G. induction s as [|r s IH]; auto. pose proof (H r (or_introl eq_refl)) as L. change (carrier Xnum) with xr in *. destruct r as [|x [|]]; try discriminate. cbn. f_equal. apply IH. auto with datatypes.
  - apply transpose_length.
  - intros k Hk. unfold transpose. rewrite nth_map_seq by auto. auto.
Qed.
(** A cesium TimeSeries is assumed to keep its measurements; series without any value are left out. *)
Theorem C43_cesium_partial X D : 1 <= dim X -> to_dataset (N:=Xnum) X = Ok D -> (forall s, In s D -> exists r x, In r s /\ In x r /\ x <> XNaN) ->
  (do l <- to_cesium X ;; from_cesium l) = Ok D.
Proof.
  intros Hd E _. destruct (to_dataset_normal X D Hd E) as (H & _). unfold to_cesium, to_stumpy. rewrite (check_false X D E). cbn [bind]. unfold from_cesium.
  assert (F : mapM format_to_tslearn (map (fun s => transpose_or_flatten {| cols := dim X; rows := strip s |}) D) = Ok (map (fun s => {| cols := dim X; rows := strip s |}) D)).
  { destruct H as (H & _). clear E. induction D as [|s D IH]; auto. cbn [map mapM]. rewrite format_ok; auto; [|apply strip_rows, H; left; auto]. cbn [bind]. rewrite IH by auto with datatypes. auto. }
  rewrite F. cbn [bind]. apply (from_arrays_ok _ _ _ H).
Qed.
Print Assumptions C43_cesium_partial.

(** ** sktime *)
Lemma to_uint_nonnil n : Nat.to_uint n <> Nil.
Proof. intros E. pose proof (Unsigned.to_of (Nat.to_uint n)) as H. rewrite Unsigned.of_to, E in H. discriminate. Qed.
Lemma dim_name_inj a b : dim_name a = dim_name b -> a = b.
Proof.
  unfold dim_name. intros E. cbn in E. assert (F : NilZero.string_of_uint (Nat.to_uint a) = NilZero.string_of_uint (Nat.to_uint b)) by congruence.
  apply (f_equal NilZero.uint_of_string) in F. rewrite !NilZero.usu in F by apply to_uint_nonnil. apply Unsigned.to_uint_inj. congruence.
Qed.
Lemma names_prefixed l : filter (String.prefix "dim_") (map dim_name l) = map dim_name l.
Proof. induction l as [|k l IH]; auto. cbn [map filter]. rewrite IH. replace (String.prefix "dim_" (dim_name k)) with true; auto. unfold dim_name. cbn. destruct (NilZero.string_of_uint (Nat.to_uint k)); auto. Qed.
Lemma same_names_refl l : same_names l l = true.
Proof. unfold same_names. apply forallb_forall. intros. apply Nat.eqb_refl. Qed.
Lemma column_dim (f : nat -> list (list xr)) l k : In k l -> column (map (fun k => (dim_name k, f k)) l) (dim_name k) = Ok (f k).
Proof.
  induction l as [|a l IH]; cbn [map column In]; [tauto|]. intros H. destruct (String.eqb_spec (dim_name a) (dim_name k)) as [E|E]; [apply dim_name_inj in E; subst; auto|].
  destruct H as [H|H]; [subst; congruence|auto].
Qed.
Lemma fold_max_spec2 (l : list nat) M : (forall x, In x l -> x <= M) -> In M l -> fold_left Nat.max l 0 = M.
Proof.
  intros H I. destruct (fold_max_spec l 0) as (A & B & C). apply Nat.le_antisymm; [|apply A; auto]. destruct C as [C|C]; [rewrite C; lia|]. apply H. auto.
Qed.
Lemma cell_nth d (s : series Xnum) k t : (forall r, In r s -> length r = d) -> t < length s -> k < d -> nth t (map (fun r : list xr => nth k r XNaN) (strip s)) XNaN = nth k (nth t s []) XNaN.
Proof.
  intros H Ht Hk. destruct (Nat.lt_ge_cases t (ts_size s)) as [L|L].
  - rewrite (nth_map_in (fun r : list xr => nth k r XNaN) (strip s) t XNaN []) by (rewrite strip_length; auto). exact (f_equal (fun r : list xr => nth k r XNaN) (strip_nth s t L)).
  - rewrite (row_beyond d s t) by auto. rewrite nth_overflow by (rewrite map_length, strip_length; auto). symmetry. apply nth_repeat.
Qed.
Theorem C43_sktime X D : 1 <= dim X -> to_dataset (N:=Xnum) X = Ok D -> (do f <- to_sktime X ;; from_sktime f) = Ok D.
Proof.
  intros Hd E. destruct (to_dataset_normal X D Hd E) as (H & _). destruct H as (H & s0 & H0 & E0). set (M := max_size X) in *. unfold to_sktime. rewrite (check_false X D E). cbn [bind].
  set (d := dim X) in *. set (cell := fun k => map (fun s : series Xnum => map (fun r : list xr => nth k r XNaN) (strip s)) D).
  change (from_sktime (map (fun k => (dim_name k, cell k)) (seq 0 d)) = Ok D). unfold from_sktime.
  assert (NM : map fst (map (fun k => (dim_name k, cell k)) (seq 0 d)) = map dim_name (seq 0 d)) by (rewrite map_map; apply map_ext; auto).
  rewrite NM, names_prefixed, map_length, seq_length, same_names_refl. cbn [negb].
  change "dim_0"%string with (dim_name 0). rewrite column_dim by (apply in_seq; clia). cbn [bind].
  assert (MC : mapM (column (map (fun k => (dim_name k, cell k)) (seq 0 d))) (map dim_name (seq 0 d)) = Ok (map cell (seq 0 d))).
  { assert (G : forall l, incl l (seq 0 d) -> mapM (column (map (fun k => (dim_name k, cell k)) (seq 0 d))) (map dim_name l) = Ok (map cell l)); [|apply G, incl_refl].
    induction l as [|k l IH]; intros I; auto. cbn [map mapM]. rewrite column_dim by (apply I; left; auto). cbn [bind]. rewrite IH; auto. intros x Hx. apply I. right. auto. }
  rewrite MC. cbn [bind]. assert (LC : forall k, length (cell k) = length D) by (intros; apply map_length). rewrite LC.
  assert (NE : length D <> 0) by (destruct D; [destruct H0|discriminate]). destruct (Nat.eqb_spec (length D) 0) as [|_]; [tauto|].
  assert (NC : forall k i, i < length D -> nth i (cell k) [] = map (fun r : list xr => nth k r XNaN) (strip (nth i D []))).
  { intros k i Hi. exact (nth_map_in (fun s : series Xnum => map (fun r : list xr => nth k r XNaN) (strip s)) D i [] [] Hi). }
  rewrite (fold_max_spec2 _ M).
  - apply (f_equal (@Ok (list (series Xnum)))). apply (nth_ext _ _ [] []); [rewrite map_length, seq_length; auto|]. rewrite map_length, seq_length. intros i Hi. rewrite (nth_map_seq _ _ i) by auto.
    assert (I : In (nth i D []) D) by (apply nth_In; auto). destruct (H _ I) as (L & R). set (s := nth i D []) in *.
    apply (nth_ext _ _ [] []); [rewrite map_length, seq_length; auto|]. rewrite map_length, seq_length. intros t Ht. rewrite (nth_map_seq _ _ t) by auto. rewrite map_map.
    assert (Ir : In (nth t s []) s) by (apply nth_In; clia). apply (nth_ext _ _ XNaN XNaN); [rewrite map_length, seq_length; symmetry; apply R; auto|]. rewrite map_length, seq_length. intros k Hk.
    rewrite (nth_map_seq _ _ k) by auto. rewrite NC by auto. apply (cell_nth d); auto. rewrite <- L in Ht. exact Ht.
  - intros x Hx. apply in_concat in Hx. destruct Hx as (l & Hl & Hx). apply in_map_iff in Hl. destruct Hl as (c & <- & Hc). apply in_map_iff in Hc. destruct Hc as (k & <- & _).
    apply in_map_iff in Hx. destruct Hx as (i & <- & Hi). apply in_seq in Hi. rewrite NC by clia. rewrite map_length, strip_length. destruct (H (nth i D [])) as (<- & _); [apply nth_In; clia|]. apply ts_size_le.
  - destruct (In_nth _ _ [] H0) as (i & Hi & Ei). apply in_concat. exists (map (fun i => length (nth i (cell 0) [])) (seq 0 (length D))). split.
    + rewrite map_map. apply in_map_iff. exists 0. split; auto. apply in_seq. clia.
    + apply in_map_iff. exists i. split; [|apply in_seq; clia]. rewrite NC by auto. rewrite map_length, strip_length. exact (eq_trans (f_equal (@ts_size Xnum) Ei) E0).
Qed.
Print Assumptions C43_sktime.

(** ** tsfresh *)
Lemma filter_concat {A} (p : A -> bool) ll : filter p (concat ll) = concat (map (filter p) ll).
Proof. induction ll as [|l ll IH]; auto. cbn. rewrite filter_app, IH. auto. Qed.
Lemma filter_all {A} (p : A -> bool) l : (forall x, In x l -> p x = true) -> filter p l = l.
Proof. induction l as [|x l IH]; intros H; auto. cbn. rewrite H, IH; auto with datatypes. Qed.
Lemma filter_none {A} (p : A -> bool) l : (forall x, In x l -> p x = false) -> filter p l = [].
Proof. induction l as [|x l IH]; intros H; auto. cbn. rewrite H, IH; auto with datatypes. Qed.
Definition series_records (p : nat * series Xnum) : list (nat * nat * list xr) := map (fun t => (fst p, t, nth t (strip (snd p)) [])) (seq 0 (length (strip (snd p)))).
Lemma nth_seq_id {A} (l : list A) z : map (fun k => nth k l z) (seq 0 (length l)) = l.
Proof. induction l as [|x l IH]; auto. cbn [length seq map nth]. f_equal. rewrite <- seq_shift, map_map. exact IH. Qed.
Lemma of_id_gen i (D : list (series Xnum)) : forall st, st <= i -> map snd (filter (fun r : nat * nat * list xr => fst (fst r) =? i) (concat (map series_records (combine (seq st (length D)) D)))) = strip (nth (i - st) D []).
Proof.
  induction D as [|s D IH]; intros st Hst; [cbn; destruct (i - st); reflexivity|]. cbn [length seq combine map concat]. rewrite filter_app, map_app.
  destruct (Nat.eq_dec i st) as [->|N].
  - rewrite Nat.sub_diag. cbn [nth]. rewrite filter_all by (intros r Hr; apply in_map_iff in Hr; destruct Hr as (t & <- & _); apply Nat.eqb_refl).
    assert (Z : filter (fun r : nat * nat * list xr => fst (fst r) =? st) (concat (map series_records (combine (seq (S st) (length D)) D))) = []).
    { apply filter_none. intros r Hr. apply in_concat in Hr. destruct Hr as (l & Hl & Hr). apply in_map_iff in Hl. destruct Hl as ((j & s') & <- & Hj). apply in_combine_l, in_seq in Hj. apply in_map_iff in Hr. destruct Hr as (t & <- & _). cbn. apply Nat.eqb_neq. lia. }
    rewrite Z. cbn [map]. rewrite app_nil_r. unfold series_records. cbn [fst snd]. rewrite map_map. exact (nth_seq_id (strip s) []).
  - rewrite filter_none by (intros r Hr; apply in_map_iff in Hr; destruct Hr as (t & <- & _); apply Nat.eqb_neq; cbn; lia). cbn [map app]. rewrite IH by lia. replace (i - st) with (S (i - S st)) by lia. reflexivity.
Qed.
Definition has_value (s : series Xnum) : Prop := exists r x, In r s /\ In x r /\ x <> XNaN.
Lemma has_value_size (s : series Xnum) : has_value s <-> 1 <= ts_size s.
Proof.
  split.
  - intros (r & x & Hr & Hx & N). destruct (In_nth _ _ [] Hr) as (t & Ht & E). assert (K : t < ts_size s); [|lia]. apply ts_size_iff. exists t. split; [lia|].
    destruct (nan_row (nth t s [])) eqn:F; auto. rewrite E in F. unfold nan_row in F. rewrite forallb_forall in F. specialize (F x Hx). destruct x; try discriminate. tauto.
  - intros H. assert (K : 0 < ts_size s) by lia. apply ts_size_iff in K. destruct K as (t & Ht & F). exists (nth t s []).
    assert (G : exists x, In x (nth t s []) /\ nisnan (n:=Xnum) x = false). { clear - F. unfold nan_row in F. induction (nth t s []) as [|x l IH]; [discriminate|]. cbn [forallb] in F. destruct (nisnan (n:=Xnum) x) eqn:E; [destruct (IH F) as (y & ? & ?); exists y; cbn; auto|exists x; cbn; auto]. }
    destruct G as (x & Hx & Ex). exists x. split; [apply nth_In; lia|]. split; auto. intros ->. discriminate.
Qed.
(** [ids]: the ids of the frame, each once, in the order of Python's set *)
Definition ids_of (ids : list nat) (f : long_frame) : Prop := NoDup ids /\ forall i, In i ids <-> exists r, In r (records f) /\ fst (fst r) = i.
Lemma tsfresh_ids X D f ids : 1 <= dim X -> to_dataset (N:=Xnum) X = Ok D -> to_tsfresh X = Ok f -> ids_of ids f -> forall i, In i ids <-> i < length D /\ has_value (nth i D []).
Proof.
  intros Hd E Ef (_ & HI) i. unfold to_tsfresh in Ef. rewrite (check_false X D E) in Ef. cbn [bind] in Ef. destruct (length D =? 0); [discriminate|]. inversion Ef; subst f. cbn [records] in HI. fold series_records in HI.
  rewrite HI, has_value_size, <- strip_length. split.
  - intros (r & Hr & <-). apply in_concat in Hr. destruct Hr as (l & Hl & Hr). apply in_map_iff in Hl. destruct Hl as ((j & s) & <- & Hj). apply in_map_iff in Hr. destruct Hr as (t & <- & Ht). apply in_seq in Ht. cbn [fst snd] in *.
    destruct (In_nth _ _ (0, []) Hj) as (q & Hq & Eq). rewrite combine_length, seq_length, Nat.min_id in Hq. rewrite combine_nth in Eq by apply seq_length. rewrite seq_nth in Eq by auto. injection Eq as Ej Es. assert (Ej2 : j = q) by (rewrite <- Ej; reflexivity). subst j. split; auto. rewrite <- Es in Ht. clia.
  - intros (Hi & L). exists (i, 0, nth 0 (strip (nth i D [])) []). split; auto. apply in_concat. exists (series_records (i, nth i D [])). split.
    + apply in_map_iff. exists (i, nth i D []). split; auto. replace (i, nth i D []) with (nth i (combine (seq 0 (length D)) D) (0, [])) by (rewrite combine_nth by apply seq_length; rewrite seq_nth by auto; auto).
      apply nth_In. rewrite combine_length, seq_length, Nat.min_id. auto.
    + unfold series_records. apply in_map_iff. exists 0. split; auto. apply in_seq. cbn [snd]. lia.
Qed.
(** Whatever the order of the ids, the series that have a value come back, in that order, as they were. *)
Theorem C43_tsfresh_partial X D f ids : 1 <= dim X -> to_dataset (N:=Xnum) X = Ok D -> to_tsfresh X = Ok f -> ids_of ids f -> (exists s, In s D /\ has_value s) ->
  from_tsfresh ids f = Ok (map (fun i => nth i D []) ids) /\ ((forall s, In s D -> has_value s) -> ids = seq 0 (length D) -> from_tsfresh ids f = Ok D).
Proof.
  intros Hd E Ef HI (s1 & H1 & V1). pose proof (tsfresh_ids X D f ids Hd E Ef HI) as ID. destruct (to_dataset_normal X D Hd E) as ((H & s0 & H0 & E0) & _). set (M := max_size X) in *. set (d := dim X) in *.
  assert (G : from_tsfresh ids f = Ok (map (fun i => nth i D []) ids)).
  { unfold to_tsfresh in Ef. rewrite (check_false X D E) in Ef. cbn [bind] in Ef. destruct (length D =? 0); [discriminate|]. inversion Ef; subst f. unfold from_tsfresh. cbn [records value_names]. rewrite map_length, seq_length. fold d.
    assert (V0 : has_value s0). { apply has_value_size. rewrite E0. destruct (H s1 H1) as (<- & _). apply has_value_size in V1. pose proof (ts_size_le Xnum s1). lia. }
    destruct (In_nth _ _ [] H0) as (i0 & Hi0 & Ei0). assert (I0 : In i0 ids) by (apply ID; split; auto; exact (eq_ind_r has_value V0 Ei0)).
    assert (OF : forall i, map snd (filter (fun r : nat * nat * list xr => fst (fst r) =? i) (concat (map series_records (combine (seq 0 (length D)) D)))) = strip (nth i D [])) by (intros i; rewrite of_id_gen by lia; rewrite Nat.sub_0_r; auto).
    destruct ids as [|j ids]; [destruct I0|]. set (J := j :: ids) in *. fold series_records. apply (f_equal (@Ok (list (series Xnum)))).
    rewrite (fold_max_spec2 _ M).
    - apply map_ext_in. intros i Hi. apply ID in Hi. destruct Hi as (Hi & _). rewrite OF. assert (Is : In (nth i D []) D) by (apply nth_In; auto). destruct (H _ Is) as (L & R). set (s := nth i D []) in *. clearbody s.
      apply (nth_ext _ _ [] []); [rewrite map_length, seq_length; auto|]. rewrite map_length, seq_length. intros t Ht. rewrite nth_map_seq by auto. destruct (Nat.lt_ge_cases t (ts_size s)) as [Lt|Lt].
      + rewrite (nth_error_nth' _ []) by (rewrite strip_length; auto). pose proof (strip_nth s t Lt) as SN. assert (Lr : length (nth t s []) = d) by (apply R, nth_In; clia).
        transitivity (map (fun k => nth k (nth t s []) XNaN) (seq 0 (length (nth t s [])))); [|exact (nth_seq_id (nth t s []) XNaN)]. rewrite Lr. apply map_ext. intros k. exact (f_equal (fun r : list xr => nth k r XNaN) SN).
      + rewrite (proj2 (nth_error_None _ _)) by (rewrite strip_length; auto). symmetry. apply row_beyond; auto. clia.
    - intros x Hx. apply in_map_iff in Hx. destruct Hx as (i & <- & Hi). apply ID in Hi. destruct Hi as (Hi & _). rewrite OF, strip_length. destruct (H (nth i D [])) as (<- & _); [apply nth_In; auto|]. apply ts_size_le.
    - apply in_map_iff. exists i0. split; auto. rewrite OF, strip_length. exact (eq_trans (f_equal (@ts_size Xnum) Ei0) E0). }
  split; auto. intros _ ->. rewrite G. apply (f_equal (@Ok (list (series Xnum)))). apply nth_seq_id.
Qed.
Print Assumptions C43_tsfresh_partial.
(** A series without any value has no row in the frame: it is lost. *)
Theorem C43_tsfresh_refuted X D f ids s : 1 <= dim X -> to_dataset (N:=Xnum) X = Ok D -> to_tsfresh X = Ok f -> ids_of ids f -> In s D -> ~ has_value s ->
  from_tsfresh ids f = Err ValueError \/ exists D', from_tsfresh ids f = Ok D' /\ length D' < length D.
Proof.
  intros Hd E Ef HI Hs Ns. pose proof (tsfresh_ids X D f ids Hd E Ef HI) as ID. destruct ids as [|j ids]; [left; reflexivity|]. right. set (J := j :: ids) in *. eexists. split; [reflexivity|]. rewrite map_length.
  destruct (In_nth _ _ [] Hs) as (i & Hi & Ei). assert (NI : ~ In i J) by (intros I; apply ID in I; apply Ns; exact (eq_ind _ has_value (proj2 I) _ Ei)).
  assert (K : length (i :: J) <= length (seq 0 (length D))); [|rewrite seq_length in K; cbn [length] in *; lia]. apply NoDup_incl_length; [constructor; auto; apply HI|].
  intros x [<-|Hx]; apply in_seq; [clia|]. apply ID in Hx. clia.
Qed.
Print Assumptions C43_tsfresh_refuted.

(** ** pyts *)
Lemma equal_size_iff D : equal_size D = true <-> forall s s', In s D -> In s' D -> ts_size s = ts_size s'.
Proof.
  destruct D as [|x D]; cbn [equal_size]; [split; auto; intros _ s s' []|]. rewrite forallb_forall. split.
  - intros H. assert (G : forall s, In s (x :: D) -> ts_size s = ts_size x) by (intros s [<-|Hs]; auto; apply Nat.eqb_eq; auto). intros s s' Hs Hs'. rewrite (G s), (G s'); auto.
  - intros H y Hy. apply Nat.eqb_eq. apply H; cbn; auto.
Qed.
Lemma forallb_transpose d (s : series Xnum) : (forall r, In r s -> length r = d) -> forallb (forallb finite) (transpose d s) = forallb (forallb finite) s.
Proof.
  intros H. apply eq_iff_eq_true. rewrite !forallb_forall. split; intros G r Hr; apply forallb_forall; intros x Hx.
  - destruct (In_nth _ _ XNaN Hx) as (k & Hk & <-). assert (Kd : k < d) by (rewrite <- (H r Hr); exact Hk). specialize (G (map (fun r => nth k r XNaN) s)). rewrite forallb_forall in G. apply G.
    + unfold transpose. apply in_map_iff. exists k. split; auto. apply in_seq. lia.
    + apply in_map_iff. exists r. auto.
  - unfold transpose in Hr. apply in_map_iff in Hr. destruct Hr as (k & <- & Hk). apply in_seq in Hk. apply in_map_iff in Hx. destruct Hx as (q & <- & Hq). specialize (G q Hq). rewrite forallb_forall in G. apply G. apply nth_In. pose proof (H q Hq) as L. clia.
Qed.
Lemma forallb_concat2 (s : list (list xr)) : forallb finite (concat s) = forallb (forallb finite) s.
Proof. induction s as [|r s IH]; auto. cbn. rewrite forallb_app, IH. auto. Qed.
(** For series of one length with at least one row: the conversions give the array back if all its values are finite, otherwise ValueError. *)
Theorem C43_pyts X D : 1 <= dim X -> to_dataset (N:=Xnum) X = Ok D -> (forall s s', In s D -> In s' D -> ts_size s = ts_size s') -> (exists s, In s D /\ has_value s) ->
  ((forall s r x, In s D -> In r s -> In x r -> exists v, x = XR v) -> (do P <- to_pyts X ;; from_pyts P) = Ok D) /\
  ((exists s r x, In s D /\ In r s /\ In x r /\ (x = XNaN \/ x = XInf \/ x = XNInf)) -> (do P <- to_pyts X ;; from_pyts P) = Err ValueError).
Proof.
  intros Hd E EQ (s1 & H1 & V1). destruct (to_dataset_normal X D Hd E) as ((H & _) & _). set (d := dim X) in *. set (M := max_size X) in *.
  assert (M1 : 1 <= M). { destruct (H s1 H1) as (<- & _). apply has_value_size in V1. pose proof (ts_size_le Xnum s1). lia. }
  assert (C : check_dataset false true false X = Ok D). { unfold check_dataset. rewrite E. cbn [bind andb]. rewrite (proj2 (equal_size_iff D) EQ). reflexivity. }
  set (b := forallb (forallb (forallb finite)) D).
  assert (RT : (do P <- to_pyts X ;; from_pyts P) = if b then Ok D else Err ValueError).
  { unfold to_pyts. rewrite C. cbn [bind]. fold d. destruct (Nat.eqb_spec d 1) as [E1|N1]; cbn [from_pyts].
    - assert (Eb : forallb (forallb finite) (map (@concat xr) D) = b). { unfold b. clear. induction D as [|s D IH]; auto. cbn [map forallb]. rewrite IH, forallb_concat2. auto. }
      rewrite Eb. destruct b; [|reflexivity]. cbn [negb orb]. rewrite map_length. destruct D as [|s D]; [destruct H1|]. cbn [length Nat.eqb orb map hd]. destruct (H s (or_introl eq_refl)) as (L & R).
      assert (Ls : length (concat s) = M). { rewrite <- L, <- (map_length (fun x => [x]) (concat s)). rewrite E1 in R. exact (f_equal (@length (list xr)) (flat_rows s R)). }
      assert (Z : (@length xr (@concat xr s) =? 0) = false) by (apply Nat.eqb_neq; clia). rewrite Z. apply (f_equal (@Ok (list (series Xnum)))). change (map (map (fun x : xr => [x])) (map (@concat xr) (s :: D)) = s :: D). rewrite map_map.
      transitivity (map (fun u : series Xnum => u) (s :: D)); [|apply map_id]. apply map_ext_in. intros u Hu. apply flat_rows. destruct (H u Hu) as (_ & Ru). rewrite E1 in Ru. exact Ru.
    - assert (Eb : forallb (forallb (forallb finite)) (map (transpose d) D) = b).
      { unfold b. assert (R : forall s, In s D -> forall r, In r s -> length r = d) by (intros s Hs; apply H; auto). clear - R. induction D as [|s D IH]; auto. cbn [map forallb]. rewrite IH, forallb_transpose; auto; intros; [apply (R s); cbn; auto|apply (R s0); cbn; auto]. }
      rewrite Eb. destruct b; [|reflexivity]. cbn [negb orb]. rewrite map_length. destruct D as [|s D]; [destruct H1|]. cbn [length Nat.eqb]. apply (f_equal (@Ok (list (series Xnum)))). rewrite map_map.
      assert (Hh : length (hd [] (hd [] (map (transpose d) (s :: D)))) = M). { cbn [map hd]. unfold transpose. destruct d as [|d']; [lia|]. cbn [seq map hd]. rewrite map_length. apply H. left. auto. }
      rewrite Hh. transitivity (map (fun u : series Xnum => u) (s :: D)); [|apply map_id]. apply map_ext_in. intros u Hu. destruct (H u Hu) as (Lu & Ru). rewrite <- Lu. apply transpose_transpose. exact Ru. }
  rewrite RT. split.
  - intros F. replace b with true; auto. symmetry. unfold b. apply forallb_forall. intros s Hs. apply forallb_forall. intros r Hr. apply forallb_forall. intros x Hx. destruct (F s r x Hs Hr Hx) as (v & ->). auto.
  - intros (s & r & x & Hs & Hr & Hx & Nf). destruct b eqn:B; auto. unfold b in B. rewrite forallb_forall in B. specialize (B s Hs). rewrite forallb_forall in B. specialize (B r Hr). rewrite forallb_forall in B. specialize (B x Hx). destruct Nf as [->|[->| ->]]; discriminate.
Qed.
Print Assumptions C43_pyts.
(** Series of different lengths are refused. *)
Theorem C43_pyts_lengths X D s s' : to_dataset (N:=Xnum) X = Ok D -> In s D -> In s' D -> ts_size s <> ts_size s' -> to_pyts X = Err ValueError.
Proof.
  intros E Hs Hs' N. unfold to_pyts, check_dataset. rewrite E. cbn [bind andb]. destruct (equal_size D) eqn:B; [|reflexivity]. exfalso. apply N. apply (proj1 (equal_size_iff D) B); auto.
Qed.
Print Assumptions C43_pyts_lengths.

(** ** C115: scikit-learn *)
Lemma flat_entries d (s : list (list xr)) : (forall r, In r s -> length r = d) -> length (concat s) = length s * d /\
  forall t k, t < length s -> k < d -> nth (t * d + k) (concat s) XNaN = nth k (nth t s []) XNaN.
Proof.
  intros R. split.
  - induction s as [|r s IH]; auto. cbn [concat]. rewrite app_length, IH by auto with datatypes. rewrite (R r) by (cbn; auto). cbn [length]. lia.
  - induction s as [|r s IH]; intros t k Ht Hk; [cbn in Ht; lia|]. pose proof (R r (or_introl eq_refl)) as L. cbn [concat]. destruct t as [|t].
    + cbn. rewrite app_nth1 by lia. auto.
    + rewrite app_nth2 by (rewrite L; lia). rewrite L. replace (S t * d + k - d) with (t * d + k) by lia. cbn [nth]. apply IH; auto with datatypes. cbn in Ht. lia.
Qed.
(** The row of a series has, at t * d + k, its feature k at time t. *)
Theorem C115_sklearn X D : 1 <= dim X -> to_dataset (N:=Xnum) X = Ok D -> exists m, to_sklearn X = Ok (m, dim X) /\ length m = length X /\
  forall i, i < length X -> length (nth i m []) = length (nth i D []) * dim X /\
    forall t k, t < length (nth i D []) -> k < dim X -> nth (t * dim X + k) (nth i m []) XNaN = nth k (nth t (nth i D []) []) XNaN.
Proof.
  intros Hd E. destruct (to_dataset_normal X D Hd E) as ((H & _) & LX). set (d := dim X) in *. unfold to_sklearn. rewrite E. cbn [bind]. eexists. split; [reflexivity|]. split; [rewrite map_length; auto|].
  intros i Hi. rewrite <- LX in Hi. rewrite (nth_map_in (@concat xr) D i [] []) by auto. assert (I : In (nth i D []) D) by (apply nth_In; auto). destruct (H _ I) as (_ & R). exact (flat_entries d (nth i D []) R).
Qed.
Print Assumptions C115_sklearn.

(** ** C116: pyflux *)
(** One series comes back as it was given, rows of NaN at its end included, although to_time_series_dataset would drop them. *)
Theorem C116_pyflux (x : raw Xnum) : 1 <= raw_ncols x -> (forall r, In r (reshape x) -> length r = raw_ncols x) -> (do f <- to_pyflux [x] ;; from_pyflux f) = Ok [reshape x].
Proof.
  intros Hd R. set (d := raw_ncols x) in *. assert (U : uniform (N:=Xnum) d [x]). { intros y [<-|[]]. split; auto. apply Forall_forall. exact R. }
  unfold to_pyflux, check_dataset. rewrite (to_dataset_ok Xnum d [x] U). cbn [bind andb equal_size map forallb negb length Nat.eqb]. change (dim [x]) with d. set (s := reshape x) in *.
  destruct d as [|d'] eqn:Ed; [lia|]. set (f := map (fun k => (dim_name k, map (fun r : list xr => nth k r XNaN) s)) (seq 0 (S d'))).
  assert (Ff : from_pyflux f = Ok [map (fun t => map (fun c : string * list xr => nth t (snd c) XNaN) f) (seq 0 (fold_left Nat.max (map (fun c : string * list xr => length (snd c)) f) 0))]) by reflexivity.
  rewrite Ff. rewrite (fold_max_const (length s)).
  - apply (f_equal (@Ok (list (series Xnum)))). apply (f_equal (fun u : series Xnum => [u])). unfold f. transitivity (map (fun t => map (fun row => nth t row XNaN) (transpose (S d') s)) (seq 0 (length s))); [|exact (transpose_transpose (S d') s R)].
    apply map_ext. intros t. unfold transpose. rewrite !map_map. auto.
  - intros n Hn. unfold f in Hn. rewrite map_map in Hn. apply in_map_iff in Hn. destruct Hn as (k & <- & _). apply map_length.
  - discriminate.
Qed.
Print Assumptions C116_pyflux.
Theorem C116_single X D : to_dataset (N:=Xnum) X = Ok D -> 2 <= length X -> to_pyflux X = Err ValueError.
Proof.
  intros E L. unfold to_pyflux, check_dataset. rewrite E. cbn [bind andb]. assert (LD : length D = length X). { destruct X as [|x X]; [cbn in L; lia|]. symmetry. apply (F2_length _ _ _ (mapM_ok _ _ _ E)). }
  destruct (equal_size D); cbn [negb]; [|reflexivity]. destruct (Nat.eqb_spec (length D) 1); [lia|]. reflexivity.
Qed.
Print Assumptions C116_single.

(** ** Concrete cases: two series of two features and of different lengths, and one series without any value *)
Definition ex_X : list (raw Xnum) := [Raw2 (N:=Xnum) [[XR 1%R; XR 2%R]; [XR 3%R; XNaN]]; Raw2 (N:=Xnum) [[XInf; XR 6%R]]].
Definition ex_D : list (series Xnum) := [[[XR 1%R; XR 2%R]; [XR 3%R; XNaN]]; [[XInf; XR 6%R]; [XNaN; XNaN]]].
Example C43_instance : dim ex_X = 2 /\ to_dataset (N:=Xnum) ex_X = Ok ex_D /\ (forall s, In s ex_D -> has_value s) /\ (do l <- to_stumpy ex_X ;; from_stumpy l) = Ok ex_D /\ (do f <- to_sktime ex_X ;; from_sktime f) = Ok ex_D.
Proof.
  split; [reflexivity|]. split; [reflexivity|]. split.
  - intros s [<-|[<-|[]]]; [exists [XR 1%R; XR 2%R], (XR 1%R)|exists [XInf; XR 6%R], XInf]; (split; [cbn; auto|]; split; [cbn; auto|discriminate]).
  - split; [apply C43_stumpy|apply C43_sktime]; try reflexivity; cbn; lia.
Qed.
Example C43_pyts_instance : (do P <- to_pyts [Raw2 (N:=Xnum) [[XR 1%R; XR 2%R]; [XR 3%R; XR 4%R]]; Raw2 (N:=Xnum) [[XR 5%R; XR 6%R]; [XR 7%R; XR 8%R]]] ;; from_pyts P) = Ok [[[XR 1%R; XR 2%R]; [XR 3%R; XR 4%R]]; [[XR 5%R; XR 6%R]; [XR 7%R; XR 8%R]]] /\ to_pyts ex_X = Err ValueError.
Proof. split; [reflexivity|]. apply (C43_pyts_lengths ex_X ex_D (nth 0 ex_D []) (nth 1 ex_D [])); cbn; auto. Qed.
(** ids met in the order 1, 0 *)
Example C43_tsfresh_instance : exists f, to_tsfresh ex_X = Ok f /\ ids_of [1; 0] f /\ from_tsfresh [1; 0] f = Ok [nth 1 ex_D []; nth 0 ex_D []].
Proof.
  eexists. split; [reflexivity|]. split; [|reflexivity]. split; [repeat constructor; cbn; lia|]. intros i. cbn. split.
  - intros [<-|[<-|[]]]; [exists (1, 0, [XInf; XR 6%R])|exists (0, 0, [XR 1%R; XR 2%R])]; cbn; auto 8.
  - intros (r & Hr & <-). repeat (destruct Hr as [<-|Hr]; [cbn; auto|]). destruct Hr.
Qed.
Example C43_tsfresh_lost : let X := [Raw2 (N:=Xnum) [[XR 1%R]]; Raw2 (N:=Xnum) [[XNaN]]] in exists f, to_tsfresh X = Ok f /\ from_tsfresh [0] f = Ok [[[XR 1%R]]] /\ to_dataset (N:=Xnum) X = Ok [[[XR 1%R]]; [[XNaN]]].
Proof. cbv zeta. eexists. repeat split. Qed.
Example C116_instance : (do f <- to_pyflux [Raw2 (N:=Xnum) [[XR 1%R]; [XNaN]]] ;; from_pyflux f) = Ok [[[XR 1%R]; [XNaN]]] /\ to_dataset (N:=Xnum) [Raw2 (N:=Xnum) [[XR 1%R]; [XNaN]]] = Ok [[[XR 1%R]]].
Proof. split; reflexivity. Qed.

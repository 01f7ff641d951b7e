(** C232: [check_equal_size], [check_dataset] and [check_dims] accept exactly what they promise. *)
From Coq Require Import Rdefinitions Bool List Arith Lia.
From Verif Require Import Num Py Series Dataset CdistThms PropImpute ValidThms CastModel PropCast.
Import ListNotations.
Local Open Scope nat_scope.

(** ** model *)
(** utils.py l.425-450 [check_equal_size] *)
Definition check_equal_size (X : list (raw Xnum)) : res bool := do D <- to_dataset (N:=Xnum) X ;; Ok (equal_size D).
(** utils.py l.65-151 [check_dims] on the shape of an array (its values are not looked at; None is [X is None]).  [X.shape[2]] of an
    array with fewer axes is an IndexError, [X_fit_dims[1:] != X.shape[1:]] compares any tuples. *)
Definition check_dims (X : option (list nat)) (fit : option (list nat)) (extend features_only : bool) : res (list nat) :=
  match X with
  | None => Err ValueError
  | Some sh =>
    let sh := if extend && (length sh =? 2) then sh ++ [1] else sh in
    match fit with
    | None => Ok sh
    | Some f =>
      if features_only then
        match nth_error f 2, nth_error sh 2 with
        | Some a, Some b => if a =? b then Ok sh else Err ValueError
        | _, _ => Err IndexError
        end
      else if list_eq_dec Nat.eq_dec (skipn 1 f) (skipn 1 sh) then Ok sh else Err ValueError
    end
  end.

(** ** specification *)
(** the rows of a series as given, and its length: the number of rows up to the last one that holds a number *)
Definition given (x : raw Xnum) : list (list xr) := match x with Raw1 l => map (fun v => [v]) l | Raw2 l => l end.
Definition missing (r : list xr) : Prop := forall v, In v r -> v = XNaN.
Definition has_length (x : raw Xnum) (n : nat) : Prop :=
  n <= length (given x) /\ (forall t, n <= t < length (given x) -> missing (nth t (given x) [])) /\ (forall m, n = S m -> ~ missing (nth m (given x) [])).
Definition features (x : raw Xnum) (d : nat) : Prop := match x with Raw1 _ => d = 1 | Raw2 l => l <> [] /\ forall r, In r l -> length r = d end.

Lemma missing_iff r : nan_row (N:=Xnum) r = true <-> missing r.
Proof.
  unfold nan_row, missing. rewrite forallb_forall. split; intros H v Hv; specialize (H v Hv); [destruct v; auto; discriminate|subst; auto].
Qed.
Lemma given_reshape x : reshape x = given x. Proof. destruct x; auto. Qed.
Lemma size_length x : has_length x (ts_size (reshape x)).
Proof.
  split; [|split].
  - apply (ts_size_le Xnum (reshape x)).
  - intros t Ht. change (given x) with (reshape x) in Ht |- *. apply missing_iff. destruct (nan_row (N:=Xnum) (nth t (reshape x) [])) eqn:E; auto.
    assert (K : t < ts_size (reshape x)) by (apply ts_size_iff; exists t; split; auto; split; [apply le_n|apply Ht]). exfalso. apply (Nat.lt_irrefl t). eapply Nat.lt_le_trans; [exact K|apply Ht].
  - intros m E M. apply missing_iff in M. pose proof (last_real x m E) as F. assert (Q : true = false) by (etransitivity; [symmetry; exact M|exact F]). discriminate.
Qed.
Lemma length_unique x n n' : has_length x n -> has_length x n' -> n = n'.
Proof.
  assert (G : forall n n', has_length x n -> has_length x n' -> n <= n').
  { intros a b (A1 & A2 & A3) (B1 & B2 & B3). destruct (Nat.le_gt_cases a b) as [|L]; auto. exfalso. destruct a as [|a]; [lia|]. apply (A3 a eq_refl). apply B2. lia. }
  intros H H'. apply Nat.le_antisymm; auto.
Qed.
Lemma features_uniform d X : (forall x, In x X -> features x d) -> forall x, In x X -> raw_ncols x = d /\ rect d (reshape x).
Proof.
  intros H x Hx. specialize (H x Hx). destruct x as [l|l]; cbn in *.
  - subst. split; auto. apply Forall_forall. intros r Hr. apply in_map_iff in Hr. destruct Hr as (v & <- & _). auto.
  - destruct H as [N H]. split; [|apply Forall_forall; exact H]. destruct l as [|r l]; [tauto|]. apply H. left; auto.
Qed.
Lemma padded_size d k (x : raw Xnum) : ts_size (N:=Xnum) (to_time_series true x ++ repeat (repeat nnan d) k) = ts_size (reshape x).
Proof.
  pose proof (ts_size_strip Xnum (Raw2 (N:=Xnum) (to_time_series true x ++ repeat (repeat nnan d) k))) as Q. etransitivity; [exact Q|].
  etransitivity; [apply f_equal; apply (strip_padded Xnum d k x eq_refl)|]. symmetry. apply ts_size_strip.
Qed.
Lemma sizes_kept d X D : (forall x, In x X -> features x d) -> to_dataset (N:=Xnum) X = Ok D -> map (@ts_size Xnum) D = map (fun x => ts_size (reshape x)) X.
Proof.
  intros H E. rewrite (to_dataset_ok Xnum d X (features_uniform d X H)) in E. injection E as <-. rewrite map_map. apply map_ext. intros x. apply padded_size.
Qed.

(** ** C232 *)
(** [check_equal_size] is true exactly when all series have one length; NaN padding does not count. *)
Theorem C232_equal_size d X : (forall x, In x X -> features x d) ->
  exists b, check_equal_size X = Ok b /\ (b = true <-> exists n, forall x, In x X -> has_length x n).
Proof.
  intros H. pose proof (to_dataset_ok Xnum d X (features_uniform d X H)) as E. set (D := map _ X) in E. exists (equal_size D). unfold check_equal_size. rewrite E. split; auto.
  pose proof (sizes_kept d X D H E) as SZ. rewrite equal_size_iff. split.
  - intros Q. destruct X as [|x0 X]; [exists 0; intros x []|]. exists (ts_size (reshape x0)). intros x Hx.
    replace (ts_size (reshape x0)) with (ts_size (reshape x)); [apply size_length|].
    assert (G : forall y, In y (x0 :: X) -> exists s, In s D /\ ts_size s = ts_size (reshape y)).
    { intros y Hy. assert (I : In (ts_size (reshape y)) (map (@ts_size Xnum) D)) by (rewrite SZ; apply (in_map (fun x => ts_size (reshape x))); auto). apply in_map_iff in I. destruct I as (s & A & B). eauto. }
    destruct (G x Hx) as (s & I & <-). destruct (G x0 (or_introl eq_refl)) as (s0 & I0 & <-). auto.
  - intros (n & Hn) s s' Hs Hs'. assert (G : forall s, In s D -> ts_size s = n).
    { intros u Hu. assert (I : In (ts_size u) (map (fun x => ts_size (reshape x)) X)) by (rewrite <- SZ; apply in_map; auto). apply in_map_iff in I. destruct I as (x & <- & Hx). apply (length_unique x); auto. apply size_length. }
    rewrite (G s), (G s'); auto.
Qed.
Print Assumptions C232_equal_size.
(** [check_dataset] returns the dataset as [to_time_series_dataset] does when the demands are met, and raises ValueError otherwise. *)
Theorem C232_check_dataset d X u e s : X <> [] -> (forall x, In x X -> features x d) ->
  let demands := (u = true -> d = 1) /\ (e = true -> exists n, forall x, In x X -> has_length x n) /\ (s = true -> length X = 1) in
  (demands -> exists D, to_dataset (N:=Xnum) X = Ok D /\ check_dataset u e s X = Ok D) /\ (~ demands -> check_dataset u e s X = Err ValueError).
Proof.
  intros NE H demands. pose proof (to_dataset_ok Xnum d X (features_uniform d X H)) as E. set (D := map _ X) in E. assert (LD : @length (series Xnum) D = length X) by apply map_length.
  destruct (C232_equal_size d X H) as (b & B & BI). unfold check_equal_size in B. rewrite E in B. cbn [bind] in B. injection B as B.
  assert (DM : dim X = d) by (destruct X as [|x X]; [tauto|]; cbn; apply (features_uniform d (x :: X) H x); left; auto).
  unfold check_dataset. rewrite E. cbn [bind]. rewrite DM, B. match goal with |- context [length ?l =? 1] => change (length l) with (@length (series Xnum) D) end. rewrite LD. unfold demands. split.
  - intros (U & Q & S1). exists D. split; auto. destruct u; [rewrite (U eq_refl)|]; cbn [andb negb Nat.eqb]; (destruct e; [rewrite (proj2 BI (Q eq_refl))|]); cbn [andb negb]; (destruct s; [rewrite (S1 eq_refl)|]); auto.
  - intros N. destruct u, (Nat.eqb_spec d 1) as [D1|D1]; cbn [andb negb]; auto; destruct e, b eqn:Eb; cbn [andb negb]; auto; destruct s, (Nat.eqb_spec (length X) 1) as [L1|L1]; cbn [andb negb]; auto; exfalso; apply N; repeat split; intros; try congruence; try tauto; apply BI; auto.
Qed.
Print Assumptions C232_check_dataset.
(** no series: an empty dataset is neither univariate nor a single series, but of equal lengths *)
Theorem C232_empty u e s : check_dataset u e s [] = if u || s then Err ValueError else Ok [].
Proof. destruct u, e, s; reflexivity. Qed.
Print Assumptions C232_empty.
(** a dataset that was accepted is accepted again, unchanged *)
Theorem C232_again d X u e s D : X <> [] -> (forall x, In x X -> features x d) -> check_dataset u e s X = Ok D -> (forall r, In r D -> r <> []) -> check_dataset u e s (map Raw2 D) = Ok D.
Proof.
  intros NE H HD NR. assert (E : to_dataset (N:=Xnum) X = Ok D).
  { unfold check_dataset in HD. destruct (to_dataset X) as [D'|]; [|discriminate]. cbn [bind] in HD. destruct (u && _); [discriminate|]. destruct (e && _); [discriminate|]. destruct (s && _); [discriminate|]. auto. }
  pose proof (to_dataset_idem Xnum d X D eq_refl (features_uniform d X H) E) as I. unfold check_dataset in *. rewrite E in HD. rewrite I. cbn [bind] in *.
  assert (DM : dim X = d) by (destruct X as [|x X]; [tauto|]; cbn; apply (features_uniform d (x :: X) H x); left; auto).
  assert (DM' : dim (map Raw2 D) = d).
  { pose proof (to_dataset_ok Xnum d X (features_uniform d X H)) as E'. rewrite E in E'. injection E' as E'. destruct X as [|x X]; [tauto|]. cbn [map] in E'. destruct D as [|s0 D]; [discriminate|]. injection E' as E' _.
    cbn [map dim raw_ncols]. assert (N0 : s0 <> []) by (apply NR; left; auto). assert (R : forall r, In r s0 -> length r = d).
    { rewrite E'. intros r Hr. apply in_app_or in Hr. destruct Hr as [Hr|Hr]; [exact (proj1 (Forall_forall _ _) (strip_rect Xnum d x (proj2 (features_uniform d (x :: X) H x (or_introl eq_refl)))) r Hr)|apply repeat_spec in Hr; subst; apply repeat_length]. }
    destruct s0 as [|r0 s0]; [tauto|]. cbn. apply R. left; auto. }
  rewrite DM', <- DM. exact HD.
Qed.
Print Assumptions C232_again.
(** [check_dims] accepts data of the dimensions seen at fit time (2-d data are series of one feature) and nothing else. *)
Theorem C232_dims n sz d n' sz' d' (features_only : bool) :
  (check_dims (Some [n; sz; d]) (Some [n'; sz'; d']) true features_only = Ok [n; sz; d] <-> d = d' /\ (features_only = false -> sz = sz')) /\
  (check_dims (Some [n; sz; d]) (Some [n'; sz'; d']) true features_only <> Ok [n; sz; d] -> check_dims (Some [n; sz; d]) (Some [n'; sz'; d']) true features_only = Err ValueError) /\
  check_dims (Some [n; sz]) (Some [n'; sz'; d']) true features_only = check_dims (Some [n; sz; 1]) (Some [n'; sz'; d']) true features_only.
Proof.
  split; [|split; [|reflexivity]]; unfold check_dims; cbn [length Nat.eqb andb nth_error skipn]; destruct features_only.
  - destruct (Nat.eqb_spec d' d); split; intros; auto; try discriminate; [split; [auto|discriminate]|]. destruct H; congruence.
  - destruct (list_eq_dec Nat.eq_dec [sz'; d'] [sz; d]) as [Q|Q]; split; intros; auto; try discriminate; [injection Q; auto|]. destruct H as [-> H]. rewrite H in Q by auto. tauto.
  - destruct (d' =? d); tauto.
  - destruct (list_eq_dec Nat.eq_dec [sz'; d'] [sz; d]); tauto.
Qed.
Print Assumptions C232_dims.
Example C232_instance : let X := [Raw2 (N:=Xnum) [[XR R1; XNaN]; [XNaN; XNaN]]; Raw2 (N:=Xnum) [[XNaN; XR R1]]] in
  (forall x, In x X -> features x 2) /\ (exists n, forall x, In x X -> has_length x n) /\ check_equal_size X = Ok true.
Proof.
  cbv zeta. split; [intros x [<-|[<-|[]]]; split; try discriminate; intros r Hr; cbn in Hr; intuition (subst; auto)|]. split; [|reflexivity].
  exists 1. intros x [<-|[<-|[]]]; repeat split; cbn; auto; intros.
  - assert (t = 1) as -> by lia. intros v [<-|[<-|[]]]; auto.
  - injection H as <-. cbn. intros M. discriminate (M _ (or_introl eq_refl)).
  - lia.
  - injection H as <-. cbn. intros M. discriminate (M _ (or_intror (or_introl eq_refl))).
Qed.

(** Properties C154, C155, C156: the perceptron wrappers through histories of calls. *)
From Coq Require Import Bool List Arith Lia.
From Verif Require Import Py MlpModel.
Import ListNotations.

(** ** specification *)
(** the series of an argument; a 2-d array holds one-feature series *)
Definition series_of {A} (X : input A) : list (list (list A)) :=
  match X with In2 X => map (map (fun v => [v])) X | In3 X => X end.
(** finite series, at least one, all of [sz] instants and [d] features *)
Definition array {A Y W O} (P : perceptron A Y W O) (X : input A) (sz d : nat) : Prop :=
  series_of X <> [] /\ 0 < sz /\ 0 < d /\
  forall s, In s (series_of X) -> length s = sz /\ forall r, In r s -> length r = d /\ forall v, In v r -> finite P v = true.
Definition rows {A} (X : input A) : list (list A) := map (fun s => List.concat s) (series_of X).
(** what the perceptron has learnt after a history whose targets are acceptable: weights and shape of the series.  A call
    to [fit] starts afresh; [partial_fit] goes on with the series of the shape it knows; all other calls change nothing *)
Inductive trains {A Y W O} (P : perceptron A Y W O) : list (mlp_call A Y) -> option (W * (nat * nat)) -> Prop :=
| T_new : trains P [] None
| T_fit l t X y sz d : trains P l t -> array P X sz d -> trains P (l ++ [MFit true X y]) (Some (learn P None (rows X) y, (sz, d)))
| T_fit_bad l t X y : trains P l t -> (forall sz d, ~ array P X sz d) -> trains P (l ++ [MFit true X y]) t
| T_first l X y sz d : trains P l None -> array P X sz d -> trains P (l ++ [MPartial true X y]) (Some (learn P None (rows X) y, (sz, d)))
| T_next l w X y sz d : trains P l (Some (w, (sz, d))) -> array P X sz d ->
    trains P (l ++ [MPartial true X y]) (Some (learn P (Some w) (rows X) y, (sz, d)))
| T_first_bad l X y : trains P l None -> (forall sz d, ~ array P X sz d) -> trains P (l ++ [MPartial true X y]) None
| T_next_bad l w ok X y sz d : trains P l (Some (w, (sz, d))) -> ~ array P X sz d -> trains P (l ++ [MPartial ok X y]) (Some (w, (sz, d)))
| T_predict l t X : trains P l t -> trains P (l ++ [MPredict X]) t.

(** ** lemmas *)
Lemma check_ok {A Y W O} (P : perceptron A Y W O) X sz d : array P X sz d ->
  check_input P X = Ok (series_of X) /\ dim1 (series_of X) = sz /\ dim2 (series_of X) = d /\ ncolumns (flat (series_of X)) = sz * d.
Proof.
  intros (Hne & Hsz & Hd & H). unfold check_input. change (extend X) with (series_of X). destruct (series_of X) as [|s L]; [congruence|].
  assert (D1 : dim1 (s :: L) = sz) by (apply H; left; auto).
  assert (D2 : dim2 (s :: L) = d).
  { unfold dim2. cbn. destruct (H s (or_introl eq_refl)) as [E F]. destruct s as [|r s]; cbn in *; [lia|]. apply F. auto. }
  assert (C : ncolumns (flat (s :: L)) = sz * d).
  { unfold ncolumns, flat. cbn. destruct (H s (or_introl eq_refl)) as [<- F]. clear - F. induction s as [|r s IH]; auto.
    cbn. rewrite app_length, IH by (intros; apply F; right; auto). destruct (F r (or_introl eq_refl)) as [-> _]. auto. }
  rewrite D1, D2. split; auto. cbn [length Nat.eqb negb andb].
  destruct (Nat.eqb_spec sz 0); [lia|]. destruct (Nat.eqb_spec d 0); [lia|]. cbn [negb andb].
  replace (forallb _ _) with true; auto. symmetry. apply forallb_forall. intros u Hu. destruct (H u Hu) as [-> F]. rewrite Nat.eqb_refl. cbn.
  apply forallb_forall. intros r Hr. destruct (F r Hr) as [-> G]. rewrite Nat.eqb_refl. cbn. apply forallb_forall. auto.
Qed.
Lemma check_cases {A Y W O} (P : perceptron A Y W O) X :
  (exists sz d, array P X sz d) \/ (check_input P X = Err ValueError /\ forall sz d, ~ array P X sz d).
Proof.
  destruct (check_input P X) as [L|e] eqn:E.
  - left. unfold check_input in E. change (extend X) with (series_of X) in E.
    destruct (negb _ && negb _ && negb _ && _) eqn:B in E; [|discriminate]. rewrite !andb_true_iff, !negb_true_iff, !Nat.eqb_neq in B.
    destruct B as [[[B1 B2] B3] B4]. exists (dim1 (series_of X)), (dim2 (series_of X)).
    split; [intros F; rewrite F in B1; apply B1; reflexivity|]. split; [lia|]. split; [lia|]. intros s Hs.
    rewrite forallb_forall in B4. specialize (B4 s Hs). rewrite andb_true_iff, Nat.eqb_eq, forallb_forall in B4. destruct B4 as [F1 F2].
    split; auto. intros r Hr. specialize (F2 r Hr). rewrite andb_true_iff, Nat.eqb_eq, forallb_forall in F2. exact F2.
  - right. assert (e = ValueError) as -> by (unfold check_input in E; destruct (negb _ && negb _ && negb _ && _) in E; [discriminate|congruence]).
    split; auto. intros sz d H. destruct (check_ok P X sz d H) as [F _]. congruence.
Qed.
Lemma array_shape {A Y W O} (P : perceptron A Y W O) X sz d sz' d' : array P X sz d -> array P X sz' d' -> sz = sz' /\ d = d'.
Proof. intros H H'. destruct (check_ok P X _ _ H) as (_ & <- & <- & _), (check_ok P X _ _ H') as (_ & -> & -> & _). auto. Qed.
Definition knows {W} (w : W) (sz d : nat) : mlp W := {| m_dims := Some (sz, d); m_nfeat := Some d; m_coefs := Some (w, sz * d) |}.
Lemma fit_value {A Y W O} (P : perceptron A Y W O) X y s sz d : array P X sz d ->
  mlp_fit P false true X y s = (knows (learn P None (rows X) y) sz d, Ok tt).
Proof.
  intros H. destruct (check_ok P X sz d H) as (E & D1 & D2 & C). unfold mlp_fit. rewrite E, D1, D2. unfold sk_fit. cbn [negb].
  change (flat (series_of X)) with (rows X) in *. rewrite C. destruct (m_coefs _) as [[w width]|]; reflexivity.
Qed.
Lemma partial_first {A Y W O} (P : perceptron A Y W O) X y sz d : array P X sz d ->
  mlp_partial_fit P true X y mlp_new = (knows (learn P None (rows X) y) sz d, Ok tt).
Proof.
  intros H. destruct (check_ok P X sz d H) as (E & D1 & D2 & C). unfold mlp_partial_fit. rewrite E, D1, D2. cbn [m_dims mlp_new].
  unfold patched. cbn [m_nfeat set_nfeat set_dims]. unfold sk_fit. cbn [negb m_coefs set_nfeat set_dims]. 
  change (flat (series_of X)) with (rows X) in *. rewrite C. reflexivity.
Qed.
Lemma partial_next {A Y W O} (P : perceptron A Y W O) X y w sz d : array P X sz d ->
  mlp_partial_fit P true X y (knows w sz d) = (knows (learn P (Some w) (rows X) y) sz d, Ok tt).
Proof.
  intros H. destruct (check_ok P X sz d H) as (E & D1 & D2 & C). unfold mlp_partial_fit. rewrite E. cbn [m_dims knows].
  unfold check_same. cbn [m_dims knows]. rewrite D1, D2, !Nat.eqb_refl. cbn [andb].
  unfold patched. cbn [m_nfeat knows]. unfold sk_fit. cbn [negb m_coefs m_nfeat set_nfeat knows].
  change (flat (series_of X)) with (rows X) in *. rewrite C, !Nat.eqb_refl. reflexivity.
Qed.
Lemma partial_bad {A Y W O} (P : perceptron A Y W O) ok X y w sz d : ~ array P X sz d ->
  mlp_partial_fit P ok X y (knows w sz d) = (knows w sz d, Err ValueError).
Proof.
  intros H. unfold mlp_partial_fit. destruct (check_cases P X) as [(sz' & d' & H')|[E _]]; [|rewrite E; reflexivity].
  destruct (check_ok P X sz' d' H') as (E & D1 & D2 & C). rewrite E. cbn [m_dims knows]. unfold check_same. cbn [m_dims knows]. rewrite D1, D2.
  destruct (Nat.eqb_spec sz' sz) as [->|]; [|reflexivity]. destruct (Nat.eqb_spec d' d) as [->|]; [contradiction|reflexivity].
Qed.
Lemma predict_good {A Y W O} (P : perceptron A Y W O) X w sz d : array P X sz d ->
  mlp_predict P X (knows w sz d) = (knows w sz d, Ok (infer P w (rows X))).
Proof.
  intros H. destruct (check_ok P X sz d H) as (E & D1 & D2 & C). unfold mlp_predict. cbn [m_nfeat knows]. rewrite E.
  unfold check_same. cbn [m_dims knows]. rewrite D1, D2, !Nat.eqb_refl. cbn [andb]. unfold patched. cbn [m_nfeat knows].
  unfold sk_predict. cbn [m_nfeat m_coefs set_nfeat knows]. change (flat (series_of X)) with (rows X) in *. rewrite C, !Nat.eqb_refl. reflexivity.
Qed.
Lemma predict_bad {A Y W O} (P : perceptron A Y W O) X w sz d : ~ array P X sz d ->
  mlp_predict P X (knows w sz d) = (knows w sz d, Err ValueError).
Proof.
  intros H. unfold mlp_predict. cbn [m_nfeat knows]. destruct (check_cases P X) as [(sz' & d' & H')|[E _]]; [|rewrite E; reflexivity].
  destruct (check_ok P X sz' d' H') as (E & D1 & D2 & C). rewrite E. unfold check_same. cbn [m_dims knows]. rewrite D1, D2.
  destruct (Nat.eqb_spec sz' sz) as [->|]; [|reflexivity]. destruct (Nat.eqb_spec d' d) as [->|]; [contradiction|reflexivity].
Qed.
Lemma run_snoc {A Y W O} (P : perceptron A Y W O) ws l c : mlp_run P ws (l ++ [c]) = mlp_step P ws c (mlp_run P ws l).
Proof. unfold mlp_run. rewrite fold_left_app. reflexivity. Qed.
Lemma trains_state {A Y W O} (P : perceptron A Y W O) l t : trains P l t ->
  mlp_run P false l = match t with None => mlp_new | Some (w, (sz, d)) => knows w sz d end.
Proof.
  induction 1 as [|l t X y sz d T IH HX|l t X y T IH HX|l X y sz d T IH HX|l w X y sz d T IH HX|l X y T IH HX|l w ok X y sz d T IH HX|l t X T IH];
    [reflexivity|..]; rewrite run_snoc, IH; cbn [mlp_step].
  - rewrite (fit_value P X y _ sz d HX). reflexivity.
  - destruct (check_cases P X) as [(sz & d & H)|[E _]]; [destruct (HX sz d H)|]. unfold mlp_fit. rewrite E. reflexivity.
  - rewrite (partial_first P X y sz d HX). reflexivity.
  - rewrite (partial_next P X y w sz d HX). reflexivity.
  - destruct (check_cases P X) as [(sz & d & H)|[E _]]; [destruct (HX sz d H)|]. unfold mlp_partial_fit. rewrite E. reflexivity.
  - rewrite (partial_bad P ok X y w sz d HX). reflexivity.
  - destruct t as [[w [sz d]]|]; [|reflexivity]. destruct (check_cases P X) as [(sz' & d' & H)|[E HX]].
    + destruct (Nat.eq_dec sz' sz) as [->|N]; [destruct (Nat.eq_dec d' d) as [->|N]|].
      * rewrite (predict_good P X w sz d H). reflexivity.
      * rewrite predict_bad; [reflexivity|]. intros G. apply N. apply (array_shape P X sz d' sz d H G).
      * rewrite predict_bad; [reflexivity|]. intros G. apply N. apply (array_shape P X sz' d' sz d H G).
    + rewrite predict_bad; [reflexivity|]. apply HX.
Qed.

(** ** C154 *)
(** every history with acceptable targets is described by [trains] *)
Definition targets_ok {A Y} (l : list (mlp_call A Y)) : Prop :=
  forall c, In c l -> match c with MFit ok _ _ | MPartial ok _ _ => ok = true | MPredict _ => True end.
Theorem C154_histories {A Y W O} (P : perceptron A Y W O) l : targets_ok l -> exists t, trains P l t.
Proof.
  induction l as [|c l IH] using rev_ind; intros H; [exists None; constructor|].
  destruct IH as [t T]. { intros c' Hc. apply H. apply in_or_app. auto. }
  assert (Hc := H c ltac:(apply in_or_app; right; left; auto)). destruct c as [ok X y|ok X y|X].
  - subst ok. destruct (check_cases P X) as [(sz & d & HX)|[_ HX]]; eexists; [eapply T_fit|eapply T_fit_bad]; eauto.
  - subst ok. destruct t as [[w [sz d]]|].
    + destruct (check_cases P X) as [(sz' & d' & HX)|[_ HX]]; [|eexists; apply (T_next_bad P l w true X y sz d T (HX sz d))].
      destruct (Nat.eq_dec sz' sz) as [->|N]; [destruct (Nat.eq_dec d' d) as [->|N]|].
      * eexists. eapply T_next; eauto.
      * eexists. apply (T_next_bad P l w true X y sz d T). intros G. apply N. apply (array_shape P X sz d' sz d HX G).
      * eexists. apply (T_next_bad P l w true X y sz d T). intros G. apply N. apply (array_shape P X sz' d' sz d HX G).
    + destruct (check_cases P X) as [(sz & d & HX)|[_ HX]]; eexists; [eapply T_first|eapply T_first_bad]; eauto.
  - eexists. apply T_predict. exact T.
Qed.
Print Assumptions C154_histories.
(** predictions: of the perceptron trained as described, on the rows of the series, for exactly the arrays of the shape
    it knows; NotFittedError before; nothing is changed *)
Theorem C154_predictions {A Y W O} (P : perceptron A Y W O) l t Q : trains P l t ->
  let s := mlp_run P false l in
  fst (mlp_predict P Q s) = s /\
  match t with
  | None => snd (mlp_predict P Q s) = Err NotFittedError
  | Some (w, (sz, d)) => m_nfeat s = Some d /\
      (array P Q sz d -> snd (mlp_predict P Q s) = Ok (infer P w (rows Q))) /\
      (~ array P Q sz d -> snd (mlp_predict P Q s) = Err ValueError)
  end.
Proof.
  intros T. cbv zeta. rewrite (trains_state P l t T). destruct t as [[w [sz d]]|]; [|split; reflexivity].
  assert (C : array P Q sz d \/ ~ array P Q sz d).
  { destruct (check_cases P Q) as [(sz' & d' & H)|[_ H]]; [|right; apply H].
    destruct (Nat.eq_dec sz' sz) as [->|N]; [destruct (Nat.eq_dec d' d) as [->|N]|]; [left; auto|right|right]; intros G; apply N;
      apply (array_shape P Q _ _ sz d H G). }
  split; [destruct C as [C|C]; [rewrite (predict_good P Q w sz d C)|rewrite (predict_bad P Q w sz d C)]; reflexivity|].
  split; [reflexivity|]. split; intros H; [rewrite (predict_good P Q w sz d H)|rewrite (predict_bad P Q w sz d H)]; reflexivity.
Qed.
Print Assumptions C154_predictions.
(** the calls that train return, the others raise ValueError *)
Theorem C154_calls {A Y W O} (P : perceptron A Y W O) l t X y : trains P l t ->
  let s := mlp_run P false l in
  ((exists sz d, array P X sz d) -> snd (mlp_fit P false true X y s) = Ok tt) /\
  ((forall sz d, ~ array P X sz d) -> snd (mlp_fit P false true X y s) = Err ValueError) /\
  (match t with None => exists sz d, array P X sz d | Some (_, (sz, d)) => array P X sz d end -> snd (mlp_partial_fit P true X y s) = Ok tt) /\
  (match t with None => forall sz d, ~ array P X sz d | Some (_, (sz, d)) => ~ array P X sz d end -> snd (mlp_partial_fit P true X y s) = Err ValueError).
Proof.
  intros T. cbv zeta. rewrite (trains_state P l t T). split; [|split; [|split]].
  - intros (sz & d & H). rewrite (fit_value P X y _ sz d H). reflexivity.
  - intros H. destruct (check_cases P X) as [(sz & d & G)|[E _]]; [destruct (H sz d G)|]. unfold mlp_fit. rewrite E. reflexivity.
  - destruct t as [[w [sz d]]|].
    + intros H. rewrite (partial_next P X y w sz d H). reflexivity.
    + intros (sz & d & H). rewrite (partial_first P X y sz d H). reflexivity.
  - destruct t as [[w [sz d]]|].
    + intros H. rewrite (partial_bad P true X y w sz d H). reflexivity.
    + intros H. destruct (check_cases P X) as [(sz & d & G)|[E _]]; [destruct (H sz d G)|]. unfold mlp_partial_fit. rewrite E. reflexivity.
Qed.
Print Assumptions C154_calls.
(** layout of the rows: feature [k] of instant [t] in column [t * d + k] *)
Theorem C154_layout {A Y W O} (P : perceptron A Y W O) X sz d i t k v : array P X sz d -> i < length (series_of X) -> t < sz -> k < d ->
  length (nth i (rows X) []) = sz * d /\ nth (t * d + k) (nth i (rows X) []) v = nth k (nth t (nth i (series_of X) []) []) v.
Proof.
  intros (_ & _ & _ & H) Hi Ht Hk. unfold rows.
  rewrite (nth_indep _ [] (List.concat (@nil (list A)))) by (rewrite map_length; auto). rewrite (map_nth (fun s => List.concat s)).
  destruct (H _ (nth_In _ [] Hi)) as [L F]. set (s := nth i (series_of X) []) in *. clearbody s. clear H Hi.
  assert (G : forall r, In r s -> length r = d) by (intros r Hr; apply F; auto). clear F. subst sz. revert t Ht.
  induction s as [|r s IH]; intros t Ht; cbn [length] in *; [lia|]. cbn [List.concat]. rewrite app_length, (G r (or_introl eq_refl)).
  destruct t as [|t].
  - split; [|cbn [Nat.mul Nat.add nth]; rewrite app_nth1; [reflexivity|rewrite (G r (or_introl eq_refl)); auto]].
    destruct s as [|r' s]; [cbn; lia|]. destruct (IH (fun r Hr => G r (or_intror Hr)) 0) as [-> _]; [cbn; lia|]. cbn. lia.
  - destruct (IH (fun r Hr => G r (or_intror Hr)) t) as [E1 E2]; [lia|]. split; [rewrite E1; cbn; lia|].
    rewrite app_nth2; rewrite (G r (or_introl eq_refl)); [|cbn; lia]. cbn [nth]. rewrite <- E2. f_equal. cbn. lia.
Qed.
Print Assumptions C154_layout.

(** ** C155 *)
(** with [warm_start=True], a second [fit] succeeds only for series of one instant (and as many values as before) *)
Theorem C155_warm_start_refuted {A Y W O} (P : perceptron A Y W O) X y sz d X' y' sz' d' : array P X sz d -> array P X' sz' d' ->
  snd (mlp_fit P true true X y mlp_new) = Ok tt /\
  (snd (mlp_fit P true true X' y' (mlp_run P true [MFit true X y])) = Ok tt <-> sz = 1 /\ sz' * d' = d) /\
  (sz <> 1 -> snd (mlp_fit P true true X' y' (mlp_run P true [MFit true X y])) = Err ValueError).
Proof.
  intros H H'. destruct (check_ok P X sz d H) as (E & D1 & D2 & C), (check_ok P X' sz' d' H') as (E' & D1' & D2' & C').
  destruct H as (_ & Hsz & Hd & _).
  assert (F : mlp_fit P true true X y mlp_new = (knows (learn P None (rows X) y) sz d, Ok tt)).
  { unfold mlp_fit. rewrite E, D1, D2. unfold sk_fit. cbn [negb m_coefs mlp_new set_dims]. change (flat (series_of X)) with (rows X) in *. rewrite C. reflexivity. }
  split; [rewrite F; reflexivity|]. unfold mlp_run. cbn [fold_left mlp_step]. rewrite F. cbn [fst].
  unfold mlp_fit. rewrite E', D1', D2'. unfold sk_fit. cbn [negb m_coefs m_nfeat set_dims knows]. change (flat (series_of X')) with (rows X') in *. rewrite C'.
  destruct (Nat.eqb_spec d (sz' * d')) as [Q|Q]; cbn [negb].
  - destruct (Nat.eqb_spec (sz * d) (sz' * d')) as [Q2|Q2]; cbn [negb snd].
    + assert (S1 : sz = 1) by nia. split; [split; auto|intros; contradiction].
    + split; [split; [discriminate|]|auto]. intros [-> Q3]. exfalso. lia.
  - cbn [snd]. split; [split; [discriminate|]|auto]. intros [_ Q2]. congruence.
Qed.
Print Assumptions C155_warm_start_refuted.
(** in that case training goes on from the weights *)
Theorem C155_one_instant {A Y W O} (P : perceptron A Y W O) X y d X' y' Q : array P X 1 d -> array P X' 1 d -> array P Q 1 d ->
  snd (mlp_predict P Q (mlp_run P true [MFit true X y; MFit true X' y'])) =
  Ok (infer P (learn P (Some (learn P None (rows X) y)) (rows X') y') (rows Q)).
Proof.
  intros H H' HQ. destruct (check_ok P X 1 d H) as (E & D1 & D2 & C), (check_ok P X' 1 d H') as (E' & D1' & D2' & C').
  unfold mlp_run. cbn [fold_left mlp_step].
  assert (F : mlp_fit P true true X y mlp_new = (knows (learn P None (rows X) y) 1 d, Ok tt)).
  { unfold mlp_fit. rewrite E, D1, D2. unfold sk_fit. cbn [negb m_coefs mlp_new set_dims]. change (flat (series_of X)) with (rows X) in *. rewrite C. reflexivity. }
  rewrite F. cbn [fst].
  assert (F' : mlp_fit P true true X' y' (knows (learn P None (rows X) y) 1 d) = (knows (learn P (Some (learn P None (rows X) y)) (rows X') y') 1 d, Ok tt)).
  { unfold mlp_fit. rewrite E', D1', D2'. unfold sk_fit. cbn [negb m_coefs m_nfeat set_dims knows]. change (flat (series_of X')) with (rows X') in *. rewrite C'.
    rewrite (Nat.mul_1_l d), !Nat.eqb_refl. cbn [negb set_coefs set_nfeat m_dims m_nfeat m_coefs set_dims knows]. unfold set_nfeat, set_coefs, knows. cbn. rewrite ?Nat.add_0_r. reflexivity. }
  rewrite F'. cbn [fst]. rewrite (predict_good P Q _ 1 d HQ). reflexivity.
Qed.
Print Assumptions C155_one_instant.

(** ** C156: calls with unacceptable targets *)
Theorem C156_failed_calls_refuted {A Y W O} (P : perceptron A Y W O) X y sz d X' y' sz' d' : array P X sz d -> array P X' sz' d' ->
  (* a failed [fit] on a new estimator: [partial_fit] never works again *)
  (forall sk ok, let s := mlp_run P sk [MFit false X y] in snd (mlp_fit P sk false X y mlp_new) = Err ValueError /\
     snd (mlp_partial_fit P ok X y' s) = Err AttributeError) /\
  (* a failed [partial_fit] on a new estimator: series of other shapes are rejected, predictions raise AttributeError *)
  (forall sk, let s := mlp_run P sk [MPartial false X y] in snd (mlp_partial_fit P false X y mlp_new) = Err ValueError /\
     ((sz', d') <> (sz, d) -> forall ok, snd (mlp_partial_fit P ok X' y' s) = Err ValueError) /\ snd (mlp_predict P X s) = Err AttributeError) /\
  (* a failed [fit] on a trained one: the series it was trained on are rejected *)
  ((sz', d') <> (sz, d) -> snd (mlp_predict P X (mlp_run P false [MFit true X y; MFit false X' y'])) = Err ValueError).
Proof.
  intros H H'. destruct (check_ok P X sz d H) as (E & D1 & D2 & C), (check_ok P X' sz' d' H') as (E' & D1' & D2' & C').
  split; [|split].
  - intros sk ok. cbv zeta. unfold mlp_run. cbn [fold_left mlp_step]. unfold mlp_fit. rewrite E, D1, D2. cbn. split; [reflexivity|].
    unfold mlp_partial_fit. rewrite E. unfold check_same. cbn [m_dims set_dims mlp_new]. rewrite D1, D2, !Nat.eqb_refl. reflexivity.
  - intros sk. cbv zeta. unfold mlp_run. cbn [fold_left mlp_step]. 
    assert (F : mlp_partial_fit P false X y mlp_new = ({| m_dims := Some (sz, d); m_nfeat := Some d; m_coefs := None |}, Err ValueError))
      by (unfold mlp_partial_fit; rewrite E, D1, D2; reflexivity).
    rewrite F. cbn [fst snd]. split; [reflexivity|]. split.
    + intros N ok. unfold mlp_partial_fit. rewrite E'. unfold check_same. cbn [m_dims]. rewrite D1', D2'.
      destruct (Nat.eqb_spec sz' sz) as [->|]; [destruct (Nat.eqb_spec d' d) as [->|]; [congruence|]|]; reflexivity.
    + unfold mlp_predict. cbn [m_nfeat]. rewrite E. unfold check_same. cbn [m_dims]. rewrite D1, D2, !Nat.eqb_refl. cbn [andb].
      unfold patched. cbn. unfold sk_predict. cbn. rewrite Nat.eqb_refl. reflexivity.
  - intros N. unfold mlp_run. cbn [fold_left mlp_step]. rewrite (fit_value P X y _ sz d H). cbn [fst]. unfold mlp_fit. rewrite E', D1', D2'. cbn [sk_fit negb fst].
    unfold mlp_predict. cbn [m_nfeat set_dims knows]. rewrite E. unfold check_same. cbn [m_dims set_dims knows]. rewrite D1, D2.
    destruct (Nat.eqb_spec sz sz') as [<-|]; [destruct (Nat.eqb_spec d d') as [<-|]; [congruence|]|]; reflexivity.
Qed.
Print Assumptions C156_failed_calls_refuted.
(** arguments that are not arrays of finite values are rejected without any effect, whatever happened before; so is, by
    [predict] and [partial_fit], an array of another shape than the known one *)
Theorem C156_rejected_input {A Y W O} (P : perceptron A Y W O) ws l ok X (y : Y) : (forall sz d, ~ array P X sz d) ->
  let s := mlp_run P ws l in
  mlp_fit P ws ok X y s = (s, Err ValueError) /\ mlp_partial_fit P ok X y s = (s, Err ValueError) /\
  fst (mlp_predict P X s) = s /\ In (snd (mlp_predict P X s)) [Err ValueError; Err NotFittedError].
Proof.
  intros H. cbv zeta. set (s := mlp_run P ws l). destruct (check_cases P X) as [(sz & d & G)|[E _]]; [destruct (H sz d G)|].
  unfold mlp_fit, mlp_partial_fit, mlp_predict. rewrite E. split; [reflexivity|]. split; [reflexivity|].
  destruct (m_nfeat s), (m_coefs s); cbn; auto.
Qed.
Print Assumptions C156_rejected_input.
Theorem C156_rejected_shape {A Y W O} (P : perceptron A Y W O) ws l ok X (y : Y) sz d sz' d' : array P X sz d ->
  let s := mlp_run P ws l in m_dims s = Some (sz', d') -> (sz, d) <> (sz', d') ->
  mlp_partial_fit P ok X y s = (s, Err ValueError) /\
  fst (mlp_predict P X s) = s /\ In (snd (mlp_predict P X s)) [Err ValueError; Err NotFittedError].
Proof.
  intros H. cbv zeta. set (s := mlp_run P ws l). intros Ds N. destruct (check_ok P X sz d H) as (E & D1 & D2 & C).
  assert (F : check_same (series_of X) s = Err ValueError).
  { unfold check_same. rewrite Ds, D1, D2. destruct (Nat.eqb_spec sz sz') as [<-|]; [destruct (Nat.eqb_spec d d') as [<-|]; [congruence|]|]; reflexivity. }
  unfold mlp_partial_fit, mlp_predict. rewrite E, F, Ds. split; [reflexivity|]. destruct (m_nfeat s), (m_coefs s); cbn; auto.
Qed.
Print Assumptions C156_rejected_shape.
(** a case: a learner that counts the values it has seen; five calls *)
Definition counting : perceptron nat unit nat nat :=
  {| finite := fun v => v <? 100; learn := fun w X _ => (match w with None => 0 | Some w => w end) + length (List.concat X); infer := fun w X => w + length X |}.
Example C154_instance :
  array counting (In3 [[[1; 2]; [3; 4]; [5; 6]]]) 3 2 /\ array counting (In2 [[1; 2]; [3; 4]]) 2 1 /\ (forall sz d, ~ array counting (In2 [[1]; [200]]) sz d) /\
  trains counting [MFit true (In3 [[[1; 2]; [3; 4]; [5; 6]]]) tt; MPartial true (In2 [[1; 2]]) tt; MFit true (In2 [[1]; [200]]) tt;
    MPartial true (In3 [[[1; 2]; [3; 4]; [5; 6]]; [[1; 2]; [3; 4]; [5; 6]]]) tt; MPredict (In2 [[1]])] (Some (18, (3, 2))).
Proof.
  assert (A1 : array counting (In3 [[[1; 2]; [3; 4]; [5; 6]]]) 3 2).
  { split; [discriminate|]. split; [lia|]. split; [lia|]. intros s [<-|[]]. split; [reflexivity|]. intros r Hr. cbn in Hr. split; [intuition (subst; reflexivity)|].
    intros v Hv. destruct Hr as [<-|[<-|[<-|[]]]]; cbn in Hv; intuition (subst; reflexivity). }
  assert (A2 : array counting (In3 [[[1; 2]; [3; 4]; [5; 6]]; [[1; 2]; [3; 4]; [5; 6]]]) 3 2).
  { split; [discriminate|]. split; [lia|]. split; [lia|]. intros s Hs. apply (proj2 (proj2 (proj2 A1))). cbn in *. tauto. }
  assert (B1 : forall sz d, ~ array counting (In2 [[1]; [200]]) sz d).
  { intros sz d (_ & _ & _ & H). destruct (H [[200]] ltac:(right; left; reflexivity)) as [_ F]. destruct (F [200] ltac:(left; reflexivity)) as [_ G].
    specialize (G 200 ltac:(left; reflexivity)). discriminate. }
  assert (B2 : ~ array counting (In2 [[1; 2]]) 3 2).
  { intros (_ & _ & _ & H). destruct (H [[1]; [2]] ltac:(left; reflexivity)) as [F _]. discriminate. }
  split; [exact A1|]. split.
  { split; [discriminate|]. split; [lia|]. split; [lia|]. intros s Hs. cbn in Hs. split; [intuition (subst; reflexivity)|].
    intros r Hr. destruct Hs as [<-|[<-|[]]]; cbn in Hr; (split; [intuition (subst; reflexivity)|]); intros v Hv;
      destruct Hr as [<-|[<-|[]]]; cbn in Hv; intuition (subst; reflexivity). }
  split; [exact B1|].
  pose proof (T_fit counting [] None (In3 [[[1; 2]; [3; 4]; [5; 6]]]) tt 3 2 (T_new counting) A1) as T1.
  pose proof (T_next_bad counting _ _ true (In2 [[1; 2]]) tt 3 2 T1 B2) as T2.
  pose proof (T_fit_bad counting _ _ (In2 [[1]; [200]]) tt T2 B1) as T3.
  pose proof (T_next counting _ _ _ tt 3 2 T3 A2) as T4.
  exact (T_predict counting _ _ (In2 [[1]]) T4).
Qed.

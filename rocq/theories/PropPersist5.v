(** C209, C210: saving and loading LearningShapelets. *)
From Coq Require Import Bool List Arith ZArith Lia Reals Ascii String DecimalString DecimalZ DecimalFacts.
From Verif Require Import Num Py PersistModel PropPersist PropPersist2 PropPersist3 PersistLsModel.
Import ListNotations.
Local Open Scope string_scope.
Local Open Scope list_scope.
Local Open Scope nat_scope.

(** ** Specification *)
(** the dictionary {size: count, ...} *)
Fixpoint sizes_dict (l : list (Z * Z)) : dict := match l with [] => DNil | (sz, nb) :: l => DCons (KInt sz) (VInt nb) (sizes_dict l) end.
Definition ints (l : list Z) : vals := vals_of (map VInt l).
Definition string_keys (d : dict) : Prop := NoDup (keys d) /\ forall k, In k (keys d) -> exists s, k = KStr s.

(** ** integer keys *)
Lemma to_int_ne z : Z.to_int z <> Decimal.Pos Decimal.Nil /\ Z.to_int z <> Decimal.Neg Decimal.Nil.
Proof.
  split; intros E; pose proof (f_equal Z.of_int E) as F; rewrite DecimalZ.of_to in F; cbn in F; subst z; discriminate.
Qed.
Lemma int_back z : int_of_key (KStr (str_of_key (KInt z))) = Ok z.
Proof. cbn [str_of_key int_of_key]. destruct (to_int_ne z). rewrite NilZero.isi by auto. rewrite DecimalZ.of_to. reflexivity. Qed.
Lemma str_inj z z' : str_of_key (KInt z) = str_of_key (KInt z') -> z = z'.
Proof. intros E. pose proof (int_back z) as A. rewrite E, int_back in A. congruence. Qed.
Fixpoint shown (l : list (Z * Z)) : dict := match l with [] => DNil | (sz, nb) :: l => DCons (KStr (str_of_key (KInt sz))) (VInt nb) (shown l) end.
Lemma json_sizes l : NoDup (map fst l) -> forall acc, (forall z, In z (map fst l) -> ~ In (KStr (str_of_key (KInt z))) (keys acc)) ->
  json_dict (sizes_dict l) acc = Ok (dapp acc (shown l)).
Proof.
  induction l as [|[sz nb] l IH]; intros N acc H; cbn [sizes_dict json_dict shown]; [rewrite dapp_nil; auto|]. cbn [json_val bind]. inversion N; subst.
  rewrite assign_new by (apply H; left; auto). rewrite IH; auto; [rewrite dapp_assoc; auto|].
  intros z Hz I. rewrite keys_dapp, in_app_iff in I. destruct I as [I|[E|[]]]; [apply (H z); [right; auto|auto]|]. injection E as E. apply str_inj in E. subst z. contradiction.
Qed.
Lemma int_keys_shown l : NoDup (map fst l) -> forall acc, (forall z, In z (map fst l) -> ~ In (KInt z) (keys acc)) -> int_keys (shown l) acc = Ok (dapp acc (sizes_dict l)).
Proof.
  induction l as [|[sz nb] l IH]; intros N acc H; cbn [sizes_dict int_keys shown]; [rewrite dapp_nil; auto|]. rewrite int_back. cbn [bind]. inversion N; subst.
  rewrite assign_new by (apply H; left; auto). rewrite IH; auto; [rewrite dapp_assoc; auto|].
  intros z Hz I. rewrite keys_dapp, in_app_iff in I. destruct I as [I|[E|[]]]; [apply (H z); [right; auto|auto]|]. injection E as ->. contradiction.
Qed.
Lemma int_keys_same l : NoDup (map fst l) -> forall acc, (forall z, In z (map fst l) -> ~ In (KInt z) (keys acc)) -> int_keys (sizes_dict l) acc = Ok (dapp acc (sizes_dict l)).
Proof.
  induction l as [|[sz nb] l IH]; intros N acc H; cbn [sizes_dict int_keys]; [rewrite dapp_nil; auto|]. cbn [int_of_key bind]. inversion N; subst.
  rewrite assign_new by (apply H; left; auto). rewrite IH; auto; [rewrite dapp_assoc; auto|].
  intros z Hz I. rewrite keys_dapp, in_app_iff in I. destruct I as [I|[E|[]]]; [apply (H z); [right; auto|auto]|]. injection E as ->. contradiction.
Qed.

(** ** entries through the file *)
Lemma listified k d e v : try_values listify d = Ok e -> lookup k d = Some v -> exists w, listify v = Ok w /\ lookup k e = Some w.
Proof.
  revert e. induction d as [|k' v' d IH]; intros e E L; [discriminate|]. cbn [try_values] in E. destruct (listify v') as [w|] eqn:Ew; [|discriminate]. cbn [bind] in E.
  destruct (try_values listify d) as [d'|]; [|discriminate]. injection E as <-. cbn [lookup] in *. destruct (key_eqb k k'); [injection L as ->; eauto|eauto].
Qed.
Lemma listified_keys d e : try_values listify d = Ok e -> keys e = keys d.
Proof.
  revert e. induction d as [|k' v' d IH]; intros e E; [injection E as <-; auto|]. cbn [try_values] in E. destruct (listify v'); [|discriminate]. cbn [bind] in E.
  destruct (try_values listify d) as [d'|]; [|discriminate]. injection E as <-. cbn [keys]. rewrite (IH d' eq_refl). auto.
Qed.
Lemma json_lookup d : string_keys d -> forall acc e, json_dict d acc = Ok e -> (forall k, In k (keys d) -> ~ In k (keys acc)) ->
  (forall k, lookup k d = None -> lookup k e = lookup k acc) /\ forall k v, lookup k d = Some v -> exists w, json_val v = Ok w /\ lookup k e = Some w.
Proof.
  induction d as [|k0 v0 d IH]; intros [N S] acc e E D; cbn [json_dict] in E; [injection E as <-; split; auto; discriminate|].
  destruct (json_val v0) as [w0|] eqn:J; [|discriminate]. cbn [bind] in E. destruct (S k0 (or_introl eq_refl)) as (s & ->). cbn [str_of_key] in E. inversion N; subst.
  assert (SK : string_keys d) by (split; auto; intros k Hk; apply S; right; auto).
  destruct (IH SK _ _ E) as [A B].
  { intros k Hk I. rewrite assign_new in I by (apply D; left; auto). rewrite keys_dapp, in_app_iff in I. destruct I as [I|[<-|[]]]; [apply (D k); auto; right; auto|contradiction]. }
  split.
  - intros k L. cbn [lookup] in L. destruct (key_eqb k (KStr s)) eqn:Q; [discriminate|]. rewrite A by auto. rewrite lookup_assign, Q. auto.
  - intros k v L. cbn [lookup] in L. destruct (key_eqb k (KStr s)) eqn:Q.
    + injection L as ->. exists w0. split; auto. apply key_eqb_eq in Q. subst k. rewrite A; [rewrite lookup_assign, key_eqb_refl; auto|].
      destruct (lookup (KStr s) d) eqn:L; auto. apply lookup_In in L. contradiction.
    + apply B. auto.
Qed.
(** what [from_json] finds, given what was saved *)
Lemma through_json hyper params m : string_keys hyper -> string_keys params -> to_json hyper params = Ok m ->
  exists h p, sub m "hyper_params" = Ok h /\ sub m "model_params" = Ok p /\
  (forall k v, lookup k hyper = Some v -> exists w w', listify v = Ok w /\ json_val w = Ok w' /\ lookup k h = Some w') /\
  (forall k v, lookup k params = Some v -> exists w w', listify v = Ok w /\ json_val w = Ok w' /\ lookup k p = Some w').
Proof.
  intros SH SP E. unfold to_json in E. destruct (try_values listify params) as [p0|] eqn:Ep; [|discriminate]. cbn [bind] in E.
  destruct (try_values listify hyper) as [h0|] eqn:Eh; [|discriminate]. cbn [bind] in E. unfold package in E. cbn [json_dict json_val] in E.
  destruct (json_dict h0 DNil) as [h|] eqn:Jh; [|discriminate]. cbn [bind] in E. destruct (json_dict p0 DNil) as [p|] eqn:Jp; [|discriminate]. cbn [bind] in E. injection E as <-.
  exists h, p. split; [reflexivity|]. split; [reflexivity|].
  assert (G : forall d d0 d1, string_keys d -> try_values listify d = Ok d0 -> json_dict d0 DNil = Ok d1 ->
    forall k v, lookup k d = Some v -> exists w w', listify v = Ok w /\ json_val w = Ok w' /\ lookup k d1 = Some w').
  { intros d d0 d1 [N S] E0 E1 k v L. destruct (listified k d d0 v E0 L) as (w & Ew & Lw). pose proof (listified_keys d d0 E0) as K.
    destruct (json_lookup d0) with (acc := DNil) (e := d1) as [_ B]; auto; [split; rewrite K; auto|].
    destruct (B k w Lw) as (w' & J & L'). eauto. }
  split; eapply G; eauto.
Qed.
Lemma construct_lookup signature hyper inst k v : construct signature hyper = Ok inst -> lookup k hyper = Some v -> lookup k inst = Some v.
Proof.
  intros E L. unfold construct in E. destruct (forallb _ _) eqn:F; [|discriminate]. injection E as <-. apply (fill_lookup hyper signature k v); auto.
  rewrite forallb_forall in F. specialize (F k (lookup_In _ _ _ L)). destruct (lookup k signature) as [x|] eqn:Ls; [|discriminate]. apply (lookup_In _ _ _ Ls).
Qed.
Lemma json_ints l : json_vals (ints l) = Ok (ints l).
Proof. unfold ints. induction l as [|z l IH]; auto. cbn [map vals_of json_vals json_val bind]. rewrite IH. auto. Qed.
Lemma ints_array l : l <> [] -> np_array (VList (ints l)) = Some (VArr [List.length l] (AInt l)).
Proof.
  intros H. unfold np_array. cbn [shape_of]. unfold ints. rewrite (shapes_same (map VInt l) []); [|intros E; apply map_eq_nil in E; auto|intros v Hv; apply in_map_iff in Hv; destruct Hv as (z & <- & _); auto].
  rewrite map_length. cbn [flatten]. rewrite flatten_vals, map_map.
  assert (F : List.concat (map (fun x => flatten (VInt x)) l) = map VInt l) by (clear; induction l as [|z l IH]; auto; cbn; rewrite <- IH; auto).
  rewrite F. rewrite (all_of_map as_int VInt l) by auto. destruct l; [congruence|]. reflexivity.
Qed.

(** ** The theorems *)
(** JSON keeps the sizes and counts of the shapelets (their keys are strings in the file) and the dimensions *)
Theorem C209_json signature hyper params m h p sizes dims : string_keys hyper -> string_keys params ->
  NoDup (map fst sizes) -> dims <> [] ->
  (lookup (KStr "n_shapelets_per_size") hyper = Some (VDict (sizes_dict sizes)) \/ lookup (KStr "n_shapelets_per_size") hyper = Some VNone) ->
  lookup (KStr "n_shapelets_per_size_") params = Some (VDict (sizes_dict sizes)) -> lookup (KStr "_X_fit_dims") params = Some (VTuple (ints dims)) ->
  to_json hyper params = Ok m -> ls_from_json signature m = Ok (h, p) ->
  lookup (KStr "n_shapelets_per_size") h = lookup (KStr "n_shapelets_per_size") hyper /\
  lookup (KStr "n_shapelets_per_size_") p = Some (VDict (sizes_dict sizes)) /\
  lookup (KStr "_X_fit_dims") p = Some (VTuple (vals_of (map VNpInt dims))).
Proof.
  intros SH SP ND NE LH LP LX ES EL. destruct (through_json hyper params m SH SP ES) as (h1 & p1 & E1 & E2 & TH & TP).
  unfold ls_from_json in EL. rewrite E1, E2 in EL. cbn [bind] in EL. unfold ls_organize in EL.
  set (H1 := map_values json_entry (byte2string h1)) in EL. set (P1 := map_values json_entry (byte2string p1)) in EL.
  assert (LP1 : lookup (KStr "n_shapelets_per_size_") P1 = Some (VDict (shown sizes))).
  { destruct (TP _ _ LP) as (w & w' & A & B & C). cbn in A. injection A as <-. cbn [json_val] in B. rewrite json_sizes in B by (auto; intros z _ []). injection B as <-.
    unfold P1, byte2string. rewrite !lookup_map, C. reflexivity. }
  assert (LX1 : lookup (KStr "_X_fit_dims") P1 = Some (VArr [List.length dims] (AInt dims))).
  { destruct (TP _ _ LX) as (w & w' & A & B & C). cbn in A. injection A as <-. cbn [json_val] in B. rewrite json_ints in B. injection B as <-.
    unfold P1, byte2string. rewrite !lookup_map, C. cbn [option_map json_entry]. rewrite ints_array by auto. reflexivity. }
  assert (LH1 : exists v H2, lookup (KStr "n_shapelets_per_size") H1 = Some v /\
     (if truthy v then do v <- with_int_keys v ;; Ok (assign (KStr "n_shapelets_per_size") v H1) else Ok H1) = Ok H2 /\
     lookup (KStr "n_shapelets_per_size") H2 = lookup (KStr "n_shapelets_per_size") hyper).
  { destruct LH as [LH|LH]; destruct (TH _ _ LH) as (w & w' & A & B & C); cbn in A; injection A as <-; cbn [json_val] in B.
    - rewrite json_sizes in B by (auto; intros z _ []). injection B as <-. exists (VDict (shown sizes)).
      assert (L1 : lookup (KStr "n_shapelets_per_size") H1 = Some (VDict (shown sizes))) by (unfold H1, byte2string; rewrite !lookup_map, C; reflexivity).
      destruct sizes as [|[sz nb] sizes]; [exists H1; split; auto; split; auto; rewrite L1, LH; reflexivity|].
      eexists. split; [exact L1|]. cbn [truthy shown with_int_keys]. change (DCons (KStr (str_of_key (KInt sz))) (VInt nb) (shown sizes)) with (shown ((sz, nb) :: sizes)).
      rewrite int_keys_shown by (auto; intros z _ []). split; [reflexivity|]. rewrite lookup_assign. cbn [key_eqb]. rewrite String.eqb_refl. rewrite LH. reflexivity.
    - injection B as <-. exists VNone, H1. assert (L1 : lookup (KStr "n_shapelets_per_size") H1 = Some VNone) by (unfold H1, byte2string; rewrite !lookup_map, C; reflexivity).
      split; auto. split; auto. rewrite L1, LH. auto. }
  destruct LH1 as (v & H2 & L1 & E3 & L2). rewrite L1, E3 in EL. cbn [bind] in EL. destruct (construct signature H2) as [inst|] eqn:EC; [|discriminate]. cbn [bind] in EL.
  rewrite LP1 in EL. cbn [with_int_keys] in EL. rewrite int_keys_shown in EL by (auto; intros z _ []). cbn [bind dapp] in EL.
  rewrite lookup_assign in EL. cbn [key_eqb] in EL. change ("_X_fit_dims" =? "n_shapelets_per_size_")%string with false in EL. cbv iota in EL. rewrite LX1 in EL. cbn [to_tuple bind] in EL. injection EL as <- <-.
  split.
  - destruct (lookup (KStr "n_shapelets_per_size") hyper) as [x|] eqn:Lx; [|destruct LH; discriminate]. apply (construct_lookup signature H2); auto.
  - rewrite !lookup_assign. split; reflexivity.
Qed.
Print Assumptions C209_json.
(** but the dimensions are numpy integers now, and json takes none: the loaded model cannot be saved as JSON again *)
Theorem C210_resave_refuted signature hyper params m h p sizes dims : string_keys hyper -> string_keys params ->
  NoDup (map fst sizes) -> dims <> [] ->
  (lookup (KStr "n_shapelets_per_size") hyper = Some (VDict (sizes_dict sizes)) \/ lookup (KStr "n_shapelets_per_size") hyper = Some VNone) ->
  lookup (KStr "n_shapelets_per_size_") params = Some (VDict (sizes_dict sizes)) -> lookup (KStr "_X_fit_dims") params = Some (VTuple (ints dims)) ->
  to_json hyper params = Ok m -> ls_from_json signature m = Ok (h, p) -> exists e, to_json h p = Err e.
Proof.
  intros SH SP ND NE LH LP LX ES EL. destruct (C209_json signature hyper params m h p sizes dims SH SP ND NE LH LP LX ES EL) as (_ & _ & L).
  unfold to_json. destruct (try_values listify p) as [p0|] eqn:Ep; cbn [bind]; eauto. destruct (try_values listify h) as [h0|] eqn:Eh; cbn [bind]; eauto.
  destruct (listified _ _ _ _ Ep L) as (w & Ew & Lw). cbn in Ew. injection Ew as <-.
  assert (J : json_val (VTuple (vals_of (map VNpInt dims))) = Err TypeError) by (destruct dims; [congruence|reflexivity]).
  unfold package. cbn [json_dict json_val]. destruct (json_dict h0 DNil) as [h2|e]; cbn [bind]; eauto.
  destruct (json_bad p0 _ _ Lw J DNil) as (e & E). rewrite E. cbn [bind]. eauto.
Qed.
Print Assumptions C210_resave_refuted.
(** a pickled model is given back as it was, and can be saved again *)
Lemma assign_same k v d : lookup k d = Some v -> assign k v d = d.
Proof. induction d as [|k' v' d IH]; cbn; [discriminate|]. destruct (key_eqb k k'); [intros E; injection E as ->; auto|]. intros E. rewrite IH; auto. Qed.
Theorem C209_pickle signature hyper params sizes dims : keys hyper = keys signature -> string_keys hyper -> string_keys params ->
  (forall k s, lookup k hyper <> Some (VBytes s)) -> (forall k s, lookup k params <> Some (VBytes s)) -> NoDup (map fst sizes) ->
  (lookup (KStr "n_shapelets_per_size") hyper = Some (VDict (sizes_dict sizes)) \/ lookup (KStr "n_shapelets_per_size") hyper = Some VNone) ->
  lookup (KStr "n_shapelets_per_size_") params = Some (VDict (sizes_dict sizes)) -> lookup (KStr "_X_fit_dims") params = Some (VTuple (ints dims)) ->
  ls_from_pickle signature hyper params = Ok (hyper, params).
Proof.
  intros K [N1 S1] [N2 S2] B1 B2 ND LH LP LX. unfold ls_from_pickle.
  assert (E : forall d, NoDup (keys d) -> (forall k s, lookup k d <> Some (VBytes s)) -> byte2string d = d).
  { intros d N B. apply map_id; auto. intros k v E. destruct v; auto. exfalso. eapply B; eauto. }
  rewrite !E by auto. unfold ls_organize.
  assert (IK : forall d, d = sizes_dict sizes -> int_keys d DNil = Ok d) by (intros d ->; rewrite int_keys_same by (auto; intros z _ []); reflexivity).
  assert (EH : exists v, lookup (KStr "n_shapelets_per_size") hyper = Some v /\
     (if truthy v then do v <- with_int_keys v ;; Ok (assign (KStr "n_shapelets_per_size") v hyper) else Ok hyper) = Ok hyper).
  { destruct LH as [LH|LH]; rewrite LH; eexists; split; try reflexivity. cbn [with_int_keys]. rewrite IK by auto. cbn [bind]. rewrite assign_same by auto. destruct (truthy _); auto. }
  destruct EH as (v & -> & ->). cbn [bind]. rewrite construct_ok by (rewrite K; auto). cbn [bind]. rewrite fill_self by auto.
  rewrite LP. cbn [with_int_keys]. rewrite IK by auto. cbn [bind]. rewrite (assign_same (KStr "n_shapelets_per_size_")) by auto. rewrite LX. cbn [to_tuple bind]. rewrite assign_same by auto. reflexivity.
Qed.
Print Assumptions C209_pickle.
(** so that it can be saved as JSON exactly when the first could *)
Theorem C210_after_pickle signature hyper params sizes dims h p : keys hyper = keys signature -> string_keys hyper -> string_keys params ->
  (forall k s, lookup k hyper <> Some (VBytes s)) -> (forall k s, lookup k params <> Some (VBytes s)) -> NoDup (map fst sizes) ->
  (lookup (KStr "n_shapelets_per_size") hyper = Some (VDict (sizes_dict sizes)) \/ lookup (KStr "n_shapelets_per_size") hyper = Some VNone) ->
  lookup (KStr "n_shapelets_per_size_") params = Some (VDict (sizes_dict sizes)) -> lookup (KStr "_X_fit_dims") params = Some (VTuple (ints dims)) ->
  ls_from_pickle signature hyper params = Ok (h, p) -> to_json h p = to_json hyper params.
Proof. intros. rewrite (C209_pickle signature hyper params sizes dims) in * by auto. congruence. Qed.
Print Assumptions C210_after_pickle.
(** non-trivial case: two sizes, weights of one shapelet each and of the classification; the file can be written and loaded *)
Definition ex_hyper : dict := DCons (KStr "n_shapelets_per_size") (VDict (sizes_dict [(12, 1); (3, 1)]%Z)) (DCons (KStr "optimizer") (VStr "sgd") DNil).
Definition ex_params : dict := DCons (KStr "_X_fit_dims") (VTuple (ints [20; 30; 1]%Z)) (DCons (KStr "n_shapelets_per_size_") (VDict (sizes_dict [(12, 1); (3, 1)]%Z))
  (DCons (KStr "model_weights_") (VList (vals_of [VArr [1; 1; 1] (AFloat [XR 1]); VArr [1; 1] (AFloat [XR 2]); VArr [1] (AFloat [XR 3])])) DNil)).
Example C209_nontrivial : string_keys ex_hyper /\ string_keys ex_params /\ exists m h p, to_json ex_hyper ex_params = Ok m /\ ls_from_json ex_hyper m = Ok (h, p) /\
  lookup (KStr "n_shapelets_per_size") h = Some (VDict (sizes_dict [(12, 1); (3, 1)]%Z)).
Proof.
  split; [split; [repeat constructor; cbn; intuition discriminate|intros k Hk; cbn in Hk; repeat (destruct Hk as [<-|Hk]; [eexists; reflexivity|]); contradiction]|].
  split; [split; [repeat constructor; cbn; intuition discriminate|intros k Hk; cbn in Hk; repeat (destruct Hk as [<-|Hk]; [eexists; reflexivity|]); contradiction]|].
  eexists. eexists. eexists. split; [reflexivity|]. split; reflexivity.
Qed.

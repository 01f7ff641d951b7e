(** C65 for JSON files; C105 between the formats. *)
From Coq Require Import Bool List Arith ZArith Lia Reals Ascii String.
From Verif Require Import Num Py PersistModel PropPersist PropPersist2.
Import ListNotations.
Local Open Scope string_scope.
Local Open Scope list_scope.
Local Open Scope nat_scope.

(** ** Specification *)
(** values that JSON represents: dictionaries with distinct strings as keys, lists, None, booleans, numbers, strings *)
Fixpoint plain (v : val) : Prop :=
  match v with
  | VNone | VBool _ | VInt _ | VFloat _ | VStr _ => True
  | VDict d => plain_dict d
  | VList l => plain_vals l
  | _ => False
  end
with plain_dict (d : dict) : Prop := match d with DNil => True | DCons k v d => (exists s, k = KStr s) /\ ~ In k (keys d) /\ plain v /\ plain_dict d end
with plain_vals (l : vals) : Prop := match l with LNil => True | LCons v l => plain v /\ plain_vals l end.
(** arrays with at least one axis and one element, of numbers or of strings no longer than needed *)
Definition good_array (shape : list nat) (a : adata) : Prop :=
  shape <> [] /\ (forall n, In n shape -> n <> 0) /\ List.length (elements a) = prod shape /\
  match a with AStr w l => w = Nat.max 1 (list_max (map code_points l)) | _ => True end.
(** entries at the top: such values except lists, or such arrays *)
Definition json_ok (v : val) : Prop := match v with VList _ => False | VArr shape a => good_array shape a | _ => plain v end.
Fixpoint json_ok_dict (d : dict) : Prop := match d with DNil => True | DCons k v d => (exists s, k = KStr s) /\ ~ In k (keys d) /\ json_ok v /\ json_ok_dict d end.

(** ** json.load(json.dump(v)) *)
Fixpoint dapp (a b : dict) : dict := match a with DNil => b | DCons k v a => DCons k v (dapp a b) end.
Lemma assign_new k v d : ~ In k (keys d) -> assign k v d = dapp d (DCons k v DNil).
Proof. induction d as [|k' v' d IH]; cbn; auto. intros N. destruct (key_eqb k k') eqn:E; [apply key_eqb_eq in E; subst; tauto|]. rewrite IH; auto. Qed.
Lemma dapp_assoc a b c : dapp (dapp a b) c = dapp a (dapp b c).
Proof. induction a as [|k v a IH]; cbn; auto. rewrite IH. auto. Qed.
Lemma keys_dapp a b : keys (dapp a b) = keys a ++ keys b.
Proof. induction a as [|k v a IH]; cbn; auto. rewrite IH. auto. Qed.
Lemma dapp_nil a : dapp a DNil = a.
Proof. induction a as [|k v a IH]; cbn; auto. rewrite IH. auto. Qed.
Lemma json_dict_ok d : (forall k v, lookup k d = Some v -> json_val v = Ok v) -> NoDup (keys d) -> (forall k, In k (keys d) -> exists s, k = KStr s) -> forall acc, (forall k, In k (keys d) -> ~ In k (keys acc)) -> json_dict d acc = Ok (dapp acc d).
Proof.
  induction d as [|k v d IH]; intros H N S acc D; cbn [json_dict]; [rewrite dapp_nil; auto|]. rewrite (H k v) by (cbn; rewrite key_eqb_refl; auto). cbn [bind]. destruct (S k (or_introl eq_refl)) as (s & ->). cbn [str_of_key]. inversion N; subst.
  rewrite assign_new by (apply D; left; auto). rewrite IH; auto.
  - rewrite dapp_assoc. auto.
  - intros k v' E. apply (H k). cbn [lookup]. destruct (key_eqb k (KStr s)) eqn:Q; auto. apply key_eqb_eq in Q. subst. apply lookup_In in E. tauto.
  - intros k Hk. apply S. right. auto.
  - intros k Hk I. rewrite keys_dapp, in_app_iff in I. destruct I as [I|[<-|[]]]; auto. apply (D k); auto. right. auto.
Qed.
Lemma plain_NoDup d : plain_dict d -> NoDup (keys d) /\ forall k, In k (keys d) -> exists s, k = KStr s.
Proof. induction d as [|k v d IH]; cbn; [split; [constructor|tauto]|]. intros (S & N & _ & H). destruct (IH H). split; [constructor; auto|]. intros k' [<-|Hk]; auto. Qed.
Lemma json_plain : forall v, plain v -> json_val v = Ok v.
Proof.
  apply (val_mut (fun v => plain v -> json_val v = Ok v) (fun d => plain_dict d -> forall k v, lookup k d = Some v -> json_val v = Ok v) (fun l => plain_vals l -> json_vals l = Ok l)); auto; try (intros; cbn in *; tauto).
  - intros l IH H. cbn in H |- *. rewrite IH; auto.
  - intros d IH H. cbn in H. cbn [json_val]. destruct (plain_NoDup d H). rewrite json_dict_ok; auto. exact (IH H).
  - intros _ k v E. discriminate.
  - intros k v IHv d IHd (_ & _ & Hv & Hd) k' v' E. cbn in E. destruct (key_eqb k' k); [injection E as <-; auto|eauto].
  - intros v IHv l IHl (Hv & Hl). cbn. rewrite IHv, IHl; auto.
Qed.

(** ** arrays *)
Lemma part_length {A} w i (l : list A) n : List.length l = n * w -> i < n -> List.length (part w i l) = w.
Proof. intros H Hi. unfold part. rewrite firstn_length, skipn_length. nia. Qed.
Lemma part_In {A} w i (l : list A) x : In x (part w i l) -> In x l.
Proof.
  unfold part. intros H. rewrite <- (firstn_skipn (i * w) l). apply in_or_app. right. rewrite <- (firstn_skipn w (skipn (i * w) l)). apply in_or_app. auto.
Qed.
Lemma skip_skip {A} a b (l : list A) : skipn a (skipn b l) = skipn (b + a) l.
Proof. revert l. induction b as [|b IH]; intros l; auto. destruct l; [destruct a; auto|]. cbn. apply IH. Qed.
Lemma parts_concat {A} w n : forall l : list A, List.length l = n * w -> List.concat (map (fun i => part w i l) (seq 0 n)) = l.
Proof.
  induction n as [|n IH]; intros l H; [destruct l; [auto|discriminate]|]. cbn [seq map List.concat]. unfold part at 1. rewrite Nat.mul_0_l. change (skipn 0 l) with l. rewrite <- seq_shift, map_map.
  rewrite (map_ext _ (fun i => part w i (skipn w l))); [rewrite IH; [apply firstn_skipn|rewrite skipn_length; lia]|]. intros i. unfold part. rewrite skip_skip. f_equal.
Qed.
Definition scalar (v : val) : Prop := match v with VInt _ | VFloat _ | VStr _ => True | _ => False end.
Lemma shapes_same l s : l <> [] -> (forall v, In v l -> shape_of v = Some s) -> shapes_of (vals_of l) = Some (List.length l, s).
Proof.
  induction l as [|v l IH]; [congruence|]. intros _ H. destruct l as [|v' l]; [cbn; rewrite H by (left; auto); auto|].
  change (vals_of (v :: v' :: l)) with (LCons v (vals_of (v' :: l))). assert (E : shapes_of (vals_of (v' :: l)) = Some (List.length (v' :: l), s)) by (apply IH; [discriminate|intros x Hx; apply H; right; auto]).
  cbn [vals_of] in *. cbn [shapes_of] in *. rewrite H by (left; auto). rewrite E. destruct (list_eq_dec _ s s); [auto|congruence].
Qed.
Lemma flatten_vals l : flatten_all (vals_of l) = List.concat (map flatten l).
Proof. induction l as [|v l IH]; cbn; auto. rewrite IH. auto. Qed.
Lemma plain_vals_of l : (forall v, In v l -> plain v) -> plain_vals (vals_of l).
Proof. induction l as [|v l IH]; cbn; auto. Qed.
Lemma nest_spec shape : forall xs, (forall n, In n shape -> n <> 0) -> List.length xs = prod shape -> (forall x, In x xs -> scalar x) ->
  shape_of (nest shape xs) = Some shape /\ flatten (nest shape xs) = xs /\ plain (nest shape xs).
Proof.
  induction shape as [|n shape IH]; intros xs HZ HL HS.
  - cbn in HL. destruct xs as [|x [|y xs]]; try discriminate. cbn. pose proof (HS x (or_introl eq_refl)). destruct x; cbn in *; tauto.
  - change (prod (n :: shape)) with (n * prod shape) in HL. cbn [nest].
    assert (G : forall i, i < n -> shape_of (nest shape (part (prod shape) i xs)) = Some shape /\ flatten (nest shape (part (prod shape) i xs)) = part (prod shape) i xs /\ plain (nest shape (part (prod shape) i xs))).
    { intros i Hi. apply IH; [intros m Hm; apply HZ; right; auto|eapply part_length; eauto|]. intros x Hx. apply HS. eapply part_In; eauto. }
    split; [|split].
    + cbn [shape_of]. rewrite (shapes_same _ shape).
      * rewrite map_length, seq_length. auto.
      * pose proof (HZ n (or_introl eq_refl)). destruct n; [congruence|discriminate].
      * intros v Hv. apply in_map_iff in Hv. destruct Hv as (i & <- & Hi). apply in_seq in Hi. apply G. lia.
    + cbn [flatten]. rewrite flatten_vals, map_map. rewrite (map_ext_in _ (fun i => part (prod shape) i xs)); [apply parts_concat; auto|]. intros i Hi. apply in_seq in Hi. apply G. lia.
    + cbn [plain]. apply plain_vals_of. intros v Hv. apply in_map_iff in Hv. destruct Hv as (i & <- & Hi). apply in_seq in Hi. apply G. lia.
Qed.
Lemma all_of_map {A} (f : val -> option A) (g : A -> val) l : (forall x, f (g x) = Some x) -> all_of f (map g l) = Some l.
Proof. intros H. induction l as [|x l IH]; cbn; auto. rewrite H, IH. auto. Qed.
Lemma elements_scalar a x : In x (elements a) -> scalar x.
Proof. destruct a; cbn; intros H; apply in_map_iff in H; destruct H as (y & <- & _); exact I. Qed.
Lemma array_back shape a : good_array shape a -> exists l, tolist shape a = VList l /\ plain (VList l) /\ np_array (VList l) = Some (VArr shape a).
Proof.
  intros (NE & HZ & HL & HW). destruct (nest_spec shape (elements a) HZ HL (elements_scalar a)) as (S & F & P). unfold tolist. destruct shape as [|n shape]; [congruence|]. cbn [nest] in *.
  eexists. split; [reflexivity|]. split; auto. unfold np_array. rewrite S, F.
  assert (NZ : elements a <> []). { intros E. rewrite E in HL. cbn [List.length] in HL. symmetry in HL. clear -HL HZ. assert (G : forall s, (forall n, In n s -> n <> 0) -> prod s <> 0). { induction s as [|m s IH]; [discriminate|]. intros H. change (prod (m :: s)) with (m * prod s). pose proof (H m (or_introl eq_refl)). pose proof (IH (fun n Hn => H n (or_intror Hn))). nia. } apply (G (n :: shape)); auto. }
  destruct a as [l|l|w l]; cbn [elements] in *.
  - destruct (map VFloat l) as [|v m] eqn:E; [congruence|]. rewrite <- E. rewrite (all_of_map as_float VFloat) by auto. destruct l as [|x l]; [discriminate|]. cbn [map all_of as_int]. auto.
  - destruct (map VInt l) as [|v m] eqn:E; [congruence|]. rewrite <- E. rewrite (all_of_map as_int VInt) by auto. auto.
  - destruct (map VStr l) as [|v m] eqn:E; [congruence|]. rewrite <- E. rewrite (all_of_map as_str VStr) by auto. destruct l as [|x l]; [discriminate|]. cbn [map all_of as_int as_float]. rewrite HW. auto.
Qed.

(** ** C65, JSON *)
Lemma entry v : json_ok v -> exists w, listify v = Ok w /\ json_val w = Ok w /\ json_entry (match w with VBytes s => VStr s | _ => w end) = v.
Proof.
  intros H. destruct v as [|b|z|x|s|s|z|b|sh a|l|l|d|d|]; cbn in H; try tauto; try (eexists; split; [reflexivity|split; reflexivity]).
  - destruct (array_back sh a H) as (l & E & P & A). exists (VList l). cbn [listify]. rewrite E. split; auto. split; [apply json_plain; auto|]. cbn [json_entry]. rewrite A. auto.
  - exists (VDict d). split; auto. split; [apply json_plain; auto|]. auto.
Qed.
Lemma entries d : json_ok_dict d -> exists e, try_values listify d = Ok e /\ keys e = keys d /\ (forall k w, lookup k e = Some w -> json_val w = Ok w) /\ map_values json_entry (byte2string e) = d.
Proof.
  unfold byte2string. induction d as [|k v d IH]; cbn [json_ok_dict]; [intros _; exists DNil; cbn; repeat split; discriminate|]. intros ((s & ->) & N & Hv & Hd). destruct (IH Hd) as (e & E & K & J & M). destruct (entry v Hv) as (w & L & JW & B).
  cbn [try_values]. rewrite L, E. cbn [bind]. exists (DCons (KStr s) w e). split; auto. split; [cbn; rewrite K; auto|]. split.
  - intros k w' Lw. cbn [lookup] in Lw. destruct (key_eqb k (KStr s)); [congruence|eauto].
  - cbn [map_values]. rewrite B, M. auto.
Qed.
Lemma json_ok_keys d : json_ok_dict d -> NoDup (keys d) /\ forall k, In k (keys d) -> exists s, k = KStr s.
Proof. induction d as [|k v d IH]; cbn; [split; [constructor|tauto]|]. intros (S & N & _ & H). destruct (IH H). split; [constructor; auto|]. intros k' [<-|Hk]; auto. Qed.
(** JSON gives back exactly the same hyper-parameters and attributes. *)
Theorem C65_json_partial signature hyper params : keys hyper = keys signature -> json_ok_dict hyper -> json_ok_dict params ->
  exists m, to_json hyper params = Ok m /\ from_json signature m = Ok (hyper, params).
Proof.
  intros K HH HP. destruct (entries hyper HH) as (h & Eh & Kh & Jh & Mh). destruct (entries params HP) as (p & Ep & Kp & Jp & Mp). destruct (json_ok_keys _ HH) as (Nh & Sh). destruct (json_ok_keys _ HP) as (Np & Sp).
  exists (package h p). unfold to_json. rewrite Ep, Eh. cbn [bind]. split.
  - unfold package. rewrite json_dict_ok; auto.
    + intros k v E. cbn [lookup] in E. destruct (key_eqb k (KStr "hyper_params")); [injection E as <-|destruct (key_eqb k (KStr "model_params")); [injection E as <-|discriminate]]; cbn [json_val]; rewrite json_dict_ok; rewrite ?Kh, ?Kp; auto.
    + cbn. repeat constructor; cbn; intuition discriminate.
    + cbn. intros k [<-|[<-|[]]]; eauto.
  - unfold from_json, sub, package. cbn [lookup key_eqb]. change ("hyper_params" =? "hyper_params")%string with true. change ("model_params" =? "hyper_params")%string with false. change ("model_params" =? "model_params")%string with true. cbv iota. cbn [bind].
    rewrite Mh, Mp. rewrite construct_ok by (rewrite K; auto). cbn [bind]. rewrite fill_self; auto.
Qed.
Print Assumptions C65_json_partial.
Example C65_json_nontrivial : exists signature hyper params, keys hyper = keys signature /\ json_ok_dict hyper /\ json_ok_dict params /\
  lookup (KStr "metric_params") hyper = Some (VDict (DCons (KStr "global_constraint") (VStr "itakura") DNil)) /\
  lookup (KStr "cluster_centers_") params = Some (VArr [2; 2; 1] (AFloat [XR (IZR 0); XR (IZR 1); XNaN; XNaN])).
Proof.
  set (h := DCons (KStr "metric_params") (VDict (DCons (KStr "global_constraint") (VStr "itakura") DNil)) (DCons (KStr "verbose") (VBool true) DNil)).
  set (p := DCons (KStr "cluster_centers_") (VArr [2; 2; 1] (AFloat [XR (IZR 0); XR (IZR 1); XNaN; XNaN])) DNil).
  exists h, h, p. split; auto. unfold h, p. cbn. unfold good_array. cbn. repeat match goal with |- _ /\ _ => split | |- exists s, KStr ?k = KStr s => exists k; reflexivity end; auto; try discriminate; try (intuition discriminate).
  intros n Hn. lia.
Qed.
(** What JSON does not give back: integer keys (they become strings), tuples and lists (they become arrays), the shape of an empty
    array; an empty list cannot be saved. *)
Theorem C65_json_refuted :
  (forall z nb, exists m inst attrs, let hyper := DCons (KStr "params") (VDict (DCons (KInt z) (VInt nb) DNil)) DNil in
     to_json hyper DNil = Ok m /\ from_json hyper m = Ok (inst, attrs) /\ lookup (KStr "params") inst = Some (VDict (DCons (KStr (str_of_key (KInt z))) (VInt nb) DNil))) /\
  (forall a b, exists m inst attrs, let hyper := DCons (KStr "params") (VTuple (LCons (VInt a) (LCons (VInt b) LNil))) DNil in
     to_json hyper DNil = Ok m /\ from_json hyper m = Ok (inst, attrs) /\ lookup (KStr "params") inst = Some (VArr [2] (AInt [a; b]))) /\
  (forall n, exists m inst attrs, let params := DCons (KStr "components_") (VArr [0; n] (AFloat [])) DNil in
     to_json DNil params = Ok m /\ from_json DNil m = Ok (inst, attrs) /\ lookup (KStr "components_") attrs = Some (VArr [0] (AFloat []))) /\
  (forall hyper params k, json_ok_dict params -> lookup k hyper = Some (VList LNil) -> exists e, to_json hyper params = Err e).
Proof.
  split; [|split; [|split]].
  - intros z nb. eexists. eexists. eexists. cbv zeta. split; [reflexivity|]. split; reflexivity.
  - intros a b. eexists. eexists. eexists. cbv zeta. split; [reflexivity|]. split; reflexivity.
  - intros n. eexists. eexists. eexists. cbv zeta. split; [reflexivity|]. split; reflexivity.
  - intros hyper params k HP L. unfold to_json. destruct (entries params HP) as (p & Ep & _). rewrite Ep. cbn [bind]. assert (G : exists e, try_values listify hyper = Err e).
    { induction hyper as [|k' v d IH]; [discriminate|]. cbn [lookup] in L. cbn [try_values]. destruct (key_eqb k k'); [injection L as ->; cbn; eauto|]. destruct (IH L) as (e & ->). destruct (listify v); cbn; eauto. }
    destruct G as (e & ->). cbn. eauto.
Qed.
Print Assumptions C65_json_refuted.

(** ** C105, between formats: a model loaded from JSON can be saved as JSON again (it is the same model), and as HDF5 if it could be
    before.  A model with an integer hyper-parameter loaded from HDF5 cannot be saved as JSON: json refuses numpy integers. *)
Lemma json_bad d k w : lookup k d = Some w -> json_val w = Err TypeError -> forall acc, exists e, json_dict d acc = Err e.
Proof.
  induction d as [|k' v d IH]; intros L J acc; [discriminate|]. cbn [lookup] in L. cbn [json_dict]. destruct (key_eqb k k'); [injection L as ->; rewrite J; cbn; eauto|]. destruct (json_val v); cbn [bind]; eauto.
Qed.
Theorem C105_convert_refuted signature hyper params k z : keys hyper = keys signature -> savable_dict hyper -> storable_dict params -> params <> DNil -> lookup k hyper = Some (VInt z) ->
  exists f inst attrs, to_hdf5 false hyper params = Ok f /\ from_hdf5 signature f = Ok (inst, attrs) /\ exists e, to_json inst attrs = Err e.
Proof.
  intros HK HH HP NP L. assert (NH : hyper <> DNil) by (intros ->; discriminate). destruct (C65_hdf5_partial signature hyper params HK HH NH HP NP) as (f & inst & attrs & E1 & E2 & K & R & _). exists f, inst, attrs. split; auto. split; auto.
  destruct (R k _ L) as (w & Lw & Rw). cbn in Rw. subst w. unfold to_json. destruct (try_values listify attrs) as [p|]; cbn [bind]; eauto. destruct (try_values listify inst) as [h|] eqn:Eh; cbn [bind]; eauto.
  assert (Lh : lookup k h = Some (VNpInt z)).
  { clear -Eh Lw. revert h Eh. induction inst as [|k' v d IH]; intros h Eh; [discriminate|]. cbn [try_values] in Eh. destruct (listify v) as [w|] eqn:Ew; [|discriminate]. cbn [bind] in Eh. destruct (try_values listify d) as [d'|]; [|discriminate]. injection Eh as <-. cbn [lookup] in *.
    destruct (key_eqb k k'); auto. injection Lw as ->. cbn in Ew. congruence. }
  destruct (json_bad h k _ Lh eq_refl DNil) as (e & E). unfold package. cbn [json_dict json_val]. rewrite E. cbn [bind]. eauto.
Qed.
Print Assumptions C105_convert_refuted.

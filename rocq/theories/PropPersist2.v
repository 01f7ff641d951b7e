(** C63, C65, C105: patched attributes; saving and loading estimators. *)
From Coq Require Import Bool List Arith ZArith Lia Reals Ascii String FinFun.
From Verif Require Import Num Py PersistModel PropPersist.
Import ListNotations.
Local Open Scope string_scope.
Local Open Scope list_scope.
Local Open Scope nat_scope.

(** ** dictionaries *)
Lemma lookup_assign k k' v d : lookup k (assign k' v d) = if key_eqb k k' then Some v else lookup k d.
Proof.
  induction d as [|k0 v0 d IH]; cbn; [destruct (key_eqb k k'); auto|]. destruct (key_eqb k' k0) eqn:E; cbn.
  - apply key_eqb_eq in E. subst. destruct (key_eqb k k0); auto.
  - rewrite IH. destruct (key_eqb k k0) eqn:E1, (key_eqb k k') eqn:E2; auto. apply key_eqb_eq in E1, E2. subst. rewrite key_eqb_refl in E. discriminate.
Qed.
Lemma lookup_map k f d : lookup k (map_values f d) = option_map f (lookup k d).
Proof. induction d as [|k' v d IH]; cbn; auto. destruct (key_eqb k k'); auto. Qed.
Lemma keys_map f d : keys (map_values f d) = keys d.
Proof. induction d as [|k v d IH]; cbn; auto. rewrite IH. auto. Qed.

(** ** C63.  Whatever the body does to the object and however it ends, afterwards every patched attribute is what it was.  The
    result and the other attributes are the body's.  Nested patches, also of the same attribute. *)
Fixpoint nested {A} (patches : list (string * val)) (body : dict -> dict * res A) : dict -> dict * res A :=
  match patches with [] => body | (n, v) :: patches => with_patch n v (nested patches body) end.
Theorem C63_restored {A} (body : dict -> dict * res A) name value self orig : lookup (KStr name) self = Some orig ->
  exists inside after r, (* the body runs on [inside] and leaves [after] *)
    body inside = (after, r) /\ snd (with_patch name value body self) = r /\
    (forall k, lookup k inside = if key_eqb k (KStr name) then Some value else lookup k self) /\
    (forall k, lookup k (fst (with_patch name value body self)) = if key_eqb k (KStr name) then Some orig else lookup k after).
Proof.
  intros H. unfold with_patch. rewrite H. destruct (body (assign (KStr name) value self)) as [after r] eqn:E. exists (assign (KStr name) value self), after, r. cbn [fst snd].
  split; auto. split; auto. split; intros k; rewrite lookup_assign; auto.
Qed.
Print Assumptions C63_restored.
Theorem C63_nested {A} (body : dict -> dict * res A) patches : forall self name orig, In name (map fst patches) -> lookup (KStr name) self = Some orig ->
  lookup (KStr name) (fst (nested patches body self)) = Some orig.
Proof.
  induction patches as [|[n v] patches IH]; intros self name orig HI H; [destruct HI|]. cbn [nested]. destruct (lookup (KStr n) self) as [o|] eqn:E.
  - destruct (C63_restored (nested patches body) n v self o E) as (inside & after & r & B & _ & HI' & HA). rewrite HA. cbn [key_eqb]. destruct (String.eqb_spec name n) as [->|N]; [congruence|].
    destruct HI as [Q|HI]; [cbn in Q; congruence|]. replace after with (fst (nested patches body inside)) by (rewrite B; auto). apply IH; auto. rewrite HI'. cbn [key_eqb]. apply String.eqb_neq in N. rewrite N. auto.
  - unfold with_patch. rewrite E. auto.
Qed.
Print Assumptions C63_nested.
(** a body that changes and raises *)
Example C63_nontrivial : with_patch "n_features_in_" (VInt 8) (fun self => (assign (KStr "n_features_in_") (VInt 5) (assign (KStr "x") VNone self), @Err nat ValueError)) (DCons (KStr "n_features_in_") (VInt 2) DNil)
  = (DCons (KStr "n_features_in_") (VInt 2) (DCons (KStr "x") VNone DNil), Err ValueError).
Proof. reflexivity. Qed.

(** ** C65, HDF5 *)
(** hyper-parameters: None, or anything storable but the string "None" *)
Fixpoint savable_dict (d : dict) : Prop :=
  match d with DNil => True | DCons k v d => (exists s, k = KStr s /\ simple s) /\ ~ In k (keys d) /\ (v = VNone \/ storable v /\ v <> VStr "None") /\ savable_dict d end.
(** the value of a hyper-parameter or attribute after loading: None and strings as they were, otherwise as in C64 *)
Definition reloaded (v w : val) : Prop := match v with VNone => w = VNone | VStr s => w = VStr s | _ => restored v w end.
Lemma savable_storable d : savable_dict d -> storable_dict (none_to_str d).
Proof.
  unfold none_to_str. induction d as [|k v d IH]; cbn; auto. intros (Hk & N & Hv & Hd). rewrite keys_map. split; auto. split; auto. split; [|apply IH; auto]. destruct Hv as [->|[Hv _]]; [reflexivity|]. destruct v; auto; destruct Hv.
Qed.
Lemma restored_lookup d e k v : restored_dict d e -> lookup k d = Some v -> exists w, lookup k e = Some w /\ restored v w.
Proof. induction d as [|k' v' d IH]; cbn; [discriminate|]. intros (H & R) E. destruct (key_eqb k k') eqn:Q; auto. apply key_eqb_eq in Q. subst. injection E as <-. auto. Qed.
Lemma savable_lookup k v d : savable_dict d -> lookup k d = Some v -> v = VNone \/ storable v /\ v <> VStr "None".
Proof. induction d as [|k' v' d IH]; cbn; [discriminate|]. intros (_ & _ & Hv & Hd) E. destruct (key_eqb k k'); auto. congruence. Qed.
Definition fill (hyper : dict) : dict -> dict := fix fill s := match s with DNil => DNil | DCons k v s => DCons k (match lookup k hyper with Some w => w | None => v end) (fill s) end.
Lemma construct_ok signature hyper : (forall k, In k (keys hyper) -> In k (keys signature)) -> construct signature hyper = Ok (fill hyper signature).
Proof.
  intros H. unfold construct. assert (E : forallb (fun k => match lookup k signature with Some _ => true | None => false end) (keys hyper) = true).
  { apply forallb_forall. intros k Hk. apply H in Hk. apply In_lookup in Hk. destruct Hk as (v & ->). auto. }
  rewrite E. auto.
Qed.
Lemma fill_keys hyper s : keys (fill hyper s) = keys s.
Proof. induction s as [|k v s IH]; cbn; auto. rewrite IH. auto. Qed.
Lemma fill_lookup hyper s k w : In k (keys s) -> lookup k hyper = Some w -> lookup k (fill hyper s) = Some w.
Proof.
  induction s as [|k' v s IH]; cbn; [tauto|]. intros HI E. destruct (key_eqb k k') eqn:Q; [apply key_eqb_eq in Q; subst; rewrite E; auto|]. apply IH; auto. destruct HI as [->|HI]; auto. rewrite key_eqb_refl in Q. discriminate.
Qed.
Lemma simple_str s : split_slash s = [s] -> s <> "" -> s <> "." -> has_nul s = false -> simple s.
Proof.
  intros E H1 H2 H4. split; auto. split; auto. split; auto. clear H4. intros a b ->. rewrite split_app in E. pose proof (split_ne a). pose proof (split_ne b). destruct (split_slash a), (split_slash b); try congruence. cbn in E. destruct l; discriminate.
Qed.
(** The hyper-parameters (all those of the constructor's signature, as [get_params] gives them) and the fitted attributes are
    restored from the file. *)
Theorem C65_hdf5_partial signature hyper params : keys hyper = keys signature -> savable_dict hyper -> hyper <> DNil -> storable_dict params -> params <> DNil ->
  exists f inst attrs, to_hdf5 false hyper params = Ok f /\ from_hdf5 signature f = Ok (inst, attrs) /\ keys inst = keys hyper /\
    (forall k v, lookup k hyper = Some v -> exists w, lookup k inst = Some w /\ reloaded v w) /\
    (forall k, In k (keys attrs) <-> In k (keys params)) /\ NoDup (keys attrs) /\ (forall k v, lookup k params = Some v -> exists w, lookup k attrs = Some w /\ reloaded v w).
Proof.
  intros HK HH NH HP NP. set (d := package (none_to_str hyper) params).
  assert (SD : storable_dict d).
  { unfold d, package. cbn [storable_dict keys In]. split; [eexists; split; auto; apply simple_str; auto; discriminate|]. split; [intuition discriminate|].
    split; [split; [destruct hyper; [congruence|discriminate]|apply savable_storable; auto]|]. split; [eexists; split; auto; apply simple_str; auto; discriminate|]. split; [tauto|]. split; auto. split; auto. }
  destruct (load_flat d "data" SD) as (e & L & ND & K & R); [discriminate|]. exists (push "data" (flat d)).
  destruct (restored_lookup d e (KStr "hyper_params") (VDict (none_to_str hyper)) R eq_refl) as (wh & Lh & (eh & -> & NDh & Kh & Rh)).
  destruct (restored_lookup d e (KStr "model_params") (VDict params) R eq_refl) as (wp & Lp & (ep & -> & NDp & Kp & Rp)).
  set (h := str_to_none (byte2string eh)). assert (Kh' : keys h = keys eh) by (unfold h, str_to_none, byte2string; rewrite !keys_map; auto).
  exists (fill h signature), (byte2string ep). split; [apply save_dict_flat; auto; apply simple_str; auto; discriminate|]. split.
  - unfold from_hdf5. rewrite L. cbn [bind]. unfold sub. rewrite Lh, Lp. cbn [bind]. fold h. rewrite construct_ok; auto. intros k Hk. rewrite Kh' in Hk. apply Kh in Hk. unfold none_to_str in Hk. rewrite keys_map in Hk. congruence.
  - split; [rewrite fill_keys; auto|]. split; [|split; [|split]].
    + intros k v E. assert (E' : lookup k (none_to_str hyper) = Some (match v with VNone => VStr "None" | _ => v end)) by (unfold none_to_str; rewrite lookup_map, E; auto).
      destruct (restored_lookup _ _ _ _ Rh E') as (w & Lw & Rw).
      assert (Lh' : lookup k h = Some (match (match w with VBytes s => VStr s | _ => w end) with VStr s => if String.eqb s "None" then VNone else VStr s | u => u end)).
      { unfold h, str_to_none, byte2string. rewrite !lookup_map, Lw. cbn [option_map]. f_equal. destruct w; auto. }
      eexists. split; [apply fill_lookup; [rewrite <- HK; eapply lookup_In; eauto|exact Lh']|].
      destruct (savable_lookup _ _ _ HH E) as [->|[Sv Nv]]; [cbn in Rw; subst w; reflexivity|].
      destruct v as [|b|z|x|s|s|z|b|sh a|l|l|dd|dd|]; cbn in Sv; try tauto; cbn in Rw |- *; try (subst w; reflexivity).
      * subst w. destruct (String.eqb_spec s "None"); congruence.
      * destruct Rw as (e' & -> & Q1). exists e'. auto.
    + intros k. unfold byte2string. rewrite keys_map. split; [apply Kp|]. intros Hk. apply In_lookup in Hk. destruct Hk as (v & Ev). destruct (restored_lookup _ _ _ _ Rp Ev) as (w & Lw & _). eapply lookup_In; eauto.
    + unfold byte2string. rewrite keys_map. auto.
    + intros k v E. destruct (restored_lookup _ _ _ _ Rp E) as (w & Lw & Rw). unfold byte2string. rewrite lookup_map, Lw. cbn [option_map]. eexists. split; [reflexivity|].
      destruct (storable_lookup _ _ _ HP E) as (Sv & _). destruct v as [|b|z|x|s|s|z|b|sh a|l|l|dd|dd|]; cbn in Sv; try tauto; cbn in Rw |- *; try (subst w; reflexivity). destruct Rw as (e' & -> & Q1). exists e'. auto.
Qed.
Print Assumptions C65_hdf5_partial.
(** a k-means model *)
Example C65_nontrivial : exists signature hyper params, keys hyper = keys signature /\ savable_dict hyper /\ hyper <> DNil /\ storable_dict params /\ params <> DNil /\
  lookup (KStr "random_state") hyper = Some VNone /\ lookup (KStr "metric") hyper = Some (VStr "softdtw") /\ lookup (KStr "metric_params") hyper = Some (VDict (DCons (KStr "gamma") (VFloat (XR (IZR 2))) DNil)).
Proof.
  set (h := DCons (KStr "metric") (VStr "softdtw") (DCons (KStr "metric_params") (VDict (DCons (KStr "gamma") (VFloat (XR (IZR 2))) DNil)) (DCons (KStr "random_state") VNone DNil))).
  set (p := DCons (KStr "cluster_centers_") (VArr [1; 2; 1] (AFloat [XR (IZR 0); XR (IZR 1)])) (DCons (KStr "n_iter_") (VInt 7) DNil)).
  exists h, h, p. split; auto. unfold h, p. cbn [savable_dict storable_dict storable keys In].
  repeat match goal with |- _ /\ _ => split | |- exists s, KStr ?k = KStr s /\ _ => exists k; split; [reflexivity|apply simple_str; [reflexivity|discriminate|discriminate|reflexivity]] end; auto; try discriminate; try (intuition discriminate).
  all: right; split; [|discriminate]; first [reflexivity|cbn; split; [discriminate|split; [exists "gamma"; split; [reflexivity|apply simple_str; [reflexivity|discriminate|discriminate|reflexivity]]|tauto]]].
Qed.

(** What the saver accepts and does not come back: a string option inside a dictionary (as in [metric_params]) comes back as bytes;
    an empty dictionary and a function come back as the constructor's default; the string "None" as None. *)
Definition tiny : dict := DCons (KStr "n_iter_") (VInt 1) DNil.
Theorem C65_hdf5_refuted :
  (forall s, has_nul s = false -> exists f inst attrs, let hyper := DCons (KStr "metric_params") (VDict (DCons (KStr "global_constraint") (VStr s) DNil)) DNil in
     to_hdf5 false hyper tiny = Ok f /\ from_hdf5 hyper f = Ok (inst, attrs) /\ lookup (KStr "metric_params") inst = Some (VDict (DCons (KStr "global_constraint") (VBytes s) DNil))) /\
  (forall default v, v = VDict DNil \/ v = VObj DNil -> exists f inst attrs, let hyper := DCons (KStr "metric") v (DCons (KStr "n_jobs") VNone DNil) in
     to_hdf5 false hyper tiny = Ok f /\ from_hdf5 (DCons (KStr "metric") default (DCons (KStr "n_jobs") VNone DNil)) f = Ok (inst, attrs) /\ lookup (KStr "metric") inst = Some default) /\
  (exists f inst attrs, let hyper := DCons (KStr "kernel") (VStr "None") DNil in to_hdf5 false hyper tiny = Ok f /\ from_hdf5 hyper f = Ok (inst, attrs) /\ lookup (KStr "kernel") inst = Some VNone).
Proof.
  split; [|split].
  - intros s Hs. eexists. eexists. eexists. cbv zeta. split; [cbn; unfold write; cbn; rewrite Hs; reflexivity|]. split; reflexivity.
  - intros default v [-> | ->]; eexists; eexists; eexists; cbv zeta; (split; [reflexivity|]); split; reflexivity.
  - eexists. eexists. eexists. cbv zeta. split; [reflexivity|]. split; reflexivity.
Qed.
Print Assumptions C65_hdf5_refuted.

(** ** pickle: exact, but for bytes *)
Lemma fill_self d : NoDup (keys d) -> forall s, keys s = keys d -> fill d s = d.
Proof.
  intros ND s K. assert (G : forall s d0, keys s = keys d0 -> (forall k v, lookup k d0 = Some v -> lookup k d = Some v) -> NoDup (keys d0) -> fill d s = d0).
  { clear s K. induction s as [|k v s IH]; intros [|k0 v0 d0] K L N; try discriminate; auto. cbn in K. injection K as -> K. cbn. rewrite (L k0 v0) by (cbn; rewrite key_eqb_refl; auto). f_equal. inversion N; subst. apply IH; auto.
    intros k' v' E. apply L. cbn. destruct (key_eqb k' k0) eqn:Q; auto. apply key_eqb_eq in Q. subst. apply lookup_In in E. tauto. }
  apply G; auto.
Qed.
Lemma map_id f d : (forall k v, lookup k d = Some v -> f v = v) -> NoDup (keys d) -> map_values f d = d.
Proof.
  induction d as [|k v d IH]; intros H N; auto. inversion N; subst. cbn. rewrite (H k v) by (cbn; rewrite key_eqb_refl; auto). f_equal. apply IH; auto. intros k' v' E. apply (H k' v'). cbn.
  destruct (key_eqb k' k) eqn:Q; auto. apply key_eqb_eq in Q. subst. apply lookup_In in E. tauto.
Qed.
Theorem C65_pickle signature hyper params : keys hyper = keys signature -> NoDup (keys hyper) -> NoDup (keys params) ->
  (forall k s, lookup k hyper <> Some (VBytes s)) -> (forall k s, lookup k params <> Some (VBytes s)) -> pickle_roundtrip signature hyper params = Ok (hyper, params).
Proof.
  intros K N1 N2 B1 B2. unfold pickle_roundtrip. assert (E : forall d, NoDup (keys d) -> (forall k s, lookup k d <> Some (VBytes s)) -> byte2string d = d).
  { intros d N B. apply map_id; auto. intros k v E. destruct v; auto. exfalso. eapply B; eauto. }
  rewrite !E by auto. rewrite construct_ok by (rewrite K; auto). cbn [bind]. rewrite fill_self; auto.
Qed.
Print Assumptions C65_pickle.

(** ** C105: saving a loaded model again *)
Lemma bad_item d k v : lookup k d = Some v -> (match v with VNone | VBytes _ | VNpBool _ | VList _ | VTuple _ | VOpaque => True | _ => False end) -> forall p f, exists e, dicts_to_group p d f = Err e.
Proof.
  induction d as [|k' v' d IH]; intros E Hv p f; [discriminate|]. cbn [dicts_to_group]. cbn in E. destruct (key_eqb k k').
  - injection E as ->. destruct v; try tauto; cbn; eauto.
  - destruct (item_to_group p k' v' f) as [f'|e]; cbn [bind]; eauto.
Qed.
(** what a loaded model can be saved from again: no booleans, and strings only at the top *)
Fixpoint steady (v : val) : Prop :=
  match v with VBool _ | VStr _ => False | VDict d => steady_dict d | _ => True end
with steady_dict (d : dict) : Prop := match d with DNil => True | DCons _ v d => steady v /\ steady_dict d end.
Definition steady_top (d : dict) : Prop := forall k v, lookup k d = Some v -> steady v \/ exists s, v = VStr s.
Lemma storable_all d : NoDup (keys d) -> (forall k v, lookup k d = Some v -> (exists s, k = KStr s /\ simple s) /\ storable v) -> storable_dict d.
Proof.
  induction d as [|k v d IH]; intros N H; cbn; auto. inversion N; subst. destruct (H k v) as (A & B); [cbn; rewrite key_eqb_refl; auto|]. split; auto. split; auto. split; auto. apply IH; auto. intros k' v' E. apply H. cbn.
  destruct (key_eqb k' k) eqn:Q; auto. apply key_eqb_eq in Q. subst. apply lookup_In in E. tauto.
Qed.
Lemma steady_lookup k v d : steady_dict d -> lookup k d = Some v -> steady v.
Proof. induction d as [|k' v' d IH]; cbn; [discriminate|]. intros (A & B) E. destruct (key_eqb k k'); auto. congruence. Qed.
Lemma steady_storable : forall v, storable v -> steady v -> forall w, restored v w -> storable w.
Proof.
  apply (val_mut (fun v => storable v -> steady v -> forall w, restored v w -> storable w)
    (fun d => storable_dict d -> steady_dict d -> forall k v, lookup k d = Some v -> forall w, restored v w -> storable w) (fun _ => True)); auto; try (intros; cbn in *; subst; cbn; tauto).
  - intros d IH (NE & H) HS w (e & -> & ND & K & R). cbn. split.
    + intros ->. destruct d as [|k v d]; [congruence|]. destruct R as ((w & Lw & _) & _). discriminate.
    + apply storable_all; auto. intros k w Lw. pose proof (K k (lookup_In _ _ _ Lw)) as Ik. apply In_lookup in Ik. destruct Ik as (v & Lv). destruct (storable_lookup _ _ _ H Lv) as (_ & Hs). split; auto.
      destruct (restored_lookup _ _ _ _ R Lv) as (w' & Lw' & Rw). replace w' with w in Rw by congruence. eapply IH; eauto.
  - intros _ _ k v E. discriminate.
  - intros k v IHv d IHd (_ & _ & Hv & Hd) (Sv & Sd) k' v' E w R. cbn in E. destruct (key_eqb k' k); [injection E as <-; eapply IHv; eauto|eapply IHd; eauto].
Qed.
Lemma savable_all d : NoDup (keys d) -> (forall k v, lookup k d = Some v -> (exists s, k = KStr s /\ simple s) /\ (v = VNone \/ storable v /\ v <> VStr "None")) -> savable_dict d.
Proof.
  induction d as [|k v d IH]; intros N H; cbn; auto. inversion N; subst. destruct (H k v) as (A & B); [cbn; rewrite key_eqb_refl; auto|]. split; auto. split; auto. split; auto. apply IH; auto. intros k' v' E. apply H. cbn.
  destruct (key_eqb k' k) eqn:Q; auto. apply key_eqb_eq in Q. subst. apply lookup_In in E. tauto.
Qed.
Lemma savable_key k v d : savable_dict d -> lookup k d = Some v -> exists s, k = KStr s /\ simple s.
Proof. induction d as [|k' v' d IH]; cbn; [discriminate|]. intros (Hk & _ & _ & Hd) E. destruct (key_eqb k k') eqn:Q; auto. apply key_eqb_eq in Q. subst. auto. Qed.
Lemma savable_NoDup d : savable_dict d -> NoDup (keys d).
Proof. induction d as [|k v d IH]; cbn; [constructor|]. intros (_ & N & _ & H). constructor; auto. Qed.
Lemma reloaded_storable v w : storable v -> steady v \/ (exists s, v = VStr s) -> reloaded v w -> storable w.
Proof. intros H [S|(s & ->)] R; [|cbn in R; subst; auto]. destruct v; try (eapply steady_storable; eauto; fail); cbn in S; tauto. Qed.
Theorem C105_resave_partial signature hyper params : keys hyper = keys signature -> savable_dict hyper -> hyper <> DNil -> storable_dict params -> params <> DNil -> steady_top hyper -> steady_top params ->
  exists f inst attrs, to_hdf5 false hyper params = Ok f /\ from_hdf5 signature f = Ok (inst, attrs) /\ exists f', to_hdf5 false inst attrs = Ok f'.
Proof.
  intros HK HH NH HP NP SH SP. destruct (C65_hdf5_partial signature hyper params HK HH NH HP NP) as (f & inst & attrs & E1 & E2 & K & R & KA & ND & RA). exists f, inst, attrs. split; auto. split; auto.
  destruct (C65_hdf5_partial signature inst attrs) as (f' & _ & _ & E' & _); [congruence| | | | |eauto].
  - apply savable_all; [rewrite K; apply savable_NoDup; auto|]. intros k w Lw. pose proof (lookup_In _ _ _ Lw) as I. rewrite K in I. apply In_lookup in I. destruct I as (v & Lv). split; [eapply savable_key; eauto|].
    destruct (R k v Lv) as (w' & Lw' & Rw). replace w' with w in Rw by congruence. destruct (savable_lookup _ _ _ HH Lv) as [->|(Sv & Nv)]; [left; auto|]. right. split; [eapply reloaded_storable; eauto|].
    intros ->. destruct v as [|b|z|x|s|s|z|b|sh a|l|l|dd|dd|]; cbn in Sv, Rw; try tauto; try discriminate; [congruence|]. destruct Rw as (e & Q & _). discriminate.
  - intros ->. destruct hyper; [congruence|discriminate].
  - apply storable_all; auto. intros k w Lw. pose proof (lookup_In _ _ _ Lw) as I. apply KA in I. apply In_lookup in I. destruct I as (v & Lv). destruct (storable_lookup _ _ _ HP Lv) as (Sv & Sk). split; auto.
    destruct (RA k v Lv) as (w' & Lw' & Rw). replace w' with w in Rw by congruence. eapply reloaded_storable; eauto.
  - intros ->. destruct params as [|k v d]; [congruence|]. apply (KA k). left. auto.
Qed.
Print Assumptions C105_resave_partial.
(** A model with a boolean hyper-parameter can be saved, but not again once it has been loaded: h5py gives a numpy.bool_, which the
    saver refuses. *)
Theorem C105_bool_refuted signature hyper params k b : keys hyper = keys signature -> savable_dict hyper -> storable_dict params -> params <> DNil -> lookup k hyper = Some (VBool b) ->
  exists f inst attrs, to_hdf5 false hyper params = Ok f /\ from_hdf5 signature f = Ok (inst, attrs) /\ exists e, to_hdf5 false inst attrs = Err e.
Proof.
  intros HK HH HP NP L. assert (NH : hyper <> DNil) by (intros ->; discriminate). destruct (C65_hdf5_partial signature hyper params HK HH NH HP NP) as (f & inst & attrs & E1 & E2 & K & R & _). exists f, inst, attrs. split; auto. split; auto.
  destruct (R k _ L) as (w & Lw & Rw). cbn in Rw. subst w. unfold to_hdf5, save_dict. cbn [package dicts_to_group item_to_group].
  assert (L' : lookup k (none_to_str inst) = Some (VNpBool b)) by (unfold none_to_str; rewrite lookup_map, Lw; auto). destruct (bad_item _ _ _ L' I (("data" ++ "/") ++ str_of_key (KStr "hyper_params") ++ "/")%string []) as (e & E). exists e. unfold package. cbn [dicts_to_group item_to_group]. rewrite E. auto.
Qed.
Print Assumptions C105_bool_refuted.

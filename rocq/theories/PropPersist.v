(** C64, C65: HDF5 files give back what was saved. *)
From Coq Require Import Bool List Arith ZArith Lia Reals Ascii String FinFun.
From Verif Require Import Num Py PersistModel.
Import ListNotations.
Local Open Scope string_scope.
Local Open Scope list_scope.
Local Open Scope nat_scope.

(** ** Specification *)
(** a name that HDF5 takes as it is *)
Definition simple (s : string) : Prop := s <> "" /\ s <> "." /\ (forall a b, s <> (a ++ String "/" b)%string) /\ has_nul s = false.
(** nested dictionaries with such names as keys, no empty dictionary inside, and numbers, strings and arrays as values *)
Fixpoint storable (v : val) : Prop :=
  match v with
  | VBool _ | VInt _ | VFloat _ | VNpInt _ => True
  | VStr s => has_nul s = false
  | VArr _ (AStr _ l) => forall s, In s l -> has_nul s = false /\ is_ascii s = true
  | VArr _ _ => True
  | VDict d => d <> DNil /\ storable_dict d
  | _ => False
  end
with storable_dict (d : dict) : Prop :=
  match d with DNil => True | DCons k v d => (exists s, k = KStr s /\ simple s) /\ ~ In k (keys d) /\ storable v /\ storable_dict d end.
(** [restored v w]: [w] is [v], up to the order in dictionaries, numpy scalars for Python numbers, and bytes for strings *)
Fixpoint restored (v w : val) : Prop :=
  match v with
  | VDict d => exists e, w = VDict e /\ NoDup (keys e) /\ (forall k, In k (keys e) -> In k (keys d)) /\ restored_dict d e
  | VStr s => w = VBytes s
  | VInt z => w = VNpInt z
  | VBool b => w = VNpBool b
  | _ => w = v
  end
with restored_dict (d e : dict) : Prop :=
  match d with DNil => True | DCons k v d => (exists w, lookup k e = Some w /\ restored v w) /\ restored_dict d e end.

Scheme val_mut := Induction for val Sort Prop with dict_mut := Induction for dict Sort Prop with vals_mut := Induction for vals Sort Prop.

(** ** names and paths *)
Lemma app_assoc_s (a b c : string) : ((a ++ b) ++ c = a ++ (b ++ c))%string.
Proof. induction a as [|x a IH]; cbn; auto. rewrite IH. auto. Qed.
Lemma split_ne s : split_slash s <> [].
Proof. induction s as [|c s IH]; cbn; [discriminate|]. destruct (Ascii.eqb _ _); [discriminate|]. destruct (split_slash s); discriminate. Qed.
Lemma split_app p q : split_slash (p ++ String "/" q)%string = split_slash p ++ split_slash q.
Proof.
  induction p as [|c p IH]; cbn [String.append split_slash]; [reflexivity|]. rewrite IH. destruct (Ascii.eqb c "/"); auto.
  pose proof (split_ne p). destruct (split_slash p); auto. congruence.
Qed.
Lemma split_simple s : (forall a b, s <> (a ++ String "/" b)%string) -> split_slash s = [s].
Proof.
  induction s as [|c s IH]; intros H; cbn; auto. destruct (Ascii.eqb_spec c "/").
  - exfalso. apply (H "" s). subst. auto.
  - rewrite IH; auto. intros a b E. apply (H (String c a) b). cbn. congruence.
Qed.
Lemma comp_slash p : components (p ++ "/")%string = components p.
Proof. unfold components. rewrite split_app. rewrite filter_app. cbn. apply app_nil_r. Qed.
Lemma comp_key p k : simple k -> components ((p ++ "/") ++ k)%string = components (p ++ "/")%string ++ [k].
Proof.
  intros (H1 & H2 & H3 & _). rewrite comp_slash. rewrite app_assoc_s. cbn [String.append]. unfold components. rewrite split_app, filter_app, (split_simple k H3). cbn [filter].
  apply String.eqb_neq in H1, H2. rewrite H1, H2. auto.
Qed.
Lemma prefixb_spec a b : prefixb a b = true <-> exists r, b = a ++ r.
Proof.
  revert b. induction a as [|x a IH]; intros b; cbn; [split; eauto|]. destruct b as [|y b]; [split; [discriminate|intros (r & E); discriminate]|].
  rewrite andb_true_iff, String.eqb_eq, IH. split; [intros (-> & r & ->); exists r; auto|intros (r & E); injection E as -> ->; eauto].
Qed.
Lemma key_eqb_eq a b : key_eqb a b = true <-> a = b.
Proof. destruct a, b; cbn; try rewrite String.eqb_eq; try rewrite Z.eqb_eq; split; congruence. Qed.
Lemma key_eqb_refl a : key_eqb a a = true.
Proof. apply key_eqb_eq. auto. Qed.
Lemma lookup_In k d v : lookup k d = Some v -> In k (keys d).
Proof. induction d as [|k' v' d IH]; cbn; [discriminate|]. destruct (key_eqb k k') eqn:E; [apply key_eqb_eq in E; auto|auto]. Qed.
Lemma In_lookup k d : In k (keys d) -> exists v, lookup k d = Some v.
Proof.
  induction d as [|k' v' d IH]; cbn; [tauto|]. intros [->|H]; [rewrite key_eqb_refl; eauto|]. destruct (key_eqb k k'); eauto.
Qed.

(** ** saving: the datasets of a dictionary, with relative paths *)
Definition push (k : string) (f : store) : store := map (fun e => (k :: fst e, snd e)) f.
Fixpoint flat_val (v : val) : store := match v with VDict d => flat d | _ => [([], v)] end
with flat (d : dict) : store := match d with DNil => [] | DCons k v d => push (str_of_key k) (flat_val v) ++ flat d end.
Definition under (c : list string) (f : store) : store := map (fun e => (c ++ fst e, snd e)) f.
Lemma under_app c f g : under c (f ++ g) = under c f ++ under c g.
Proof. apply map_app. Qed.
Lemma under_push c k f : under c (push k f) = under (c ++ [k]) f.
Proof. unfold under, push. rewrite map_map. apply map_ext. intros e. cbn. rewrite <- app_assoc. auto. Qed.
Definition free (c : list string) (f : store) (k : string) : Prop := forall e, In e f -> prefixb (fst e) (c ++ [k]) = false /\ prefixb (c ++ [k]) (fst e) = false.
Lemma app_snoc_eq (a b r : list string) k : a ++ [k] = b ++ r -> (r = [] /\ b = a ++ [k]) \/ exists r', r = r' ++ [k] /\ a = b ++ r'.
Proof.
  destruct r as [|x r _] using rev_ind; intros E; [rewrite app_nil_r in E; auto|]. right. rewrite app_assoc in E. apply app_inj_tail in E. destruct E as (-> & ->). eauto.
Qed.
Lemma prefix_app_false a b r : prefixb a b = false -> prefixb b a = false -> prefixb a (b ++ r) = false.
Proof.
  revert b. induction a as [|x a IH]; intros b; [discriminate|]. destruct b as [|y b]; [discriminate|]. cbn. destruct (String.eqb_spec x y) as [->|N]; cbn; auto. rewrite String.eqb_refl. cbn. apply IH.
Qed.
Lemma prefix_app_false' a b r : prefixb b a = false -> prefixb (b ++ r) a = false.
Proof.
  intros H. destruct (prefixb (b ++ r) a) eqn:E; auto. apply prefixb_spec in E. destruct E as (t & ->). rewrite <- app_assoc in H.
  assert (prefixb b (b ++ r ++ t) = true) by (apply prefixb_spec; eauto). congruence.
Qed.
Lemma free_deeper c f k k' : free c f k -> free (c ++ [k]) f k'.
Proof. intros H e He. destruct (H e He) as (A & B). split; [apply prefix_app_false; auto|apply prefix_app_false'; auto]. Qed.
Lemma snoc_prefix (c : list string) k k' r : k <> k' -> prefixb (c ++ k :: r) (c ++ [k']) = false /\ prefixb (c ++ [k']) (c ++ k :: r) = false.
Proof.
  intros N. induction c as [|x c IH]; cbn.
  - apply String.eqb_neq in N. rewrite N. rewrite String.eqb_sym in N. rewrite N. auto.
  - rewrite String.eqb_refl. auto.
Qed.
Lemma write_ok p k v f : simple k -> free (components (p ++ "/")%string) f k ->
  (match v with VStr s => has_nul s | VArr _ (AStr _ l) => existsb has_nul l | _ => false end) = false ->
  write f ((p ++ "/") ++ k)%string v = Ok (f ++ [(components (p ++ "/")%string ++ [k], v)]).
Proof.
  intros Hk Hf Hn. unfold write. rewrite comp_key by auto. rewrite Hn. set (c := components _ ++ [k]).
  assert (E0 : match c with [] => true | _ => false end = false) by (unfold c; destruct (components _); auto). rewrite E0. cbn [orb].
  match goal with |- context [existsb ?g f] => assert (EX : existsb g f = false) end.
  { match goal with |- existsb ?g f = _ => destruct (existsb g f) eqn:E end; auto. apply existsb_exists in E. destruct E as (e & He & E'). destruct (Hf e He) as (E1 & E2). fold c in E1, E2. rewrite E1, E2 in E'. discriminate. }
  rewrite EX. auto.
Qed.
Lemma save_both : (forall v, storable v -> forall p k f, simple k -> free (components (p ++ "/")%string) f k ->
       item_to_group (p ++ "/")%string (KStr k) v f = Ok (f ++ under (components (p ++ "/")%string) (push k (flat_val v)))) /\
  (forall d, storable_dict d -> forall p f, (forall s, In (KStr s) (keys d) -> free (components (p ++ "/")%string) f s) ->
       dicts_to_group (p ++ "/")%string d f = Ok (f ++ under (components (p ++ "/")%string) (flat d))).
Proof.
  set (P := fun v => storable v -> forall p k f, simple k -> free (components (p ++ "/")%string) f k ->
       item_to_group (p ++ "/")%string (KStr k) v f = Ok (f ++ under (components (p ++ "/")%string) (push k (flat_val v)))).
  set (Q := fun d => storable_dict d -> forall p f, (forall s, In (KStr s) (keys d) -> free (components (p ++ "/")%string) f s) ->
       dicts_to_group (p ++ "/")%string d f = Ok (f ++ under (components (p ++ "/")%string) (flat d))).
  assert (HL : forall v, P v /\ True -> P v) by tauto.
  assert (C1 : forall d, Q d -> P (VDict d)).
  { intros d IH HS p k f Hk Hf. cbn [item_to_group flat_val str_of_key]. destruct HS as (_ & HS). rewrite <- app_assoc_s. rewrite IH; auto.
    - rewrite comp_slash, comp_key by auto. rewrite under_push. auto.
    - intros s Hs. rewrite comp_slash, comp_key by auto. apply free_deeper. auto. }
  assert (C2 : Q DNil) by (intros _ p f _; cbn; rewrite app_nil_r; auto).
  assert (C3 : forall k v d, P v -> Q d -> Q (DCons k v d)).
  { intros k v d IHv IHd ((s & -> & Hs) & HN & Hv & Hd) p f HF. cbn [dicts_to_group flat str_of_key]. rewrite IHv; auto; [|apply HF; left; auto]. cbn [bind]. rewrite IHd; auto.
    - rewrite under_app, app_assoc. auto.
    - intros s' Hs' e He. apply in_app_iff in He. destruct He as [He|He]; [apply (HF s'); [right; auto|auto]|].
      assert (NE : s <> s') by congruence. unfold under, push in He. rewrite map_map in He. apply in_map_iff in He. destruct He as (e0 & <- & _). cbn [fst]. apply snoc_prefix. auto. }
  split; [apply (val_mut P Q (fun _ => True))|apply (dict_mut P Q (fun _ => True))]; auto; unfold P; try (intros; cbn in *; tauto);
  intros; cbn [item_to_group flat_val push under map]; rewrite write_ok; auto.
  all: match goal with H : storable (VArr _ ?a) |- _ => destruct a as [l|l|w l] end; auto; cbn in H; destruct (existsb has_nul l) eqn:E; auto; apply existsb_exists in E; destruct E as (x & Hx & E); destruct (H x Hx); congruence.
Qed.
Lemma save_dict_flat d g : storable_dict d -> simple g -> save_dict false d g = Ok (push g (flat d)).
Proof.
  intros H Hg. unfold save_dict. destruct save_both as (_ & A). rewrite A; auto; [|intros s _ e []]. cbn [app]. rewrite comp_slash. unfold components. destruct Hg as (H1 & H2 & H3 & _). rewrite (split_simple g H3). cbn [filter].
  apply String.eqb_neq in H1, H2. rewrite H1, H2. reflexivity.
Qed.

(** ** loading *)
Lemma below_app k f g : below k (f ++ g) = below k f ++ below k g.
Proof. unfold below. rewrite filter_app, map_app. auto. Qed.
Lemma below_cons k e f : prefixb [k] (fst e) = true -> below k (e :: f) = (tl (fst e), snd e) :: below k f.
Proof. intros H. unfold below. cbn [filter]. rewrite H. auto. Qed.
Lemma below_skip k e f : prefixb [k] (fst e) = false -> below k (e :: f) = below k f.
Proof. intros H. unfold below. cbn [filter]. rewrite H. auto. Qed.
Lemma below_push k f : below k (push k f) = f.
Proof.
  induction f as [|e f IH]; auto. cbn [push map]. rewrite below_cons; [|cbn; rewrite String.eqb_refl; auto]. fold (push k f). rewrite IH. destruct e. auto.
Qed.
Lemma below_push_other k k' f : k <> k' -> below k (push k' f) = [].
Proof. intros N. induction f as [|e f IH]; auto. cbn [push map]. rewrite below_skip; auto. cbn. apply String.eqb_neq in N. rewrite N. auto. Qed.
Lemma below_absent k d : storable_dict d -> ~ In (KStr k) (keys d) -> below k (flat d) = [].
Proof.
  induction d as [|k' v d IH]; intros H N; auto. destruct H as ((s & -> & _) & _ & _ & Hd). cbn [flat str_of_key]. rewrite below_app, below_push_other, IH; auto; cbn in N; [tauto|]. intros ->. tauto.
Qed.
Lemma below_flat k v d : storable_dict d -> lookup (KStr k) d = Some v -> below k (flat d) = flat_val v.
Proof.
  induction d as [|k' v' d IH]; intros H E; [discriminate|]. destruct H as ((s & -> & _) & N & _ & Hd). cbn [flat str_of_key]. rewrite below_app. cbn [lookup key_eqb] in E. destruct (String.eqb_spec k s) as [->|NE].
  - injection E as ->. rewrite below_push, below_absent, app_nil_r; auto.
  - rewrite below_push_other by auto. apply IH; auto.
Qed.
Lemma flat_ne v : storable v -> flat_val v <> [].
Proof.
  revert v. apply (val_mut (fun v => storable v -> flat_val v <> []) (fun d => storable_dict d -> d <> DNil -> flat d <> []) (fun _ => True)); auto; try (intros; cbn in *; discriminate).
  - intros d IH (N & H). cbn. auto.
  - intros k v IHv d IHd ((s & -> & _) & _ & Hv & Hd) _. cbn. specialize (IHv Hv). destruct (flat_val v); [congruence|]. discriminate.
Qed.
Lemma members_flat k d : storable_dict d -> In k (members (flat d)) <-> In (KStr k) (keys d).
Proof.
  intros H. unfold members. rewrite nodup_In. induction d as [|k' v d IH]; [cbn; tauto|]. destruct H as ((s & -> & _) & _ & Hv & Hd). cbn [flat keys str_of_key]. rewrite map_app, in_app_iff, IH by auto.
  cbn [In]. assert (E : In k (map (fun e => hd "" (fst e)) (push s (flat_val v))) <-> s = k).
  { pose proof (flat_ne v Hv) as NE. unfold push. rewrite map_map. cbn. split.
    - intros Hi. apply in_map_iff in Hi. destruct Hi as (_ & E & _). auto.
    - intros ->. destruct (flat_val v) as [|e l]; [congruence|]. left. auto. }
  rewrite E. split; intros [A|A]; auto; left; congruence.
Qed.
Lemma storable_lookup k v d : storable_dict d -> lookup k d = Some v -> storable v /\ exists s, k = KStr s /\ simple s.
Proof.
  induction d as [|k' v' d IH]; intros H E; [discriminate|]. destruct H as ((s & -> & Hs) & _ & Hv & Hd). cbn [lookup] in E. destruct (key_eqb k (KStr s)) eqn:Q; [apply key_eqb_eq in Q; injection E as <-; eauto|auto].
Qed.
Definition child (fuel : nat) (f : store) (k : string) : res val :=
  match dataset (below k f) with
  | Some v => read v
  | None => match fuel with O => Ok (VDict DNil) | S fuel => do d <- dicts_from_group fuel (below k f) ;; Ok (VDict d) end
  end.
Lemma load_unfold fuel f : dicts_from_group fuel f = fold_right (fun k r => do v <- child fuel f k ;; do r <- r ;; Ok (DCons (KStr k) v r)) (Ok DNil) (members f).
Proof. destruct fuel; reflexivity. Qed.
Lemma collect fuel f ks : NoDup ks -> (forall k, In k ks -> exists w, child fuel f k = Ok w) ->
  exists e, fold_right (fun k r => do v <- child fuel f k ;; do r <- r ;; Ok (DCons (KStr k) v r)) (Ok DNil) ks = Ok e /\ keys e = map KStr ks /\
    forall k w, In k ks -> child fuel f k = Ok w -> lookup (KStr k) e = Some w.
Proof.
  induction ks as [|k ks IH]; intros ND H; [exists DNil; cbn; repeat split; tauto|]. inversion ND; subst. destruct IH as (e & E & K & L); auto; [intros k' Hk'; apply H; right; auto|].
  destruct (H k (or_introl eq_refl)) as (w & W). cbn [fold_right]. rewrite W, E. cbn [bind]. exists (DCons (KStr k) w e). split; auto. split; [cbn; rewrite K; auto|].
  intros k' w' [<-|Hk'] W'; cbn [lookup key_eqb].
  - rewrite String.eqb_refl. congruence.
  - destruct (String.eqb_spec k' k) as [->|N]; [tauto|]. apply L; auto.
Qed.
Lemma dataset_flat d : dataset (flat d) = None.
Proof.
  unfold dataset. assert (G : forall f, (forall e, In e f -> fst e <> []) -> find (fun e : list string * val => match fst e with [] => true | _ => false end) f = None).
  { intros f. induction f as [|e f IH]; intros H; auto. cbn. destruct (fst e) eqn:E; [exfalso; apply (H e); auto; left; auto|]. apply IH. intros e' He'. apply H. right. auto. }
  rewrite G; auto. clear G. induction d as [|k v d IH]; cbn; [tauto|]. intros e He. apply in_app_iff in He. destruct He as [He|He]; auto. unfold push in He. apply in_map_iff in He. destruct He as (e0 & <- & _). discriminate.
Qed.
Definition fits (fuel : nat) (f : store) : Prop := forall e, In e f -> List.length (fst e) <= fuel.
Lemma fits_below fuel k f : fits (S fuel) f -> fits fuel (below k f).
Proof.
  intros H e He. unfold below in He. apply in_map_iff in He. destruct He as (e0 & <- & He0). apply filter_In in He0. destruct He0 as (He0 & E). apply H in He0. destruct (fst e0); cbn in *; [discriminate|lia].
Qed.
Lemma restored_all d e : (forall k v, lookup k d = Some v -> exists w, lookup k e = Some w /\ restored v w) -> NoDup (keys d) -> restored_dict d e.
Proof.
  induction d as [|k v d IH]; intros H ND; cbn; auto. inversion ND; subst. split; [apply (H k v); cbn; rewrite key_eqb_refl; auto|]. apply IH; auto. intros k' v' E. apply H. cbn.
  destruct (key_eqb k' k) eqn:Q; auto. apply key_eqb_eq in Q. subst. apply lookup_In in E. tauto.
Qed.
Lemma storable_NoDup d : storable_dict d -> NoDup (keys d).
Proof. induction d as [|k v d IH]; cbn; [constructor|]. intros (_ & N & _ & H). constructor; auto. Qed.
Lemma load_dict_flat d : (forall k v, lookup k d = Some v -> forall fuel f, fits fuel f -> below (str_of_key k) f = flat_val v -> exists w, child fuel f (str_of_key k) = Ok w /\ restored v w) -> storable_dict d ->
  forall fuel, fits fuel (flat d) -> exists e, dicts_from_group fuel (flat d) = Ok e /\ NoDup (keys e) /\ (forall k, In k (keys e) <-> In k (keys d)) /\ restored_dict d e.
Proof.
  intros IH H fuel HF. rewrite load_unfold. destruct (collect fuel (flat d) (members (flat d))) as (e & E & K & L).
  - apply NoDup_nodup.
  - intros k Hk. apply (members_flat k d H) in Hk. destruct (In_lookup _ _ Hk) as (v & Ev). destruct (IH _ _ Ev fuel (flat d) HF (below_flat k v d H Ev)) as (w & W & _). eauto.
  - exists e. split; auto. rewrite K. split; [apply Injective_map_NoDup; [intros a b Q; congruence|apply NoDup_nodup]|].
    assert (KK : forall k, In k (map KStr (members (flat d))) <-> In k (keys d)).
    { intros k. rewrite in_map_iff. split.
      - intros (s & <- & Hs). apply members_flat in Hs; auto.
      - intros Hk. destruct (In_lookup _ _ Hk) as (v & Ev). destruct (storable_lookup _ _ _ H Ev) as (_ & s & -> & _). exists s. split; auto. apply members_flat; auto. }
    split; auto. apply restored_all; [|apply storable_NoDup; auto]. intros k v Ev. destruct (storable_lookup _ _ _ H Ev) as (_ & s & -> & _).
    destruct (IH _ _ Ev fuel (flat d) HF (below_flat s v d H Ev)) as (w & W & R). exists w. split; auto. apply L; auto. apply members_flat; auto. eapply lookup_In; eauto.
Qed.
Lemma child_flat : forall v, storable v -> forall k fuel f, fits fuel f -> below k f = flat_val v -> exists w, child fuel f k = Ok w /\ restored v w.
Proof.
  apply (val_mut (fun v => storable v -> forall k fuel f, fits fuel f -> below k f = flat_val v -> exists w, child fuel f k = Ok w /\ restored v w)
    (fun d => storable_dict d -> forall k v, lookup k d = Some v -> forall s fuel f, fits fuel f -> below s f = flat_val v -> exists w, child fuel f s = Ok w /\ restored v w) (fun _ => True)); auto;
  try (intros; cbn in *; tauto); try (intros; unfold child; match goal with E : below _ _ = _ |- _ => rewrite E end; cbn; eexists; split; reflexivity).
  - intros sh a H k fuel f _ E. unfold child. rewrite E. destruct a as [l|l|w l]; cbn; try (eexists; split; reflexivity). cbn in H.
    assert (A : forallb is_ascii l = true) by (apply forallb_forall; intros x Hx; apply H; auto). rewrite A. eexists. split; reflexivity.
  - intros d IH (NE & H) k fuel f HF E. unfold child. rewrite E. cbn [flat_val]. rewrite dataset_flat. destruct fuel as [|fuel].
    + exfalso. pose proof (flat_ne (VDict d) (conj NE H)) as N. cbn in N. cbn in E. rewrite <- E in N. apply N. unfold below. destruct (filter _ f) as [|e l] eqn:Q; auto. exfalso.
      assert (Ie : In e (filter (fun e => prefixb [k] (fst e)) f)) by (rewrite Q; left; auto). apply filter_In in Ie. destruct Ie as (Ie & P). apply HF in Ie. destruct (fst e); cbn in *; [discriminate|lia].
    + destruct (load_dict_flat d) with (fuel := fuel) as (e & L & ND & KK & R); auto.
      * intros k' v' Ev fuel' f' HF' Eb. eapply IH; eauto.
      * change (flat d) with (flat_val (VDict d)). rewrite <- E. apply fits_below. auto.
      * rewrite L. cbn [bind]. exists (VDict e). split; auto. exists e. split; auto. split; auto. split; auto. intros k' Hk'. apply KK. auto.
  - intros _ k v E. discriminate.
  - intros k v IHv d IHd (_ & _ & Hv & Hd) k' v' E s fuel f HF B. cbn in E. destruct (key_eqb k' k); [injection E as <-; eapply IHv; eauto|eapply IHd; eauto].
Qed.
Lemma load_flat d g : storable_dict d -> d <> DNil -> exists e, load_dict (push g (flat d)) g = Ok e /\ NoDup (keys e) /\ (forall k, In k (keys e) <-> In k (keys d)) /\ restored_dict d e.
Proof.
  intros H N. unfold load_dict. rewrite below_push. pose proof (flat_ne (VDict d) (conj N H)) as NE. cbn in NE. destruct (flat d) as [|x l] eqn:E; [congruence|]. rewrite <- E.
  apply load_dict_flat; auto.
  - intros k v Ev fuel f HF B. destruct (storable_lookup _ _ _ H Ev) as (Hv & _). eapply child_flat; eauto.
  - intros e He. unfold depth. pose proof (proj1 (list_max_le (map (fun e => List.length (fst e)) (push g (flat d))) _) (le_n _)) as F. rewrite Forall_forall in F.
    assert (I : In (S (List.length (fst e))) (map (fun e => List.length (fst e)) (push g (flat d)))). { unfold push. rewrite map_map. apply in_map_iff. exists e. auto. }
    apply F in I. lia.
Qed.

(** ** C64 *)
(** A nested dictionary with plain names as keys and no empty dictionary inside is restored from the file it is saved to. *)
Theorem C64_roundtrip_partial d g : storable_dict d -> d <> DNil -> simple g ->
  exists f e, save_dict false d g = Ok f /\ load_dict f g = Ok e /\ restored (VDict d) (VDict e).
Proof.
  intros H N Hg. destruct (load_flat d g H N) as (e & L & ND & K & R). exists (push g (flat d)), e. split; [apply save_dict_flat; auto|]. split; auto. exists e. split; auto. split; auto. split; auto. intros k. apply K.
Qed.
Print Assumptions C64_roundtrip_partial.

Example C64_nontrivial : exists d, storable_dict d /\ d <> DNil /\ In (KStr "metric_params") (keys d) /\ simple "data" /\
  exists f, save_dict false d "data" = Ok f /\ List.length f = 4.
Proof.
  assert (S1 : forall s, split_slash s = [s] -> forall a b, s <> (a ++ String "/" b)%string).
  { intros s E a b ->. rewrite split_app in E. pose proof (split_ne a). pose proof (split_ne b). destruct (split_slash a), (split_slash b); try congruence. cbn in E. destruct l; discriminate. }
  exists (DCons (KStr "n") (VInt 3) (DCons (KStr "metric_params") (VDict (DCons (KStr "gamma") (VFloat (XR (IZR 1))) (DCons (KStr "constraint") (VStr "itakura") DNil))) (DCons (KStr "centers") (VArr [1; 2] (AInt [1%Z; 2%Z])) DNil))).
  split; [|split; [discriminate|split; [cbn; auto|split; [split; [discriminate|split; [discriminate|split; [apply S1; reflexivity|reflexivity]]]|eexists; split; reflexivity]]]].
  cbn. repeat match goal with |- _ /\ _ => split | |- exists s, _ => eexists | |- KStr _ = _ => reflexivity | |- simple _ => split; [discriminate|split; [discriminate|split; [apply S1; reflexivity|reflexivity]]] end; auto; try discriminate; try (intuition discriminate).
Qed.

(** Dictionaries that the saver accepts and the file does not give back: empty dictionaries disappear, with any other content;
    an empty dictionary cannot be loaded; a slash in a key makes two dictionaries of one; strings come back as bytes. *)
Theorem C64_refuted :
  (forall d g k, storable_dict d -> d <> DNil -> simple g -> ~ In k (keys d) ->
     exists f e, save_dict false (DCons k (VDict DNil) d) g = Ok f /\ load_dict f g = Ok e /\ lookup k e = None) /\
  (forall g, exists f, save_dict false DNil g = Ok f /\ load_dict f g = Err KeyError) /\
  (exists f e, save_dict false (DCons (KStr "a/b") (VInt 1) DNil) "data" = Ok f /\ load_dict f "data" = Ok e /\ e = DCons (KStr "a") (VDict (DCons (KStr "b") (VNpInt 1) DNil)) DNil) /\
  (forall s, has_nul s = false -> exists f e, save_dict false (DCons (KStr "a") (VStr s) DNil) "data" = Ok f /\ load_dict f "data" = Ok e /\ lookup (KStr "a") e = Some (VBytes s)).
Proof.
  split; [|split; [|split]].
  - intros d g k H N Hg Hk. destruct (load_flat d g H N) as (e & L & ND & K & R). exists (push g (flat d)), e. split; [|split; auto].
    + transitivity (save_dict false d g); [reflexivity|]. apply save_dict_flat; auto.
    + destruct (lookup k e) eqn:E; auto. apply lookup_In in E. apply K in E. tauto.
  - intros g. exists []. split; reflexivity.
  - eexists. eexists. split; [reflexivity|]. split; reflexivity.
  - intros s Hs. eexists. eexists. split; [cbn; unfold write; cbn; rewrite Hs; reflexivity|]. split; reflexivity.
Qed.
Print Assumptions C64_refuted.

(** Whatever the dictionary, saving never overwrites: neither a file, nor an entry, nor a group with an entry or the other way
    round; the entries written have different paths, none inside another. *)
Fixpoint apart (f : store) : Prop := match f with [] => True | e :: f => (forall e', In e' f -> ~ (exists p, fst e' = fst e ++ p) /\ ~ (exists p, fst e = fst e' ++ p)) /\ apart f end.
Lemma apart_snoc f e : apart f -> (forall e', In e' f -> ~ (exists p, fst e' = fst e ++ p) /\ ~ (exists p, fst e = fst e' ++ p)) -> apart (f ++ [e]).
Proof.
  induction f as [|e0 f IH]; cbn [app apart]; intros A H; [split; auto; intros ? []|]. destruct A as (A1 & A2). split; [|apply IH; auto; intros; apply H; right; auto].
  intros e' He. apply in_app_iff in He. destruct He as [He|[<-|[]]]; auto. destruct (H e0 (or_introl eq_refl)). auto.
Qed.
Lemma write_apart f path v f' : apart f -> write f path v = Ok f' -> apart f' /\ exists e, f' = f ++ [e].
Proof.
  intros A E. unfold write in E. destruct (_ || existsb _ f) eqn:Q; [discriminate|]. destruct (match v with VStr s => _ | _ => _ end); [discriminate|]. injection E as <-. split; eauto. apply apart_snoc; auto. apply orb_false_iff in Q. destruct Q as (_ & Q).
  intros e He. cbn [fst]. assert (P : prefixb (fst e) (components path) || prefixb (components path) (fst e) = false). { destruct (_ || _) eqn:P; auto. assert (existsb (fun e => prefixb (fst e) (components path) || prefixb (components path) (fst e)) f = true) by (apply existsb_exists; eauto). congruence. }
  apply orb_false_iff in P. destruct P as (P1 & P2). split; intros (p & Ep); [assert (prefixb (components path) (fst e) = true)|assert (prefixb (fst e) (components path) = true)]; try congruence; apply prefixb_spec; eauto.
Qed.
Theorem C64_never_overwrites exists_ d g f : save_dict exists_ d g = Ok f -> exists_ = false /\ apart f.
Proof.
  unfold save_dict. destruct exists_; [discriminate|]. intros E. split; auto. revert E. assert (A : apart []) by exact I. revert A. generalize (@nil (list string * val)). generalize (g ++ "/")%string. revert f.
  set (P := fun v => forall f p k f0, apart f0 -> item_to_group p k v f0 = Ok f -> apart f). set (Q := fun d => forall f p f0, apart f0 -> dicts_to_group p d f0 = Ok f -> apart f). set (T := fun _ : vals => True). change (Q d).
  apply (dict_mut P Q T); unfold P, Q, T; clear; try (intros; cbn in *; discriminate); auto.
  all: try (intros; destruct k as [ks|kz]; cbn [item_to_group] in *; [|discriminate]; match goal with H : write _ _ _ = Ok _ |- _ => apply write_apart in H; [tauto|auto] end).
  all: try (intros f p f0 A E; cbn in E; congruence).
  all: try (intros d IH f p k f0 A E; cbn [item_to_group] in E; eapply IH; eassumption).
  intros k v IHv d IHd f p f0 A E. cbn [dicts_to_group] in E. destruct (item_to_group p k v f0) as [f1|] eqn:E1; [|discriminate]. cbn [bind] in E. eapply IHd; [|eauto]. eapply IHv; eauto.
Qed.
Print Assumptions C64_never_overwrites.

(** C189, C190: filling the cache with all datasets; the table of published scores. *)
From Coq Require Import Bool List Arith Lia String.
From Verif Require Import Py PersistModel PropPersist CacheModel PropCache BaselineModel.
Import ListNotations.
Local Open Scope string_scope.

(** ** C189 *)
(** two file systems with the same entries inside [full] *)
Definition same_inside (full : path) (f g : fs) : Prop := forall q, inside full q -> get f q = get g q.
(** the ancestors of an entry inside [full], up to [full], are directories *)
Definition tree_at (full : path) (f : fs) : Prop := forall r n, get f (full ++ r)%list = Some n -> r <> [] -> get f full = Some Dir.
Lemma tree_at_same full f g : same_inside full f g -> tree_at full f -> tree_at full g.
Proof. intros S T r n G N. rewrite <- S by (exists []; rewrite app_nil_r; reflexivity). apply (T r n); auto. rewrite S by (exists r; reflexivity). exact G. Qed.
Lemma clearing_at f full q : tree_at full f -> inside full q -> get (performs f (clearing f full)) q = None.
Proof.
  intros T (r & ->). unfold clearing. destruct (get f full) as [[|c]|] eqn:E.
  - rewrite <- map_map with (g := Remove) (f := fst). rewrite get_removes. destruct (existsb _ _) eqn:X; auto. destruct (get f (full ++ r)%list) as [n|] eqn:G; auto. exfalso. apply get_in in G. rewrite <- not_true_iff_false, existsb_exists in X. apply X. exists (full ++ r)%list. split; [|apply path_eqb_refl].
    apply in_map_iff. exists ((full ++ r)%list, n). split; auto. apply filter_In. split; auto. apply prefixb_spec. cbn. eauto.
  - cbn. rewrite get_delete. destruct (path_eqb full (full ++ r)%list) eqn:F; auto. destruct (get f (full ++ r)%list) eqn:G; auto. unfold tree_at in T. rewrite E in T. specialize (T r _ G). assert (r <> []) by (intros ->; rewrite app_nil_r, path_eqb_refl in F; discriminate). specialize (T H). discriminate.
  - cbn. destruct (get f (full ++ r)%list) eqn:G; auto. destruct r as [|x r]; [rewrite app_nil_r in G; congruence|]. unfold tree_at in T. rewrite E in T. specialize (T (x :: r) _ G ltac:(discriminate)). discriminate.
Qed.
(** an operation acts on each path separately *)
Lemma perform_same f g o q : get f q = get g q -> get (perform f o) q = get (perform g o) q.
Proof.
  intros H. destruct o as [p|p|p c].
  - cbn. rewrite !get_delete, H. reflexivity.
  - rewrite !get_mkdir, H. reflexivity.
  - cbn. rewrite !get_put, H. reflexivity.
Qed.
Lemma performs_same ops : forall f g q, get f q = get g q -> get (performs f ops) q = get (performs g ops) q.
Proof. induction ops as [|o ops IH]; intros f g q H; cbn; auto. apply IH. apply perform_same. exact H. Qed.
Section Load.
Context {D : Type} (parse : string -> string -> option D) (dd : path).
Hypothesis C : clean dd.
Notation dir n := (dd ++ [real_name n])%list.
Lemma files_same n f g : plain (real_name n) -> same_inside (dir n) f g -> has_files dd f n = has_files dd g n /\ read_files parse dd f (real_name n) = read_files parse dd g (real_name n).
Proof.
  intros P S. assert (G : forall part ext, part_ok part ext -> get f (file_path dd (real_name n) part ext) = get g (file_path dd (real_name n) part ext)).
  { intros part ext Hp. rewrite file_path_plain by auto. apply S. exists [file_name (real_name n) part ext]. rewrite <- app_assoc. reflexivity. }
  assert (H : forall ext, ext = "txt" \/ ext = "arff" -> has_ext dd f n ext = has_ext dd g n ext /\ has_ext dd f (real_name n) ext = has_ext dd g (real_name n) ext /\ read_with parse dd f (real_name n) ext = read_with parse dd g (real_name n) ext).
  { intros ext He. unfold has_ext, read_with. rewrite real_name_twice, !G by (split; auto). auto. }
  destruct (H "txt" (or_introl eq_refl)) as (A1 & A2 & A3). destruct (H "arff" (or_intror eq_refl)) as (B1 & B2 & B3).
  unfold has_files, read_files. rewrite A1, A2, A3, B1, B2, B3. auto.
Qed.
(** a call only depends on the directory of the dataset, and so does what it leaves there *)
Lemma load_same n u a f g : plain (real_name n) -> tree_at (dir n) f -> same_inside (dir n) f g ->
  snd (load_dataset parse dd u a f n) = snd (load_dataset parse dd u a g n) /\
  same_inside (dir n) (performs f (fst (load_dataset parse dd u a f n))) (performs g (fst (load_dataset parse dd u a g n))).
Proof.
  intros P T S. destruct (files_same n f g P S) as (H & R). pose proof (tree_at_same _ _ _ S T) as T'. unfold load_dataset. rewrite !has_files_real, H, full_plain by auto.
  destruct (negb (has_files dd g n) || negb u); [|cbn; auto].
  assert (CL : same_inside (dir n) (performs f (clearing f (dir n))) (performs g (clearing g (dir n)))) by (intros q Hq; rewrite !clearing_at by auto; reflexivity).
  destruct a as [| |entries]; cbn [fst snd].
  - auto.
  - split; [reflexivity|]. intros q Hq. rewrite !performs_app. apply performs_same. apply CL. exact Hq.
  - assert (SI : same_inside (dir n) (performs f (clearing f (dir n) ++ MkDir (dir n) :: extraction (dir n) entries)%list) (performs g (clearing g (dir n) ++ MkDir (dir n) :: extraction (dir n) entries)%list)).
    { intros q Hq. rewrite !performs_app. apply performs_same. apply CL. exact Hq. }
    split; [|exact SI]. apply (files_same n _ _ P SI).
Qed.
(** a call for another dataset leaves the directory as it is *)
Lemma load_other m n u a f : plain (real_name m) -> real_name m <> real_name n -> same_inside (dir n) f (performs f (fst (load_dataset parse dd u a f m))).
Proof.
  intros P N q (r & ->). symmetry. rewrite <- (firstn_all (fst (load_dataset parse dd u a f m))). apply C112_confined_partial; auto.
  - intros (s & E). rewrite <- !app_assoc in E. apply app_inv_head in E. injection E as E _. congruence.
  - right. apply not_true_iff_false. rewrite prefixb_spec. intros (s & E). apply (f_equal (@List.length string)) in E. rewrite !app_length in E. cbn in E. lia.
Qed.
Lemma others_same n u l : forall f, (forall e, In e l -> plain (real_name (fst e)) /\ real_name (fst e) <> real_name n) -> same_inside (dir n) f (cache_all parse dd u l f).
Proof.
  induction l as [|e l IH]; intros f H; [intros q _; reflexivity|]. intros q Hq. destruct (H e (or_introl eq_refl)) as (P & N). change (get f q = get (cache_all parse dd u l (performs f (fst (load_dataset parse dd u (snd e) f (fst e))))) q).
  rewrite <- (IH _ (fun e' He => H e' (or_intror He)) q Hq). apply (load_other (fst e) n u (snd e) f P N q Hq).
Qed.
(** what a successful call leaves can be read again *)
Lemma read_again n f x y : plain (real_name n) -> read_files parse dd f (real_name n) = Loaded x y -> forall a, load_dataset parse dd true a f n = ([], Loaded x y).
Proof.
  intros P R a. assert (H : has_files dd f (real_name n) = true). { unfold read_files in R. unfold has_files. destruct (has_ext dd f (real_name n) "txt"); auto. destruct (has_ext dd f (real_name n) "arff"); auto. discriminate. }
  unfold load_dataset. rewrite H. cbn. rewrite R. reflexivity.
Qed.
Lemma load_leaves n u a f x y : plain (real_name n) -> tree_at (dir n) f ->
  snd (load_dataset parse dd u a f n) = Loaded x y <-> read_files parse dd (performs f (fst (load_dataset parse dd u a f n))) (real_name n) = Loaded x y.
Proof.
  intros P T. unfold load_dataset. rewrite !has_files_real, full_plain by auto. destruct (negb (has_files dd f n) || negb u) eqn:E; [|cbn; tauto].
  assert (NO : forall g, (forall q, inside (dir n) q -> q <> dir n -> get g q = None) -> read_files parse dd g (real_name n) <> Loaded x y).
  { intros g Hg. unfold read_files. assert (Z : has_files dd g n = false) by (apply lost; auto). unfold has_files, has_ext in Z. unfold has_ext. rewrite real_name_twice. apply orb_false_iff in Z. destruct Z as (Z1 & Z2). rewrite Z1, Z2. discriminate. }
  destruct a as [| |entries]; cbn [fst snd].
  - split; [discriminate|]. intros H. exfalso. revert H. apply NO. intros q Hq _. apply clearing_at; auto.
  - split; [discriminate|]. intros H. exfalso. revert H. apply NO. intros q Hq Nq. rewrite performs_app. unfold performs at 1. cbn [fold_left]. rewrite get_mkdir, clearing_at by auto.
    destruct (prefixb q (dir n)) eqn:Q; auto. exfalso. apply Nq. apply prefixb_spec in Q. destruct Q as (r & Q). destruct Hq as (s & ->).
    apply (f_equal (@List.length string)) in Q as L. rewrite !app_length in L. cbn in L. assert (s = []) by (destruct s; auto; cbn in L; lia). subst. rewrite app_nil_r. reflexivity.
  - tauto.
Qed.
End Load.
(** C189: after cache_all, the datasets that load without the server are exactly those whose own call of load_dataset - before, alone, with the same
    answer of the server - would have returned data, and they load with that data; whatever happened to the other datasets. *)
Theorem C189_cache_all {D} (parse : string -> string -> option D) dd use_cache listed f : tree f -> clean dd ->
  NoDup (map (fun e => real_name (fst e)) listed) -> (forall e, In e listed -> plain (real_name (fst e))) ->
  forall name answer x y, In (name, answer) listed ->
  (snd (load_dataset parse dd use_cache answer f name) = Loaded x y <->
   forall answer', load_dataset parse dd true answer' (cache_all parse dd use_cache listed f) name = ([], Loaded x y)).
Proof.
  intros T C ND PL name answer x y I. apply in_split in I. destruct I as (pre & post & ->). rewrite map_app in ND. cbn [map fst] in ND. apply NoDup_remove_2 in ND.
  assert (PN : plain (real_name name)) by (apply (PL (name, answer)); apply in_elt).
  set (f0 := cache_all parse dd use_cache pre f). set (f1 := performs f0 (fst (load_dataset parse dd use_cache answer f0 name))).
  assert (E : cache_all parse dd use_cache (pre ++ (name, answer) :: post) f = cache_all parse dd use_cache post f1) by (unfold cache_all; rewrite fold_left_app; reflexivity).
  rewrite E. assert (O : forall e, In e pre \/ In e post -> plain (real_name (fst e)) /\ real_name (fst e) <> real_name name).
  { intros e He. split; [apply PL; apply in_app_iff; destruct He; [left; auto|right; right; auto]|]. intros Q. apply ND. rewrite <- Q. apply in_app_iff. destruct He; [left|right]; apply (in_map (fun e => real_name (fst e))); auto. }
  assert (S0 : same_inside (dd ++ [real_name name])%list f f0) by (apply others_same; auto).
  assert (S1 : same_inside (dd ++ [real_name name])%list f1 (cache_all parse dd use_cache post f1)) by (apply others_same; auto).
  assert (T0 : tree_at (dd ++ [real_name name])%list f) by (intros r n G N; apply (T _ r n); auto).
  destruct (load_same parse dd C name use_cache answer f f0 PN T0 S0) as (R & _).
  rewrite R, (load_leaves parse dd C name use_cache answer f0 x y PN (tree_at_same _ _ _ S0 T0)). fold f1.
  rewrite (proj2 (files_same parse dd C name _ _ PN S1)). split.
  - intros H a. apply read_again; auto.
  - intros H. specialize (H NoAnswer). unfold load_dataset in H. destruct (negb _ || _); [discriminate|]. injection H as H. exact H.
Qed.
Print Assumptions C189_cache_all.
(** one dataset is served, one answer is not an archive and one request fails; a dataset of the cache is kept *)
Example C189_case : let listed := [("Beef", NotZip); ("Coffee", NoAnswer); ("Gun", Archive [(["Gun_TRAIN.txt"], "5"); (["Gun_TEST.txt"], "6")]); ("Wafer", NoAnswer)] in
  tree home /\ NoDup (map (fun e => real_name (fst e)) listed) /\
  let f := cache_all (fun _ c => Some c) ["data"; "UCR_UEA"] true listed home in
  map (fun n => snd (load_dataset (fun _ c => Some c) ["data"; "UCR_UEA"] true NoAnswer f n)) ["Beef"; "Coffee"; "Gun"; "Wafer"] = [Raised; Loaded "1 2" "3 4"; Loaded "5" "6"; Raised].
Proof.
  cbv zeta. split; [apply tree_check; reflexivity|]. split; [|vm_compute; reflexivity].
  cbn. repeat (constructor; [cbn; intuition discriminate|]). constructor.
Qed.

(** ** C190 *)
(** a list of names, or everything *)
Definition wanted (l : option (list string)) (s : string) : Prop := match l with None => True | Some l => In s l end.
(** the text of a row in a column *)
Definition entry (header row : list string) (column s : string) : Prop := In (column, s) (combine header row).
Lemma asked_wanted l s : asked l s = true <-> wanted l s.
Proof.
  destruct l as [l|]; cbn; [|tauto]. rewrite existsb_exists. split; [intros (x & I & E); apply String.eqb_eq in E; subst; exact I|]. intros I. exists s. split; [exact I|apply String.eqb_refl].
Qed.
Section Dicts.
Context {K V : Type} (eqb : K -> K -> bool).
Hypothesis spec : forall a b, eqb a b = true <-> a = b.
Lemma dget_dset (d : list (K * V)) k v k' : dget eqb (dset eqb d k v) k' = if eqb k' k then Some v else dget eqb d k'.
Proof.
  assert (RF : forall a, eqb a a = true) by (intros a; apply spec; reflexivity).
  induction d as [|(a, b) d IH]; cbn [dset dget]; [destruct (eqb k' k); auto|]. destruct (eqb k a) eqn:E.
  - apply spec in E. subst a. cbn [dget]. destruct (eqb k' k); auto.
  - cbn [dget]. rewrite IH. destruct (eqb k' a) eqn:F; auto. destruct (eqb k' k) eqn:G; auto. apply spec in F, G. subst. rewrite RF in E. discriminate.
Qed.
Lemma dset_new (d : list (K * V)) k v : ~ In k (map fst d) -> dset eqb d k v = (d ++ [(k, v)])%list.
Proof.
  induction d as [|(a, b) d IH]; intros H; cbn; auto. destruct (eqb k a) eqn:E; [apply spec in E; subst; exfalso; apply H; left; auto|]. rewrite IH; auto. intros I. apply H. right. exact I.
Qed.
Lemma dget_in (d : list (K * V)) k v : NoDup (map fst d) -> dget eqb d k = Some v <-> In (k, v) d.
Proof.
  induction d as [|(a, b) d IH]; intros ND; cbn [dget]; [split; [discriminate|intros []]|]. apply NoDup_cons_iff in ND. destruct ND as (N & ND). cbn [fst] in N. destruct (eqb k a) eqn:E.
  - apply spec in E. subst a. split; [intros [= ->]; left; auto|]. intros [I|I]; [congruence|]. exfalso. apply N. apply (in_map fst) in I. exact I.
  - rewrite IH by exact ND. split; [intros I; right; exact I|]. intros [I|I]; [|exact I]. injection I as -> ->. assert (eqb k k = true) by (apply spec; auto). congruence.
Qed.
End Dicts.
Lemma okey_spec a b : okey_eqb a b = true <-> a = b.
Proof. destruct a as [a|], b as [b|]; cbn; try (split; congruence). rewrite String.eqb_eq. split; congruence. Qed.
Lemma name_spec a b : name_eqb a b = true <-> a = b.
Proof. destruct a as [a|], b as [b|]; cbn; try (split; congruence). rewrite String.eqb_eq. split; congruence. Qed.
Lemma row_dict_full header row : NoDup header -> List.length row = List.length header -> row_dict header row = map (fun e => (Some (fst e), Text (snd e))) (combine header row).
Proof.
  intros ND L. unfold row_dict. replace (List.length header <? List.length row)%nat with false by (symmetry; rewrite L; apply Nat.ltb_irrefl). rewrite skipn_all2 by lia. cbn [fold_left].
  assert (G : forall l d, NoDup (map fst d ++ map (fun e => Some (fst e)) l)%list -> fold_left (fun d (e : string * string) => dset okey_eqb d (Some (fst e)) (Text (snd e))) l d = (d ++ map (fun e => (Some (fst e), Text (snd e))) l)%list).
  { induction l as [|e l IH]; intros d H; cbn [fold_left map]; [rewrite app_nil_r; reflexivity|]. rewrite (dset_new okey_eqb okey_spec).
    - rewrite IH; [rewrite <- app_assoc; reflexivity|]. rewrite map_app, <- app_assoc. exact H.
    - cbn [map] in H. apply NoDup_remove_2 in H. intros I. apply H. apply in_app_iff. left. exact I. }
  rewrite G; [reflexivity|]. cbn [map app]. rewrite <- map_map with (g := Some) (f := fst). apply FinFun.Injective_map_NoDup; [intros a b [= ->]; reflexivity|].
  assert (M : forall (a b : list string), List.length b = List.length a -> map fst (combine a b) = a) by (induction a as [|x a IH]; intros [|y b] H; cbn in *; try discriminate; auto; rewrite IH; auto).
  rewrite M by exact L. exact ND.
Qed.
Lemma keys (a : list string) : forall b : list string, List.length b = List.length a -> map fst (combine a b) = a.
Proof. induction a as [|x a IH]; intros [|y b] H; cbn in *; try discriminate; auto. rewrite IH; auto. Qed.
Section Table.
Context {V : Type} (number : string -> option V).
Lemma row_scores_spec methods l : NoDup (map fst l) -> forall out, NoDup (map fst out ++ map fst l)%list ->
  exists sc, row_scores number methods (map (fun e => (Some (fst e), Text (snd e))) l) out = Ok sc /\
    forall m v, dget String.eqb sc m = Some v <-> dget String.eqb out m = Some v \/ (wanted methods m /\ m <> "" /\ exists s, In (m, s) l /\ number s = Some v).
Proof.
  induction l as [|(m0, s0) l IH]; intros NL out NO; cbn [map row_scores fst snd].
  - exists out. split; [reflexivity|]. intros m v. split; [auto|]. intros [H|(_ & _ & s & [] & _)]. exact H.
  - cbn [map fst] in NL, NO. apply NoDup_cons_iff in NL. destruct NL as (N0 & NL). pose proof (NoDup_remove_1 _ _ _ NO) as NO1. pose proof (NoDup_remove_2 _ _ _ NO) as NO2.
    assert (NI : ~ In m0 (map fst out)) by (intros I; apply NO2; apply in_app_iff; auto).
    assert (NG : dget String.eqb out m0 = None).
    { clear - NI. induction out as [|(a, b) out IH]; cbn; auto. destruct (String.eqb_spec m0 a) as [->|]; [exfalso; apply NI; left; auto|]. apply IH. intros I. apply NI. right. exact I. }
    destruct (negb (String.eqb m0 "") && asked methods m0) eqn:Q.
    + apply andb_true_iff in Q. destruct Q as (Q1 & Q2). apply negb_true_iff, String.eqb_neq in Q1. apply asked_wanted in Q2.
      destruct (number s0) as [v0|] eqn:EN.
      * destruct (IH NL (dset String.eqb out m0 v0)) as (sc & E & H).
        { rewrite (dset_new String.eqb String.eqb_eq) by exact NI. rewrite map_app, <- app_assoc. exact NO. }
        exists sc. split; [exact E|]. intros m v. rewrite H, (dget_dset String.eqb String.eqb_eq). destruct (String.eqb_spec m m0) as [->|NE].
        -- rewrite NG. split.
           ++ intros [[= <-]|(A & B & s & I & F)]; [right; split; auto; split; auto; exists s0; split; [left; auto|auto]|]. right. split; auto. split; auto. exists s. split; [right; auto|auto].
           ++ intros [A|(A & B & s & [I|I] & F)]; [discriminate|left; congruence|]. exfalso. apply N0. apply (in_map fst) in I. exact I.
        -- split; (intros [A|(A & B & s & I & F)]; [left; exact A|]); right; split; auto; split; auto; exists s; [split; [right; auto|auto]|]. destruct I as [I|I]; [congruence|auto].
      * destruct (IH NL out NO1) as (sc & E & H). exists sc. split; [exact E|]. intros m v. rewrite H. split; (intros [A|(A & B & s & I & F)]; [left; exact A|]); right; split; auto; split; auto; exists s; [split; [right; auto|auto]|]. destruct I as [I|I]; [congruence|auto].
    + destruct (IH NL out NO1) as (sc & E & H). exists sc. split; [exact E|]. intros m v. rewrite H. split; (intros [A|(A & B & s & I & F)]; [left; exact A|]); right; split; auto; split; auto; exists s; [split; [right; auto|auto]|]. destruct I as [I|I]; [|auto].
      injection I as <- <-. exfalso. apply andb_false_iff in Q. destruct Q as [Q|Q]; [apply negb_false_iff, String.eqb_eq in Q; auto|]. apply asked_wanted in A. congruence.
Qed.
(** the scores of one row *)
Definition right_scores (methods : option (list string)) (header row : list string) (sc : list (string * V)) : Prop :=
  forall m v, dget String.eqb sc m = Some v <-> wanted methods m /\ m <> "" /\ exists s, entry header row m s /\ number s = Some v.
Lemma row_scores_right methods header row : NoDup header -> List.length row = List.length header -> exists sc, row_scores number methods (row_dict header row) [] = Ok sc /\ right_scores methods header row sc.
Proof.
  intros ND L. rewrite row_dict_full by auto. assert (NK : NoDup (map fst (combine header row))) by (rewrite keys by exact L; exact ND).
  destruct (row_scores_spec methods (combine header row) NK []) as (sc & E & H); [exact NK|]. exists sc. split; [exact E|]. intros m v. rewrite H. cbn [dget]. unfold entry. split; [intros [A|A]; [discriminate|exact A]|auto].
Qed.
(** the rows of a dataset *)
Definition about (header : list string) (ds : string) (row : list string) : Prop := entry header row "" ds.
Lemma about_dec header ds row : {about header ds row} + {~ about header ds row}.
Proof. unfold about, entry. apply in_dec. intros (a, b) (c, d). destruct (string_dec a c), (string_dec b d); [left|right|right|right]; congruence. Qed.
Lemma name_of header row : NoDup header -> In "" header -> List.length row = List.length header -> exists ds, about header ds row /\ dget okey_eqb (row_dict header row) (Some "") = Some (Text ds) /\ forall ds', about header ds' row -> ds' = ds.
Proof.
  intros ND I L. rewrite <- (keys header row L) in I. apply in_map_iff in I. destruct I as ((k, ds) & E & I). cbn [fst] in E. subst k. exists ds. split; [exact I|].
  assert (NK : NoDup (map fst (combine header row))) by (rewrite keys by exact L; exact ND).
  split.
  - rewrite row_dict_full by auto. apply (dget_in okey_eqb okey_spec).
    + rewrite map_map. cbn [fst]. rewrite <- map_map with (g := Some) (f := fst). apply FinFun.Injective_map_NoDup; [intros a b [= ->]; reflexivity|exact NK].
    + apply in_map_iff. exists ("", ds). split; [reflexivity|exact I].
  - intros ds' I'. pose proof (proj2 (dget_in String.eqb String.eqb_eq _ "" ds NK) I) as A. pose proof (proj2 (dget_in String.eqb String.eqb_eq _ "" ds' NK) I') as B. congruence.
Qed.
Lemma table_spec datasets methods header : NoDup header -> In "" header -> forall rows, (forall r, In r rows -> List.length r = List.length header) -> forall out0,
  exists out, table_scores number datasets methods (map (row_dict header) rows) out0 = Ok out /\ forall ds,
    ((forall r, In r rows -> ~ about header ds r) -> dget name_eqb out (Name ds) = dget name_eqb out0 (Name ds)) /\
    (~ wanted datasets ds -> dget name_eqb out (Name ds) = dget name_eqb out0 (Name ds)) /\
    (forall pre row post, rows = (pre ++ row :: post)%list -> about header ds row -> (forall r, In r post -> ~ about header ds r) -> wanted datasets ds ->
       exists sc, dget name_eqb out (Name ds) = Some sc /\ right_scores methods header row sc).
Proof.
  intros ND I0. induction rows as [|row rows IH]; intros L out0; cbn [map table_scores].
  - exists out0. split; [reflexivity|]. intros ds. split; [auto|]. split; [auto|]. intros [|? ?] row post E; discriminate.
  - destruct (name_of header row ND I0 (L row (or_introl eq_refl))) as (d0 & A0 & E0 & U0). rewrite E0. cbv zeta.
    destruct (row_scores_right methods header row ND (L row (or_introl eq_refl))) as (sc0 & ES & RS).
    destruct (asked datasets d0) eqn:Q.
    + rewrite ES. cbn [bind]. destruct (IH (fun r Hr => L r (or_intror Hr)) (dset name_eqb out0 (Name d0) sc0)) as (out & E & H). exists out. split; [exact E|]. intros ds. destruct (H ds) as (H1 & H2 & H3).
      rewrite (dget_dset name_eqb name_spec) in H1, H2. split; [|split].
      * intros N. rewrite H1 by (intros r Hr; apply N; right; exact Hr). destruct (name_eqb (Name ds) (Name d0)) eqn:X; auto. apply name_spec in X. injection X as ->. exfalso. apply (N row (or_introl eq_refl)). exact A0.
      * intros N. rewrite H2 by exact N. destruct (name_eqb (Name ds) (Name d0)) eqn:X; auto. apply name_spec in X. injection X as ->. apply asked_wanted in Q. contradiction.
      * intros pre row' post EQ AB NP W. destruct pre as [|p pre]; cbn in EQ; injection EQ as -> ->; [|apply (H3 pre row' post); auto].
        rewrite (U0 ds AB) in *. assert (X : name_eqb (Name d0) (Name d0) = true) by (apply name_spec; reflexivity). rewrite X in H1. exists sc0. split; [apply H1; exact NP|exact RS].
    + destruct (IH (fun r Hr => L r (or_intror Hr)) out0) as (out & E & H). exists out. split; [exact E|]. intros ds. destruct (H ds) as (H1 & H2 & H3). split; [|split].
      * intros N. apply H1. intros r Hr. apply N. right. exact Hr.
      * exact H2.
      * intros pre row' post EQ AB NP W. destruct pre as [|p pre]; cbn in EQ; injection EQ as -> ->; [|apply (H3 pre row' post); auto].
        rewrite (U0 ds AB) in *. apply asked_wanted in W. congruence.
Qed.
End Table.
(** C190: if the server could be reached when the object was made, and every line of the table has a field for every column, the result has
    exactly the datasets that are asked for and are in the table, each with exactly the methods that are asked for and have a score. *)
Theorem C190_scores {V} (number : string -> option V) m0 u0 header rows datasets methods :
  NoDup header -> In "" header -> (forall r, In r rows -> List.length r = List.length header) ->
  exists out, baseline_accuracy number (Some m0) (Some u0) (header :: rows) datasets methods = Ok out /\ forall ds,
    (wanted datasets ds /\ (exists r, In r rows /\ about header ds r) <-> exists sc, dget name_eqb out (Name ds) = Some sc) /\
    forall pre row post, rows = (pre ++ row :: post)%list -> about header ds row -> (forall r, In r post -> ~ about header ds r) -> wanted datasets ds ->
      exists sc, dget name_eqb out (Name ds) = Some sc /\ right_scores number methods header row sc.
Proof.
  intros ND I0 L. unfold baseline_accuracy, dict_rows. assert (NE : filter (fun r : list string => negb (List.length r =? 0)%nat) rows = rows).
  { assert (H0 : (0 < List.length header)%nat) by (destruct header; [destruct I0|cbn; lia]). clear - L H0. induction rows as [|r rows IH]; cbn [filter]; auto. rewrite (L r (or_introl eq_refl)). destruct (Nat.eqb_spec (List.length header) 0); [lia|]. cbn. rewrite IH; auto. intros r' H. apply L. right. exact H. }
  rewrite NE. destruct (table_spec number datasets methods header ND I0 rows L []) as (out & E & H). exists out. split; [exact E|]. intros ds. destruct (H ds) as (H1 & H2 & H3). split; [|exact H3]. split.
  - intros (W & r & I & A). assert (LAST : exists pre row post, rows = (pre ++ row :: post)%list /\ about header ds row /\ forall r, In r post -> ~ about header ds r).
    { clear - I A. revert r I A. induction rows as [|r0 rows IH]; intros r I A; [destruct I|]. destruct (Exists_dec (about header ds) rows (about_dec header ds)) as [X|X].
      - apply Exists_exists in X. destruct X as (x & Ix & Ax). destruct (IH x Ix Ax) as (pre & row & post & -> & B & Cc). exists (r0 :: pre), row, post. auto.
      - exists [], r0, rows. split; [reflexivity|]. assert (NA : forall r, In r rows -> ~ about header ds r) by (intros x Ix Ax; apply X; apply Exists_exists; eauto). split; [|exact NA]. destruct I as [->|I]; [exact A|]. exfalso. exact (NA r I A). }
    destruct LAST as (pre & row & post & EQ & B & Cc). destruct (H3 pre row post EQ B Cc W) as (sc & G & _). eauto.
  - intros (sc & G). destruct (asked datasets ds) eqn:Q.
    + split; [apply asked_wanted; exact Q|]. destruct (Exists_dec (about header ds) rows (about_dec header ds)) as [X|X]; [apply Exists_exists in X; exact X|]. rewrite H1 in G; [discriminate|]. intros r Ir Ar. apply X. apply Exists_exists. eauto.
    + rewrite H2 in G; [discriminate|]. intros W. apply asked_wanted in W. congruence.
Qed.
Print Assumptions C190_scores.
(** C190, false as stated: without an answer of the server there are no scores at all, although the table is part of the package *)
Theorem C190_refuted {V} (number : string -> option V) multi uni lines datasets methods : multi = None \/ uni = None ->
  baseline_accuracy number multi uni lines datasets methods = Err TypeError.
Proof. intros [-> | ->]; [reflexivity|]. destruct multi; reflexivity. Qed.
Print Assumptions C190_refuted.
(** three datasets, one of them without a score of one method *)
Example C190_case : exists out, baseline_accuracy (fun s => if String.eqb s "" then None else Some s) (Some "") (Some "") [[""; "NB"; "DTW"]; ["Adiac"; "0.56"; "0.60"]; ["Beef"; ""; "0.63"]; ["Coffee"; "1"; "0.9"]] (Some ["Beef"; "Adiac"; "Wafer"]) None = Ok out /\
  out = [(Name "Adiac", [("NB", "0.56"); ("DTW", "0.60")]); (Name "Beef", [("DTW", "0.63")])].
Proof. eexists. split; vm_compute; reflexivity. Qed.
(** the hypothesis on the lines is needed: a missing field ends the call *)
Example C190_short_line : baseline_accuracy (@Some string) (Some "") (Some "") [[""; "NB"; "DTW"]; ["Adiac"; "0.56"]] None None = Err TypeError.
Proof. reflexivity. Qed.

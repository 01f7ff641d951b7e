(** C72, C112-C114: the cache of UCR/UEA datasets. *)
From Coq Require Import Bool List Arith Lia String Ascii.
From Verif Require Import Py PersistModel PropPersist CacheModel.
Import ListNotations.
Local Open Scope string_scope.

(** ** Specification *)
(** a name that is a single path component *)
Definition plain (n : string) : Prop := (forall a b, n <> a ++ String "/" b) /\ n <> "" /\ n <> "." /\ n <> "..".
(** a path without ".." *)
Definition clean (p : path) : Prop := ~ In ".." p.
(** the ancestors of an entry are directories *)
Definition tree (f : fs) : Prop := forall p q n, get f (p ++ q)%list = Some n -> q <> [] -> get f p = Some Dir.
(** [q] is [p] or inside it *)
Definition inside (p q : path) : Prop := exists r, q = (p ++ r)%list.

(** ** file system *)
Lemma path_eqb_spec p q : path_eqb p q = true <-> p = q.
Proof. unfold path_eqb. destruct (list_eq_dec string_dec p q); split; intros; auto; discriminate. Qed.
Lemma path_eqb_false p q : path_eqb p q = false <-> p <> q.
Proof. unfold path_eqb. destruct (list_eq_dec string_dec p q); split; intros; auto; try discriminate. contradiction. Qed.
Lemma path_eqb_refl p : path_eqb p p = true.
Proof. apply path_eqb_spec. auto. Qed.
Lemma get_delete f p q : get (delete f p) q = if path_eqb p q then None else get f q.
Proof.
  unfold get, delete. induction f as [|e f IH]; cbn [filter find]; [destruct (path_eqb p q); auto|]. destruct (path_eqb (fst e) p) eqn:E; cbn [negb].
  - rewrite IH. apply path_eqb_spec in E. subst p. destruct (path_eqb (fst e) q); auto.
  - cbn [find]. destruct (path_eqb (fst e) q) eqn:F; auto. apply path_eqb_spec in F. subst q. apply path_eqb_false in E. destruct (path_eqb p (fst e)) eqn:G; auto. apply path_eqb_spec in G. congruence.
Qed.
Lemma get_put f p n q : get (put f p n) q = if path_eqb p q then Some n else get f q.
Proof. unfold put. unfold get at 1. cbn [find fst]. destruct (path_eqb p q) eqn:E; auto. fold (get (delete f p) q). rewrite get_delete, E. auto. Qed.
Lemma prefixes_in p q : In q (prefixes p) <-> exists r, p = (q ++ r)%list.
Proof.
  unfold prefixes. rewrite in_map_iff. split.
  - intros (k & <- & _). exists (skipn k p). symmetry. apply firstn_skipn.
  - intros (r & ->). exists (List.length q). split; [rewrite firstn_app, firstn_all, Nat.sub_diag; cbn; apply app_nil_r|]. apply in_seq. rewrite app_length. lia.
Qed.
Lemma get_mkdir f p q : get (perform f (MkDir p)) q = match get f q with Some n => Some n | None => if prefixb q p then Some Dir else None end.
Proof.
  assert (G : forall l f, get (fold_left (fun f q => match get f q with None => put f q Dir | Some _ => f end) l f) q = match get f q with Some n => Some n | None => if existsb (path_eqb q) l then Some Dir else None end).
  { clear. induction l as [|r l IH]; intros f; cbn [fold_left existsb]; [destruct (get f q); auto|]. rewrite IH. destruct (get f r) eqn:E.
    - destruct (path_eqb q r) eqn:F; cbn [orb]; auto. apply path_eqb_spec in F. subst. rewrite E. auto.
    - rewrite get_put. destruct (path_eqb r q) eqn:F.
      + apply path_eqb_spec in F. subst r. rewrite E, path_eqb_refl. auto.
      + destruct (get f q); auto. destruct (path_eqb q r) eqn:H; auto. apply path_eqb_spec in H. subst. rewrite path_eqb_refl in F. discriminate. }
  cbn [perform]. rewrite G. destruct (get f q); auto. replace (existsb (path_eqb q) (prefixes p)) with (prefixb q p); auto. apply eq_true_iff_eq. rewrite prefixb_spec, existsb_exists. split.
  - intros H. exists q. split; [apply prefixes_in; auto|apply path_eqb_refl].
  - intros (x & H & E). apply path_eqb_spec in E. subst. apply prefixes_in. auto.
Qed.
Lemma performs_app f a b : performs f (a ++ b)%list = performs (performs f a) b.
Proof. apply fold_left_app. Qed.
Lemma get_removes l f q : get (performs f (map Remove l)) q = if existsb (path_eqb q) l then None else get f q.
Proof.
  revert f. induction l as [|p l IH]; intros f; cbn; auto. unfold performs in IH. rewrite IH, get_delete. destruct (path_eqb q p) eqn:E; cbn [orb].
  - apply path_eqb_spec in E. subst. rewrite path_eqb_refl. destruct (existsb _ l); auto.
  - destruct (existsb _ l); auto. destruct (path_eqb p q) eqn:F; auto. apply path_eqb_spec in F. subst. rewrite path_eqb_refl in E. discriminate.
Qed.
Lemma get_in f p n : get f p = Some n -> In (p, n) f.
Proof. unfold get. intros H. destruct (find _ f) as [e|] eqn:E; [|discriminate]. apply find_some in E. destruct E as (I & E). apply path_eqb_spec in E. injection H as <-. subst p. destruct e; auto. Qed.
(** after clearing, nothing is left inside *)
Lemma get_clearing f full q : tree f -> inside full q -> get (performs f (clearing f full)) q = None.
Proof.
  intros T (r & ->). unfold clearing. destruct (get f full) as [[|c]|] eqn:E.
  - rewrite <- map_map with (g := Remove) (f := fst). rewrite get_removes. destruct (existsb _ _) eqn:X; auto. destruct (get f (full ++ r)%list) as [n|] eqn:G; auto. exfalso. apply get_in in G. rewrite <- not_true_iff_false, existsb_exists in X. apply X. exists (full ++ r)%list. split; [|apply path_eqb_refl].
    apply in_map_iff. exists ((full ++ r)%list, n). split; auto. apply filter_In. split; auto. apply prefixb_spec. cbn. eauto.
  - cbn. rewrite get_delete. destruct (path_eqb full (full ++ r)%list) eqn:F; auto. destruct (get f (full ++ r)%list) eqn:G; auto. rewrite (T full r _ G) in E; [discriminate|]. intros ->. rewrite app_nil_r, path_eqb_refl in F. discriminate.
  - cbn. destruct (get f (full ++ r)%list) eqn:G; auto. destruct r as [|x r]; [rewrite app_nil_r in G; congruence|]. rewrite (T full (x :: r) _ G) in E; discriminate.
Qed.
Lemma clearing_inside f full o : In o (clearing f full) -> exists p, o = Remove p /\ inside full p.
Proof.
  unfold clearing. destruct (get f full) as [[|c]|]; cbn; [|intros [<-|[]]; exists full; split; auto; exists []; rewrite app_nil_r; auto|tauto].
  intros H. apply in_map_iff in H. destruct H as (e & <- & H). apply filter_In in H. destruct H as (_ & H). apply prefixb_spec in H. eexists. split; eauto.
Qed.

(** ** names and paths *)
Lemma resolve_clean p : clean p -> forall s, resolve s p = (s ++ p)%list.
Proof.
  induction p as [|c p IH]; intros H s; cbn [resolve]; [rewrite app_nil_r; auto|]. destruct (String.eqb_spec c ".."); [exfalso; apply H; left; auto|]. rewrite IH; [rewrite <- app_assoc; auto|intros I; apply H; right; auto].
Qed.
Lemma real_name_twice n : real_name (real_name n) = real_name n.
Proof. unfold real_name at 2 3. repeat (match goal with |- context [String.eqb n ?x] => let H := fresh "H" in destruct (String.eqb n x) eqn:H end; [reflexivity|]). unfold real_name. repeat match goal with H : String.eqb _ _ = false |- _ => rewrite H; clear H end. auto. Qed.
Lemma join_component base n : (forall a b, n <> a ++ String "/" b) -> n <> "" -> n <> "." -> join base n = (base ++ [n])%list.
Proof.
  intros H1 H2 H3. unfold join. destruct n as [|c n]; [congruence|]. destruct (Ascii.eqb_spec c "/") as [->|]; [exfalso; apply (H1 "" n); auto|]. f_equal. unfold components. rewrite split_simple by auto. cbn [filter]. 
  destruct (String.eqb_spec (String c n) ""); [congruence|]. destruct (String.eqb_spec (String c n) "."); [congruence|]. auto.
Qed.
Lemma append_slash n s : (forall a b, n <> a ++ String "/" b) -> (forall a b, s <> a ++ String "/" b) -> forall a b, n ++ s <> a ++ String "/" b.
Proof.
  intros H1 H2. induction n as [|c n IH]; intros a b E; [apply (H2 a b E)|]. destruct a as [|c' a]; cbn in E; injection E as E1 E2.
  - subst. apply (H1 "" n). auto.
  - subst. apply (IH (fun x y Q => H1 (String c' x) y ltac:(cbn; congruence)) a b E2).
Qed.
Lemma literal_slash s : forallb (fun c => negb (Ascii.eqb c "/")) (list_ascii_of_string s) = true -> forall a b, s <> a ++ String "/" b.
Proof. intros H a b E. subst. induction a as [|c a IH]; cbn in H; [discriminate|]. apply andb_true_iff in H. destruct H. auto. Qed.
Definition part_ok (part ext : string) : Prop := (part = "TRAIN" \/ part = "TEST") /\ (ext = "txt" \/ ext = "arff").
Definition file_name (n part ext : string) : string := n ++ "_" ++ part ++ "." ++ ext.
Lemma ends_not n s d : (String.length d < String.length s)%nat -> n ++ s <> d.
Proof. intros H E. apply (f_equal String.length) in E. assert (L : forall a b, String.length (a ++ b) = (String.length a + String.length b)%nat) by (induction a; cbn; intros; auto). rewrite L in E. lia. Qed.
Lemma file_path_plain dd n part ext : clean dd -> plain n -> part_ok part ext -> file_path dd n part ext = (dd ++ [n; file_name n part ext])%list.
Proof.
  intros C (P1 & P2 & P3 & P4) (Hp & He). unfold file_path. rewrite (join_component dd n) by auto. fold (file_name n part ext). rewrite join_component.
  - rewrite <- app_assoc. cbn [app]. unfold real_path. rewrite resolve_clean; auto. intros I. apply in_app_iff in I. destruct I as [I|[I|[I|[]]]]; [apply C; auto|congruence|]. unfold file_name in I. revert I. apply ends_not. destruct Hp as [-> | ->], He as [-> | ->]; cbn; lia.
  - apply append_slash; auto. destruct Hp as [-> | ->], He as [-> | ->]; apply literal_slash; reflexivity.
  - apply ends_not. destruct Hp as [-> | ->], He as [-> | ->]; cbn; lia.
  - apply ends_not. destruct Hp as [-> | ->], He as [-> | ->]; cbn; lia.
Qed.
Lemma full_plain dd n : clean dd -> plain n -> real_path (join dd n) = (dd ++ [n])%list.
Proof. intros C (P1 & P2 & P3 & P4). rewrite join_component by auto. unfold real_path. rewrite resolve_clean; auto. intros I. apply in_app_iff in I. destruct I as [I|[I|[]]]; [apply C; auto|congruence]. Qed.
Lemma has_files_real dd f n : has_files dd f (real_name n) = has_files dd f n.
Proof. unfold has_files, has_ext. rewrite real_name_twice. auto. Qed.

(** ** C72 *)
(** data that is in the cache is used without any operation on the file system, whatever the server does *)
Theorem C72_cached_partial {D} (parse : string -> string -> option D) dd f n answer : has_files dd f n = true ->
  fst (load_dataset parse dd true answer f n) = [] /\ forall answer', load_dataset parse dd true answer f n = load_dataset parse dd true answer' f n.
Proof. intros H. unfold load_dataset. rewrite has_files_real, H. cbn. auto. Qed.
Print Assumptions C72_cached_partial.
Lemma lost dd f n : clean dd -> plain (real_name n) -> (forall q, inside (dd ++ [real_name n])%list q -> q <> (dd ++ [real_name n])%list -> get f q = None) -> has_files dd f n = false.
Proof.
  intros C P H. unfold has_files, has_ext. rewrite !file_path_plain; auto; try (split; auto).
  assert (L : forall x, get f (dd ++ [real_name n; x])%list = None). { intros x. apply H; [exists [x]; rewrite <- app_assoc; auto|]. intros E. apply app_inv_head in E. discriminate. }
  rewrite !L. auto.
Qed.
(** C72, false as stated: with use_cache=False the cached files are deleted before the download starts. If the server does not answer, or
    answers something else than a zip file, they are lost, and the next call, with the cache, fails too. *)
Theorem C72_refuted {D} (parse : string -> string -> option D) dd f n answer : tree f -> clean dd -> plain (real_name n) -> answer = NoAnswer \/ answer = NotZip ->
  let ops := fst (load_dataset parse dd false answer f n) in
  has_files dd (performs f ops) n = false /\ snd (load_dataset parse dd true NoAnswer (performs f ops) n) = Raised /\ (forall x y, snd (load_dataset parse dd false answer f n) <> Loaded x y).
Proof.
  intros T C P HA ops. assert (L : has_files dd (performs f ops) n = false).
  { apply lost; auto. intros q I Nq. unfold ops, load_dataset. rewrite orb_true_r, full_plain by auto. destruct HA as [-> | ->]; cbn [fst]; [apply get_clearing; auto|]. rewrite performs_app. unfold performs at 1. cbn [fold_left]. rewrite get_mkdir, get_clearing by auto. destruct (prefixb q (dd ++ [real_name n])%list) eqn:E; auto. exfalso. apply Nq. apply prefixb_spec in E. destruct E as (r & E). destruct I as (s & ->). apply (f_equal (@List.length string)) in E. rewrite !app_length in E. assert (List.length s = 0%nat) by lia. destruct s; [|discriminate]. rewrite app_nil_r. auto. }
  split; auto. split.
  - unfold load_dataset. rewrite has_files_real, L. auto.
  - unfold load_dataset. rewrite orb_true_r. destruct HA as [-> | ->]; cbn; discriminate.
Qed.
Print Assumptions C72_refuted.
Lemma plain_in_clean dd n : clean dd -> plain n -> clean (dd ++ [n])%list.
Proof. intros C (_ & _ & _ & P) I. apply in_app_iff in I. destruct I as [I|[I|[]]]; [apply C; auto|congruence]. Qed.
Lemma train_test n : file_name n "TRAIN" "txt" <> file_name n "TEST" "txt".
Proof. unfold file_name. intros E. induction n as [|c n IH]; [discriminate|]. cbn in E. injection E as E. auto. Qed.
(** C72: a process killed while the archive is being extracted leaves a file that is incomplete (here: empty) and counts as cached from then
    on: it is never downloaded again *)
Theorem C72_crash_refuted {D} (parse : string -> string -> option D) dd f n a b : tree f -> clean dd -> plain n -> real_name n = n -> has_files dd f n = false ->
  let entries := [([file_name n "TRAIN" "txt"], a); ([file_name n "TEST" "txt"], b)] in
  exists k, let f1 := performs f (firstn k (fst (load_dataset parse dd true (Archive entries) f n))) in
  get f1 (dd ++ [n; file_name n "TEST" "txt"])%list = Some (File "") /\
  forall answer, load_dataset parse dd true answer f1 n = ([], match parse "txt" a, parse "txt" "" with Some x, Some y => Loaded x y | _, _ => Nothing end).
Proof.
  intros T C P RN H entries. unfold load_dataset at 1. rewrite RN, H, full_plain by auto. cbn [negb orb fst]. set (cl := clearing f (dd ++ [n])%list). set (tr := file_name n "TRAIN" "txt"). set (te := file_name n "TEST" "txt").
  exists (List.length cl + 6)%nat. cbv zeta. set (f1 := performs f _).
  assert (E : f1 = performs (performs f cl) [MkDir (dd ++ [n])%list; MkDir (dd ++ [n])%list; Write (dd ++ [n; tr])%list ""; Write (dd ++ [n; tr])%list a; MkDir (dd ++ [n])%list; Write (dd ++ [n; te])%list ""]%list).
  { unfold f1. rewrite <- performs_app. f_equal. rewrite firstn_app_2. f_equal. unfold extraction, entries. cbn [flat_map app fst snd firstn]. fold tr te. rewrite <- !app_assoc. cbn [app].
    assert (RL : forall x, removelast (dd ++ [n; x])%list = (dd ++ [n])%list). { intros x. change [n; x] with ([n] ++ [x])%list. rewrite app_assoc. apply removelast_last. }
    rewrite !RL. auto. }
  assert (TT : tr <> te) by apply train_test.
  assert (G1 : get f1 (dd ++ [n; te])%list = Some (File "")). { rewrite E. unfold performs at 1. cbn [fold_left perform]. rewrite get_put, path_eqb_refl. auto. }
  assert (G2 : get f1 (dd ++ [n; tr])%list = Some (File a)).
  { rewrite E. unfold performs at 1. cbn [fold_left]. cbn [perform]. rewrite get_put. destruct (path_eqb (dd ++ [n; te])%list (dd ++ [n; tr])%list) eqn:Q; [apply path_eqb_spec, app_inv_head in Q; congruence|]. change (get (perform (perform (perform (perform (perform (performs f cl) (MkDir (dd ++ [n])%list)) (MkDir (dd ++ [n])%list)) (Write (dd ++ [n; tr])%list "")) (Write (dd ++ [n; tr])%list a)) (MkDir (dd ++ [n])%list)) (dd ++ [n; tr])%list = Some (File a)). rewrite get_mkdir. cbn [perform]. rewrite get_put, path_eqb_refl. auto. }
  split; auto. intros answer. assert (HE : has_ext dd f1 n "txt" = true). { unfold has_ext. rewrite RN, !file_path_plain by (auto; split; auto). fold tr te. rewrite G1, G2. auto. }
  unfold load_dataset, has_files, read_files, read_with. rewrite RN, HE. cbn [orb negb]. rewrite !file_path_plain by (auto; split; auto). fold tr te. rewrite G1, G2. auto.
Qed.
Print Assumptions C72_crash_refuted.

(** ** C112 *)
Lemma outside_op f o full q : (exists p, o = Remove p /\ inside full p) \/ (exists p, o = MkDir p /\ (inside full p \/ p = removelast full)) \/ (exists p c, o = Write p c /\ inside full p) ->
  ~ inside full q -> get f q <> None \/ prefixb q (removelast full) = false -> get (perform f o) q = get f q.
Proof.
  intros HO NI HG. assert (NE : forall p, inside full p -> path_eqb p q = false) by (intros p I; apply path_eqb_false; intros ->; auto).
  destruct HO as [(p & -> & I)|[(p & -> & I)|(p & c & -> & I)]].
  - cbn [perform]. rewrite get_delete, NE; auto.
  - rewrite get_mkdir. destruct (get f q) eqn:G; auto. destruct HG as [HG|HG]; [congruence|]. destruct (prefixb q p) eqn:E; auto. exfalso. apply prefixb_spec in E. destruct E as (r & ->).
    assert (HG' : prefixb q (removelast full) <> true) by congruence. apply HG'. apply prefixb_spec. destruct I as [(s & I)|I]; [|eauto].
    destruct (le_lt_dec (List.length full) (List.length q)) as [L|L].
    + exfalso. apply NI. exists (skipn (List.length full) q). rewrite <- (firstn_skipn (List.length full) q) at 1. f_equal. apply (f_equal (firstn (List.length full))) in I. rewrite firstn_app in I. replace (List.length full - List.length q)%nat with 0%nat in I by lia. cbn in I. rewrite app_nil_r in I. rewrite I. rewrite firstn_app, firstn_all, Nat.sub_diag. cbn. apply app_nil_r.
    + assert (Q : q = firstn (List.length q) full). { apply (f_equal (firstn (List.length q))) in I. rewrite firstn_app, firstn_all, Nat.sub_diag in I. cbn in I. rewrite app_nil_r in I. rewrite firstn_app in I. replace (List.length q - List.length full)%nat with 0%nat in I by lia. cbn in I. rewrite app_nil_r in I. exact I. }
      exists (skipn (List.length q) (removelast full)). rewrite <- (firstn_skipn (List.length q) (removelast full)) at 1. f_equal. rewrite Q at 2. destruct full as [|x full']; [cbn in L; lia|]. set (full := x :: full') in *. rewrite (app_removelast_last "" (l := full)) at 2 by discriminate. rewrite firstn_app. assert (LR : List.length (removelast full) = (List.length full - 1)%nat). { rewrite (app_removelast_last "" (l := full)) at 2 by discriminate. rewrite app_length. cbn. lia. } replace (List.length q - List.length (removelast full))%nat with 0%nat by lia. cbn. rewrite app_nil_r. auto.
  - cbn [perform]. rewrite get_put, NE; auto.
Qed.
Lemma extraction_inside full entries o : In o (extraction full entries) -> (exists p, o = MkDir p /\ (inside full p \/ p = removelast full)) \/ (exists p c, o = Write p c /\ inside full p).
Proof.
  unfold extraction. intros H. apply in_flat_map in H. destruct H as ((e & c) & _ & H). cbn [fst snd] in H. assert (I : inside full (full ++ e)%list) by (exists e; auto). destruct H as [<-|[<-|[<-|[]]]]; [left; eexists; split; [reflexivity|]|right; eauto|right; eauto].
  destruct e as [|x e]; [right; rewrite app_nil_r; auto|]. left. rewrite removelast_app by discriminate. eexists. eauto.
Qed.
(** C112: loading a dataset whose name is a single path component changes nothing outside its own directory (except creating the missing
    ancestors), whatever the server does and whenever the process is killed *)
Theorem C112_confined_partial {D} (parse : string -> string -> option D) dd f name use_cache answer k q : clean dd -> plain (real_name name) ->
  ~ inside (dd ++ [real_name name])%list q -> get f q <> None \/ prefixb q dd = false ->
  get (performs f (firstn k (fst (load_dataset parse dd use_cache answer f name)))) q = get f q.
Proof.
  intros C P NI HG. set (full := (dd ++ [real_name name])%list) in *. assert (RL : removelast full = dd) by apply removelast_last.
  assert (G : forall o, In o (fst (load_dataset parse dd use_cache answer f name)) -> (exists p, o = Remove p /\ inside full p) \/ (exists p, o = MkDir p /\ (inside full p \/ p = removelast full)) \/ (exists p c, o = Write p c /\ inside full p)).
  { intros o. unfold load_dataset. rewrite full_plain by auto. fold full. destruct (_ || _); [|intros []]. assert (IS : inside full full) by (exists []; rewrite app_nil_r; auto).
    destruct answer as [| |entries]; cbn [fst]; intros H.
    - left. apply (clearing_inside f). auto.
    - apply in_app_iff in H. destruct H as [H|[<-|[]]]; [left; apply (clearing_inside f); auto|]. right. left. eauto.
    - apply in_app_iff in H. destruct H as [H|[<-|H]]; [left; apply (clearing_inside f); auto|right; left; eauto|right; apply (extraction_inside full entries); auto]. }
  assert (G' : forall o, In o (firstn k (fst (load_dataset parse dd use_cache answer f name))) -> In o (fst (load_dataset parse dd use_cache answer f name))).
  { intros o. set (l := fst _). rewrite <- (firstn_skipn k l) at 2. intros H. apply in_app_iff. auto. }
  remember (firstn k _) as ops eqn:Eo. clear Eo. assert (G2 : forall o, In o ops -> (exists p, o = Remove p /\ inside full p) \/ (exists p, o = MkDir p /\ (inside full p \/ p = removelast full)) \/ (exists p c, o = Write p c /\ inside full p)) by auto. clear G G'.
  rewrite <- RL in HG. unfold performs. revert f HG. induction ops as [|o ops IH]; intros f HG; auto. cbn [fold_left]. assert (E : get (perform f o) q = get f q) by (apply (outside_op f o full); auto; apply G2; left; auto).
  rewrite IH; auto; [intros; apply G2; right; auto|]. rewrite E. auto.
Qed.
Print Assumptions C112_confined_partial.
(** C112, false as stated: the name is joined to the cache directory without any check, so the empty name deletes the whole cache, ".." deletes
    everything in the parent of the cache, and an absolute path deletes that directory. *)
Lemma load_clears {D} (parse : string -> string -> option D) dd f name use_cache : (has_files dd f name = false \/ use_cache = false) ->
  load_dataset parse dd use_cache NoAnswer f name = (clearing f (real_path (join dd (real_name name))), Raised).
Proof. intros H. unfold load_dataset. rewrite has_files_real. destruct H as [-> | ->]; [auto|rewrite orb_true_r; auto]. Qed.
Theorem C112_empty_name_refuted {D} (parse : string -> string -> option D) dd f q : tree f -> clean dd -> inside dd q -> has_files dd f "" = false ->
  get (performs f (fst (load_dataset parse dd true NoAnswer f ""))) q = None.
Proof. intros T C I H. rewrite load_clears by auto. cbn [fst real_name String.eqb]. apply get_clearing; auto. change (real_path (join dd (real_name ""))) with (real_path dd). unfold real_path. rewrite resolve_clean by auto. auto. Qed.
Print Assumptions C112_empty_name_refuted.
Theorem C112_parent_refuted {D} (parse : string -> string -> option D) base x f q : tree f -> clean (base ++ [x])%list -> inside base q -> has_files (base ++ [x])%list f ".." = false ->
  get (performs f (fst (load_dataset parse (base ++ [x])%list true NoAnswer f ".."))) q = None.
Proof.
  intros T C I H. rewrite load_clears by auto. cbn [fst]. apply get_clearing; auto. change (join (base ++ [x])%list (real_name "..")) with ((base ++ [x]) ++ [".."])%list. unfold real_path. assert (R : forall p s, clean p -> resolve s (p ++ [".."])%list = removelast (s ++ p)%list).
  { induction p as [|c p IH]; intros s Hc; [cbn; rewrite app_nil_r; auto|]. cbn [app resolve]. destruct (String.eqb_spec c ".."); [exfalso; apply Hc; left; auto|]. rewrite IH; [rewrite <- app_assoc; auto|intros J; apply Hc; right; auto]. }
  rewrite R by auto. cbn [app]. rewrite removelast_last. auto.
Qed.
Print Assumptions C112_parent_refuted.
Theorem C112_absolute_refuted {D} (parse : string -> string -> option D) dd rest f q : tree f -> clean (components (String "/" rest)) -> inside (components (String "/" rest)) q ->
  has_files dd f (String "/" rest) = false -> get (performs f (fst (load_dataset parse dd true NoAnswer f (String "/" rest)))) q = None.
Proof.
  intros T C I H. rewrite load_clears by auto. cbn [fst]. apply get_clearing; auto. change (join dd (real_name (String "/" rest))) with (components (String "/" rest)). unfold real_path. rewrite resolve_clean by auto. auto.
Qed.
Print Assumptions C112_absolute_refuted.

(** ** C113 *)
Lemma listed dd f n : get f (dd ++ [n])%list = Some Dir -> n <> "Data Descriptions" -> In n (list_cached dd f).
Proof.
  intros G N. apply get_in in G. unfold list_cached. apply in_flat_map. eexists. split; [exact G|]. cbn [fst snd]. rewrite removelast_last, path_eqb_refl, app_length. cbn [List.length]. rewrite Nat.add_1_r, Nat.eqb_refl. cbn [andb]. rewrite last_last. destruct (String.eqb_spec n "Data Descriptions"); [contradiction|]. left. auto.
Qed.
Lemma extraction_full full entries f : (forall e, In e entries -> fst e <> []) -> get f full = Some Dir -> get (performs f (extraction full entries)) full = Some Dir.
Proof.
  revert f. induction entries as [|(e, c) entries IH]; intros f H G; auto. unfold extraction. cbn [flat_map fst snd]. fold (extraction full entries). rewrite performs_app. apply IH; [intros; apply H; right; auto|].
  assert (NE : path_eqb (full ++ e)%list full = false). { apply path_eqb_false. intros E. rewrite <- app_nil_r in E. apply app_inv_head in E. apply (H (e, c) (or_introl eq_refl)). auto. }
  unfold performs. cbn [fold_left]. change (get (perform (perform (perform f (MkDir (removelast (full ++ e)%list))) (Write (full ++ e)%list "")) (Write (full ++ e)%list c)) full = Some Dir). cbn [perform]. rewrite !get_put, NE. change (get (perform f (MkDir (removelast (full ++ e)%list))) full = Some Dir). rewrite get_mkdir, G. auto.
Qed.
Lemma read_loaded {D} (parse : string -> string -> option D) dd f n x y : read_files parse dd f n = Loaded x y -> has_files dd f n = true.
Proof. unfold read_files, has_files. destruct (has_ext dd f n "txt"); auto. destruct (has_ext dd f n "arff"); [auto|discriminate]. Qed.
(** C113: once a dataset has been loaded, it is reported as cached, and is loaded again with the same result and without any change of the file
    system or any answer of the server *)
Theorem C113_loaded_partial {D} (parse : string -> string -> option D) dd f n use_cache answer x y : tree f -> clean dd -> plain n -> real_name n = n -> n <> "Data Descriptions" ->
  (forall entries e, answer = Archive entries -> In e entries -> fst e <> []) -> snd (load_dataset parse dd use_cache answer f n) = Loaded x y ->
  let f1 := performs f (fst (load_dataset parse dd use_cache answer f n)) in
  In n (list_cached dd f1) /\ forall answer', load_dataset parse dd true answer' f1 n = ([], Loaded x y).
Proof.
  intros T C P RN ND HE L f1. assert (R : read_files parse dd f1 n = Loaded x y /\ get f1 (dd ++ [n])%list = Some Dir).
  { unfold f1. unfold load_dataset in *. rewrite RN, full_plain in * by auto. destruct (negb (has_files dd f n) || negb use_cache) eqn:Q.
    - destruct answer as [| |entries]; [discriminate|discriminate|]. cbn [fst snd] in *. split; auto. change (MkDir (dd ++ [n])%list :: extraction (dd ++ [n])%list entries) with ([MkDir (dd ++ [n])%list] ++ extraction (dd ++ [n])%list entries)%list. rewrite !performs_app. apply extraction_full; [intros; eapply HE; eauto|]. unfold performs at 1. cbn [fold_left]. rewrite get_mkdir, get_clearing by (auto; exists []; rewrite app_nil_r; auto).
      replace (prefixb (dd ++ [n])%list (dd ++ [n])%list) with true; auto. symmetry. apply prefixb_spec. exists []. rewrite app_nil_r. auto.
    - cbn [fst snd] in *. split; auto. unfold performs. cbn [fold_left]. apply orb_false_iff in Q. destruct Q as (Q & _). apply negb_false_iff in Q. unfold has_files, has_ext in Q. rewrite RN, !file_path_plain in Q by (auto; split; auto).
      assert (TR : forall z nd, get f (dd ++ [n; z])%list = Some nd -> get f (dd ++ [n])%list = Some Dir). { intros z nd G. apply (T (dd ++ [n])%list [z] nd); [rewrite <- app_assoc; auto|discriminate]. }
      destruct (get f (dd ++ [n; file_name n "TRAIN" "txt"])%list) eqn:G1; [eapply TR; eauto|]. destruct (get f (dd ++ [n; file_name n "TRAIN" "arff"])%list) eqn:G2; [eapply TR; eauto|]. discriminate. }
  destruct R as (R & G). split; [apply listed; auto|]. intros answer'. unfold load_dataset. rewrite RN, (read_loaded parse dd f1 n x y R). cbn [negb orb]. rewrite R. auto.
Qed.
Print Assumptions C113_loaded_partial.
(** C113, false as stated: an answer that is not a zip file leaves an empty directory, which is reported as a cached dataset *)
Theorem C113_refuted {D} (parse : string -> string -> option D) dd f n : tree f -> clean dd -> plain n -> real_name n = n -> n <> "Data Descriptions" -> has_files dd f n = false ->
  let f1 := performs f (fst (load_dataset parse dd true NotZip f n)) in
  In n (list_cached dd f1) /\ has_files dd f1 n = false /\ snd (load_dataset parse dd true NoAnswer f1 n) = Raised.
Proof.
  intros T C P RN ND H f1. assert (E : f1 = perform (performs f (clearing f (dd ++ [n])%list)) (MkDir (dd ++ [n])%list)).
  { unfold f1, load_dataset. rewrite RN, H, full_plain by auto. cbn [negb orb fst]. rewrite performs_app. auto. }
  assert (HF : has_files dd f1 n = false).
  { apply lost; rewrite ?RN; auto. intros q I Nq. rewrite E, get_mkdir, get_clearing by auto. destruct (prefixb q (dd ++ [n])%list) eqn:Q; auto. exfalso. apply Nq. apply prefixb_spec in Q. destruct Q as (r & Q). destruct I as (s & ->). apply (f_equal (@List.length string)) in Q. rewrite !app_length in Q. assert (List.length s = 0%nat) by lia. destruct s; [|discriminate]. rewrite app_nil_r. auto. }
  split; [|split; auto].
  - apply listed; auto. rewrite E, get_mkdir, get_clearing by (auto; exists []; rewrite app_nil_r; auto). replace (prefixb (dd ++ [n])%list (dd ++ [n])%list) with true; auto. symmetry. apply prefixb_spec. exists []. rewrite app_nil_r. auto.
  - unfold load_dataset. rewrite RN, HF. auto.
Qed.
Print Assumptions C113_refuted.

(** ** C114 *)
(** C114: when the server answers, the lists are those of the server, and the univariate one is used from the cache if only it is missing *)
Theorem C114_online_partial fix1 fix2 names_uni names_multi dd f m u :
  let '(ops, a) := construct_archive fix1 fix2 dd (Some m) u in
  (forall c, u = Some c -> list_datasets names_uni names_multi (performs f ops) a = Ok (names_uni (fix2 (fix1 c)) ++ names_multi m)%list) /\
  (forall c, u = None -> get f (dd ++ ["summaryUnivariate.csv"])%list = Some (File c) -> list_datasets names_uni names_multi (performs f ops) a = Ok (names_uni c ++ names_multi m)%list).
Proof.
  assert (NE : path_eqb (dd ++ ["summaryUnivariate.csv"])%list (dd ++ ["summaryMultivariate.csv"])%list = false) by (apply path_eqb_false; intros E; apply app_inv_head in E; discriminate).
  assert (NE' : path_eqb (dd ++ ["summaryMultivariate.csv"])%list (dd ++ ["summaryUnivariate.csv"])%list = false) by (apply path_eqb_false; intros E; apply app_inv_head in E; discriminate).
  unfold construct_archive, fetch_list. cbn [option_map]. destruct u as [c0|].
  - split; [|discriminate]. intros c E. injection E as <-. unfold list_datasets, list_names. cbn [uni_file multi_file]. unfold performs. cbn [app fold_left]. set (f0 := perform f (MkDir dd)). cbn [perform]. rewrite !get_put, !path_eqb_refl, ?NE, ?NE'. auto.
  - split; [discriminate|]. intros c _ G. unfold list_datasets, list_names. cbn [uni_file multi_file]. unfold performs. cbn [app fold_left]. set (f0 := perform f (MkDir dd)). cbn [perform]. rewrite !get_put, !path_eqb_refl, ?NE, ?NE'. unfold f0. rewrite get_mkdir, G. auto.
Qed.
Print Assumptions C114_online_partial.
(** C114, false as stated: without the first answer the archive has no list of univariate datasets at all, even with both lists in the cache *)
Theorem C114_refuted fix1 fix2 names_uni names_multi dd f u cm cu : get f (dd ++ ["summaryMultivariate.csv"])%list = Some (File cm) -> get f (dd ++ ["summaryUnivariate.csv"])%list = Some (File cu) ->
  let '(ops, a) := construct_archive fix1 fix2 dd None u in
  list_names names_multi (performs f ops) (multi_file a) = Ok (names_multi cm) /\ list_names names_uni (performs f ops) (uni_file a) = Err AttributeError /\ list_datasets names_uni names_multi (performs f ops) a = Err AttributeError.
Proof. intros G1 G2. cbn -[perform]. unfold performs. cbn [fold_left]. rewrite get_mkdir, G1. auto. Qed.
Print Assumptions C114_refuted.

(** ** Instances *)
Definition home : fs := [([], Dir); (["data"], Dir); (["data"; "UCR_UEA"], Dir); (["data"; "UCR_UEA"; "Coffee"], Dir); (["data"; "UCR_UEA"; "Coffee"; "Coffee_TRAIN.txt"], File "1 2");
  (["data"; "UCR_UEA"; "Coffee"; "Coffee_TEST.txt"], File "3 4"); (["data"; "thesis"], Dir); (["data"; "thesis"; "main.tex"], File "text")].
Lemma tree_check f : forallb (fun e => forallb (fun k => match get f (firstn k (fst e)) with Some Dir => true | _ => false end) (seq 0 (List.length (fst e)))) f = true -> tree f.
Proof.
  intros H p q n G N. apply get_in in G. rewrite forallb_forall in H. specialize (H _ G). cbn [fst] in H. rewrite forallb_forall in H. assert (I : In (List.length p) (seq 0 (List.length (p ++ q)%list))) by (apply in_seq; rewrite app_length; destruct q; [congruence|cbn; lia]).
  specialize (H _ I). rewrite firstn_app, firstn_all, Nat.sub_diag in H. cbn [firstn] in H. rewrite app_nil_r in H. destruct (get f p) as [[|]|]; auto; discriminate.
Qed.
Lemma home_tree : tree home.
Proof. apply tree_check. reflexivity. Qed.
Example home_instance : let dd := ["data"; "UCR_UEA"] in tree home /\ clean dd /\ plain "Coffee" /\ real_name "Coffee" = "Coffee" /\ has_files dd home "Coffee" = true /\ has_files dd home "" = false /\ has_files dd home ".." = false /\
  components "/data/thesis" = ["data"; "thesis"] /\ has_files dd home "/data/thesis" = false /\
  get (performs home (fst (load_dataset (fun _ c => Some c) dd true NoAnswer home "/data/thesis"))) ["data"; "thesis"; "main.tex"] = None.
Proof.
  cbv zeta. split; [apply home_tree|]. split; [intros [E|[E|[]]]; discriminate|]. split; [split; [apply literal_slash; reflexivity|repeat split; discriminate]|]. repeat split.
Qed.

(** C124: what a loaded dataset contains. *)
From Coq Require Import Bool List Arith Lia String Ascii.
From Verif Require Import Py PersistModel PropPersist CacheModel PropCache.
Import ListNotations.
Local Open Scope string_scope.

(** ** specification vocabulary *)
(** the names under which some datasets are published *)
Definition published : list (string * string) :=
  [("AtrialFibrillation", "AtrialFibrilation"); ("CinCECGtorso", "CinCECGTorso"); ("MixedShapes", "MixedShapesRegularTrain");
   ("NonInvasiveFetalECGThorax1", "NonInvasiveFatalECGThorax1"); ("NonInvasiveFetalECGThorax2", "NonInvasiveFatalECGThorax2");
   ("StarlightCurves", "StarLightCurves")].
Definition stored_as (name n : string) : Prop :=
  In (name, n) published \/ ((forall m, ~ In (name, m) published) /\ n = name).
Definition train_file (n ext : string) : string := n ++ "_TRAIN." ++ ext.
Definition test_file (n ext : string) : string := n ++ "_TEST." ++ ext.
(** the two files of a dataset, in directory [p] *)
Definition holds (f : fs) (p : path) (n ext a b : string) : Prop :=
  get f (p ++ [train_file n ext])%list = Some (File a) /\ get f (p ++ [test_file n ext])%list = Some (File b).
(** one of the two files is missing *)
Definition lacks (f : fs) (p : path) (n ext : string) : Prop :=
  get f (p ++ [train_file n ext])%list = None \/ get f (p ++ [test_file n ext])%list = None.
(** an archive of files without subdirectories, each name once *)
Definition flat_archive (entries : list (path * string)) : Prop :=
  NoDup (map fst entries) /\ forall e, In e entries -> exists x, fst e = [x].

(** ** lemmas *)
Lemma stored_real name n : stored_as name n -> real_name name = n.
Proof.
  intros [H|[H ->]].
  - simpl in H. repeat (destruct H as [H|H]; [injection H as <- <-; reflexivity|]). contradiction.
  - unfold real_name.
    repeat match goal with |- context [String.eqb name ?x] => destruct (String.eqb_spec name x) as [->|];
      [exfalso; eapply H; simpl; intuition reflexivity|] end. reflexivity.
Qed.
Lemma paths dd n ext : clean dd -> plain n -> ext = "txt" \/ ext = "arff" ->
  file_path dd n "TRAIN" ext = ((dd ++ [n]) ++ [train_file n ext])%list /\ file_path dd n "TEST" ext = ((dd ++ [n]) ++ [test_file n ext])%list.
Proof. intros C P E. rewrite !file_path_plain by (auto; split; auto). rewrite <- !app_assoc. split; reflexivity. Qed.
Lemma has_iff dd f n ext : clean dd -> plain n -> real_name n = n -> ext = "txt" \/ ext = "arff" ->
  (forall a b, holds f (dd ++ [n])%list n ext a b -> has_ext dd f n ext = true) /\ (lacks f (dd ++ [n])%list n ext -> has_ext dd f n ext = false).
Proof.
  intros C P R E. destruct (paths dd n ext C P E) as [E1 E2]. unfold has_ext. cbv zeta. rewrite R, E1, E2. split.
  - intros a b [-> ->]. reflexivity.
  - intros [-> | ->]; [reflexivity|]. destruct (get f _); reflexivity.
Qed.
Lemma read_holds {D} (parse : string -> string -> option D) dd f n ext a b : clean dd -> plain n -> ext = "txt" \/ ext = "arff" ->
  holds f (dd ++ [n])%list n ext a b ->
  read_with parse dd f n ext = match parse ext a, parse ext b with Some x, Some y => Loaded x y | _, _ => Nothing end.
Proof. intros C P E [H1 H2]. destruct (paths dd n ext C P E) as [E1 E2]. unfold read_with. rewrite E1, E2, H1, H2. reflexivity. Qed.
(** the preferred format *)
Definition preferred (f : fs) (p : path) (n ext : string) : Prop := ext = "txt" \/ (ext = "arff" /\ lacks f p n "txt").
Lemma read_value {D} (parse : string -> string -> option D) dd f n ext a b : clean dd -> plain n -> real_name n = n ->
  holds f (dd ++ [n])%list n ext a b -> preferred f (dd ++ [n])%list n ext ->
  has_files dd f n = true /\
  read_files parse dd f n = match parse ext a, parse ext b with Some x, Some y => Loaded x y | _, _ => Nothing end.
Proof.
  intros C P R H [->|[-> L]].
  - destruct (has_iff dd f n "txt" C P R (or_introl eq_refl)) as [T _]. unfold has_files, read_files. rewrite (T a b H). split; [reflexivity|].
    apply read_holds; auto.
  - destruct (has_iff dd f n "txt" C P R (or_introl eq_refl)) as [_ T]. destruct (has_iff dd f n "arff" C P R (or_intror eq_refl)) as [A _].
    unfold has_files, read_files. rewrite (T L), (A a b H). split; [reflexivity|]. apply read_holds; auto.
Qed.
(** after the extraction each file of the archive has its contents, and nothing else is there *)
Lemma extraction_other full entries f q : flat_archive entries -> (exists x, q = (full ++ [x])%list) -> (forall c, ~ In (skipn (List.length full) q, c) entries) ->
  get (performs f (extraction full entries)) q = get f q.
Proof.
  intros F (x & ->) N. assert (SK : skipn (List.length full) (full ++ [x])%list = [x]).
  { rewrite skipn_app, skipn_all, Nat.sub_diag. reflexivity. }
  rewrite SK in N. destruct F as (_ & F). revert f. induction entries as [|(e, c) entries IH]; intros f; [reflexivity|].
  unfold extraction. cbn [flat_map fst snd]. fold (extraction full entries). rewrite performs_app, IH.
  2: intros e' I; apply F; right; auto.
  2: intros c' I; apply (N c'); right; auto.
  destruct (F (e, c) (or_introl eq_refl)) as (y & Ey). cbn [fst] in Ey. subst e.
  assert (NE : path_eqb (full ++ [y])%list (full ++ [x])%list = false).
  { apply path_eqb_false. intros E. apply app_inv_head in E. injection E as ->. apply (N c). left. reflexivity. }
  change (performs f _) with (put (put (perform f (MkDir (removelast (full ++ [y])%list))) (full ++ [y])%list (File "")) (full ++ [y])%list (File c)).
  rewrite !get_put, NE, get_mkdir, removelast_last.
  destruct (get f (full ++ [x])%list) eqn:G; auto.
  destruct (prefixb (full ++ [x])%list full) eqn:Q; auto. apply prefixb_spec in Q. destruct Q as (r & Q).
  apply (f_equal (@List.length string)) in Q. rewrite !app_length in Q. simpl in Q. lia.
Qed.
Lemma extraction_get full entries f x c : flat_archive entries -> In ([x], c) entries ->
  get (performs f (extraction full entries)) (full ++ [x])%list = Some (File c).
Proof.
  intros F I. revert f. induction entries as [|(e, k) entries IH]; intros f; [contradiction|].
  unfold extraction. cbn [flat_map fst snd]. fold (extraction full entries). rewrite performs_app. destruct F as (ND & F). cbn [map fst] in ND.
  inversion ND as [|? ? NI ND']; subst. assert (F' : flat_archive entries) by (split; [auto|intros e' I'; apply F; right; auto]).
  destruct I as [I|I].
  - injection I as -> ->. rewrite extraction_other; [|auto|eauto|].
    + change (performs f _) with (put (put (perform f (MkDir (removelast (full ++ [x])%list))) (full ++ [x])%list (File "")) (full ++ [x])%list (File c)).
      rewrite get_put, path_eqb_refl. reflexivity.
    + rewrite skipn_app, skipn_all, Nat.sub_diag. cbn [app skipn]. intros c' I'. apply NI. apply (in_map fst) in I'. exact I'.
  - apply IH; auto.
Qed.
Lemma name_not_dir full (x : string) : prefixb (full ++ [x])%list full = false.
Proof.
  destruct (prefixb (full ++ [x])%list full) eqn:Q; auto. apply prefixb_spec in Q. destruct Q as (r & Q).
  apply (f_equal (@List.length string)) in Q. rewrite !app_length in Q. simpl in Q. lia.
Qed.

(** ** C124 *)
(** a cached dataset: the contents of its TRAIN and TEST files, the txt files before the
    arff files, whatever the server would answer; the file system is not changed *)
Theorem C124_cached {D} (parse : string -> string -> option D) dd f name n ext a b x y answer :
  clean dd -> plain n -> stored_as name n -> holds f (dd ++ [n])%list n ext a b -> preferred f (dd ++ [n])%list n ext ->
  parse ext a = Some x -> parse ext b = Some y ->
  load_dataset parse dd true answer f name = ([], Loaded x y).
Proof.
  intros C P S H Pr Ea Eb. apply stored_real in S. assert (R : real_name n = n) by (rewrite <- S; apply real_name_twice).
  destruct (read_value parse dd f n ext a b C P R H Pr) as [HF E]. unfold load_dataset. rewrite S, HF. cbn. rewrite E, Ea, Eb. reflexivity.
Qed.
Print Assumptions C124_cached.
(** a dataset that is not cached, or not to be taken from the cache: the contents of the
    TRAIN and TEST files of the downloaded archive, whatever was in the cache before *)
Theorem C124_downloaded {D} (parse : string -> string -> option D) dd f name n ext a b x y use_cache entries :
  tree f -> clean dd -> plain n -> stored_as name n ->
  use_cache = false \/ (lacks f (dd ++ [n])%list n "txt" /\ lacks f (dd ++ [n])%list n "arff") ->
  flat_archive entries -> In ([train_file n ext], a) entries -> In ([test_file n ext], b) entries ->
  ext = "txt" \/ (ext = "arff" /\ ((forall c, ~ In ([train_file n "txt"], c) entries) \/ (forall c, ~ In ([test_file n "txt"], c) entries))) ->
  parse ext a = Some x -> parse ext b = Some y ->
  snd (load_dataset parse dd use_cache (Archive entries) f name) = Loaded x y.
Proof.
  intros T C P S U F Ia Ib Pr Ea Eb. apply stored_real in S. assert (R : real_name n = n) by (rewrite <- S; apply real_name_twice).
  unfold load_dataset. rewrite S. cbv zeta. rewrite full_plain by auto.
  assert (EU : negb (has_files dd f n) || negb use_cache = true).
  { destruct U as [->|[L1 L2]]; [apply orb_true_r|]. unfold has_files.
    destruct (has_iff dd f n "txt" C P R (or_introl eq_refl)) as [_ ->]; auto.
    destruct (has_iff dd f n "arff" C P R (or_intror eq_refl)) as [_ ->]; auto. }
  rewrite EU. cbn [snd]. set (full := (dd ++ [n])%list) in *.
  set (f1 := performs f (clearing f full ++ MkDir full :: extraction full entries)%list).
  assert (EF : f1 = performs (perform (performs f (clearing f full)) (MkDir full)) (extraction full entries)).
  { unfold f1. rewrite performs_app. reflexivity. }
  assert (H : holds f1 full n ext a b) by (rewrite EF; split; apply extraction_get; auto).
  assert (NO : forall z, (forall c, ~ In ([z], c) entries) -> get f1 (full ++ [z])%list = None).
  { intros z N. rewrite EF, extraction_other; [|auto|eauto|].
    - rewrite get_mkdir, get_clearing by (auto; exists [z]; auto). rewrite name_not_dir. reflexivity.
    - rewrite skipn_app, skipn_all, Nat.sub_diag. exact N. }
  assert (Pr' : preferred f1 full n ext).
  { destruct Pr as [->|[-> N]]; [left; auto|right; split; auto]. destruct N as [N|N]; [left|right]; apply NO; auto. }
  destruct (read_value parse dd f1 n ext a b C P R H Pr') as [_ E]. rewrite E, Ea, Eb. reflexivity.
Qed.
Print Assumptions C124_downloaded.
(** a dataset of which only one file is in the cache is not taken from the cache *)
Theorem C124_incomplete {D} (parse : string -> string -> option D) dd f name n use_cache :
  clean dd -> plain n -> stored_as name n -> lacks f (dd ++ [n])%list n "txt" -> lacks f (dd ++ [n])%list n "arff" ->
  snd (load_dataset parse dd use_cache NoAnswer f name) = Raised.
Proof.
  intros C P S L1 L2. apply stored_real in S. assert (R : real_name n = n) by (rewrite <- S; apply real_name_twice).
  unfold load_dataset, has_files. rewrite S. cbv zeta.
  destruct (has_iff dd f n "txt" C P R (or_introl eq_refl)) as [_ ->]; auto.
  destruct (has_iff dd f n "arff" C P R (or_intror eq_refl)) as [_ ->]; auto.
Qed.
Print Assumptions C124_incomplete.
Definition words (ext c : string) : option string := if String.eqb ext "txt" then Some c else None.
Example C124_instance : let dd := ["data"; "UCR_UEA"] in
  stored_as "Coffee" "Coffee" /\ stored_as "StarlightCurves" "StarLightCurves" /\ plain "StarLightCurves" /\
  holds home (dd ++ ["Coffee"])%list "Coffee" "txt" "1 2" "3 4" /\ preferred home (dd ++ ["Coffee"])%list "Coffee" "txt" /\
  lacks home (dd ++ ["StarLightCurves"])%list "StarLightCurves" "txt" /\
  flat_archive [(["StarLightCurves_TRAIN.txt"], "5"); (["StarLightCurves_TEST.txt"], "6")] /\
  snd (load_dataset words dd true (Archive [(["StarLightCurves_TRAIN.txt"], "5"); (["StarLightCurves_TEST.txt"], "6")]) home "StarlightCurves") = Loaded "5" "6".
Proof.
  intros dd. split; [|split; [|split; [|split; [|split; [|split; [|split]]]]]].
  - right. split; auto. intros m H. simpl in H. repeat (destruct H as [H|H]; [discriminate|]). auto.
  - left. simpl. tauto.
  - split; [apply literal_slash; reflexivity|]. repeat split; discriminate.
  - split; reflexivity.
  - left. reflexivity.
  - left. reflexivity.
  - split; [|intros e [<-|[<-|[]]]; eexists; reflexivity]. repeat constructor; simpl; intuition discriminate.
  - reflexivity.
Qed.

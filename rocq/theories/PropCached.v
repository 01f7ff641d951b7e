(** C171: names and files of [CachedDatasets]. *)
From Coq Require Import Bool String Ascii List Arith Lia.
From Verif Require Import Py CachedModel.
Import ListNotations.
Local Open Scope string_scope.

(** ** specification *)
Fixpoint no_dot (s : string) : Prop := match s with "" => True | String c s => c <> "."%char /\ no_dot s end.
(** [n] has an extension: [a.b] with something before the last dot and something after it *)
Definition extension (n a b : string) : Prop := n = a ++ "." ++ b /\ a <> "" /\ b <> "" /\ no_dot b.
Definition plain (n : string) : Prop := n <> "" /\ forall a b, ~ extension n a b.
(** the four arrays of a file *)
Definition holds {A} (f : npz A) (k : string) (v : A) : Prop := In (k, v) f.
Definition well_named {V} (l : list (string * V)) : Prop := NoDup (map fst l).

Lemma app_cons_str c s t : String c s ++ t = String c (s ++ t).
Proof. reflexivity. Qed.
Lemma last_dot_none s : last_dot s = None <-> no_dot s.
Proof.
  induction s as [|c s IH]; cbn [last_dot no_dot]; [tauto|]. destruct (last_dot s) as [[a b]|]; [split; [discriminate|]; intros [_ H]; apply IH in H; discriminate|].
  destruct (Ascii.eqb_spec c "."); [split; [discriminate|tauto]|]. split; [|tauto]. intros _. split; auto. apply IH. auto.
Qed.
Lemma last_dot_some s a b : last_dot s = Some (a, b) <-> s = a ++ "." ++ b /\ no_dot b.
Proof.
  revert a. induction s as [|c s IH]; intros a; cbn [last_dot].
  - split; [discriminate|]. intros [H _]. destruct a; discriminate.
  - destruct (last_dot s) as [[a' b']|] eqn:E.
    + split.
      * intros H. injection H as <- <-. destruct (IH a') as [K _]. destruct (K eq_refl) as [-> N]. auto.
      * intros [H N]. destruct a as [|c' a].
        { cbn in H. injection H as -> ->. apply last_dot_none in N. congruence. }
        rewrite app_cons_str in H. injection H as -> H. destruct (IH a) as [_ K]. specialize (K (conj H N)). injection K as -> ->. auto.
    + assert (N0 := E). apply last_dot_none in N0. destruct (Ascii.eqb_spec c ".") as [->|Hc].
      * split; [intros H; injection H as <- <-; auto|]. intros [H N]. destruct a as [|c' a]; [cbn in H; injection H as ->; auto|].
        rewrite app_cons_str in H. injection H as <- H. destruct (IH a) as [_ K]. specialize (K (conj H N)). discriminate.
      * split; [discriminate|]. intros [H N]. destruct a as [|c' a]; [cbn in H; injection H as -> _; congruence|].
        rewrite app_cons_str in H. injection H as -> H. destruct (IH a) as [_ K]. specialize (K (conj H N)). discriminate.
Qed.
Lemma cut_extension n a b : extension n a b -> cut_suffix n = (a, "." ++ b).
Proof.
  intros (E & Na & Nb & H). assert (K : last_dot n = Some (a, b)) by (apply last_dot_some; auto). unfold cut_suffix. rewrite K. destruct a; [congruence|]. destruct b; [congruence|]. reflexivity.
Qed.
Lemma cut_plain n : (forall a b, ~ extension n a b) -> cut_suffix n = (n, "").
Proof.
  intros H. unfold cut_suffix. destruct (last_dot n) as [[a b]|] eqn:E; auto. destruct a as [|c a]; auto. destruct b as [|e b]; auto.
  exfalso. apply last_dot_some in E. destruct E as [E N]. apply (H (String c a) (String e b)). repeat split; auto; try discriminate; apply N.
Qed.
Lemma cut_cases n : (exists a b, extension n a b /\ cut_suffix n = (a, "." ++ b)) \/ ((forall a b, ~ extension n a b) /\ cut_suffix n = (n, "")).
Proof.
  unfold cut_suffix. destruct (last_dot n) as [[[|c a] [|e b]]|] eqn:E.
  - right. split; auto. intros a b K. pose proof (cut_extension _ _ _ K) as C. unfold cut_suffix in C. rewrite E in C. discriminate.
  - right. split; auto. intros a b' K. pose proof (cut_extension _ _ _ K) as C. unfold cut_suffix in C. rewrite E in C. discriminate.
  - right. split; auto. intros a' b K. pose proof (cut_extension _ _ _ K) as C. unfold cut_suffix in C. rewrite E in C. discriminate.
  - left. exists (String c a), (String e b). split; auto. apply last_dot_some in E. destruct E as [E N]. repeat split; auto; try discriminate; apply N.
  - right. split; auto. intros a b K. pose proof (cut_extension _ _ _ K) as C. unfold cut_suffix in C. rewrite E in C. discriminate.
Qed.
Lemma npz_extension n : n <> "" -> extension (n ++ ".npz") n "npz".
Proof. intros H. split; [reflexivity|]. split; auto. split; [discriminate|]. cbn. repeat split; discriminate. Qed.
Lemma str_app_nil s : s ++ "" = s.
Proof. induction s; cbn; congruence. Qed.
Lemma str_app_inj a b t : a ++ t = b ++ t -> a = b.
Proof.
  revert b. induction a as [|c a IH]; intros [|e b] H; auto.
  - exfalso. apply (f_equal String.length) in H. rewrite app_cons_str in H. cbn in H. assert (L : forall x y, String.length (x ++ y) = String.length x + String.length y) by (induction x; cbn; intros; auto).
    rewrite L in H. lia.
  - exfalso. apply (f_equal String.length) in H. rewrite app_cons_str in H. cbn in H. assert (L : forall x y, String.length (x ++ y) = String.length x + String.length y) by (induction x; cbn; intros; auto).
    rewrite L in H. lia.
  - rewrite !app_cons_str in H. injection H as -> H. f_equal. auto.
Qed.

(** The list of datasets has each [n] once for which there is a file [n.npz]. *)
Theorem C171_list {A} (d : directory A) : (forall n, In n (list_datasets d) <-> n <> "" /\ In (n ++ ".npz") (map fst d)) /\ (well_named d -> NoDup (list_datasets d)).
Proof.
  assert (K : forall f, suffix f = ".npz" -> with_suffix "" f <> "" /\ with_suffix "" f ++ ".npz" = f).
  { intros f H. unfold suffix, with_suffix in *. destruct (cut_cases f) as [(a & b & (E & Na & Nb & _) & C)|[_ C]]; rewrite C in *; cbn [fst snd] in *; [|discriminate].
    rewrite str_app_nil. split; auto. rewrite E, H. auto. }
  split.
  - intros n. unfold list_datasets. rewrite in_map_iff. split.
    + intros ((f & c) & <- & I). apply filter_In in I. destruct I as [I S]. cbn [fst] in *. apply String.eqb_eq in S. destruct (K f S) as [N E]. split; auto. rewrite E. apply (in_map fst d (f, c) I).
    + intros [N I]. apply in_map_iff in I. destruct I as ((f & c) & E & I). cbn [fst] in E. subst f. exists (n ++ ".npz", c). pose proof (cut_extension _ _ _ (npz_extension n N)) as C.
      cbn [fst]. unfold with_suffix. rewrite C. split; [apply str_app_nil|]. apply filter_In. split; auto. cbn [fst]. unfold suffix. rewrite C. reflexivity.
  - unfold well_named, list_datasets. intros H. induction d as [|[f c] d IH]; cbn [map filter fst]; [constructor|]. cbn [map fst] in H. inversion H as [|? ? Hn Hd]; subst. cbn [filter fst].
    destruct (String.eqb_spec (suffix f) ".npz") as [S|S]; [|auto]. cbn [map fst]. constructor; [|auto]. intros I. apply in_map_iff in I. destruct I as ((g & c') & E & I).
    apply filter_In in I. destruct I as [I S']. cbn [fst] in *. apply String.eqb_eq in S'. destruct (K f S) as [_ Ef]. destruct (K g S') as [_ Eg]. rewrite E in Eg. rewrite Ef in Eg. subst g.
    apply Hn. apply (in_map fst d (f, c') I).
Qed.
Print Assumptions C171_list.

Lemma find_in {V} k (v : V) l : NoDup (map fst l) -> In (k, v) l -> find k l = Some v.
Proof.
  induction l as [|[k' w] l IH]; intros H I; [destruct I|]. cbn [find]. inversion H as [|? ? Hn Hl]; subst. destruct I as [E|I]; [injection E as -> ->; rewrite String.eqb_refl; auto|].
  destruct (String.eqb_spec k k') as [->|]; [exfalso; apply Hn; apply (in_map fst l (k', v) I)|auto].
Qed.
Lemma find_none {V} k (l : list (string * V)) : ~ In k (map fst l) -> find k l = None.
Proof. induction l as [|[k' w] l IH]; intros H; auto. cbn [find map fst] in *. destruct (String.eqb_spec k k') as [->|]; [exfalso; apply H; left; auto|]. apply IH. intros I. apply H. right. auto. Qed.
(** what a file gives *)
Definition four {A} (f : npz A) (X y X' y' : A) : Prop := holds f "X_train" X /\ holds f "y_train" y /\ holds f "X_test" X' /\ holds f "y_test" y'.
Lemma load_file {A} (d : directory A) n g f X y X' y' : n <> "" -> well_named d -> well_named f -> with_suffix ".npz" n = g -> In (g, f) d -> four f X y X' y' ->
  load_dataset d n = Ok (X, y, X', y').
Proof.
  intros N Hd Hf <- I (F1 & F2 & F3 & F4). unfold load_dataset. destruct (String.eqb_spec n ""); [congruence|]. rewrite (find_in _ f) by auto. unfold entry.
  rewrite (find_in _ X), (find_in _ X'), (find_in _ y), (find_in _ y') by auto. reflexivity.
Qed.
(** A listed name without extension loads its own file: training series, training labels,
    test series, test labels.  The name of the file loads it as well. *)
Theorem C171_load {A} (d : directory A) n f X y X' y' : well_named d -> well_named f -> In (n ++ ".npz", f) d -> four f X y X' y' -> plain n ->
  In n (list_datasets d) /\ load_dataset d n = Ok (X, y, X', y') /\ load_dataset d (n ++ ".npz") = Ok (X, y, X', y').
Proof.
  intros Hd Hf I F [N P]. split; [apply C171_list; split; auto; apply (in_map fst d _ I)|]. split.
  - apply (load_file d n (n ++ ".npz") f); auto. unfold with_suffix. rewrite cut_plain by auto. auto.
  - apply (load_file d (n ++ ".npz") (n ++ ".npz") f); auto; [destruct n; discriminate|]. unfold with_suffix. rewrite (cut_extension _ _ _ (npz_extension n N)). auto.
Qed.
Print Assumptions C171_load.
(** A name [a.b] loads the file [a.npz], whatever [b] is, although [a.b.npz] is the file it is listed for. *)
Theorem C171_extension {A} (d : directory A) n a b f X y X' y' : extension n a b -> well_named d -> well_named f -> In (a ++ ".npz", f) d -> four f X y X' y' ->
  load_dataset d n = Ok (X, y, X', y').
Proof.
  intros E Hd Hf I F. apply (load_file d n (a ++ ".npz") f); auto; [destruct E as (-> & Na & _); destruct a; [congruence|discriminate]|]. unfold with_suffix. rewrite (cut_extension _ _ _ E). auto.
Qed.
Print Assumptions C171_extension.
(** A name without a file raises. *)
Theorem C171_missing {A} (d : directory A) n : (forall a b, extension n a b -> ~ In (a ++ ".npz") (map fst d)) -> (plain n -> ~ In (n ++ ".npz") (map fst d)) ->
  load_dataset d n = Err OtherError.
Proof.
  intros H H'. unfold load_dataset. destruct (String.eqb_spec n "") as [|N]; auto. unfold with_suffix. destruct (cut_cases n) as [(a & b & E & C)|[P C]]; rewrite C; cbn [fst].
  - rewrite find_none; auto. eapply H. exact E.
  - rewrite find_none; auto. apply H'. split; auto.
Qed.
Print Assumptions C171_missing.
(** So not every listed name can be loaded, and one may give another dataset. *)
Theorem C171_refuted :
  (exists (d : directory nat) f, well_named d /\ In ("A.1.npz", f) d /\ four f 1 2 3 4 /\ In "A.1" (list_datasets d) /\ load_dataset d "A.1" = Err OtherError) /\
  (exists (d : directory nat) f, well_named d /\ In ("A.1.npz", f) d /\ four f 1 2 3 4 /\ In "A.1" (list_datasets d) /\ load_dataset d "A.1" = Ok (5, 6, 7, 8)).
Proof.
  set (f := [("X_train", 1); ("y_train", 2); ("X_test", 3); ("y_test", 4)]). set (g := [("X_train", 5); ("y_train", 6); ("X_test", 7); ("y_test", 8)]).
  split; [exists [("A.1.npz", f)], f|exists [("A.1.npz", f); ("A.npz", g)], f]; (split; [repeat constructor; cbn; intuition discriminate|]); (split; [cbn; auto|]);
    (split; [repeat split; cbn; auto|]); (split; [apply C171_list; split; [discriminate|cbn; auto]|]); reflexivity.
Qed.
Print Assumptions C171_refuted.
Example C171_nontrivial : exists (d : directory nat), well_named d /\ list_datasets d = ["Trace"; "v2"] /\ load_dataset d "Trace" = Ok (1, 2, 3, 4) /\ plain "Trace".
Proof.
  exists [("Trace.npz", [("y_train", 2); ("X_train", 1); ("X_test", 3); ("y_test", 4)]); ("singleTrainTest.csv", []); (".npz", []); ("v2.npz", [])].
  split; [repeat constructor; cbn; intuition discriminate|]. split; [reflexivity|]. split; [reflexivity|]. split; [discriminate|].
  intros a b E. apply cut_extension in E. cbn in E. injection E as _ E. discriminate.
Qed.

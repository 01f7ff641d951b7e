(** C234: the lists of datasets of UCR_UEA_datasets. *)
From Coq Require Import Bool List Arith String Ascii Lia.
From Verif Require Import Py BaselineModel PropBaseline SummaryModel.
Import ListNotations.
Local Open Scope string_scope.

(** ** specification *)
Definition occurs (w s : string) : Prop := exists a b, s = a ++ w ++ b.
(** [s'] is [s] with some occurrences of [old] exchanged for [new], and nothing else changed *)
Inductive exchanged (old new : string) : string -> string -> Prop :=
| ex_end : exchanged old new "" ""
| ex_char c s s' : exchanged old new s s' -> exchanged old new (String c s) (String c s')
| ex_word s s' : exchanged old new s s' -> exchanged old new (old ++ s) (new ++ s').
(** the entries of a table in the column with the given title *)
Definition column_of (title : string) (header : list string) (rows : list (list string)) (l : list string) : Prop :=
  exists i, nth_error header i = Some title /\ Forall2 (fun row x => nth_error row i = Some x) rows l.
(** every title once, every row as long as the header *)
Definition table (header : list string) (rows : list (list string)) : Prop := NoDup header /\ forall r, In r rows -> List.length r = List.length header.

(** ** replacing, on lists *)
Section L.
Context {A : Type}.
Variable eqb : A -> A -> bool.
Hypothesis spec : forall a b, eqb a b = true <-> a = b.
Implicit Types s t w old new : list A.
Lemma starts_iff w : forall s, starts eqb w s = true <-> exists t, s = (w ++ t)%list.
Proof.
  induction w as [|x w IH]; intros s; cbn [starts]; [split; auto; intros _; exists s; auto|]. destruct s as [|y s]; [split; [discriminate|intros (t & H); discriminate]|]. rewrite andb_true_iff, spec, IH. split.
  - intros [-> (t & ->)]. exists t. auto.
  - intros (t & H). injection H as -> ->. eauto.
Qed.
Lemma replace_skip old new : forall k s, replace_from eqb old new k s = replace_from eqb old new 0 (skipn k s).
Proof. induction k as [|k IH]; intros [|c s]; cbn [skipn]; auto. rewrite <- IH. reflexivity. Qed.
Lemma replace_hit old new t : old <> [] -> replace_from eqb old new 0 (old ++ t) = (new ++ replace_from eqb old new 0 t)%list.
Proof.
  intros N. destruct old as [|x old]; [congruence|]. cbn [app replace_from]. replace (starts eqb (x :: old) (x :: (old ++ t))) with true by (symmetry; apply starts_iff; exists t; auto).
  rewrite replace_skip. f_equal. f_equal. cbn [List.length]. replace (S (List.length old) - 1) with (List.length old + 0) by lia. rewrite skipn_app, Nat.add_0_r, skipn_all, Nat.sub_diag. auto.
Qed.
Lemma replace_miss old new c s : starts eqb old (c :: s) = false -> replace_from eqb old new 0 (c :: s) = c :: replace_from eqb old new 0 s.
Proof. intros H. cbn [replace_from]. rewrite H. auto. Qed.
(** one of the two begins with the other *)
Definition agree w s : bool := starts eqb w s || starts eqb s w.
Lemma agree_app w s x y : (w ++ x = s ++ y)%list -> agree w s = true.
Proof. intros H. apply app_eq_app in H. unfold agree. rewrite orb_true_iff, !starts_iff. destruct H as (l & [[-> _]|[-> _]]); eauto. Qed.
(** [w] shares no letters with [new] in any relative position *)
Definition apart new w : bool :=
  forallb (fun p => negb (agree (skipn p new) w)) (seq 0 (List.length new)) && forallb (fun j => negb (agree (skipn j w) new)) (seq 1 (List.length w - 1)).
Lemma apart_1 new w a l : apart new w = true -> new = (a ++ l)%list -> l <> [] -> agree l w = false.
Proof.
  intros H -> N. unfold apart in H. apply andb_prop in H. destruct H as [H _]. rewrite forallb_forall in H. specialize (H (List.length a)). rewrite skipn_app, skipn_all, Nat.sub_diag in H. cbn in H. apply negb_true_iff, H.
  apply in_seq. rewrite app_length. destruct l; [congruence|cbn; lia].
Qed.
Lemma apart_2 new w a l : apart new w = true -> w = (a ++ l)%list -> a <> [] -> l <> [] -> agree l new = false.
Proof.
  intros H -> Na N. unfold apart in H. apply andb_prop in H. destruct H as [_ H]. rewrite forallb_forall in H. specialize (H (List.length a)). rewrite skipn_app, skipn_all, Nat.sub_diag in H. cbn in H. apply negb_true_iff, H.
  apply in_seq. rewrite app_length. destruct l; [congruence|]. destruct a; [congruence|cbn; lia].
Qed.
Section Occ.
Variables old new w : list A.
Hypothesis No : old <> [].
Hypothesis AP : apart new w = true.
Lemma cases s : (exists t, s = (old ++ t)%list /\ List.length t < List.length s) \/ s = [] \/ exists c s', s = c :: s' /\ starts eqb old s = false.
Proof.
  destruct s as [|c s]; auto. destruct (starts eqb old (c :: s)) eqn:E; [left|right; right; eauto]. apply starts_iff in E. destruct E as (t & E). exists t. split; auto. rewrite E, app_length. destruct old; [congruence|cbn; lia].
Qed.
Lemma tail_kept : forall n t, List.length t <= n -> forall a l b, w = (a ++ l)%list -> a <> [] -> replace_from eqb old new 0 t = (l ++ b)%list -> exists b', t = (l ++ b')%list.
Proof.
  induction n as [|n IH]; intros t L a l b W Na H.
  - destruct t; [|cbn in L; lia]. cbn in H. destruct l; [exists []; auto|discriminate].
  - destruct l as [|x l]; [exists t; auto|]. destruct (cases t) as [(t' & -> & L')|[->|(c & t' & -> & E)]].
    + rewrite replace_hit in H by auto. exfalso. assert (F : agree (x :: l) new = true) by (apply (agree_app _ _ b (replace_from eqb old new 0 t')); auto). rewrite (apart_2 new w a (x :: l)) in F; auto; discriminate.
    + discriminate.
    + rewrite replace_miss in H by auto. injection H as -> H. destruct (IH t' ltac:(cbn in L; lia) (a ++ [x])%list l b) as (b' & ->); auto; [rewrite <- app_assoc; auto|destruct a; discriminate|]. exists b'. auto.
Qed.
(** an occurrence of [w] afterwards was there before, at a place where [old] was not exchanged *)
Lemma occ_before : w <> [] -> forall n t, List.length t <= n -> forall a b, replace_from eqb old new 0 t = (a ++ w ++ b)%list -> exists a' t', t = (a' ++ t')%list /\ starts eqb old t' = false /\ starts eqb w t' = true.
Proof.
  intros Nw. induction n as [|n IH]; intros t L a b H.
  - destruct t; [|cbn in L; lia]. cbn in H. destruct a, w; try discriminate. congruence.
  - destruct (cases t) as [(t' & -> & L')|[->|(c & t' & -> & E)]].
    + rewrite replace_hit in H by auto. apply app_eq_app in H. destruct H as (l & [[E H]|[-> H]]).
      * destruct l as [|x l].
        -- cbn in H. destruct (IH t' ltac:(lia) [] b) as (a' & t1 & -> & Q); [auto|]. exists (old ++ a')%list, t1. rewrite app_assoc. auto.
        -- exfalso. assert (F : agree (x :: l) w = true) by (apply (agree_app _ _ (replace_from eqb old new 0 t') b); auto). rewrite (apart_1 new w a (x :: l)) in F; auto; discriminate.
      * destruct (IH t' ltac:(lia) l b H) as (a' & t1 & -> & Q). exists (old ++ a')%list, t1. rewrite app_assoc. auto.
    + cbn in H. destruct a, w; try discriminate. congruence.
    + rewrite replace_miss in H by auto. destruct a as [|y a].
      * exists [], (c :: t'). split; auto. split; auto. apply starts_iff. assert (W : exists x w', w = x :: w') by (clear - Nw; destruct w; [congruence|eauto]). destruct W as (x & w' & W). rewrite W in H |- *. cbn in H. injection H as -> H.
        destruct (tail_kept n t' ltac:(cbn in L; lia) [x] w' b) as (b' & ->); auto; [discriminate|]. exists b'. auto.
      * injection H as -> H. destruct (IH t' ltac:(cbn in L; lia) a b H) as (a' & t1 & -> & Q). exists (y :: a')%list, t1. auto.
Qed.
End Occ.
End L.

(** ** and on strings *)
Notation chars := list_ascii_of_string.
Lemma chars_app a b : chars (a ++ b) = (chars a ++ chars b)%list.
Proof. induction a as [|c a IH]; cbn; auto. rewrite IH. auto. Qed.
Lemma chars_inj a b : chars a = chars b -> a = b.
Proof. intros H. rewrite <- (string_of_list_ascii_of_string a), H. apply string_of_list_ascii_of_string. Qed.
Lemma aspec a b : Ascii.eqb a b = true <-> a = b.
Proof. apply Ascii.eqb_eq. Qed.
Lemma chars_replace old new s : chars (replace_string old new s) = replace_from Ascii.eqb (chars old) (chars new) 0 (chars s).
Proof. unfold replace_string. apply list_ascii_of_string_of_list_ascii. Qed.
Lemma starts_occ w s a t : chars s = (a ++ t)%list -> starts Ascii.eqb (chars w) t = true -> occurs w s.
Proof.
  intros E H. apply (starts_iff _ aspec) in H. destruct H as (b & ->). exists (string_of_list_ascii a), (string_of_list_ascii b). apply chars_inj. rewrite !chars_app, !list_ascii_of_string_of_list_ascii. auto.
Qed.
Lemma gone old new s : chars old <> [] -> apart Ascii.eqb (chars new) (chars old) = true -> ~ occurs old (replace_string old new s).
Proof.
  intros N AP (a & b & H). apply (f_equal chars) in H. rewrite chars_replace, !chars_app in H.
  destruct (occ_before Ascii.eqb aspec _ _ _ N AP N _ _ (le_n _) _ _ H) as (a' & t' & _ & F & T). congruence.
Qed.
Lemma not_new old new w s : chars old <> [] -> chars w <> [] -> apart Ascii.eqb (chars new) (chars w) = true -> occurs w (replace_string old new s) -> occurs w s.
Proof.
  intros N Nw AP (a & b & H). apply (f_equal chars) in H. rewrite chars_replace, !chars_app in H.
  destruct (occ_before Ascii.eqb aspec _ _ _ N AP Nw _ _ (le_n _) _ _ H) as (a' & t' & E & _ & T). apply (starts_occ w s a' t'); auto.
Qed.
Lemma ex_replace old new : chars old <> [] -> forall n s, String.length s <= n -> exchanged old new s (replace_string old new s).
Proof.
  intros N. assert (LC : forall x, List.length (chars x) = String.length x) by (induction x; cbn; auto).
  induction n as [|n IH]; intros s L.
  - destruct s; [|cbn in L; lia]. constructor.
  - destruct (cases Ascii.eqb aspec _ N (chars s)) as [(t & E & L')|[E|(c & t & E & F)]].
    + set (t0 := string_of_list_ascii t). assert (Et : chars t0 = t) by apply list_ascii_of_string_of_list_ascii. assert (Es : s = old ++ t0) by (apply chars_inj; rewrite chars_app, Et; auto).
      replace (replace_string old new s) with (new ++ replace_string old new t0); [rewrite Es; constructor; apply IH; rewrite <- LC, Et, LC in *; lia|].
      apply chars_inj. rewrite chars_app, !chars_replace, Es, chars_app, (replace_hit _ aspec); auto.
    + destruct s; [|discriminate]. constructor.
    + destruct s as [|c' s']; [discriminate|]. cbn [list_ascii_of_string] in E, F. injection E as -> <-.
      replace (replace_string old new (String c s')) with (String c (replace_string old new s')); [constructor; apply IH; cbn in L; lia|].
      apply chars_inj. cbn [list_ascii_of_string]. rewrite !chars_replace. cbn [list_ascii_of_string]. rewrite replace_miss; auto.
Qed.
Lemma same_without old new s s' : exchanged old new s s' -> ~ occurs old s -> s' = s.
Proof.
  induction 1 as [|c s s' H IH|s s' H IH]; intros N; auto.
  - f_equal. apply IH. intros (a & b & ->). apply N. exists (String c a), b. auto.
  - exfalso. apply N. exists "", s. auto.
Qed.
Lemma column_right title header rows l : table header rows -> column_of title header rows l -> header <> [] -> column title (dict_rows (header :: rows)) = Ok (map Text l).
Proof.
  intros (ND & L) (i & Hi & F) Nh. unfold dict_rows.
  assert (NE : filter (fun r : list string => negb (List.length r =? 0)%nat) rows = rows).
  { clear F. induction rows as [|r rows IH]; auto. cbn [filter]. rewrite (L r) by (left; auto). destruct header; [congruence|]. cbn [List.length Nat.eqb negb]. f_equal. apply IH. intros; apply L; right; auto. }
  rewrite NE. clear NE. induction F as [|row x rows l Hx F IH]; auto. cbn [map column].
  assert (G : dget okey_eqb (row_dict header row) (Some title) = Some (Text x)).
  { assert (Lr : List.length row = List.length header) by (apply L; left; auto). rewrite row_dict_full by auto. apply (dget_in okey_eqb okey_spec).
    - rewrite map_map. cbn [fst]. rewrite <- (map_map fst Some). rewrite keys by auto. apply FinFun.Injective_map_NoDup; auto. intros ? ? Q. congruence.
    - apply in_map_iff. exists (title, x). split; auto. clear - Hi Hx Lr. revert header row Hi Hx Lr. induction i as [|i IH]; intros [|h header] [|r row] Hi Hx Lr; cbn in Hi, Hx; try discriminate; [injection Hi as ->; injection Hx as ->; left; auto|right; apply IH; auto]. }
  rewrite G. cbn [bind]. rewrite IH; [reflexivity|]. intros; apply L; right; auto.
Qed.

(** ** C234 *)
(** The list stored for univariate datasets is the server's, with the two names corrected wherever they occur and nothing else changed. *)
Theorem C234_corrected m u before : exists u1 u2, uni_file (files (construct (Some m) (Some u) before)) = Some u2 /\
  exchanged "CinCECGtorso" "CinCECGTorso" u u1 /\ exchanged "StarlightCurves" "StarLightCurves" u1 u2 /\
  ~ occurs "CinCECGtorso" u2 /\ ~ occurs "StarlightCurves" u2 /\ (~ occurs "CinCECGtorso" u -> ~ occurs "StarlightCurves" u -> u2 = u).
Proof.
  set (u1 := replace_string "CinCECGtorso" "CinCECGTorso" u). set (u2 := replace_string "StarlightCurves" "StarLightCurves" u1). exists u1, u2.
  assert (X1 : exchanged "CinCECGtorso" "CinCECGTorso" u u1) by (eapply ex_replace; [discriminate|apply le_n]).
  assert (X2 : exchanged "StarlightCurves" "StarLightCurves" u1 u2) by (eapply ex_replace; [discriminate|apply le_n]).
  split; [reflexivity|]. split; [exact X1|]. split; [exact X2|]. split; [|split].
  - intros O. assert (O1 : occurs "CinCECGtorso" u1) by (revert O; apply not_new; [discriminate|discriminate|vm_compute; reflexivity]).
    revert O1. apply gone; [discriminate|vm_compute; reflexivity].
  - apply gone; [discriminate|vm_compute; reflexivity].
  - intros N1 N2. apply same_without in X1; auto. apply same_without in X2; [congruence|]. congruence.
Qed.
Print Assumptions C234_corrected.
(** With the server, the list of datasets is the column "problem" of the corrected univariate table, then the column "Problem" of the multivariate one. *)
Theorem C234_list fields m u before u2 hu ru lu hm rm lm : uni_file (files (construct (Some m) (Some u) before)) = Some u2 ->
  fields u2 = hu :: ru -> table hu ru -> column_of "problem" hu ru lu -> fields m = hm :: rm -> table hm rm -> column_of "Problem" hm rm lm ->
  let a := construct (Some m) (Some u) before in
  list_univariate fields a = Ok (map Text lu) /\ list_multivariate fields a = Ok (map Text lm) /\ list_datasets fields a = Ok (map Text (lu ++ lm)%list).
Proof.
  intros E Fu Tu Cu Fm Tm Cm a. assert (U : list_univariate fields a = Ok (map Text lu)).
  { unfold list_univariate, a. rewrite E. cbn [construct uni_known read_column]. rewrite Fu. apply column_right; auto. destruct Cu as (i & Hi & _). intros ->. destruct i; discriminate. }
  assert (M : list_multivariate fields a = Ok (map Text lm)).
  { unfold list_multivariate, a. cbn [construct files multi_file read_column]. rewrite Fm. apply column_right; auto. destruct Cm as (i & Hi & _). intros ->. destruct i; discriminate. }
  split; [exact U|]. split; [exact M|]. unfold list_datasets. rewrite U, M. cbn [bind]. rewrite map_app. reflexivity.
Qed.
Print Assumptions C234_list.
(** Without an answer to the first request the files of an earlier session stay, the multivariate list can still be read from them,
    but the univariate list and the list of all datasets are an AttributeError. *)
Theorem C234_no_server fields uni before : let a := construct None uni before in
  files a = before /\ list_univariate fields a = Err AttributeError /\ list_datasets fields a = Err AttributeError /\
  forall m hm rm lm, multi_file before = Some m -> fields m = hm :: rm -> table hm rm -> column_of "Problem" hm rm lm -> list_multivariate fields a = Ok (map Text lm).
Proof.
  intros a. repeat split; auto. intros m hm rm lm E F T C. unfold list_multivariate, a. cbn [construct files]. rewrite E. cbn [read_column]. rewrite F. apply column_right; auto. destruct C as (i & Hi & _). intros ->. destruct i; discriminate.
Qed.
Print Assumptions C234_no_server.
(** When only the second request fails, the univariate list is the one of the earlier session. *)
Theorem C234_second_request fields m u m' before u2 hu ru lu : uni_file (files (construct (Some m) (Some u) before)) = Some u2 ->
  fields u2 = hu :: ru -> table hu ru -> column_of "problem" hu ru lu ->
  list_univariate fields (construct (Some m') None (files (construct (Some m) (Some u) before))) = Ok (map Text lu).
Proof.
  intros E Fu Tu Cu. unfold list_univariate. set (f := files (construct (Some m) (Some u) before)) in *. cbn [construct uni_known files uni_file]. rewrite E. cbn [read_column]. rewrite Fu.
  apply column_right; auto. destruct Cu as (i & Hi & _). intros ->. destruct i; discriminate.
Qed.
Print Assumptions C234_second_request.
Example C234_instance : uni_file (files (construct (Some "Problem") (Some "problem,CinCECGtorso,CinCECGtorsoStarlightCurves") {| multi_file := None; uni_file := None |})) = Some "problem,CinCECGTorso,CinCECGTorsoStarLightCurves" /\
  (table ["x"; "problem"] [["1"; "Coffee"]; ["2"; "Beef"]] /\ column_of "problem" ["x"; "problem"] [["1"; "Coffee"]; ["2"; "Beef"]] ["Coffee"; "Beef"]).
Proof.
  split; [vm_compute; reflexivity|]. split.
  - split; [repeat (constructor; [cbn; intuition discriminate|]); constructor|]. intros r [<-|[<-|[]]]; auto.
  - exists 1. split; [reflexivity|]. repeat (constructor; [reflexivity|]). constructor.
Qed.

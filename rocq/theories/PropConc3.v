(** C184: a process that is not disturbed does what [CacheModel.load_dataset] says. *)
From Coq Require Import Bool List Arith Lia String Ascii.
From Verif Require Import Py PersistModel PropPersist CacheModel PropCache ConcModel PropConc.
Import ListNotations.
Local Open Scope string_scope.

Lemma is_path p q : path_eqb p q = path_eqb q p.
Proof. destruct (path_eqb q p) eqn:E; [apply path_eqb_spec in E; subst; apply path_eqb_refl|]. apply path_eqb_false. apply path_eqb_false in E. congruence. Qed.
Lemma run_has_ext {D} dd f n ext (k : bool -> prog D) : real_name n = n -> finish (has_ext_p dd n ext k) f = finish (k (has_ext dd f n ext)) f.
Proof.
  intros R. unfold has_ext_p, has_ext, look. rewrite R. cbn [finish exec]. destruct (get f (file_path dd n "TRAIN" ext)); [|reflexivity].
  cbn [finish exec]. destruct (get f (file_path dd n "TEST" ext)); reflexivity.
Qed.
Lemma run_has_files {D} dd f n (k : bool -> prog D) : real_name n = n -> finish (has_files_p dd n k) f = finish (k (has_files dd f n)) f.
Proof. intros R. unfold has_files_p, has_files. rewrite run_has_ext by exact R. destruct (has_ext dd f n "txt"); [reflexivity|]. rewrite run_has_ext by exact R. reflexivity. Qed.
Lemma run_load {D} (parse : string -> string -> option D) dd f n ext : finish (load_p parse dd n ext) f = (f, read_with parse dd f n ext).
Proof.
  unfold load_p, read_with, look. cbn [finish exec]. destruct (get f (file_path dd n "TRAIN" ext)) as [[|a]|]; try reflexivity. destruct (parse ext a) as [x|].
  - cbn [finish exec]. destruct (get f (file_path dd n "TEST" ext)) as [[|b]|]; try reflexivity. destruct (parse ext b); reflexivity.
  - destruct (get f (file_path dd n "TEST" ext)) as [[|b]|]; try reflexivity.
Qed.
Lemma run_read {D} (parse : string -> string -> option D) dd f n : real_name n = n -> finish (read_p parse dd n) f = (f, read_files parse dd f n).
Proof.
  intros R. unfold read_p, read_files. rewrite run_has_ext by exact R. destruct (has_ext dd f n "txt"); [apply run_load|]. rewrite run_has_ext by exact R.
  destruct (has_ext dd f n "arff"); [apply run_load|reflexivity].
Qed.

(** ** [rmtree] *)
Lemma filter_filter {A} (P Q : A -> bool) l : filter P (filter Q l) = filter (fun x => P x && Q x) l.
Proof. induction l as [|x l IH]; [reflexivity|]. cbn. destruct (Q x) eqn:E; cbn; [destruct (P x); cbn; rewrite IH; reflexivity|]. rewrite andb_false_r. exact IH. Qed.
Lemma removes_filter l : forall f, performs f (map Remove l) = filter (fun e : path * node => negb (existsb (path_eqb (fst e)) l)) f.
Proof.
  induction l as [|p l IH]; intros f; cbn [map]; [cbn; induction f as [|e f IHf]; cbn; [reflexivity|rewrite <- IHf; reflexivity]|].
  change (performs f (Remove p :: map Remove l)) with (performs (delete f p) (map Remove l)). rewrite IH. unfold delete. rewrite filter_filter. apply filter_ext.
  intros e. cbn. destruct (path_eqb (fst e) p), (existsb (path_eqb (fst e)) l); reflexivity.
Qed.
Lemma clearing_tree f full : get f full = Some Dir -> performs f (clearing f full) = filter (fun e : path * node => negb (prefixb full (fst e))) f.
Proof.
  intros G. unfold clearing. rewrite G. rewrite <- (map_map fst Remove). rewrite removes_filter. apply filter_ext_in. intros e I. f_equal.
  apply eq_true_iff_eq. split.
  - intros H. apply existsb_exists in H. destruct H as (q & Iq & Eq). apply path_eqb_spec in Eq. subst q. apply in_map_iff in Iq. destruct Iq as (e' & E & I'). apply filter_In in I'. rewrite <- E. apply I'.
  - intros H. apply existsb_exists. exists (fst e). split; [|apply path_eqb_refl]. apply in_map. apply filter_In. auto.
Qed.
(** the list begins with the deepest entries: when an entry is dropped nothing is below it any more *)
Inductive bottom_up : list path -> Prop :=
| bu_nil : bottom_up []
| bu_cons p l : (forall q, In q l -> (List.length q <= List.length p)%nat) -> bottom_up l -> bottom_up (p :: l).
Lemma bottom_up_app a b : bottom_up a -> bottom_up b -> (forall p q, In p a -> In q b -> (List.length q <= List.length p)%nat) -> bottom_up (a ++ b).
Proof.
  induction 1 as [|p l H1 H2 IH]; intros B H; [exact B|]. cbn. constructor.
  - intros q I. apply in_app_or in I. destruct I as [I|I]; [auto|]. apply H; [left; reflexivity|exact I].
  - apply IH; [exact B|]. intros. apply H; [right|]; assumption.
Qed.
Lemma same_length_bottom_up l k : (forall p, In p l -> List.length p = k) -> bottom_up l.
Proof. induction l as [|p l IH]; intros H; constructor; [|apply IH; intros; apply H; right; assumption]. intros q I. rewrite (H p), (H q); [lia|right; exact I|left; reflexivity]. Qed.
Lemma deepest_bottom_up l : bottom_up (deepest l).
Proof.
  unfold deepest. generalize (S (list_max (map (@List.length string) l))). intros n. induction n as [|n IH]; [constructor|]. rewrite seq_S, rev_app_distr. cbn [rev app flat_map Nat.add].
  apply bottom_up_app; [|exact IH|].
  - apply (same_length_bottom_up _ n). intros p I. apply filter_In in I. apply Nat.eqb_eq. apply I.
  - intros p q I J. apply filter_In in I. destruct I as (_ & I). apply Nat.eqb_eq in I. apply in_flat_map in J. destruct J as (k & Ik & J). apply filter_In in J. destruct J as (_ & J). apply Nat.eqb_eq in J.
    apply in_rev in Ik. apply in_seq in Ik. lia.
Qed.
Lemma deepest_all l p : In p l -> In p (deepest l).
Proof.
  intros I. unfold deepest. apply in_flat_map. exists (List.length p). split.
  - apply in_rev. rewrite rev_involutive. apply in_seq. split; [lia|]. cbn. cut (List.length p <= list_max (map (@List.length string) l))%nat; [intros; apply Nat.lt_succ_r; assumption|]. pose proof (proj1 (list_max_le (map (@List.length string) l) _) (le_n _)) as H. rewrite Forall_forall in H. apply H. apply in_map. exact I.
  - apply filter_In. split; [exact I|apply Nat.eqb_refl].
Qed.
Lemma drop_entry f p : (forall e : path * node, In e f -> prefixb p (fst e) = true -> fst e = p) -> fst (exec f (Drop p)) = delete f p.
Proof.
  intros H. cbn. assert (N : get f p = None -> f = delete f p).
  { unfold get, delete. intros G. clear H. induction f as [|e f IH]; [reflexivity|]. cbn in *. destruct (path_eqb (fst e) p) eqn:E; [discriminate|]. cbn. f_equal. apply IH. exact G. }
  destruct (get f p) as [[|c]|]; [|reflexivity|apply N; reflexivity].
  destruct (existsb _ f) eqn:E; [|reflexivity]. apply existsb_exists in E. destruct E as (e & I & E). apply andb_true_iff in E. destruct E as (E1 & E2). apply negb_true_iff in E2. apply path_eqb_false in E2. elim E2. symmetry. apply H; auto.
Qed.
Lemma run_drop {D} (k : prog D) l : forall f, bottom_up l -> (forall p (e : path * node), In p l -> In e f -> prefixb p (fst e) = true -> In (fst e) l) ->
  finish (drop_p l k) f = finish k (performs f (map Remove l)).
Proof.
  induction l as [|p l IH]; intros f B H; [reflexivity|]. cbn [drop_p map]. change (performs f (Remove p :: map Remove l)) with (performs (delete f p) (map Remove l)).
  inversion B as [|p' l' B1 B2]; subst p' l'.
  change (finish (Act (Drop p) (fun _ => drop_p l k)) f) with (let (f', r) := exec f (Drop p) in finish (drop_p l k) f').
  assert (X : fst (exec f (Drop p)) = delete f p).
  { apply drop_entry. intros e I P. destruct (H p e (or_introl eq_refl) I P) as [E|E]; [congruence|]. specialize (B1 _ E). apply prefixb_spec in P. destruct P as (r & P). rewrite P in *. rewrite app_length in B1. destruct r; [apply app_nil_r|cbn in B1; lia]. }
  destruct (exec f (Drop p)) as [f' r]. cbn [fst] in X. subst f'. apply IH; [exact B2|].
  intros q e Iq Ie P. unfold delete in Ie. apply filter_In in Ie. destruct Ie as (Ie & NE). apply negb_true_iff, path_eqb_false in NE. destruct (H q e (or_intror Iq) Ie P) as [E|E]; [congruence|exact E].
Qed.
Lemma run_clear {D} (k : prog D) f full : finish (clear_p full k) f = finish k (performs f (clearing f full)).
Proof.
  unfold clear_p. cbn [finish exec]. unfold is_file. destruct (get f full) as [[|c]|] eqn:G.
  - rewrite clearing_tree by exact G. cbn [finish exec]. set (l := map fst (filter (fun e : path * node => prefixb full (fst e)) f)). rewrite run_drop.
    + rewrite removes_filter. f_equal. apply filter_ext_in. intros e I. f_equal. apply eq_true_iff_eq. split.
      * intros H. apply existsb_exists in H. destruct H as (q & Iq & Eq). apply path_eqb_spec in Eq. subst q. apply deepest_in in Iq. unfold l in Iq. apply in_map_iff in Iq. destruct Iq as (e' & E & I'). apply filter_In in I'. rewrite <- E. apply I'.
      * intros H. apply existsb_exists. exists (fst e). split; [|apply path_eqb_refl]. apply deepest_all. unfold l. apply in_map. apply filter_In. auto.
    + apply deepest_bottom_up.
    + intros p e Ip Ie P. apply deepest_all. unfold l. apply in_map. apply filter_In. split; [exact Ie|]. apply deepest_in in Ip. unfold l in Ip. apply in_map_iff in Ip. destruct Ip as (e' & <- & I'). apply filter_In in I'. destruct I' as (_ & I').
      apply prefixb_spec in P. apply prefixb_spec in I'. apply prefixb_spec. destruct P as (r & P), I' as (s & I'). exists (s ++ r)%list. rewrite P, I'. symmetry. apply app_assoc.
  - unfold clearing. rewrite G. reflexivity.
  - unfold clearing. rewrite G. reflexivity.
Qed.

(** ** extraction *)
Lemma run_extract {D} (k : prog D) full es : forall f, snd (finish (extract_p full es k) f) = Raised \/ finish (extract_p full es k) f = finish k (performs f (extraction full es)).
Proof.
  induction es as [|e es IH]; intros f; [right; reflexivity|]. cbn [extract_p]. unfold try. set (p := (full ++ fst e)%list).
  change (extraction full (e :: es)) with ([MkDir (removelast p); Write p ""; Write p (snd e)] ++ extraction full es)%list. rewrite performs_app.
  cbn [finish exec]. destruct (existsb (is_file f) (prefixes (removelast p))); [left; reflexivity|].
  set (g := perform f (MkDir (removelast p))).
  assert (S : forall h, get h (removelast p) = Some Dir -> (get h p = None \/ exists c, get h p = Some (File c)) ->
    finish (Act (Create p) (fun r => match r with Success true => Act (Fill p (snd e)) (fun r => match r with Success true => extract_p full es k | _ => Ret Raised end) | _ => Ret Raised end)) h
    = finish (extract_p full es k) (performs h [Write p ""; Write p (snd e)])).
  { intros h Hd Hp. cbn [finish exec]. rewrite Hd. assert (E : match get h p with None | Some (File _) => (put h p (File ""), Success true) | _ => (h, Success false) end = (put h p (File ""), Success true)) by (destruct Hp as [->|(c & ->)]; reflexivity).
    replace (match get h p with Some Dir => (h, Success false) | _ => (put h p (File ""), Success true) end) with (put h p (File ""), Success true) by (destruct Hp as [->|(c & ->)]; reflexivity).
    cbn [finish exec]. unfold is_file at 1. rewrite get_put, path_eqb_refl. reflexivity. }
  destruct (get g (removelast p)) as [[|c]|] eqn:Gd; [|left; cbn [finish exec]; fold g; rewrite Gd; reflexivity|left; cbn [finish exec]; fold g; rewrite Gd; reflexivity].
  destruct (get g p) as [[|c]|] eqn:Gp; [left; cbn [finish exec]; fold g; rewrite Gd, Gp; reflexivity| |].
  - fold g. rewrite (S g) by eauto. apply IH.
  - fold g. rewrite (S g) by eauto. apply IH.
Qed.

(** C184: an undisturbed call either does what the sequential description says, file by file, or raises because something is in the way of
    the downloaded files. *)
Theorem C184_alone {D} (parse : string -> string -> option D) dd f j :
  let '(ops, o) := load_dataset parse dd (job_cache j) (job_answer j) f (job_name j) in
  finish (program parse dd j) f = (performs f ops, o) \/
  snd (finish (program parse dd j) f) = Raised /\ (has_files dd f (job_name j) = false \/ job_cache j = false) /\ job_answer j <> NoAnswer.
Proof.
  unfold load_dataset, program. set (n := real_name (job_name j)). set (full := real_path (join dd n)).
  assert (R : real_name n = n) by apply real_name_twice. rewrite run_has_files by exact R. rewrite <- (has_files_real dd f (job_name j)). fold n.
  destruct (negb (has_files dd f n) || negb (job_cache j)) eqn:E.
  2:{ left. rewrite run_read by exact R. reflexivity. }
  assert (U : has_files dd f n = false \/ job_cache j = false) by (destruct (has_files dd f n), (job_cache j); auto; discriminate).
  destruct (job_answer j) as [| |es]; rewrite run_clear.
  - left. reflexivity.
  - cbn [fetch_p]. unfold try. cbn [finish exec]. destruct (existsb _ (prefixes full)); [right; split; [reflexivity|]; split; [exact U|discriminate]|left]. rewrite performs_app. reflexivity.
  - cbn [fetch_p]. unfold try. cbn [finish exec]. destruct (existsb _ (prefixes full)); [right; split; [reflexivity|]; split; [exact U|discriminate]|].
    destruct (run_extract (read_p parse dd n) full es (perform (performs f (clearing f full)) (MkDir full))) as [H|H]; [right; split; [exact H|]; split; [exact U|discriminate]|left].
    rewrite H, run_read by exact R. rewrite performs_app. reflexivity.
Qed.
Print Assumptions C184_alone.

(** ** nothing in the way *)
Lemma no_file f p : (forall q c, prefixb q p = true -> get f q <> Some (File c)) -> existsb (is_file f) (prefixes p) = false.
Proof.
  intros H. destruct (existsb _ _) eqn:E; [|reflexivity]. apply existsb_exists in E. destruct E as (q & I & F). apply prefixes_in in I. destruct I as (r & I). unfold is_file in F.
  destruct (get f q) as [[|c]|] eqn:G; try discriminate. elim (H q c); [|exact G]. apply prefixb_spec. exists r. exact I.
Qed.
Lemma run_extract_flat {D} (k : prog D) full es : forall f, (forall e, In e es -> exists x, fst e = [x]) ->
  (forall q c, prefixb q full = true -> get f q <> Some (File c)) -> get f full = Some Dir -> (forall x, get f (full ++ [x])%list <> Some Dir) ->
  finish (extract_p full es k) f = finish k (performs f (extraction full es)).
Proof.
  induction es as [|e es IH]; intros f FL NF GD ND; [reflexivity|]. destruct (FL e (or_introl eq_refl)) as (x & Ex). destruct e as [pe ce]. cbn [fst] in Ex. subst pe. cbn [extract_p fst snd]. unfold try.
  change (extraction full (([x], ce) :: es)) with ([MkDir (removelast (full ++ [x])); Write (full ++ [x]) ""; Write (full ++ [x]) ce] ++ extraction full es)%list. rewrite performs_app, removelast_last.
  set (p := (full ++ [x])%list). cbn [finish exec]. rewrite (no_file _ _ NF). set (g := perform f (MkDir full)).
  assert (Gg : forall q, get g q = match get f q with Some n => Some n | None => if prefixb q full then Some Dir else None end) by (intros q; apply get_mkdir).
  assert (PX : prefixb p full = false).
  { destruct (prefixb p full) eqn:E; [|reflexivity]. apply prefixb_spec in E. destruct E as (r & E). apply (f_equal (@List.length string)) in E. unfold p in E. rewrite !app_length in E. cbn in E. lia. }
  cbn [finish exec]. unfold p at 1. rewrite removelast_last. fold p. rewrite (Gg full), GD. assert (Gp : get g p = get f p) by (rewrite Gg, PX; destruct (get f p); reflexivity).
  rewrite Gp. specialize (ND x) as NDx. fold p in NDx.
  replace (match get f p with Some Dir => (g, Success false) | _ => (put g p (File ""), Success true) end) with (put g p (File ""), Success true) by (destruct (get f p) as [[|c]|]; [congruence|reflexivity|reflexivity]).
  cbn [finish exec]. unfold is_file at 1. rewrite get_put, path_eqb_refl. change (performs f [MkDir full; Write p ""; Write p ce]) with (put (put g p (File "")) p (File ce)).
  apply IH.
  - intros e' I. apply FL. right. exact I.
  - intros q c Q. rewrite !get_put. destruct (path_eqb p q) eqn:E; [apply path_eqb_spec in E; subst q; congruence|]. rewrite Gg. specialize (NF q c Q). destruct (get f q) as [[|c']|]; [discriminate|exact NF|]. rewrite Q. discriminate.
  - rewrite !get_put. destruct (path_eqb p full) eqn:E; [apply path_eqb_spec in E; rewrite E in PX; rewrite (proj2 (prefixb_spec full full)) in PX; [discriminate|exists []; symmetry; apply app_nil_r]|]. rewrite Gg, GD. reflexivity.
  - intros y. rewrite !get_put. destruct (path_eqb p (full ++ [y])%list) eqn:E; [discriminate|]. rewrite Gg. specialize (ND y). destruct (get f (full ++ [y])%list) as [[|c]|]; [congruence|discriminate|].
    destruct (prefixb (full ++ [y])%list full) eqn:P; [|discriminate]. apply prefixb_spec in P. destruct P as (r & P). apply (f_equal (@List.length string)) in P. rewrite !app_length in P. cbn in P. lia.
Qed.

(** C184: in a directory tree where the cache directory is not blocked by a file, with an archive of plain files, an undisturbed call always does
    exactly what the sequential description says. *)
Theorem C184_alone_exact {D} (parse : string -> string -> option D) dd f j :
  clean dd -> plain (real_name (job_name j)) -> tree f -> (forall q c, inside q dd -> get f q <> Some (File c)) ->
  (forall es e, job_answer j = Archive es -> In e es -> exists x, fst e = [x]) ->
  let '(ops, o) := load_dataset parse dd (job_cache j) (job_answer j) f (job_name j) in
  finish (program parse dd j) f = (performs f ops, o).
Proof.
  intros C P T NF FL. unfold load_dataset, program. set (n := real_name (job_name j)) in *. rewrite (full_plain dd n C P). set (full := (dd ++ [n])%list).
  assert (R : real_name n = n) by apply real_name_twice. rewrite run_has_files by exact R.
  destruct (negb (has_files dd f n) || negb (job_cache j)) eqn:E.
  2:{ rewrite run_read by exact R. reflexivity. }
  set (g := performs f (clearing f full)).
  assert (G : forall q c, prefixb q full = true -> get g q <> Some (File c)).
  { intros q c Q. unfold full in Q. destruct (prefix_dd dd n [] q Q) as [Q'|Q'].
    - intros H. apply prefixb_spec in Q'. apply (NF q c Q'). revert H. unfold g. assert (CL : forall o, In o (clearing f full) -> exists p, o = Remove p) by (intros o I; apply clearing_inside in I; destruct I as (p & -> & _); eauto).
      revert CL. clear. generalize (clearing f full) as l. intros l. revert f. induction l as [|o l IH]; intros h CL H; [exact H|]. destruct (CL o (or_introl eq_refl)) as (p & ->). cbn in H. apply IH in H; [|intros; apply CL; right; assumption].
      rewrite get_delete in H. destruct (path_eqb p q); [discriminate|exact H].
    - unfold g. rewrite (get_clearing f full q T Q'). discriminate. }
  destruct (job_answer j) as [| |es] eqn:A; rewrite run_clear; fold g.
  - reflexivity.
  - cbn [fetch_p]. unfold try. cbn [finish exec]. rewrite (no_file _ _ G). rewrite performs_app. reflexivity.
  - cbn [fetch_p]. unfold try. cbn [finish exec]. rewrite (no_file _ _ G). rewrite run_extract_flat.
    + rewrite run_read by exact R. rewrite performs_app. reflexivity.
    + intros e I. exact (FL es e eq_refl I).
    + intros q c Q. rewrite get_mkdir. specialize (G q c Q). destruct (get g q) as [[|c']|]; [discriminate|exact G|]. rewrite Q. discriminate.
    + rewrite get_mkdir. unfold g. rewrite (get_clearing f full full T) by (exists []; symmetry; apply app_nil_r). rewrite (proj2 (prefixb_spec full full)); [reflexivity|exists []; symmetry; apply app_nil_r].
    + intros x. rewrite get_mkdir. unfold g. rewrite (get_clearing f full _ T) by (exists [x]; reflexivity). destruct (prefixb (full ++ [x])%list full) eqn:Q; [|discriminate].
      apply prefixb_spec in Q. destruct Q as (r & Q). apply (f_equal (@List.length string)) in Q. rewrite !app_length in Q. cbn in Q. lia.
Qed.
Print Assumptions C184_alone_exact.
(** the hypotheses are met: the cache with one dataset, refreshed *)
Example C184_alone_case : finish (program text_parse ["data"; "UCR_UEA"] (coffee_job false)) home
  = (performs home (fst (load_dataset text_parse ["data"; "UCR_UEA"] false coffee home "Coffee")), Loaded "1 2 3" "1 4 5")
  /\ tree home /\ forall q c, inside q ["data"; "UCR_UEA"] -> get home q <> Some (File c).
Proof.
  split; [reflexivity|]. split; [apply home_tree|]. intros q c (r & E). destruct q as [|a [|b [|d q]]]; cbn in E; [discriminate|injection E as <- _; discriminate|injection E as <- <- _; discriminate|discriminate].
Qed.

(** C184-C186: several processes that load datasets at the same time. *)
From Coq Require Import Bool List Arith Lia String Ascii.
From Verif Require Import Py PersistModel PropPersist CacheModel PropCache ConcModel.
Import ListNotations.
Local Open Scope string_scope.

(** ** Specification *)
(** a job of a process: a name that is a single path component, and an archive of files below the directory *)
Definition proper (j : job) : Prop :=
  plain (real_name (job_name j)) /\ forall es e, job_answer j = Archive es -> In e es -> fst e <> [].
Definition directory (data_dir : path) (j : job) : path := (data_dir ++ [real_name (job_name j)])%list.

(** ** what an action touches *)
Definition region (full : path) (f : fs) : fs := filter (fun e : path * node => prefixb full (fst e)) f.
Definition within (full : path) (a : action) : Prop :=
  match a with
  | Look p | Unlink p | Scan p | Drop p | Mk p | Fill p _ => inside full p
  | Create p => exists r x, p = (full ++ r ++ [x])%list
  end.
Definition reply_ok (full : path) (a : action) (r : reply) : Prop :=
  match a, r with Scan _, Entries l => forall p, In p l -> inside full p | Scan _, _ => False | _, _ => True end.
Fixpoint confined {D} (full : path) (p : prog D) : Prop :=
  match p with Ret _ => True | Act a k => within full a /\ forall r, reply_ok full a r -> confined full (k r) end.
Lemma inside_spec full p : inside full p <-> prefixb full p = true.
Proof. rewrite prefixb_spec. reflexivity. Qed.
Lemma deepest_in l p : In p (deepest l) -> In p l.
Proof. unfold deepest. intros H. apply in_flat_map in H. destruct H as (k & _ & H). apply filter_In in H. tauto. Qed.
Lemma exec_reply full f a : within full a -> reply_ok full a (snd (exec f a)).
Proof.
  destruct a; cbn; auto; intros H.
  - intros q I. apply deepest_in in I. apply in_map_iff in I. destruct I as (e & <- & I). apply filter_In in I. destruct I as (_ & I).
    apply prefixb_spec in I. destruct I as (r & ->). destruct H as (s & ->). exists (s ++ r)%list. rewrite app_assoc. reflexivity.
Qed.
(** the part of the file system outside is untouched, except that missing ancestors are made *)
Lemma filter_comm {A} (P Q : A -> bool) l : filter P (filter Q l) = filter Q (filter P l).
Proof. induction l as [|x l IH]; [reflexivity|]. cbn [filter]. destruct (P x) eqn:E, (Q x) eqn:F; cbn [filter]; rewrite ?E, ?F, IH; reflexivity. Qed.
Lemma region_delete full f p : region full (delete f p) = delete (region full f) p.
Proof. apply filter_comm. Qed.
Lemma region_delete_out full f p : prefixb full p = false -> region full (delete f p) = region full f.
Proof.
  intros H. rewrite region_delete. unfold delete, region. induction f as [|e f IH]; [reflexivity|]. cbn [filter]. destruct (prefixb full (fst e : path)) eqn:F; [|exact IH]. cbn [filter].
  destruct (path_eqb (fst e) p) eqn:G; [apply path_eqb_spec in G; congruence|]. cbn [negb]. rewrite IH. reflexivity.
Qed.
Lemma region_put full f p n : region full (put f p n) = if prefixb full p then put (region full f) p n else region full f.
Proof.
  unfold put. unfold region at 1. cbn [filter fst]. fold (region full (delete f p)). destruct (prefixb full p) eqn:E; [rewrite region_delete; reflexivity|]. apply region_delete_out. exact E.
Qed.
Lemma get_region full f p : prefixb full p = true -> get (region full f) p = get f p.
Proof.
  intros H. unfold get, region. f_equal. induction f as [|e f IH]; [reflexivity|]. cbn [filter find]. destruct (path_eqb (fst e) p) eqn:E.
  - apply path_eqb_spec in E. rewrite E, H. cbn [find]. rewrite <- E, path_eqb_refl. reflexivity.
  - destruct (prefixb full (fst e)); [cbn [find]; rewrite E|]; exact IH.
Qed.
(** agreement of the shared file system [f] with the file system [g] of a process alone *)
Definition agree (dd full : path) (f g : fs) : Prop := region full f = region full g /\ forall q, prefixb q dd = true -> is_file f q = is_file g q.
Lemma agree_get dd full f g p : agree dd full f g -> inside full p -> get f p = get g p.
Proof. intros (E & _) I. apply inside_spec in I. rewrite <- (get_region full f p I), E. apply get_region. exact I. Qed.
Lemma agree_is_file dd full f g p : agree dd full f g -> inside full p -> is_file f p = is_file g p.
Proof. intros A I. unfold is_file. rewrite (agree_get dd full f g p A I). reflexivity. Qed.
Lemma region_idem full f p : inside full p -> filter (fun e : path * node => prefixb p (fst e)) f = filter (fun e : path * node => prefixb p (fst e)) (region full f).
Proof.
  intros I. unfold region. induction f as [|e f IH]; [reflexivity|]. cbn [filter]. destruct (prefixb p (fst e)) eqn:E.
  - assert (F : prefixb full (fst e : path) = true). { apply prefixb_spec in E. destruct E as (r & E). destruct I as (s & ->). apply prefixb_spec. exists (s ++ r)%list. rewrite E, <- app_assoc. reflexivity. }
    rewrite F. cbn [filter]. rewrite E, IH. reflexivity.
  - destruct (prefixb full (fst e)); [cbn [filter]; rewrite E|]; exact IH.
Qed.
Lemma existsb_filter {A} (P : A -> bool) Q (l : list A) : existsb (fun e => P e && Q e) l = existsb Q (filter P l).
Proof. induction l as [|e l IH]; [reflexivity|]. cbn. destruct (P e); cbn; rewrite IH; reflexivity. Qed.
Lemma prefix_dd dd n r q : prefixb q (dd ++ n :: r)%list = true -> prefixb q dd = true \/ inside (dd ++ [n])%list q.
Proof.
  intros H. apply prefixb_spec in H. destruct H as (s & H). destruct (le_lt_dec (List.length q) (List.length dd)) as [L|L].
  - left. apply prefixb_spec. exists (skipn (List.length q) dd). apply (f_equal (firstn (List.length q))) in H. rewrite !firstn_app, Nat.sub_diag in H.
    replace (List.length q - List.length dd)%nat with 0%nat in H by lia. rewrite firstn_all in H. cbn in H. rewrite !app_nil_r in H. etransitivity; [symmetry; apply (firstn_skipn (List.length q))|]. rewrite H. reflexivity.
  - right. exists (skipn (S (List.length dd)) q). apply (f_equal (firstn (S (List.length dd)))) in H.
    rewrite !firstn_app in H. replace (S (List.length dd) - List.length q)%nat with 0%nat in H by lia. replace (S (List.length dd) - List.length dd)%nat with 1%nat in H by lia.
    rewrite (firstn_all2 dd) in H by lia. change (firstn 1 (n :: r)) with [n] in H. change (firstn 0 s) with (@nil string) in H. rewrite app_nil_r in H. rewrite H. symmetry. apply firstn_skipn.
Qed.
Lemma not_both dd n r p : prefixb p dd = true -> p = ((dd ++ [n]) ++ r)%list -> False.
Proof. intros H ->. apply prefixb_spec in H. destruct H as (s & H). apply (f_equal (@List.length string)) in H. rewrite !app_length in H. cbn in H. lia. Qed.
(** [mkdir] *)
Lemma mk_fold dd n l : (forall q, In q l -> prefixb q dd = true \/ inside (dd ++ [n])%list q) -> forall f g, agree dd (dd ++ [n])%list f g ->
  let mk := fold_left (fun f q => match get f q with None => put f q Dir | Some _ => f end) l in agree dd (dd ++ [n])%list (mk f) (mk g).
Proof.
  induction l as [|q l IH]; intros H f g A; [exact A|]. cbn [fold_left]. apply IH; [intros q' I; apply H; right; exact I|].
  destruct (H q (or_introl eq_refl)) as [P|I].
  - assert (O : prefixb (dd ++ [n])%list q = false). { destruct (prefixb (dd ++ [n])%list q) eqn:E; auto. apply prefixb_spec in E. destruct E as (r & E). exfalso. apply (not_both dd n r q P E). }
    destruct A as (R & F).
    assert (K : forall f0, region (dd ++ [n])%list (match get f0 q with None => put f0 q Dir | Some _ => f0 end) = region (dd ++ [n])%list f0).
    { intros f0. destruct (get f0 q); [reflexivity|]. rewrite region_put, O. reflexivity. }
    split; [rewrite !K; exact R|]. intros q' Hq'. 
    assert (K2 : forall f0, is_file (match get f0 q with None => put f0 q Dir | Some _ => f0 end) q' = is_file f0 q').
    { intros f0. destruct (get f0 q) eqn:E; [reflexivity|]. unfold is_file. rewrite get_put. destruct (path_eqb q q') eqn:Q; [|reflexivity]. apply path_eqb_spec in Q. subst. rewrite E. reflexivity. }
    rewrite !K2. apply F. exact Hq'.
  - rewrite <- (agree_get dd (dd ++ [n])%list f g q A I). destruct (get f q); [exact A|]. destruct A as (R & F). apply inside_spec in I. split.
    + rewrite !region_put, I, R. reflexivity.
    + intros q' Hq'. unfold is_file. rewrite !get_put. destruct (path_eqb q q') eqn:Q; [reflexivity|]. apply F. exact Hq'.
Qed.
(** an action of the process itself *)
Lemma agree_put dd n f g p x : inside (dd ++ [n])%list p -> agree dd (dd ++ [n])%list f g -> agree dd (dd ++ [n])%list (put f p x) (put g p x).
Proof.
  intros I (R & F). pose proof I as I2. apply inside_spec in I. split; [rewrite !region_put, I, R; reflexivity|]. intros q Hq. unfold is_file. rewrite !get_put.
  destruct (path_eqb p q); [reflexivity|apply F; exact Hq].
Qed.
Lemma agree_delete dd n f g p : agree dd (dd ++ [n])%list f g -> agree dd (dd ++ [n])%list (delete f p) (delete g p).
Proof.
  intros (R & F). split; [rewrite !region_delete, R; reflexivity|]. intros q Hq. unfold is_file. rewrite !get_delete.
  destruct (path_eqb p q); [reflexivity|apply F; exact Hq].
Qed.
Lemma agree_exec dd n f g a : within (dd ++ [n])%list a -> agree dd (dd ++ [n])%list f g ->
  agree dd (dd ++ [n])%list (fst (exec f a)) (fst (exec g a)) /\ snd (exec f a) = snd (exec g a).
Proof.
  intros W A. destruct a as [p|p|p|p|p|p|p c]; cbn [within] in W.
  - cbn. rewrite (agree_get _ _ _ _ p A W). auto.
  - cbn. rewrite (agree_get _ _ _ _ p A W), (agree_is_file _ _ _ _ p A W). split; [|reflexivity]. destruct (is_file g p); [apply agree_delete|]; exact A.
  - cbn. split; [exact A|]. rewrite (region_idem (dd ++ [n])%list f p W), (region_idem (dd ++ [n])%list g p W). destruct A as (R & _). rewrite R. reflexivity.
  - cbn. split; [|reflexivity]. rewrite (agree_get _ _ _ _ p A W). destruct (get g p) as [[|c]|]; [|apply agree_delete; exact A|exact A].
    rewrite !(existsb_filter (fun e : path * node => prefixb p (fst e))), (region_idem (dd ++ [n])%list f p W), (region_idem (dd ++ [n])%list g p W). destruct A as (R & F). rewrite R.
    destruct (existsb _ _); [split; auto|apply agree_delete; split; auto].
  - destruct W as (r & ->). assert (PF : forall q, In q (prefixes ((dd ++ [n]) ++ r)%list) -> prefixb q dd = true \/ inside (dd ++ [n])%list q).
    { intros q I. apply prefixes_in in I. destruct I as (s & I). apply (prefix_dd dd n r). apply prefixb_spec. exists s. rewrite <- I, <- app_assoc. reflexivity. }
    cbn [exec]. assert (E : existsb (is_file f) (prefixes ((dd ++ [n]) ++ r)%list) = existsb (is_file g) (prefixes ((dd ++ [n]) ++ r)%list)).
    { induction (prefixes ((dd ++ [n]) ++ r)%list) as [|q l IH]; [reflexivity|]. cbn [existsb]. rewrite IH by (intros q' I'; apply PF; right; exact I'). f_equal.
      destruct (PF q (or_introl eq_refl)) as [P|I]; [apply A; exact P|apply (agree_is_file _ _ _ _ q A I)]. }
    rewrite E. clear E. destruct (existsb (is_file g) (prefixes ((dd ++ [n]) ++ r)%list)); [auto|]. cbn [fst snd perform]. split; [|reflexivity]. apply mk_fold; auto.
  - destruct W as (r & x & ->). cbn [exec]. assert (I1 : inside (dd ++ [n])%list ((dd ++ [n]) ++ r ++ [x])%list) by (exists (r ++ [x])%list; reflexivity).
    assert (I2 : inside (dd ++ [n])%list (removelast ((dd ++ [n]) ++ r ++ [x])%list)) by (exists r; rewrite (app_assoc _ r [x]), removelast_last; reflexivity).
    rewrite (agree_get _ _ _ _ _ A I1), (agree_get _ _ _ _ _ A I2). destruct (get g (removelast _)) as [[|c]|]; auto. destruct (get g _) as [[|c]|]; auto; (split; [|reflexivity]); apply agree_put; auto.
  - cbn. split; [|reflexivity]. rewrite (agree_is_file _ _ _ _ p A W). destruct (is_file g p); [apply agree_put; auto|exact A].
Qed.
(** an action of another process *)
Lemma agree_other dd n m f g a : n <> m -> within (dd ++ [m])%list a -> agree dd (dd ++ [n])%list f g -> agree dd (dd ++ [n])%list (fst (exec f a)) g.
Proof.
  intros NM W A.
  assert (O : forall p, inside (dd ++ [m])%list p -> prefixb (dd ++ [n])%list p = false /\ prefixb p dd = false).
  { intros p (r & ->). split.
    - destruct (prefixb _ _) eqn:E; auto. apply prefixb_spec in E. destruct E as (s & E). rewrite <- !app_assoc in E. apply app_inv_head in E. cbn in E. congruence.
    - destruct (prefixb _ _) eqn:E; auto. exfalso. apply (not_both dd m r ((dd ++ [m]) ++ r)%list E eq_refl). }
  assert (P : forall f0 p x, inside (dd ++ [m])%list p -> agree dd (dd ++ [n])%list f0 g -> agree dd (dd ++ [n])%list (put f0 p x) g).
  { intros f0 p x I (R & F). destruct (O p I) as (O1 & O2). split; [rewrite region_put, O1; exact R|]. intros q Hq. unfold is_file. rewrite get_put.
    destruct (path_eqb p q) eqn:E; [apply path_eqb_spec in E; subst; congruence|]. apply F. exact Hq. }
  assert (L : forall f0 p, inside (dd ++ [m])%list p -> agree dd (dd ++ [n])%list f0 g -> agree dd (dd ++ [n])%list (delete f0 p) g).
  { intros f0 p I (R & F). destruct (O p I) as (O1 & O2). split; [rewrite region_delete_out; auto|]. intros q Hq. unfold is_file. rewrite get_delete.
    destruct (path_eqb p q) eqn:E; [apply path_eqb_spec in E; subst; congruence|]. apply F. exact Hq. }
  destruct a as [p|p|p|p|p|p|p c]; cbn [within] in W; cbn [exec]; auto.
  - cbn. destruct (is_file f p); auto.
  - cbn. destruct (get f p) as [[|c]|]; auto. destruct (existsb _ f); auto.
  - destruct (existsb _ _); auto. cbn [fst perform]. destruct W as (r & ->).
    assert (PF : forall q, In q (prefixes ((dd ++ [m]) ++ r)%list) -> prefixb q dd = true \/ inside (dd ++ [m])%list q).
    { intros q I. apply prefixes_in in I. destruct I as (s & I). apply (prefix_dd dd m r). apply prefixb_spec. exists s. rewrite <- I, <- app_assoc. reflexivity. }
    revert f A. induction (prefixes ((dd ++ [m]) ++ r)%list) as [|q l IH]; intros f A; [exact A|]. cbn [fold_left]. apply IH; [intros q' I'; apply PF; right; exact I'|].
    destruct (get f q) eqn:G; [exact A|]. destruct (PF q (or_introl eq_refl)) as [Q|I]; [|apply P; auto].
    destruct A as (R & F). split.
    + rewrite region_put. destruct (prefixb (dd ++ [n])%list q) eqn:E; [|exact R]. apply prefixb_spec in E. destruct E as (s & E). exfalso. apply (not_both dd n s q Q E).
    + intros q' Hq'. rewrite <- (F q' Hq'). unfold is_file. rewrite get_put. destruct (path_eqb q q') eqn:E; [|reflexivity]. apply path_eqb_spec in E. subst. rewrite G. reflexivity.
  - destruct W as (r & x & ->). assert (I1 : inside (dd ++ [m])%list ((dd ++ [m]) ++ r ++ [x])%list) by (exists (r ++ [x])%list; reflexivity).
    destruct (get f (removelast _)) as [[|c]|]; auto. destruct (get f _) as [[|c]|]; cbn [fst]; auto.
  - cbn. destruct (is_file f p); auto.
Qed.

(** ** the programs stay in their directory *)
Lemma confined_drop {D} full l (k : prog D) : (forall p, In p l -> inside full p) -> confined full k -> confined full (drop_p l k).
Proof. induction l as [|p l IH]; intros H C; [exact C|]. cbn. split; [apply H; left; reflexivity|]. intros r _. apply IH; auto. intros q I. apply H. right. exact I. Qed.
Lemma confined_extract {D} full es (k : prog D) : (forall e, In e es -> fst e <> []) -> confined full k -> confined full (extract_p full es k).
Proof.
  induction es as [|e es IH]; intros H C; [exact C|]. cbn [extract_p].
  assert (NE : fst e <> []) by (apply H; left; reflexivity). destruct (exists_last NE) as (r & x & E).
  assert (RL : removelast (full ++ fst e)%list = (full ++ r)%list) by (rewrite E, app_assoc, removelast_last; reflexivity).
  assert (C' : confined full (extract_p full es k)) by (apply IH; auto; intros e' I; apply H; right; exact I).
  unfold try. cbn [confined within]. split; [exists r; exact RL|]. intros [o|l|[|]] _; cbn; auto.
  split; [exists r, x; exact (f_equal (fun t => (full ++ t)%list) E)|]. intros [o|l|[|]] _; cbn; auto. split; [exists (fst e); reflexivity|]. intros [o|l|[|]] _; cbn; auto.
Qed.
Lemma confined_program {D} (parse : string -> string -> option D) dd j : clean dd -> proper j -> confined (directory dd j) (program parse dd j).
Proof.
  intros C (P & H). unfold program. set (n := real_name (job_name j)) in *. rewrite full_plain by auto. unfold directory. fold n. set (full := (dd ++ [n])%list).
  assert (FI : forall part ext, part_ok part ext -> inside full (file_path dd n part ext)).
  { intros part ext PO. rewrite file_path_plain by auto. exists [file_name n part ext]. unfold full. rewrite <- app_assoc. reflexivity. }
  assert (HE : forall ext k, ext = "txt" \/ ext = "arff" -> (forall b, confined full (k b)) -> confined full (has_ext_p (D:=D) dd n ext k)).
  { intros ext k Hx Hk. unfold has_ext_p, look. cbn [confined within]. split; [apply FI; split; auto|]. intros [[nd|]|l|b] _; cbn [confined within]; auto.
    split; [apply FI; split; auto|]. intros [[nd'|]|l|b] _; cbn; auto. }
  assert (LD : forall ext, ext = "txt" \/ ext = "arff" -> confined full (load_p parse dd n ext)).
  { intros ext Hx. unfold load_p, look. cbn [confined within]. split; [apply FI; split; auto|]. intros [[[|c]|]|l|b] _; cbn [confined within]; auto.
    destruct (parse ext c); [|exact I]. cbn [confined within]. split; [apply FI; split; auto|]. intros [[[|c']|]|l|b] _; cbn; auto. destruct (parse ext c'); exact I. }
  assert (RD : confined full (read_p parse dd n)).
  { unfold read_p. apply HE; auto. intros [|]; [apply LD; auto|]. apply HE; auto. intros [|]; [apply LD; auto|exact I]. }
  assert (FU : inside full full) by (exists []; rewrite app_nil_r; reflexivity).
  assert (PR : forall b, confined full (if negb b || negb (job_cache j) then clear_p full (fetch_p full (job_answer j) (read_p parse dd n)) else read_p parse dd n)).
  { intros b. destruct (negb b || negb (job_cache j)); [|exact RD].
    assert (FE : confined full (fetch_p full (job_answer j) (read_p parse dd n))).
    { destruct (job_answer j) as [| |es] eqn:E; cbn; [exact I| |]; (split; [exact FU|]); intros [o|l|[|]] _; cbn; auto. apply confined_extract; auto. intros e. apply (H es e eq_refl). }
    unfold clear_p. cbn [confined within]. split; [exact FU|]. intros [[[|c]|]|l|b'] _; auto. cbn [confined within]. split; [exact FU|].
    intros [o|l|b'] R; cbn in R; try contradiction. apply confined_drop; auto. }
  unfold has_files_p. apply HE; auto. intros [|]; [apply PR|]. apply HE; auto.
Qed.

(** ** C184: different datasets *)
Lemma nth_error_replace_eq {A} (l : list A) i x : (i < List.length l)%nat -> nth_error (replace l i x) i = Some x.
Proof. revert i. induction l as [|y l IH]; intros [|i] H; cbn in *; try lia; auto. apply IH. lia. Qed.
Lemma nth_error_replace_neq {A} (l : list A) i j x : i <> j -> nth_error (replace l i x) j = nth_error l j.
Proof. revert i j. induction l as [|y l IH]; intros [|i] [|j] H; cbn; auto; congruence. Qed.
(** Processes that load datasets of different names do not disturb one another: whatever the order in which their
    actions happen and whatever the server answers to each, a process ends with the result, and with the files in the
    directory of its dataset, that it has when it runs alone. (A process that has not ended when the schedule ends
    continues alone.) *)
Theorem C184_different {D} (parse : string -> string -> option D) dd f jobs schedule i j p :
  clean dd -> (forall j, In j jobs -> proper j) -> NoDup (map (fun j => real_name (job_name j)) jobs) ->
  nth_error jobs i = Some j ->
  let c := interleave schedule (f, map (program parse dd) jobs) in
  nth_error (snd c) i = Some p ->
  snd (finish p (fst c)) = snd (finish (program parse dd j) f) /\
  forall q, inside (directory dd j) q -> get (fst (finish p (fst c))) q = get (fst (finish (program parse dd j) f)) q.
Proof.
  intros C PR ND Hj. cbv zeta.
  assert (NN : forall a b ja jb, nth_error jobs a = Some ja -> nth_error jobs b = Some jb -> a <> b -> real_name (job_name ja) <> real_name (job_name jb)).
  { intros a b ja jb Ha Hb Hab E. apply Hab. eapply NoDup_nth_error; [exact ND| |].
    - rewrite map_length. apply nth_error_Some. congruence.
    - rewrite (map_nth_error _ _ _ Ha), (map_nth_error _ _ _ Hb). congruence. }
  set (inv := fun c : fs * list (prog D) => List.length (snd c) = List.length jobs /\ forall a ja, nth_error jobs a = Some ja ->
    exists pa g, nth_error (snd c) a = Some pa /\ confined (directory dd ja) pa /\ agree dd (directory dd ja) (fst c) g /\
      finish pa g = finish (program parse dd ja) f).
  assert (I0 : inv (f, map (program parse dd) jobs)).
  { split; [apply map_length|]. intros a ja Ha. exists (program parse dd ja), f. split; [apply map_nth_error; exact Ha|]. split; [apply confined_program; auto; apply PR; eapply nth_error_In; exact Ha|].
    split; [split; auto|reflexivity]. }
  assert (ST : forall c b, inv c -> inv (turn c b)).
  { intros (h, ps) b (L & H). unfold turn. cbn [fst snd] in *. destruct (nth_error ps b) as [[o|a k]|] eqn:E; [split; auto| |split; auto].
    destruct (exec h a) as [h' r] eqn:X. assert (LT : (b < List.length ps)%nat) by (apply nth_error_Some; congruence).
    assert (LR : List.length (replace ps b (k r)) = List.length ps) by (clear; revert b; induction ps as [|y ps IH]; intros [|b]; cbn; auto).
    split; cbn [fst snd]; [congruence|]. intros x jx Hx. destruct (H x jx Hx) as (px & g & Ep & Cp & Ag & Fi). destruct (Nat.eq_dec b x) as [->|NE].
    - rewrite E in Ep. injection Ep as <-. cbn [confined] in Cp. destruct Cp as (W & Ck). destruct (agree_exec dd (real_name (job_name jx)) h g a W Ag) as (Ag' & Er).
      rewrite X in Ag', Er. cbn [fst snd] in Ag', Er. exists (k r), (fst (exec g a)). split; [apply nth_error_replace_eq; exact LT|]. split.
      + apply Ck. rewrite Er. apply exec_reply. exact W.
      + split; [exact Ag'|]. rewrite <- Fi. cbn [finish]. rewrite Er. destruct (exec g a); reflexivity.
    - exists px, g. split; [rewrite nth_error_replace_neq by auto; exact Ep|]. split; [exact Cp|]. split; [|exact Fi].
      destruct (nth_error jobs b) as [jb|] eqn:Hb; [|apply nth_error_None in Hb; lia]. destruct (H b jb Hb) as (pb & gb & Eb & Cb & _ & _). rewrite E in Eb. injection Eb as <-.
      cbn [confined] in Cb. destruct Cb as (W & _). pose proof (agree_other dd (real_name (job_name jx)) (real_name (job_name jb)) h g a (NN x b jx jb Hx Hb (fun q => NE (eq_sym q))) W Ag) as K.
      rewrite X in K. exact K. }
  assert (IN : inv (interleave schedule (f, map (program parse dd) jobs))).
  { unfold interleave. generalize I0. generalize (f, map (program parse dd) jobs). induction schedule as [|b s IH]; intros c Hc; [exact Hc|]. apply IH. apply ST. exact Hc. }
  intros Hp. destruct IN as (_ & IN). destruct (IN i j Hj) as (pa & g & Ep & Cp & Ag & Fi). rewrite Hp in Ep. injection Ep as <-. rewrite <- Fi.
  assert (FA : forall q (h g : fs), confined (directory dd j) q -> agree dd (directory dd j) h g -> snd (finish q h) = snd (finish q g) /\ agree dd (directory dd j) (fst (finish q h)) (fst (finish (D:=D) q g))).
  { induction q as [o|a k IH]; intros h g0 Cq A0; [split; [reflexivity|exact A0]|]. cbn [finish]. cbn [confined] in Cq. destruct Cq as (W & Ck).
    destruct (agree_exec dd (real_name (job_name j)) h g0 a W A0) as (A1 & Er). pose proof (exec_reply _ g0 a W) as RO. destruct (exec h a) as [h1 r1], (exec g0 a) as [g1 r2]. cbn [fst snd] in *. subst r2. apply IH; auto. }
  destruct (FA p _ g Cp Ag) as (E1 & E2). split; [exact E1|]. intros q Iq. apply (agree_get dd (directory dd j)); auto.
Qed.
Print Assumptions C184_different.

(** ** C185: one dataset *)
(** the rest of the program only looks, as long as the file system is [f] *)
Fixpoint looks {D} (f : fs) (p : prog D) : Prop := match p with Ret _ => True | Act (Look q) k => looks f (k (Found (get f q))) | _ => False end.
Lemma looks_run {D} f (p : prog D) : looks f p -> fst (finish p f) = f.
Proof. induction p as [o|a k IH]; [reflexivity|]. destruct a; cbn; try contradiction. apply IH. Qed.
Lemma looks_program {D} (parse : string -> string -> option D) dd f j : job_cache j = true -> has_files dd f (job_name j) = true ->
  looks f (program parse dd j) /\ snd (finish (program parse dd j) f) = snd (load_dataset parse dd true NoAnswer f (job_name j)).
Proof.
  intros U H. unfold program, load_dataset. rewrite has_files_real, U, H. cbn [negb orb snd]. rewrite <- has_files_real in H. set (n := real_name (job_name j)) in *.
  assert (RN : real_name n = n) by apply real_name_twice.
  assert (HE : forall ext (k : bool -> prog D), (looks f (k (has_ext dd f n ext)) -> looks f (has_ext_p dd n ext k)) /\ finish (has_ext_p dd n ext k) f = finish (k (has_ext dd f n ext)) f).
  { intros ext k. unfold has_ext_p, look, has_ext. rewrite RN. cbn [looks finish exec]. destruct (get f (file_path dd n "TRAIN" ext)); [|auto]. cbn [looks finish exec]. destruct (get f (file_path dd n "TEST" ext)); auto. }
  assert (LD : forall ext, looks f (load_p parse dd n ext) /\ snd (finish (load_p parse dd n ext) f) = read_with parse dd f n ext).
  { intros ext. unfold load_p, look, read_with. cbn [looks finish exec]. destruct (get f (file_path dd n "TRAIN" ext)) as [[|a]|]; [cbn; auto| |cbn; auto].
    destruct (parse ext a) as [x|]; cbn [looks finish exec]; [|destruct (get f (file_path dd n "TEST" ext)) as [[|b]|]; cbn; auto].
    destruct (get f (file_path dd n "TEST" ext)) as [[|b]|]; [cbn; auto| |cbn; auto]. destruct (parse ext b); cbn; auto. }
  assert (RD : looks f (read_p parse dd n) /\ snd (finish (read_p parse dd n) f) = read_files parse dd f n).
  { unfold read_p, read_files. destruct (HE "txt" (fun b => if b then load_p parse dd n "txt" else has_ext_p dd n "arff" (fun b => if b then load_p parse dd n "arff" else Ret Nothing))) as (L1 & F1).
    rewrite F1. destruct (has_ext dd f n "txt"); [destruct (LD "txt"); auto|].
    destruct (HE "arff" (fun b => if b then load_p parse dd n "arff" else Ret Nothing)) as (L2 & F2). rewrite F2. destruct (has_ext dd f n "arff"); [destruct (LD "arff"); auto|]. split; [apply L1, L2; exact I|reflexivity]. }
  set (k := fun b => if negb b || false then _ else _). unfold has_files_p. unfold has_files in H.
  destruct (HE "txt" (fun b => if b then k true else has_ext_p dd n "arff" k)) as (L1 & F1). rewrite F1. destruct (has_ext dd f n "txt").
  - cbn [k negb orb] in *. destruct RD; auto.
  - destruct (HE "arff" k) as (L2 & F2). rewrite F2. cbn [orb] in H. rewrite H in *. cbn [k negb orb] in *. destruct RD; auto.
Qed.
(** Any number of processes that use the cache for datasets that are there: the files stay as they are, and every
    process gets the data, as in C72. *)
Theorem C185_readers {D} (parse : string -> string -> option D) dd f jobs schedule i j p :
  (forall j, In j jobs -> job_cache j = true /\ has_files dd f (job_name j) = true) -> nth_error jobs i = Some j ->
  let c := interleave schedule (f, map (program parse dd) jobs) in
  fst c = f /\ (nth_error (snd c) i = Some p -> finish p (fst c) = (f, snd (load_dataset parse dd true NoAnswer f (job_name j)))).
Proof.
  intros H Hj. cbv zeta.
  set (inv := fun c : fs * list (prog D) => fst c = f /\ forall a pa, nth_error (snd c) a = Some pa -> looks f pa /\ forall ja, nth_error jobs a = Some ja ->
    snd (finish pa f) = snd (load_dataset parse dd true NoAnswer f (job_name ja))).
  assert (IN : inv (interleave schedule (f, map (program parse dd) jobs))).
  { assert (I0 : inv (f, map (program parse dd) jobs)).
    { split; [reflexivity|]. cbn [snd]. intros a pa E. rewrite nth_error_map in E. destruct (nth_error jobs a) as [ja|] eqn:Ea; [|discriminate]. cbn in E. injection E as <-.
      destruct (H ja (nth_error_In _ _ Ea)) as (U & HF). destruct (looks_program parse dd f ja U HF) as (L & F). split; [exact L|]. intros ja' [= <-]. exact F. }
    unfold interleave. generalize I0. generalize (f, map (program parse dd) jobs). induction schedule as [|b s IH]; intros c Hc; [exact Hc|]. apply IH.
    destruct c as [h ps]. destruct Hc as (Eh & Hc). cbn [fst snd] in Eh, Hc. subst h. unfold turn. cbn [fst snd] in *. destruct (nth_error ps b) as [[o|a k]|] eqn:E; [split; auto| |split; auto].
    destruct (Hc b _ E) as (L & F). destruct a as [q| | | | | |]; try contradiction. cbn [exec]. split; [reflexivity|]. cbn [snd]. intros x px Ex.
    destruct (Nat.eq_dec b x) as [->|NE]; [|rewrite nth_error_replace_neq in Ex by auto; apply Hc; exact Ex].
    rewrite nth_error_replace_eq in Ex by (apply nth_error_Some; congruence). injection Ex as <-. split; [exact L|]. exact F. }
  destruct IN as (E & IN). split; [exact E|]. intros Hp. destruct (IN i p Hp) as (L & F). rewrite E. rewrite <- (F j Hj). rewrite <- (looks_run f p L) at 2. destruct (finish p f); reflexivity.
Qed.
Print Assumptions C185_readers.
(** C185, false as stated: two processes load a dataset that is not in the cache; the server answers both with the same
    good archive. The first has created both files and has not yet filled the second when the second process looks: it
    takes the dataset for cached, reads an empty file and returns nothing. Alone, it gets the data. *)
Definition text_parse (ext c : string) : option string := match c with EmptyString => None | _ => Some c end.
Definition coffee : download := Archive [(["Coffee_TRAIN.txt"], "1 2 3"); (["Coffee_TEST.txt"], "1 4 5")].
Definition coffee_job (use_cache : bool) : job := {| job_name := "Coffee"; job_cache := use_cache; job_answer := coffee |}.
Theorem C185_refuted : ~ forall D (parse : string -> string -> option D) dd f jobs schedule i o x y,
  clean dd -> tree f -> (forall j, In j jobs -> proper j) -> (forall j, In j jobs -> snd (finish (program parse dd j) f) = Loaded x y) ->
  nth_error (snd (interleave schedule (f, map (program parse dd) jobs))) i = Some (Ret o) -> o = Loaded x y.
Proof.
  intros H. specialize (H string text_parse ["data"] [([], Dir); (["data"], Dir)] [coffee_job true; coffee_job true] (repeat 0 9 ++ repeat 1 20)%list 1 Nothing "1 2 3" "1 4 5").
  discriminate H.
  - intros [E|[]]. discriminate.
  - intros p q n G NE. destruct p as [|a p]; [reflexivity|]. exfalso. destruct q as [|b q]; [congruence|]. revert G. unfold get. cbn [find fst app].
    assert (E : path_eqb ["data"] (a :: p ++ b :: q)%list = false) by (apply path_eqb_false; intros E; injection E as _ E; destruct p; discriminate).
    change (path_eqb [] (a :: p ++ b :: q)%list) with false. cbn [find]. rewrite E. discriminate.
  - intros j [<-|[<-|[]]]; (split; [repeat split; try discriminate; apply literal_slash; reflexivity|]; intros es e [= <-] [<-|[<-|[]]]; discriminate).
  - intros j [<-|[<-|[]]]; vm_compute; reflexivity.
  - vm_compute. reflexivity.
Qed.
Print Assumptions C185_refuted.
(** C185, false also for a dataset that is in the cache: a process that refreshes it (use_cache=False) deletes the files
    between the look and the reading of another one *)
Theorem C185_refresh_refuted : ~ forall D (parse : string -> string -> option D) dd f jobs schedule i o x y,
  clean dd -> (forall j, In j jobs -> proper j /\ has_files dd f (job_name j) = true) -> (forall j, In j jobs -> snd (finish (program parse dd j) f) = Loaded x y) ->
  nth_error (snd (interleave schedule (f, map (program parse dd) jobs))) i = Some (Ret o) -> o = Loaded x y.
Proof.
  intros H. specialize (H string text_parse ["data"] [(["data"; "Coffee"; "Coffee_TRAIN.txt"], File "1 2 3"); (["data"; "Coffee"; "Coffee_TEST.txt"], File "1 4 5"); (["data"; "Coffee"], Dir); (["data"], Dir); ([], Dir)]
    [coffee_job true; coffee_job false] ([0; 0] ++ repeat 1 7 ++ repeat 0 9)%list 0 Nothing "1 2 3" "1 4 5").
  discriminate H.
  - intros [E|[]]. discriminate.
  - intros j [<-|[<-|[]]]; (split; [split; [repeat split; try discriminate; apply literal_slash; reflexivity|]; intros es e [= <-] [<-|[<-|[]]]; discriminate|reflexivity]).
  - intros j [<-|[<-|[]]]; vm_compute; reflexivity.
  - vm_compute. reflexivity.
Qed.
Print Assumptions C185_refresh_refuted.
(** C184: two datasets, one of them refreshed, one that the server does not have *)
Example C184_nontrivial : clean ["data"] /\ (forall j, In j [coffee_job false; {| job_name := "Beef"; job_cache := true; job_answer := NotZip |}] -> proper j) /\
  NoDup (map (fun j => real_name (job_name j)) [coffee_job false; {| job_name := "Beef"; job_cache := true; job_answer := NotZip |}]) /\
  snd (finish (program text_parse ["data"] (coffee_job false)) []) = Loaded "1 2 3" "1 4 5".
Proof.
  split; [intros [E|[]]; discriminate|]. split; [|split].
  - intros j [<-|[<-|[]]]; (split; [repeat split; try discriminate; apply literal_slash; reflexivity|]); intros es e; [intros [= <-] [<-|[<-|[]]]; discriminate|discriminate].
  - cbn. constructor; [intros [E|[]]; discriminate|constructor; [intros []|constructor]].
  - vm_compute. reflexivity.
Qed.

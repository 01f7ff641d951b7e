(** C186: processes that load the same dataset at the same time leave it complete. *)
From Coq Require Import Bool List Arith Lia String Ascii.
From Verif Require Import Py PersistModel PropPersist CacheModel PropCache ConcModel PropConc.
Import ListNotations.
Local Open Scope string_scope.

(** ** Specification *)
(** an archive of files without directories, no name twice *)
Definition flat (entries : list (path * string)) : Prop := (forall e, In e entries -> exists x, fst e = [x]) /\ NoDup (map fst entries).
Definition holds (f : fs) (full : path) (entries : list (path * string)) : Prop :=
  forall e, In e entries -> get f (full ++ fst e)%list = Some (File (snd e)).
(** nothing is in the way: no file where a directory has to be, no directory where a file has to be *)
Definition unobstructed (f : fs) (full : path) (entries : list (path * string)) : Prop :=
  (forall q c, prefixb q full = true -> get f q <> Some (File c)) /\ forall e, In e entries -> get f (full ++ fst e)%list <> Some Dir.
Definition ended {D} (p : prog D) : Prop := exists o, p = Ret o.

Section Phases.
Context {D : Type} (parse : string -> string -> option D) (dd : path) (n : string) (entries : list (path * string)).
Hypothesis Cdd : clean dd.
Hypothesis Pn : plain n.
Hypothesis RN : real_name n = n.
Hypothesis FL : flat entries.
Let full : path := (dd ++ [n])%list.
Let K : prog D := read_p parse dd n.
Let F : prog D := try (Mk full) (extract_p full entries K).
(** the phases of a process *)
Fixpoint reads (p : prog D) : Prop := match p with Ret _ => True | Act (Look _) k => forall r, reads (k r) | _ => False end.
(** programs that look, until they read or begin to download *)
Inductive goes : prog D -> Prop :=
| goes_read p : reads p -> goes p
| goes_look q k : (forall r, goes (k r) \/ k r = clear_p full F) -> goes (Act (Look q) k).
Inductive phase := Unlinking | Scanning | Dropping (l : list path) | Making (es : list (path * string)) | Creating (e : path * string) (es : list (path * string))
                 | Filling (e : path * string) (es : list (path * string)) | Looking (p : prog D).
Definition den (g : phase) : prog D :=
  match g with
  | Unlinking => clear_p full F
  | Scanning => Act (Scan full) (fun r => match r with Entries l => drop_p l F | _ => Ret Raised end)
  | Dropping l => drop_p l F
  | Making es => extract_p full es K
  | Creating e es => try (Create (full ++ fst e)%list) (try (Fill (full ++ fst e)%list (snd e)) (extract_p full es K))
  | Filling e es => try (Fill (full ++ fst e)%list (snd e)) (extract_p full es K)
  | Looking p => p
  end.
Definition ok (g : phase) : Prop :=
  match g with Making es => incl es entries | Creating e es | Filling e es => In e entries /\ incl es entries | Looking p => goes p | _ => True end.
Definition pre (g : phase) : Prop := match g with Unlinking | Scanning | Dropping _ => True | _ => False end.
(** what a process will still write *)
Definition owes (f : fs) (e : path * string) (g : phase) : Prop :=
  match g with
  | Making es => In e es
  | Creating e0 es => In e (e0 :: es)
  | Filling e0 es => In e es \/ e = e0 /\ is_file f (full ++ fst e)%list = true
  | _ => False
  end.
(** a look at [f] that leads to a download *)
Inductive leads_p (f : fs) : prog D -> Prop :=
| ld_pre q k : k (Found (get f q)) = clear_p full F -> leads_p f (Act (Look q) k)
| ld_look q k : leads_p f (k (Found (get f q))) -> leads_p f (Act (Look q) k).
Definition leads (f : fs) (g : phase) : Prop := match g with Unlinking => True | Looking p => leads_p f p | _ => False end.
Definition good (f : fs) (e : path * string) : Prop := get f (full ++ fst e)%list = Some (File (snd e)).
Definition inv (c : fs * list (prog D)) : Prop :=
  exists gs, snd c = map den gs /\ unobstructed (fst c) full entries /\ (forall g, In g gs -> ok g) /\
  ((exists g, In g gs /\ pre g) \/
   (get (fst c) full = Some Dir /\ forall e, In e entries -> good (fst c) e \/ exists g, In g gs /\ owes (fst c) e g) \/
   (gs <> [] /\ forall g, In g gs -> leads (fst c) g)).

Lemma full_self : prefixb full full = true.
Proof. apply prefixb_spec. exists []. rewrite app_nil_r. reflexivity. Qed.
Lemma parent e : In e entries -> removelast (full ++ fst e)%list = full.
Proof. intros H. destruct FL as (H1 & _). destruct (H1 e H) as (x & ->). apply removelast_last. Qed.
Lemma below e q : In e entries -> prefixb q full = true -> q <> (full ++ fst e)%list.
Proof.
  intros H P ->. destruct FL as (H1 & _). destruct (H1 e H) as (x & E). rewrite E in P. apply prefixb_spec in P. destruct P as (r & P).
  apply (f_equal (@List.length string)) in P. rewrite !app_length in P. cbn in P. lia.
Qed.
Lemma same_path e e' : In e entries -> In e' entries -> (full ++ fst e)%list = (full ++ fst e')%list -> e = e'.
Proof.
  intros I I' E. apply app_inv_head in E. destruct FL as (_ & ND). clear -I I' E ND. induction entries as [|a l IH]; [destruct I|].
  cbn in ND. inversion ND as [|? ? NI ND']; subst. destruct I as [->|I], I' as [->|I']; auto.
  - exfalso. apply NI. rewrite E. apply in_map. exact I'.
  - exfalso. apply NI. rewrite <- E. apply in_map. exact I.
Qed.
(** nothing gets in the way *)
Definition allowed (a : action) : Prop :=
  match a with Look _ | Unlink _ | Scan _ | Drop _ => True | Mk p => p = full | Create p | Fill p _ => exists e, In e entries /\ p = (full ++ fst e)%list end.
Lemma unobstructed_delete f p : unobstructed f full entries -> unobstructed (delete f p) full entries.
Proof. intros (U1 & U2). split; intros; rewrite get_delete; destruct (path_eqb _ _); auto; discriminate. Qed.
Lemma unobstructed_put f e c : In e entries -> unobstructed f full entries -> unobstructed (put f (full ++ fst e)%list (File c)) full entries.
Proof.
  intros I (U1 & U2). split.
  - intros q c' P. rewrite get_put. destruct (path_eqb _ _) eqn:E; [|apply U1; exact P]. apply path_eqb_spec in E. exfalso. apply (below e q I P). auto.
  - intros e' I'. rewrite get_put. destruct (path_eqb _ _); [discriminate|]. apply U2. exact I'.
Qed.
Lemma mk_ok f : unobstructed f full entries -> exec f (Mk full) = (perform f (MkDir full), Success true).
Proof.
  intros (U1 & _). unfold exec. destruct (existsb (is_file f) (prefixes full)) eqn:E; [|reflexivity]. exfalso. apply existsb_exists in E. destruct E as (q & I & E).
  apply prefixes_in in I. destruct I as (r & I). unfold is_file in E. destruct (get f q) as [[|c]|] eqn:G; try discriminate. apply (U1 q c); [apply prefixb_spec; exists r; exact I|exact G].
Qed.
Lemma entry_mk f e : In e entries -> get (perform f (MkDir full)) (full ++ fst e)%list = get f (full ++ fst e)%list.
Proof.
  intros I. rewrite get_mkdir. destruct (get f (full ++ fst e)%list); [reflexivity|]. destruct (prefixb (full ++ fst e)%list full) eqn:P; [|reflexivity].
  exfalso. apply (below e _ I P eq_refl).
Qed.
Lemma unobstructed_exec f a : allowed a -> unobstructed f full entries -> unobstructed (fst (exec f a)) full entries.
Proof.
  intros A U. destruct a as [p|p|p|p|p|p|p c]; cbn [allowed] in A.
  - exact U.
  - cbn. destruct (is_file f p); [apply unobstructed_delete|]; exact U.
  - exact U.
  - cbn. destruct (get f p) as [[|c]|]; [destruct (existsb _ f)| |]; try exact U; apply unobstructed_delete; exact U.
  - subst p. rewrite mk_ok by exact U. cbn [fst]. destruct U as (U1 & U2). split.
    + intros q c P. rewrite get_mkdir. destruct (get f q) eqn:G; [rewrite <- G; apply U1; exact P|]. destruct (prefixb q full); discriminate.
    + intros e I. rewrite entry_mk by exact I. apply U2. exact I.
  - destruct A as (e & I & ->). cbn [exec]. destruct (get f (removelast _)) as [[|c]|]; try exact U. destruct (get f (full ++ fst e)%list) as [[|c]|]; try exact U; apply unobstructed_put; auto.
  - destruct A as (e & I & ->). cbn. destruct (is_file f _); [apply unobstructed_put; auto|exact U].
Qed.
Lemma reads_K : reads K.
Proof.
  assert (HE : forall ext k, (forall b, reads (k b)) -> reads (has_ext_p (D:=D) dd n ext k)).
  { intros x k Hk. cbn. intros [[nd|]|l|b]; cbn; auto. intros [[nd'|]|l|b]; cbn; auto. }
  assert (LD : forall ext, reads (load_p parse dd n ext)).
  { intros x. cbn. intros [[[|c]|]|l|b]; cbn; auto. destruct (parse x c); cbn; auto. intros [[[|c']|]|l|b]; cbn; auto. destruct (parse x c'); cbn; auto. }
  unfold K, read_p. apply HE. intros [|]; [apply LD|]. apply HE. intros [|]; [apply LD|exact I].
Qed.
Lemma step f g a k : ok g -> unobstructed f full entries -> den g = Act a k ->
  exists g', den g' = k (snd (exec f a)) /\ ok g' /\ unobstructed (fst (exec f a)) full entries /\
  (pre g -> pre g' \/ g' = Making entries /\ get (fst (exec f a)) full = Some Dir) /\
  (~ pre g -> get f full = Some Dir -> get (fst (exec f a)) full = Some Dir /\ forall e, In e entries ->
     (good f e -> good (fst (exec f a)) e \/ owes (fst (exec f a)) e g') /\
     (is_file f (full ++ fst e)%list = true -> is_file (fst (exec f a)) (full ++ fst e)%list = true) /\
     (owes f e g -> good (fst (exec f a)) e \/ owes (fst (exec f a)) e g')) /\
  (~ pre g -> leads f g -> fst (exec f a) = f /\ (pre g' \/ leads f g')).
Proof.
  intros O U E.
  assert (LK : forall p, goes p -> p = Act a k -> ~ owes f (([], "") : path * string) (Looking p) -> exists q, a = Look q /\ ((goes (k (Found (get f q))) \/ k (Found (get f q)) = clear_p full F))).
  { intros p H -> _. inversion H as [p R Q|q k' H' Q]; subst.
    - destruct a as [q| | | | | |]; try contradiction. exists q. split; [reflexivity|]. left. apply goes_read. cbn in R. apply R.
    - exists q. split; [reflexivity|]. apply H'. }
  assert (LOOK : forall g0 p, goes p -> p = Act a k -> (forall e, ~ owes f e g0) -> (leads f g0 -> leads_p f p) -> exists g', den g' = k (snd (exec f a)) /\ ok g' /\ unobstructed (fst (exec f a)) full entries /\
    (get f full = Some Dir -> get (fst (exec f a)) full = Some Dir /\ forall e, In e entries ->
     (good f e -> good (fst (exec f a)) e \/ owes (fst (exec f a)) e g') /\
     (is_file f (full ++ fst e)%list = true -> is_file (fst (exec f a)) (full ++ fst e)%list = true) /\
     (owes f e g0 -> good (fst (exec f a)) e \/ owes (fst (exec f a)) e g')) /\
    (leads f g0 -> fst (exec f a) = f /\ (pre g' \/ leads f g'))).
  { intros g0 p HG Hp NO HL. destruct (LK p HG Hp (fun x => x)) as (q & -> & H). cbn [exec fst snd].
    assert (R : forall g', den g' = k (Found (get f q)) -> ok g' -> (leads_p f p -> pre g' \/ leads f g') -> 
      exists g', den g' = k (Found (get f q)) /\ ok g' /\ unobstructed f full entries /\ (get f full = Some Dir -> get f full = Some Dir /\ forall e, In e entries ->
       (good f e -> good f e \/ owes f e g') /\ (is_file f (full ++ fst e)%list = true -> is_file f (full ++ fst e)%list = true) /\ (owes f e g0 -> good f e \/ owes f e g')) /\
       (leads f g0 -> f = f /\ (pre g' \/ leads f g'))).
    { intros g' E1 E2 E3. exists g'. split; [exact E1|]. split; [exact E2|]. split; [exact U|]. split; [|intros L; split; auto]. intros GD. split; [exact GD|]. intros e Ie. split; [auto|]. split; [auto|]. intros OW. exfalso. eapply NO. exact OW. }
    destruct H as [H|H].
    - apply (R (Looking (k (Found (get f q))))); [reflexivity|exact H|]. intros L. right. cbn [leads]. subst p. inversion L as [q' k' L' Q|q' k' L' Q]; [|exact L'].
      exfalso. rewrite L' in H. inversion H as [p R' Q'|q2 k2 H2 Q']. exact R'.
    - apply (R Unlinking); [symmetry; exact H|exact I|]. intros _. left. exact I. }
  destruct g as [| |l|es|e0 es|e0 es|p]; cbn [den ok pre owes leads] in *.
  - injection E as <- <-. cbn [exec fst snd].
    assert (U' : unobstructed (if is_file f full then delete f full else f) full entries) by (destruct (is_file f full); [apply unobstructed_delete|]; exact U).
    destruct (get f full) as [[|c]|]; [exists Scanning|exists (Dropping [])|exists (Dropping [])]; (split; [reflexivity|]); (split; [exact I|]); (split; [exact U'|]); (split; [intros _; left; exact I|split; intros N; exfalso; apply N; exact I]).
  - injection E as <- <-. cbn [exec fst snd]. eexists (Dropping _). split; [reflexivity|]. split; [exact I|]. split; [exact U|]. split; [intros _; left; exact I|split; intros N; exfalso; apply N; exact I].
  - destruct l as [|p l]; cbn [drop_p] in E.
    + unfold F, try in E. injection E as <- <-. rewrite mk_ok by exact U. cbn [fst snd]. exists (Making entries). split; [reflexivity|]. split; [apply incl_refl|].
      split; [pose proof (unobstructed_exec f (Mk full) eq_refl U) as U'; rewrite mk_ok in U' by exact U; exact U'|]. split; [|tauto]. intros _. right. split; [reflexivity|].
      rewrite get_mkdir, full_self. destruct U as (U1 & _). destruct (get f full) as [[|c]|] eqn:G; auto. exfalso. apply (U1 full c full_self G).
    + injection E as <- <-. exists (Dropping l). split; [reflexivity|]. split; [exact I|]. split; [apply unobstructed_exec; [exact I|exact U]|]. split; [left; exact I|tauto].
  - destruct es as [|e0 es].
    + cbn [extract_p] in E. destruct (LOOK (Making []) K (goes_read _ reads_K) E) as (g' & H1 & H2 & H3 & H4 & H5); [intros e []|intros []|]. exists g'. split; [exact H1|]. split; [exact H2|]. split; [exact H3|]. split; [intros []|]. split; [intros _; exact H4|intros _ []].
    + cbn [extract_p] in E. unfold try at 1 in E. injection E as <- <-. assert (I0 : In e0 entries) by (apply O; left; reflexivity).
      assert (X : exec f (Mk (removelast (full ++ fst e0)%list)) = (perform f (MkDir full), Success true)) by (rewrite <- (mk_ok f U); f_equal; f_equal; exact (parent e0 I0)).
      rewrite X. cbn [fst snd]. exists (Creating e0 es). split; [reflexivity|]. split; [split; [exact I0|intros z Hz; apply O; right; exact Hz]|].
      split; [pose proof (unobstructed_exec f (Mk full) eq_refl U) as U'; rewrite mk_ok in U' by exact U; exact U'|]. split; [intros []|]. split; [|intros _ []].
      intros _ GD. split; [rewrite get_mkdir, GD; reflexivity|]. intros e Ie. unfold good, is_file. rewrite entry_mk by exact Ie. cbn [owes]. repeat split; auto.
  - destruct O as (I0 & IE). unfold try at 1 in E. injection E as <- <-.
    assert (U' : unobstructed (fst (exec f (Create (full ++ fst e0)%list))) full entries) by (apply unobstructed_exec; [exists e0; auto|exact U]).
    revert U'. cbn [exec]. assert (PE := parent e0 I0). destruct (get f (removelast (full ++ fst e0)%list)) as [[|c]|] eqn:GP.
    + assert (R : exists g', den g' = try (Fill (full ++ fst e0)%list (snd e0)) (extract_p full es K) /\ ok g' /\ unobstructed (put f (full ++ fst e0)%list (File "")) full entries /\
         (False -> pre g' \/ g' = Making entries /\ get (put f (full ++ fst e0)%list (File "")) full = Some Dir) /\
         (~ False -> get f full = Some Dir -> get (put f (full ++ fst e0)%list (File "")) full = Some Dir /\ forall e, In e entries ->
           (good f e -> good (put f (full ++ fst e0)%list (File "")) e \/ owes (put f (full ++ fst e0)%list (File "")) e g') /\
           (is_file f (full ++ fst e)%list = true -> is_file (put f (full ++ fst e0)%list (File "")) (full ++ fst e)%list = true) /\
           (In e (e0 :: es) -> good (put f (full ++ fst e0)%list (File "")) e \/ owes (put f (full ++ fst e0)%list (File "")) e g')) /\
         (~ False -> False -> put f (full ++ fst e0)%list (File "") = f /\ (pre g' \/ leads f g'))).
      { exists (Filling e0 es). split; [reflexivity|]. split; [split; auto|]. split; [apply unobstructed_put; auto|]. split; [intros []|]. split; [|intros _ []]. intros _ GD. split.
        - rewrite get_put. destruct (path_eqb _ _) eqn:Q; [|exact GD]. apply path_eqb_spec in Q. exfalso. apply (below e0 full I0 full_self). auto.
        - intros e Ie. cbn [owes]. unfold good, is_file. rewrite !get_put. destruct (path_eqb (full ++ fst e0)%list (full ++ fst e)%list) eqn:Q.
          + apply path_eqb_spec in Q. pose proof (same_path e0 e I0 Ie Q) as <-. repeat split; auto.
          + apply path_eqb_false in Q. repeat split; auto. intros [<-|J]; [congruence|auto]. }
      destruct (get f (full ++ fst e0)%list) as [[|c]|] eqn:GT; cbn [fst snd]; intros U'; [exfalso; apply (proj2 U e0 I0); exact GT|exact R|exact R].
    + cbn [fst snd]. intros _. exfalso. destruct U as (U1 & _). apply (U1 full c full_self). rewrite <- PE. exact GP.
    + cbn [fst snd]. intros _. exists (Looking (Ret Raised)). split; [reflexivity|]. split; [apply goes_read; exact I|]. split; [exact U|]. split; [intros []|]. split; [|intros _ []].
      intros _ GD. exfalso. assert (get f full = None) by (rewrite <- PE; exact GP). congruence.
  - destruct O as (I0 & IE). unfold try at 1 in E. injection E as <- <-.
    assert (U' : unobstructed (fst (exec f (Fill (full ++ fst e0)%list (snd e0)))) full entries) by (apply unobstructed_exec; [exists e0; auto|exact U]).
    revert U'. cbn [exec fst snd]. destruct (is_file f (full ++ fst e0)%list) eqn:IF; intros U'; exists (Making es); (split; [reflexivity|]); (split; [exact IE|]); (split; [exact U'|]); (split; [intros []|]); (split; [|intros _ []]); intros _ GD.
    + split.
      * rewrite get_put. destruct (path_eqb _ _) eqn:Q; [|exact GD]. apply path_eqb_spec in Q. exfalso. apply (below e0 full I0 full_self). auto.
      * intros e Ie. cbn [owes]. unfold good, is_file. rewrite !get_put. destruct (path_eqb (full ++ fst e0)%list (full ++ fst e)%list) eqn:Q.
        -- apply path_eqb_spec in Q. pose proof (same_path e0 e I0 Ie Q) as <-. repeat split; auto.
        -- apply path_eqb_false in Q. repeat split; auto. intros [J|(-> & _)]; [auto|congruence].
    + split; [exact GD|]. intros e Ie. cbn [owes]. repeat split; auto. intros [J|(-> & J)]; [auto|congruence].
  - destruct (LOOK (Looking p) p O E) as (g' & H1 & H2 & H3 & H4 & H5); [intros e []|auto|]. exists g'. split; [exact H1|]. split; [exact H2|]. split; [exact H3|]. split; [intros []|]. split; [intros _; exact H4|intros _; exact H5].
Qed.
Lemma owes_files f f' e g : (is_file f (full ++ fst e)%list = true -> is_file f' (full ++ fst e)%list = true) -> owes f e g -> owes f' e g.
Proof. intros H. destruct g; cbn; auto. intros [?|(? & ?)]; auto. Qed.
Lemma replace_map i gs g : replace (map den gs) i (den g) = map den (replace gs i g).
Proof. revert i. induction gs as [|x gs IH]; intros [|i]; cbn; auto. rewrite IH. reflexivity. Qed.
Lemma replace_in {A} (l : list A) i x y : In y (replace l i x) -> y = x \/ In y l.
Proof. revert i. induction l as [|z l IH]; intros [|i]; cbn; auto; intros [->|H]; auto. destruct (IH i H); auto. Qed.
Lemma replace_has {A} (l : list A) i x z : nth_error l i = Some z -> In x (replace l i x).
Proof. revert i. induction l as [|w l IH]; intros [|i] H; cbn in *; try discriminate; eauto. Qed.
Lemma replace_other {A} (l : list A) i x y z : nth_error l i = Some z -> In y l -> y = z \/ In y (replace l i x).
Proof. revert i. induction l as [|w l IH]; intros [|i] H I; cbn in *; try discriminate; destruct I as [<-|I]; auto; [injection H; auto|destruct (IH i H I); auto]. Qed.
Lemma pre_dec g : pre g \/ ~ pre g.
Proof. destruct g; cbn; auto. Qed.
Lemma inv_step c i : inv c -> inv (turn c i).
Proof.
  destruct c as [f ps]. intros (gs & Eg & U & OK & G). cbn [fst snd] in *. subst ps. unfold turn. cbn [fst snd]. destruct (nth_error (map den gs) i) as [[o|a k]|] eqn:E; [exists gs; auto| |exists gs; auto].
  rewrite nth_error_map in E. destruct (nth_error gs i) as [g|] eqn:Eg; [|discriminate]. cbn in E. injection E as E. pose proof (nth_error_In _ _ Eg) as Ig.
  destruct (step f g a k (OK g Ig) U E) as (g' & D' & O' & U' & SP & SN & SL). destruct (exec f a) as [f' r]. cbn [fst snd] in *.
  exists (replace gs i g'). cbn [fst snd]. split; [rewrite <- D'; apply replace_map|]. split; [exact U'|]. split.
  { intros x I. apply replace_in in I. destruct I as [->|I]; auto. }
  pose proof (replace_has gs i g' g Eg) as HI.
  destruct (pre_dec g) as [P|P].
  - destruct (SP P) as [P'|(-> & GD)]; [left; eauto|]. right. left. split; [exact GD|]. intros e I. right. exists (Making entries). split; [exact HI|]. exact I.
  - destruct G as [(x & Ix & Px)|[(GD & G)|(NE & G)]].
    + left. destruct (replace_other gs i g' x g Eg Ix) as [->|I']; [contradiction|eauto].
    + right. left. destruct (SN P GD) as (GD' & S). split; [exact GD'|]. intros e Ie. destruct (S e Ie) as (S1 & S2 & S3). destruct (G e Ie) as [Ge|(x & Ix & Ox)].
      * destruct (S1 Ge); [auto|]. right. exists g'. auto.
      * destruct (replace_other gs i g' x g Eg Ix) as [->|I']; [destruct (S3 Ox); [auto|right; exists g'; auto]|]. right. exists x. split; [exact I'|]. eapply owes_files; eauto.
    + destruct (SL P (G g Ig)) as (-> & [P'|L']); [left; eauto|]. right. right. split; [intros Q; rewrite Q in HI; destruct HI|]. intros x Ix. apply replace_in in Ix. destruct Ix as [->|Ix]; auto.
Qed.
Lemma inv_run schedule c : inv c -> inv (interleave schedule c).
Proof. unfold interleave. revert c. induction schedule as [|i s IH]; intros c H; [exact H|]. apply IH. apply inv_step. exact H. Qed.
Lemma start j f : real_name (job_name j) = n -> job_answer j = Archive entries -> goes (program parse dd j) /\
  (has_files dd f n = false -> leads_p f (program parse dd j)).
Proof.
  intros En Ea. unfold program. rewrite En, Ea, full_plain by auto. fold full K. change (fetch_p full (Archive entries) K) with F.
  set (kk := fun b => if negb b || negb (job_cache j) then clear_p full F else K).
  assert (HE : forall ext k, (forall b, goes (k b) \/ k b = clear_p full F) -> goes (has_ext_p dd n ext k)).
  { intros x k Hk. apply goes_look. intros [[nd|]|l|b]; auto; try (left; apply goes_read; exact I). left. apply goes_look. intros [[nd'|]|l|b]; auto; left; apply goes_read; exact I. }
  assert (KK : forall b, goes (kk b) \/ kk b = clear_p full F).
  { intros b. unfold kk. destruct (negb b || negb (job_cache j)); [auto|left; apply goes_read; apply reads_K]. }
  assert (HL : forall ext k, has_ext dd f n ext = false -> (k false = clear_p full F \/ leads_p f (k false)) -> leads_p f (has_ext_p dd n ext k)).
  { intros x k. unfold has_ext. rewrite RN. unfold has_ext_p, look. destruct (get f (file_path dd n "TRAIN" x)) eqn:G1.
    - destruct (get f (file_path dd n "TEST" x)) eqn:G2; [discriminate|]. intros _ H. apply ld_look. rewrite G1. destruct H; [apply ld_pre|apply ld_look]; rewrite G2; auto.
    - intros _ H. destruct H; [apply ld_pre|apply ld_look]; rewrite G1; auto. }
  split.
  - unfold has_files_p. apply HE. intros [|]; [apply KK|]. left. apply HE. exact KK.
  - intros H. unfold has_files in H. apply orb_false_iff in H. destruct H as (H1 & H2). unfold has_files_p. apply HL; [exact H1|]. right. apply HL; [exact H2|]. left. reflexivity.
Qed.
End Phases.

(** ** C186 *)
(** Any number of processes load the same dataset at the same time, with or without the cache, and the server gives all
    of them the same archive. When all have ended - some of them perhaps with an error or without data (C185) - every
    file of the archive is in the cache, complete, whatever the order of their actions; it is enough that the dataset
    was not in the cache at the beginning, or was there completely. *)
Theorem C186_complete {D} (parse : string -> string -> option D) dd f n entries jobs schedule :
  clean dd -> plain n -> real_name n = n -> flat entries -> unobstructed f (dd ++ [n])%list entries ->
  jobs <> [] -> (forall j, In j jobs -> real_name (job_name j) = n /\ job_answer j = Archive entries) ->
  (has_files dd f n = false \/ get f (dd ++ [n])%list = Some Dir /\ holds f (dd ++ [n])%list entries) ->
  let c := interleave schedule (f, map (program parse dd) jobs) in
  (forall p, In p (snd c) -> ended p) -> holds (fst c) (dd ++ [n])%list entries.
Proof.
  intros C P RN FL U NE HJ H0 c HE.
  assert (I0 : inv parse dd n entries (f, map (program parse dd) jobs)).
  { exists (map (fun j => Looking (program parse dd j)) jobs). cbn [fst snd]. split; [rewrite map_map; reflexivity|]. split; [exact U|]. split.
    - intros g I. apply in_map_iff in I. destruct I as (j & <- & I). destruct (HJ j I) as (E1 & E2). cbn. apply (start parse dd n entries C P RN j f E1 E2).
    - right. destruct H0 as [H0|(H0 & H1)]; [right|left].
      + split; [destruct jobs; [congruence|discriminate]|]. intros g I. apply in_map_iff in I. destruct I as (j & <- & I). destruct (HJ j I) as (E1 & E2). cbn. apply (start parse dd n entries C P RN j f E1 E2). exact H0.
      + split; [exact H0|]. intros e I. left. apply H1. exact I. }
  pose proof (inv_run parse dd n entries FL schedule _ I0) as (gs & Eg & _ & _ & G). fold c in Eg, G. intros e Ie.
  assert (EN : forall g, In g gs -> ended (den parse dd n entries g)) by (intros g I; apply HE; rewrite Eg; apply in_map; exact I).
  destruct G as [(g & I & Pg)|[(_ & G)|(NG & G)]].
  - exfalso. destruct (EN g I) as (o & E). destruct g as [| |l| | | |]; try contradiction; try discriminate. destruct l; discriminate.
  - destruct (G e Ie) as [Ge|(g & I & O)]; [exact Ge|]. exfalso. destruct (EN g I) as (o & E). destruct g as [| |l|es| | |]; try contradiction; try discriminate. destruct es; [destruct O|discriminate].
  - exfalso. destruct gs as [|g gs]; [congruence|]. destruct (EN g (or_introl eq_refl)) as (o & E). pose proof (G g (or_introl eq_refl)) as L. destruct g; try contradiction; [discriminate|]. cbn in E, L. subst p. inversion L.
Qed.
Print Assumptions C186_complete.
(** From then on the dataset is loaded from the cache, without the server, by any number of processes. *)
Theorem C186_then {D} (parse : string -> string -> option D) dd f n entries a b x y :
  clean dd -> plain n -> real_name n = n -> holds f (dd ++ [n])%list entries ->
  In ([file_name n "TRAIN" "txt"], a) entries -> In ([file_name n "TEST" "txt"], b) entries -> parse "txt" a = Some x -> parse "txt" b = Some y ->
  forall jobs schedule, (forall j, In j jobs -> job_name j = n /\ job_cache j = true) ->
  forall i p, nth_error (snd (interleave schedule (f, map (program parse dd) jobs))) i = Some p ->
  finish p f = (f, Loaded x y).
Proof.
  intros C P RN H Ia Ib Ea Eb jobs schedule HJ i p Hp.
  pose proof (H _ Ia) as Ga. pose proof (H _ Ib) as Gb. cbn [fst snd] in Ga, Gb. rewrite <- app_assoc in Ga, Gb. cbn [app] in Ga, Gb.
  rewrite <- file_path_plain in Ga, Gb by (auto; split; auto).
  assert (HX : has_ext dd f n "txt" = true) by (unfold has_ext; rewrite RN, Ga, Gb; reflexivity).
  assert (HF : has_files dd f n = true) by (unfold has_files; rewrite HX; reflexivity).
  assert (LEN : forall c i', List.length (snd (turn (D:=D) c i')) = List.length (snd c)).
  { intros (h, ps) i'. unfold turn. cbn [snd fst]. destruct (nth_error ps i') as [[o|a' k]|]; auto. destruct (exec h a') as [h' r]. cbn [snd]. clear. revert i'. induction ps as [|z ps IH]; intros [|i']; cbn; auto. }
  assert (LI : List.length (snd (interleave schedule (f, map (program parse dd) jobs))) = List.length jobs).
  { assert (G : forall s c, List.length (snd (interleave (D:=D) s c)) = List.length (snd c)).
    { clear -LEN. induction s as [|s0 s IH]; intros c; [reflexivity|]. change (interleave (s0 :: s) c) with (interleave s (turn c s0)). rewrite IH. apply LEN. }
    rewrite G. apply map_length. }
  destruct (nth_error jobs i) as [j|] eqn:Ej.
  - destruct (C185_readers parse dd f jobs schedule i j p) as (E & F); [intros j' I'; destruct (HJ j' I') as (-> & ->); auto|exact Ej|].
    specialize (F Hp). rewrite E in F. rewrite F. f_equal. destruct (HJ j (nth_error_In _ _ Ej)) as (-> & _). unfold load_dataset. rewrite RN, HF. cbn. unfold read_files. rewrite HX. unfold read_with. rewrite Ga, Gb, Ea, Eb. reflexivity.
  - exfalso. apply nth_error_None in Ej. assert (i < List.length jobs)%nat by (rewrite <- LI; apply nth_error_Some; congruence). lia.
Qed.
Print Assumptions C186_then.
(** the two processes of C185, and a complete archive of two files *)
Example C186_nontrivial : clean ["data"] /\ plain "Coffee" /\ flat [(["Coffee_TRAIN.txt"], "1 2 3"); (["Coffee_TEST.txt"], "1 4 5")] /\
  unobstructed [([], Dir); (["data"], Dir)] ["data"; "Coffee"] [(["Coffee_TRAIN.txt"], "1 2 3"); (["Coffee_TEST.txt"], "1 4 5")] /\
  (forall p, In p (snd (interleave (repeat 0 9 ++ repeat 1 20 ++ repeat 0 9)%list ([([], Dir); (["data"], Dir)], map (program text_parse ["data"]) [coffee_job true; coffee_job true]))) -> ended p).
Proof.
  split; [intros [E|[]]; discriminate|]. split; [repeat split; try discriminate; apply literal_slash; reflexivity|]. split; [|split].
  - split; [intros e [<-|[<-|[]]]; eexists; reflexivity|]. cbn. constructor; [intros [E|[]]; discriminate|constructor; [intros []|constructor]].
  - split.
    + intros q c _ G. apply get_in in G. destruct G as [G|[G|[]]]; discriminate.
    + intros e [<-|[<-|[]]]; discriminate.
  - vm_compute. intros p [<-|[<-|[]]]; eexists; reflexivity.
Qed.

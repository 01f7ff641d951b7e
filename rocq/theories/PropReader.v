(** C172, C173: the readers of UCR/UEA files. *)
From Coq Require Import Bool String List Arith ZArith Reals Lia Lra.
From Flocq Require Import Core.
From Verif Require Import Num NumLaws Py Series Dataset CdistThms ReaderModel.
Import ListNotations.
Local Open Scope nat_scope.

(** ** C172 *)
(** the file of a dataset: a line per series, with the label first *)
Definition text_file (D : list (Z * list xr)) : list (list xr) := map (fun p => XR (IZR (fst p)) :: snd p) D.
Lemma loadtxt_2d {A} (l : list (list A)) k : 2 <= length l -> 2 <= k -> (forall r, In r l -> length r = k) -> loadtxt l = Ok (T2 l).
Proof.
  intros Hl Hk H. unfold loadtxt. assert (E : length (hd [] l) = k) by (destruct l as [|r l]; [simpl in Hl; lia|]; apply H; left; auto).
  rewrite E. assert (F : forallb (fun r => length r =? k) l = true) by (apply forallb_forall; intros r Hr; apply Nat.eqb_eq; auto). rewrite F.
  destruct l as [|r [|r' l]]; [simpl in Hl; lia|simpl in Hl; lia|]. destruct (Nat.eqb_spec k 1); [lia|]. destruct r as [|x [|x' r]]; reflexivity.
Qed.
(** true size of a series that may end in NaN *)
Fixpoint used (s : list xr) : nat := match s with [] => 0 | x :: s => if used s =? 0 then (match x with XNaN => 0 | _ => 1 end) else S (used s) end.
Lemma used_spec s : used s <= length s /\ (forall t, used s <= t -> nth t s XNaN = XNaN) /\ (used s = 0 \/ nth (Nat.pred (used s)) s XNaN <> XNaN).
Proof.
  induction s as [|x s IH]; cbn [used]; [split; [simpl; lia|]; split; [intros [|t]; auto|auto]|].
  destruct IH as (L & Z & B). destruct (Nat.eqb_spec (used s) 0) as [E|E].
  - destruct x; (split; [simpl; lia|]); (split; [intros [|t] Ht; try lia; cbn [nth]; auto; apply Z; lia|]); auto; right; discriminate.
  - split; [simpl; lia|]. split; [intros [|t] Ht; [lia|]; apply (Z t); lia|]. right. destruct B as [B|B]; [lia|]. destruct (used s); [lia|]. exact B.
Qed.
Lemma nan_row_one (x : xr) : nan_row (N:=Xnum) [x] = match x with XNaN => true | _ => false end.
Proof. destruct x; reflexivity. Qed.
Lemma skip_snoc r l : skip_nan (N:=Xnum) (r ++ [l]) = match skip_nan (N:=Xnum) r with [] => if nan_row (N:=Xnum) l then [] else [l] | q => q ++ [l] end.
Proof. induction r as [|a r IH]; cbn [app skip_nan]; [destruct (nan_row l); reflexivity|]. destruct (nan_row a); auto. Qed.
Lemma used_size s : ts_size (N:=Xnum) (map (fun x : xr => [x]) s) = used s.
Proof.
  unfold ts_size. induction s as [|x s IH]; [reflexivity|]. cbn [map rev used]. refine (eq_trans (f_equal (@length _) (skip_snoc _ _)) _).
  destruct (skip_nan _) as [|q qs] eqn:E.
  - cbn [length] in IH. rewrite <- IH. cbn [Nat.eqb]. destruct x; reflexivity.
  - rewrite app_length. rewrite <- IH. cbn [length Nat.eqb]. lia.
Qed.
Lemma used_strip s : to_time_series (N:=Xnum) true (Raw1 (N:=Xnum) s) = map (fun x => [x]) (firstn (used s) s).
Proof.
  pose proof (used_size s) as G.
  unfold to_time_series. cbn [reshape]. refine (eq_trans (f_equal (fun k => firstn k _) G) _). rewrite <- firstn_map. reflexivity.
Qed.
Lemma nth_map_in {A B} (f : A -> B) l d d' i : i < length l -> nth i (map f l) d' = f (nth i l d).
Proof. intros H. rewrite (nth_indep _ d' (f d)) by (rewrite map_length; auto). apply map_nth. Qed.
(** Reading the file of two or more series of one or more values with integer labels gives the
    labels, and the series as columns: all of one length, the values of the file at their
    times, NaN where the file has NaN or nothing; no series is longer than its line, and
    one has its last value at the end. *)
Theorem C172_read odd (D : list (Z * list xr)) sz : 2 <= length D -> 1 <= sz -> (forall p, In p D -> length (snd p) = sz) ->
  exists X len, load_txt odd (text_file D) = Ok (X, map fst D) /\ length X = length D /\ len <= sz /\
    (forall i, i < length D -> length (nth i X []) = len /\ forall t, nth t (nth i X []) [XNaN] = [nth t (snd (nth i D (0%Z, []))) XNaN]) /\
    (len = 0 \/ exists i, i < length D /\ nth (Nat.pred len) (snd (nth i D (0%Z, []))) XNaN <> XNaN).
Proof.
  intros HD Hs H. unfold load_txt. rewrite (loadtxt_2d _ (S sz)); [|unfold text_file; rewrite map_length; auto|lia|].
  2: { intros r Hr. unfold text_file in Hr. apply in_map_iff in Hr. destruct Hr as (p & <- & Hp). cbn [length]. f_equal. auto. }
  cbn [bind]. unfold text_file. rewrite !map_map. cbn [tl hd]. set (ds := map (fun p : Z * list xr => Raw1 (N:=Xnum) (snd p)) D).
  assert (U : uniform (N:=Xnum) 1 ds). { intros x Hx. unfold ds in Hx. apply in_map_iff in Hx. destruct Hx as (p & <- & _). split; [reflexivity|]. cbn [reshape]. unfold rect. apply Forall_forall. intros r Hr. apply in_map_iff in Hr. destruct Hr as (? & <- & _). reflexivity. }
  assert (NE : ds <> []) by (unfold ds; destruct D; [simpl in HD; lia|discriminate]).
  pose proof (to_dataset_ok Xnum 1 ds U) as E. destruct (max_size_spec Xnum ds NE) as (M1 & x & Hx & Mx).
  set (X := map (fun x => to_time_series true x ++ _) ds) in E. exists X, (max_size ds).
  assert (EL : forall p, In p D -> to_time_series (N:=Xnum) true (Raw1 (N:=Xnum) (snd p)) = map (fun x => [x]) (firstn (used (snd p)) (snd p))) by (intros; apply used_strip).
  assert (LL : forall p : Z * list xr, length (to_time_series (N:=Xnum) true (Raw1 (N:=Xnum) (snd p : list xr))) = used (snd p)).
  { intros p. pose proof (f_equal (@length _) (used_strip (snd p))) as Q. rewrite map_length, firstn_length, Nat.min_l in Q by apply used_spec. exact Q. }
  split; [|split; [|split; [|split]]].
  - fold ds. rewrite E. cbn [bind]. f_equal. f_equal. apply map_ext. intros p. cbn [to_int]. apply Ztrunc_IZR.
  - unfold X, ds. rewrite !map_length. auto.
  - unfold ds in Hx. apply in_map_iff in Hx. destruct Hx as (p & <- & Hp). rewrite <- Mx. rewrite (LL p). rewrite <- (H p Hp). apply used_spec.
  - intros i Hi. set (p := nth i D (0%Z, [])). assert (Ip : In p D) by (apply nth_In; auto).
    assert (EX : nth i X [] = map (fun x => [x]) (firstn (used (snd p)) (snd p)) ++ repeat [XNaN] (max_size ds - used (snd p))).
    { unfold X. rewrite (nth_map_in _ ds (Raw1 (N:=Xnum) []) [] i) by (unfold ds; rewrite map_length; auto). assert (Q : nth i ds (Raw1 (N:=Xnum) []) = Raw1 (N:=Xnum) (snd p)) by (unfold ds; rewrite (nth_map_in _ D (0%Z, []) _ i Hi); reflexivity).
      rewrite Q, (LL p). exact (f_equal (fun z => z ++ _) (EL p Ip)). }
    assert (Mp : used (snd p) <= max_size ds) by (rewrite <- (LL p); apply M1; unfold ds; apply (in_map (fun q : Z * list xr => Raw1 (N:=Xnum) (snd q))); auto).
    destruct (used_spec (snd p)) as (UL & UZ & _).
    enough (K : forall Y : list (list xr), Y = map (fun x => [x]) (firstn (used (snd p)) (snd p)) ++ repeat [XNaN] (max_size ds - used (snd p)) ->
      length Y = max_size ds /\ forall t, nth t Y [XNaN] = [nth t (snd p) XNaN]) by exact (K _ EX). clear EX. intros Y EX. rewrite EX. split.
    + rewrite app_length, map_length, firstn_length, repeat_length. lia.
    + intros t. destruct (Nat.lt_ge_cases t (used (snd p))) as [Ht|Ht].
      * rewrite app_nth1 by (rewrite map_length, firstn_length; lia). rewrite (nth_map_in _ _ XNaN) by (rewrite firstn_length; lia). f_equal.
        symmetry. rewrite <- (firstn_skipn (used (snd p)) (snd p)) at 1. apply app_nth1. rewrite firstn_length; lia.
      * rewrite app_nth2 by (rewrite map_length, firstn_length; lia). rewrite (UZ t Ht). rewrite map_length, firstn_length. rewrite nth_repeat. auto.
  - unfold ds in Hx. apply in_map_iff in Hx. destruct Hx as (p & <- & Hp). rewrite <- Mx. rewrite (LL p). destruct (used_spec (snd p)) as (_ & _ & [B|B]); auto. right.
    apply (In_nth _ _ (0%Z, [])) in Hp. destruct Hp as (i & Hi & Ei). exists i. rewrite Ei. auto.
Qed.
Print Assumptions C172_read.
(** A file with one series cannot be read, nor can one with labels only; a label that is not an
    integer loses its fractional part, so that different classes become one. *)
Theorem C172_refuted odd :
  (forall r : list xr, r <> [] -> load_txt odd [r] = Err IndexError) /\
  (forall l : list xr, load_txt odd (map (fun x => [x]) l) = Err IndexError) /\
  load_txt odd [[XR 1.25; XR 7]; [XR 1.75; XR 8]] = Ok ([[[XR 7]]; [[XR 8]]], [1; 1]%Z).
Proof.
  split; [|split].
  - intros [|x [|x' r]] H; [congruence|reflexivity|]. unfold load_txt, loadtxt. cbn [hd forallb]. rewrite Nat.eqb_refl. reflexivity.
  - intros l. unfold load_txt, loadtxt. destruct l as [|x l]; [reflexivity|]. cbn [map hd length]. assert (F : forallb (fun r : list xr => length r =? 1) ([x] :: map (fun x => [x]) l) = true).
    { apply forallb_forall. intros r [<-|Hr]; auto. apply in_map_iff in Hr. destruct Hr as (? & <- & _). reflexivity. }
    rewrite F. destruct l as [|x' l]; reflexivity.
  - unfold load_txt. rewrite (loadtxt_2d _ 2); [|simpl; lia|lia|intros r [<-|[<-|[]]]; reflexivity]. cbn [bind map tl hd to_int].
    assert (A : Ztrunc 1.25 = 1%Z) by (rewrite Ztrunc_floor by lra; apply Zfloor_imp; simpl; lra). assert (B : Ztrunc 1.75 = 1%Z) by (rewrite Ztrunc_floor by lra; apply Zfloor_imp; simpl; lra).
    rewrite A, B. reflexivity.
Qed.
Print Assumptions C172_refuted.
Example C172_nontrivial odd : load_txt odd (text_file [(1%Z, [XR 1; XR 2; XNaN]); ((-1)%Z, [XR 3; XNaN; XNaN])]) = Ok ([[[XR 1]; [XR 2]]; [[XR 3]; [XNaN]]], [1; -1]%Z).
Proof.
  unfold load_txt, text_file. rewrite (loadtxt_2d _ 4); [|simpl; lia|lia|intros r [<-|[<-|[]]]; reflexivity]. cbn [bind map tl hd to_int fst snd]. rewrite !Ztrunc_IZR. reflexivity.
Qed.

(** ** C173 *)
(** the columns of a file of univariate series *)
Definition flat_columns {A} (zero : A) (sz : nat) (D : list (list A * string)) : list (column A) :=
  map (fun t => Numeric (map (fun p => nth t (fst p) zero) D)) (seq 0 sz) ++ [Nominal (map snd D)].
(** and of multivariate ones: a relation per series, a line of the relation per feature *)
Definition channels {A} (zero : A) (d : nat) (s : list (list A)) : list (list A) := map (fun c => map (fun row => nth c row zero) s) (seq 0 d).
Definition nested_columns {A} (zero : A) (sz d : nat) (D : list (list (list A) * string)) : list (column A) :=
  [Relational sz (map (fun p => channels zero d (fst p)) D); Nominal (map snd D)].

Lemma numbers_all {A} (ls : list (list A)) : numbers (map Numeric ls) = Some ls.
Proof. induction ls as [|l ls IH]; auto. cbn [map numbers]. rewrite IH. auto. Qed.
Lemma nth_list {A} (s : list A) z : map (fun t => nth t s z) (seq 0 (length s)) = s.
Proof. induction s as [|x s IH]; auto. cbn [length seq map nth]. f_equal. rewrite <- seq_shift, map_map. exact IH. Qed.
(** Univariate series of two or more values are read as columns, with their labels. *)
Theorem C173_univariate {A} (zero : A) sz (D : list (list A * string)) : 2 <= sz -> D <> [] -> (forall p, In p D -> length (fst p) = sz) ->
  load_arff zero (length D) (flat_columns zero sz D) = Ok (map (fun p => map (fun x => [x]) (fst p)) D, map snd D).
Proof.
  intros Hs NE H. unfold load_arff, flat_columns. rewrite rev_app_distr. cbn [rev app]. rewrite app_length, map_length, seq_length. cbn [length].
  destruct (Nat.eqb_spec (sz + 1) 2); [lia|]. rewrite removelast_last. rewrite <- (map_map (fun t => map (fun p : list A * string => nth t (fst p) zero) D) Numeric), numbers_all.
  remember (map (fun t => map (fun p : list A * string => nth t (fst p) zero) D) (seq 0 sz)) as cols eqn:EC. destruct cols as [|c cs]; [destruct sz; [lia|discriminate]|].
  rewrite EC. destruct (Nat.eqb_spec (length D) 0); [destruct D; simpl in *; congruence|]. f_equal. f_equal.
  rewrite <- (nth_list D ([], ""%string)) at 2. rewrite map_map. apply map_ext_in. intros i Hi. apply in_seq in Hi. rewrite map_map.
  set (p := nth i D ([], ""%string)). assert (Ip : In p D) by (apply nth_In; lia). rewrite <- (nth_list (fst p) zero) at 1. rewrite (H p Ip), map_map. apply map_ext. intros t. f_equal.
  rewrite (nth_indep _ zero (nth t (fst ([] : list A, ""%string)) zero)) by (rewrite map_length; lia). rewrite (map_nth (fun q : list A * string => nth t (fst q) zero)). reflexivity.
Qed.
Print Assumptions C173_univariate.
(** Multivariate series: time first, then features. *)
Theorem C173_multivariate {A} (zero : A) sz d n (D : list (list (list A) * string)) : D <> [] -> (forall p, In p D -> length (fst p) = sz /\ forall row, In row (fst p) -> length row = d) ->
  load_arff zero n (nested_columns zero sz d D) = Ok (map fst D, map snd D).
Proof.
  intros NE H. unfold load_arff, nested_columns. cbn [rev app length Nat.eqb hd]. rewrite map_length. destruct (Nat.eqb_spec (length D) 0); [destruct D; simpl in *; congruence|].
  assert (F : forallb (fun e : list (list A) => length e =? length (hd [] (map (fun p => channels zero d (fst p)) D))) (map (fun p => channels zero d (fst p)) D) = true).
  { apply forallb_forall. intros e He. apply Nat.eqb_eq. assert (K : forall q, In q (map (fun p => channels zero d (fst p)) D) -> length q = d).
    { intros q Hq. apply in_map_iff in Hq. destruct Hq as (p & <- & _). unfold channels. rewrite map_length, seq_length. auto. }
    rewrite (K e He). destruct D as [|p D]; [congruence|]. cbn [map hd]. symmetry. apply K. left. auto. }
  rewrite F. f_equal. f_equal. rewrite map_map. apply map_ext_in. intros p Hp. destruct (H p Hp) as [Hl Hr]. rewrite <- Hl.
  rewrite <- (nth_list (fst p) []) at 2. apply map_ext_in. intros i Hi. apply in_seq in Hi. unfold channels. rewrite map_map.
  set (row := nth i (fst p) []). assert (Ir : In row (fst p)) by (apply nth_In; lia). rewrite <- (nth_list row zero). rewrite (Hr row Ir). apply map_ext_in. intros c Hc.
  rewrite (nth_indep _ zero (nth c ([] : list A) zero)) by (rewrite map_length; lia). rewrite (map_nth (fun r : list A => nth c r zero)). reflexivity.
Qed.
Print Assumptions C173_multivariate.
(** Univariate series of one value are taken for multivariate ones: the file cannot be read. *)
Theorem C173_refuted : forall A (zero : A) (D : list (list A * string)), D <> [] -> (forall p, In p D -> length (fst p) = 1) ->
  load_arff zero (length D) (flat_columns zero 1 D) = Err IndexError.
Proof. intros A zero D NE H. reflexivity. Qed.
Print Assumptions C173_refuted.
Example C173_nontrivial : load_arff 0 2 (flat_columns 0 3 [([1; 2; 3], "a"%string); ([4; 5; 6], "b"%string)]) = Ok ([[[1]; [2]; [3]]; [[4]; [5]; [6]]], ["a"; "b"]%string) /\
  nested_columns 0 3 2 [([[1; 2]; [3; 4]; [5; 6]], "a"%string)] = [Relational 3 [[[1; 3; 5]; [2; 4; 6]]]; Nominal ["a"%string]].
Proof. split; reflexivity. Qed.

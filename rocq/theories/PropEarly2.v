(** C62, C100: the generator of early predictions, and the tables estimated by [fit]. *)
From Coq Require Import Bool List Arith Lia Reals Lra.
From Verif Require Import Num NumLaws Py RList PreModel Dataset KernelModel PropKernel2 EarlyModel PropEarly.
Import ListNotations.
Local Open Scope R_scope.

(** ** C62: specification *)
(** a chunk for [n] series of [d] features: the same number of new rows for each series *)
Definition chunk_ok (n d : nat) (c : list ecseries) : Prop :=
  length c = n /\ exists m, forall s, In s c -> length s = m /\ forall r, In r s -> length r = d.
Definition chunk_okb (n d : nat) (c : list ecseries) : bool :=
  (length c =? n)%nat && forallb (fun s => (length s =? length (hd [] c))%nat && forallb (fun r => (length r =? d)%nat) s) c.
Lemma chunk_okb_spec n d c : chunk_okb n d c = true <-> chunk_ok n d c.
Proof.
  unfold chunk_okb, chunk_ok. rewrite andb_true_iff, Nat.eqb_eq, forallb_forall. split.
  - intros (A & B). split; auto. exists (length (hd [] c)). intros s Hs. specialize (B s Hs). rewrite andb_true_iff, Nat.eqb_eq, forallb_forall in B. split; [tauto|].
    intros r Hr. apply Nat.eqb_eq. apply B. auto.
  - intros (A & m & B). split; auto. intros s Hs. rewrite andb_true_iff, Nat.eqb_eq, forallb_forall. destruct (B s Hs) as (B1 & B2). split.
    + rewrite B1. destruct c as [|s0 c]; [destruct Hs|]. symmetry. apply (B s0). left; auto.
    + intros r Hr. apply Nat.eqb_eq. auto.
Qed.
(** all rows of the well-formed chunks sent so far for series [i], in order; [None] and other chunks contribute nothing *)
Definition received (n d : nat) (cs : list (option (list ecseries))) (i : nat) : ecseries :=
  concat (map (fun c => match c with Some c => if chunk_okb n d c then nth i c [] else [] | None => [] end) cs).
Definition all_received (n d : nat) (cs : list (option (list ecseries))) : list ecseries := map (received n d cs) (seq 0 n).

(** ** Proofs *)
Lemma append_spec n d cs c : append_chunk d (all_received n d cs) c = if chunk_okb n d c then Some (all_received n d (cs ++ [Some c])) else None.
Proof.
  unfold append_chunk. replace (length (all_received n d cs)) with n by (unfold all_received; rewrite map_length, seq_length; auto). fold (chunk_okb n d c).
  destruct (chunk_okb n d c) eqn:E; auto. f_equal. assert (LC : length c = n) by (apply chunk_okb_spec in E; apply E).
  assert (LA : length (all_received n d cs) = n) by (unfold all_received; rewrite map_length, seq_length; auto).
  apply nth_ext with (d := []) (d' := []); [rewrite map_length, combine_length, LA, LC; unfold all_received; rewrite map_length, seq_length; apply Nat.min_id|].
  intros i Hi. rewrite map_length, combine_length, LA, LC, Nat.min_id in Hi. set (f := fun p : ecseries * ecseries => fst p ++ snd p).
  rewrite (nth_indep _ [] (f ([], []))) by (rewrite map_length, combine_length, LA, LC, Nat.min_id; auto). rewrite map_nth, combine_nth by (etransitivity; [exact LA|symmetry; exact LC]). unfold f. cbn [fst snd].
  unfold all_received. rewrite !map_seq_nth_gen by lia. unfold received. rewrite map_app, concat_app. cbn [map concat]. rewrite E, app_nil_r. reflexivity.
Qed.
Lemma received_skip n d cs c : match c with Some c => chunk_okb n d c = false | None => True end -> all_received n d (cs ++ [c]) = all_received n d cs.
Proof.
  intros H. unfold all_received. apply map_ext. intros i. unfold received. rewrite map_app, concat_app. cbn [map concat]. destruct c as [c|]; [rewrite H|]; cbn; rewrite app_nil_r; auto.
Qed.
Lemma send_spec {L} (M : ec L) n cs c p : early_predict M (all_received n (ec_d M) (cs ++ [c])) = Ok p ->
  gen_send M (Running (all_received n (ec_d M) cs)) c = (Running (all_received n (ec_d M) (cs ++ [c])), Ok p).
Proof.
  intros H. unfold gen_send. replace (match c with Some c0 => _ | None => _ end) with (all_received n (ec_d M) (cs ++ [c])); [rewrite H; auto|].
  destruct c as [c|]; [|apply received_skip; auto]. rewrite append_spec. destruct (chunk_okb n (ec_d M) c) eqn:E; auto. apply received_skip; auto.
Qed.
Lemma received_len_le n d cs cs' i : (length (received n d cs i) <= length (received n d (cs ++ cs') i))%nat.
Proof. unfold received. rewrite map_app, concat_app, app_length. lia. Qed.
Lemma received_same n d cs i : (i < n)%nat -> length (received n d cs i) = length (received n d cs 0).
Proof.
  intros Hi. unfold received. induction cs as [|c cs IH]; auto. cbn [map concat]. rewrite !app_length, IH. f_equal. destruct c as [c|]; auto.
  destruct (chunk_okb n d c) eqn:E; auto. apply chunk_okb_spec in E. destruct E as (A & m & B). rewrite (proj1 (B (nth i c []) ltac:(apply nth_In; lia))), (proj1 (B (nth 0 c []) ltac:(apply nth_In; lia))). auto.
Qed.
Lemma mapM_all_ok {A B} (f : A -> res B) l : (forall x, In x l -> exists y, f x = Ok y) -> exists ys, mapM f l = Ok ys.
Proof.
  induction l as [|x l IH]; intros H; [exists []; auto|]. destruct (H x (or_introl eq_refl)) as (y & E). destruct IH as (ys & E'); [intros; apply H; right; auto|].
  exists (y :: ys). cbn. rewrite E. cbn. rewrite E'. auto.
Qed.
Lemma early_predict_ok {L} (M : ec L) n cs : fitted M -> (forall u X, exists l, ec_clf M u X = Ok l) -> (length (received n (ec_d M) cs 0) <= ec_sz M)%nat ->
  exists p, early_predict M (all_received n (ec_d M) cs) = Ok p.
Proof.
  intros HF HC HL. unfold early_predict. destruct (Nat.ltb_spec (ec_sz M) (length (hd [] (all_received n (ec_d M) cs)))) as [C|_].
  { exfalso. unfold all_received in C. destruct n; cbn in C; lia. }
  apply mapM_all_ok. intros ts Ht. unfold all_received in Ht. apply in_map_iff in Ht. destruct Ht as (i & <- & Hi). apply in_seq in Hi. pose proof (received_same n (ec_d M) cs i ltac:(lia)) as LR.
  unfold early_one. destruct (Nat.ltb_spec (length (received n (ec_d M) cs i)) (ec_min_t M)); [eauto|]. destruct (HC (length (received n (ec_d M) cs i)) (received n (ec_d M) cs i)) as (l & ->). cbn [bind].
  destruct (tau_spec M (received n (ec_d M) cs i) HF ltac:(lia)) as (tau & -> & _). cbn [bind]. eauto.
Qed.
Lemma run_spec {L} (M : ec L) n cs : forall past, (forall i, (i < length cs)%nat -> exists p, early_predict M (all_received n (ec_d M) (past ++ firstn (S i) cs)) = Ok p) ->
  gen_run M (Running (all_received n (ec_d M) past)) cs =
  (Running (all_received n (ec_d M) (past ++ cs)), map (fun i => early_predict M (all_received n (ec_d M) (past ++ firstn (S i) cs))) (seq 0 (length cs))).
Proof.
  induction cs as [|c cs IH]; intros past H; cbn [gen_run]; [rewrite app_nil_r; auto|]. destruct (H 0%nat ltac:(cbn; lia)) as (p & E). cbn [firstn] in E. rewrite (send_spec M n past c p E).
  rewrite IH; [|intros i Hi; destruct (H (S i) ltac:(cbn; lia)) as (q & Q); exists q; rewrite <- app_assoc; exact Q]. rewrite <- app_assoc. cbn [app length seq map].
  rewrite <- seq_shift, map_map. do 2 f_equal; [cbn [firstn]; auto|]. apply map_ext. intros i. rewrite <- app_assoc. reflexivity.
Qed.
(** As long as no series grows beyond the training length: the answer to the [i]-th message is [early_predict] on all well-formed
    data received until then; malformed chunks change nothing. *)
Theorem C62_incremental_partial {L} (M : ec L) n cs g first : fitted M -> (forall u X, exists l, ec_clf M u X = Ok l) -> (length (received n (ec_d M) cs 0) <= ec_sz M)%nat ->
  gen_start M n = (g, first) ->
  let (g', answers) := gen_run M g cs in
  length answers = length cs /\
  (forall i, (i < length cs)%nat -> exists p, nth i answers (Err OtherError) = Ok p /\ early_predict M (all_received n (ec_d M) (firstn (S i) cs)) = Ok p) /\
  g' = Running (all_received n (ec_d M) cs).
Proof.
  intros HF HC HL HS. assert (E0 : repeat [] n = all_received n (ec_d M) []). { unfold all_received, received. cbn. generalize 0%nat. clear. induction n; intros q; cbn; auto. f_equal. apply IHn. }
  assert (P : forall k, exists p, early_predict M (all_received n (ec_d M) (firstn k cs)) = Ok p).
  { intros k. apply early_predict_ok; auto. pose proof (received_len_le n (ec_d M) (firstn k cs) (skipn k cs) 0) as Q. rewrite firstn_skipn in Q. lia. }
  unfold gen_start in HS. rewrite E0 in HS. unfold gen_send in HS. destruct (P 0%nat) as (p0 & Q0). cbn [firstn] in Q0. rewrite Q0 in HS. injection HS as <- <-.
  rewrite (run_spec M n cs [] (fun i _ => P (S i))). cbn [app]. split; [rewrite map_length, seq_length; auto|]. split; auto. intros i Hi. destruct (P (S i)) as (p & Q). exists p. split; auto.
  rewrite (nth_indep _ (Err OtherError) (early_predict M (all_received n (ec_d M) (firstn (S 0) cs)))) by (rewrite map_length, seq_length; auto).
  rewrite (map_nth (fun i => early_predict M (all_received n (ec_d M) (firstn (S i) cs)))), seq_nth by auto. exact Q.
Qed.
Print Assumptions C62_incremental_partial.
(** A well-formed chunk that would make the series longer than the training series is refused with an exception, and the
    generator is lost: every later message is refused, whatever it is. *)
Theorem C62_overflow_refuted :
  (forall L (M : ec L) n past c rest, (1 <= n)%nat -> chunk_ok n (ec_d M) c -> (ec_sz M < length (received n (ec_d M) (past ++ [Some c]) 0))%nat ->
     gen_run M (Running (all_received n (ec_d M) past)) (Some c :: rest) = (Finished, Err ValueError :: map (fun _ => Err OtherError) rest)) /\
  exists (M : ec nat) c1 c2, fitted M /\ (forall u X, exists l, ec_clf M u X = Ok l) /\
    (exists g first p, gen_start M 1 = (g, first) /\ gen_run M g [Some c2] = (Running c2, [Ok p])) /\
    (exists g first, gen_start M 1 = (g, first) /\ gen_run M g [Some c1; Some c2] = (Finished, [Err ValueError; Err OtherError])).
Proof.
  assert (G : forall L (M : ec L) n past c rest, (1 <= n)%nat -> chunk_ok n (ec_d M) c -> (ec_sz M < length (received n (ec_d M) (past ++ [Some c]) 0))%nat ->
     gen_run M (Running (all_received n (ec_d M) past)) (Some c :: rest) = (Finished, Err ValueError :: map (fun _ => Err OtherError) rest)).
  { intros L M n past c rest Hn HC HO. cbn [gen_run]. unfold gen_send at 1. rewrite append_spec. apply chunk_okb_spec in HC. rewrite HC. unfold early_predict.
    replace (hd [] (all_received n (ec_d M) (past ++ [Some c]))) with (received n (ec_d M) (past ++ [Some c]) 0) by (unfold all_received; destruct n; [lia|reflexivity]).
    rewrite (proj2 (Nat.ltb_lt _ _) HO). assert (K : gen_run M Finished rest = (Finished, map (fun _ => Err OtherError) rest)) by (clear; induction rest as [|r rest IH]; cbn [gen_run gen_send map]; [auto|rewrite IH; auto]).
    rewrite K. auto. }
  split; [exact G|].
  set (M := {| ec_min_t := 2; ec_lamb := 0; ec_time := 0; ec_sz := 2; ec_d := 1; ec_centers := [[[0]; [0]]]; ec_pyhatyck := [[[[0]]]]; ec_pyck := [[1]]; ec_clf := fun _ _ => Ok 7%nat |}).
  exists M, [[[1]; [2]; [3]]], [[[1]]]. split. { unfold fitted, M. cbn. split; [lia|]. split; auto. split; [discriminate|]. intros c [<-|[]]; reflexivity. }
  split; [intros; exists 7%nat; auto|]. split.
  - exists (Running [[]]), (Ok [(None, None)]), [(None, None)]. split; reflexivity.
  - exists (Running [[]]), (Ok [(None, None)]). split; reflexivity.
Qed.
Print Assumptions C62_overflow_refuted.
(** two accepted chunks with a malformed one in between *)
Example C62_nontrivial : let cs := [Some [[[1]]]; Some [[[1; 2]]]; Some [[[4]; [5]]]; None] in
  all_received 1 1 cs = [[[1]; [4]; [5]]] /\ exists M : ec nat, fitted M /\ (length (received 1 (ec_d M) cs 0) <= ec_sz M)%nat /\ (forall u X, exists l, ec_clf M u X = Ok l).
Proof.
  split; [reflexivity|]. exists {| ec_min_t := 1; ec_lamb := 0; ec_time := 0; ec_sz := 3; ec_d := 1; ec_centers := [[[0]; [0]; [0]]]; ec_pyhatyck := [[[[0]]]; [[[0]]]; [[[0]]]]; ec_pyck := [[1]]; ec_clf := fun _ _ => Ok 7%nat |}.
  split; [|split; [cbn; lia|intros; exists 7%nat; auto]]. unfold fitted. cbn. split; [lia|]. split; auto. split; [discriminate|]. intros c [<-|[]]; reflexivity.
Qed.

(** ** C100: specification *)
(** number of test series of true class [a] classified as [b], and number classified as [b] *)
Definition n_pair (y yhat : list nat) (a b : nat) : nat := length (filter (fun p => (fst p =? a)%nat && (snd p =? b)%nat) (combine y yhat)).
Definition n_second (yhat : list nat) (b : nat) : nat := count_occ Nat.eq_dec yhat b.
(** ** Proofs *)
Lemma pair_sum n b y yhat : length y = length yhat -> (forall a, In a y -> (a < n)%nat) -> rsum (map (fun a => INR (n_pair y yhat a b)) (seq 0 n)) = INR (n_second yhat b).
Proof.
  revert yhat. induction y as [|a y IH]; intros [|c yhat] HL HI; try discriminate.
  - cbn. rewrite rsum_const. ring.
  - cbn in HL. injection HL as HL. specialize (IH yhat HL (fun x Hx => HI x (or_intror Hx))). unfold n_second in *. cbn [count_occ].
    set (h := fun a' => if (a' =? a)%nat then (if (c =? b)%nat then 1 else 0) else 0).
    rewrite (rsum_map_ext _ (fun a' => INR (n_pair y yhat a' b) + h a')).
    2:{ intros a' _. unfold n_pair, h. cbn [combine filter fst snd]. rewrite (Nat.eqb_sym a a'). destruct (a' =? a)%nat; cbn [andb]; [|ring]. destruct (c =? b)%nat; cbn [length]; [rewrite S_INR|]; ring. }
    rewrite rsum_map_plus, IH.
    assert (HS : rsum (map h (seq 0 n)) = if (c =? b)%nat then 1 else 0).
    { specialize (HI a (or_introl eq_refl)). unfold h. set (v := if (c =? b)%nat then 1 else 0). clearbody v. clear -HI. assert (K : forall m lo, rsum (map (fun a' => if (a' =? a)%nat then v else 0) (seq lo m)) = if (lo <=? a)%nat && (a <? lo + m)%nat then v else 0).
      { induction m as [|m IHm]; intros lo; cbn [seq map].
        - destruct (Nat.leb_spec lo a), (Nat.ltb_spec a (lo + 0)); cbn; auto; lia.
        - cbn [rsum fold_right]. change (fold_right Rplus 0) with rsum. rewrite IHm. destruct (Nat.eqb_spec lo a), (Nat.leb_spec lo a), (Nat.leb_spec (S lo) a), (Nat.ltb_spec a (S lo + m)), (Nat.ltb_spec a (lo + S m)); cbn [andb]; try lia; try ring. }
      rewrite K. destruct (Nat.ltb_spec a (0 + n)); [reflexivity|lia]. }
    rewrite HS. destruct (Nat.eq_dec c b) as [->|N]; [rewrite Nat.eqb_refl, S_INR; ring|]. destruct (Nat.eqb_spec c b); [congruence|ring].
Qed.
(** [pyck_]: the share of class [a] in cluster [k]; over the classes these shares sum to 1. *)
Theorem C100_pyck_partial n nk y c a k : length y = length c -> (forall i, In i y -> (i < n)%nat) -> (a < n)%nat -> (k < nk)%nat -> In k c ->
  nth k (nth a (pyck_table n nk y c) []) 0 = INR (n_pair y c a k) / INR (n_second c k) /\
  rsum (map (fun a => nth k (nth a (pyck_table n nk y c) []) 0) (seq 0 n)) = 1.
Proof.
  intros HL HI Ha Hk Hc. assert (Hn : INR (n_second c k) <> 0). { apply not_0_INR. unfold n_second. pose proof (proj1 (count_occ_In Nat.eq_dec c k) Hc). lia. }
  assert (E : forall a, (a < n)%nat -> nth k (nth a (pyck_table n nk y c) []) 0 = / INR (n_second c k) * INR (n_pair y c a k)).
  { intros a' Ha'. unfold pyck_table. rewrite (nth_indep _ [] (map (fun _ => 0) (seq 0 nk))) by (rewrite map_length, seq_length; lia).
    match goal with |- context [map ?F (seq 0 n)] => rewrite (nth_indep _ _ (F 0%nat)) by (rewrite map_length, seq_length; lia); rewrite (map_nth F) end. rewrite seq_nth by lia. cbv beta.
    rewrite map_seq_nth_gen by lia. cbn [Nat.add]. fold (n_pair y c a' k). rewrite (rsum_map_ext _ (fun a => INR (n_pair y c a k))) by auto. rewrite pair_sum by auto. unfold Rdiv. ring. }
  split; [rewrite E by auto; unfold Rdiv; ring|]. rewrite (rsum_map_ext _ (fun a => / INR (n_second c k) * INR (n_pair y c a k))) by (intros i Hi; apply in_seq in Hi; apply E; lia).
  rewrite (rsum_map_scal _ (fun a => INR (n_pair y c a k))). rewrite pair_sum by auto. field. auto.
Qed.
Print Assumptions C100_pyck_partial.
(** What an entry of [pyhatyck_] is: 0 on the diagonal, elsewhere the share of the series CLASSIFIED as [b] whose class is [a]. *)
Theorem C100_precision_partial n y yhat a b : length y = length yhat -> (forall i, In i y -> (i < n)%nat) -> (a < n)%nat -> (b < n)%nat ->
  nth b (nth a (pyhatyck_entry n y yhat) []) 0 = if (a =? b)%nat then 0 else if (n_second yhat b =? 0)%nat then 0 else INR (n_pair y yhat a b) / INR (n_second yhat b).
Proof.
  intros HL HI Ha Hb. unfold pyhatyck_entry.
  match goal with |- context [map ?F (seq 0 n)] => rewrite (nth_indep _ [] (F 0%nat)) by (rewrite map_length, seq_length; lia); rewrite (map_nth F) end. rewrite seq_nth by lia. cbv beta.
  rewrite map_seq_nth_gen by lia. cbn [Nat.add]. destruct (a =? b)%nat; auto.
  assert (E : forall a', (a' < n)%nat -> nth b (nth a' (confusion n y yhat) []) 0 = INR (n_pair y yhat a' b)).
  { intros a' Ha'. unfold confusion. match goal with |- context [map ?F (seq 0 n)] => rewrite (nth_indep _ [] (F 0%nat)) by (rewrite map_length, seq_length; lia); rewrite (map_nth F) end. rewrite seq_nth by lia. cbv beta.
    rewrite map_seq_nth_gen by lia. reflexivity. }
  rewrite E by auto. unfold col_normalizer.
  assert (S : rsum (map (fun row => nth b row 0) (confusion n y yhat)) = INR (n_second yhat b)).
  { rewrite <- (pair_sum n b y yhat HL HI). replace (map (fun row => nth b row 0) (confusion n y yhat)) with (map (fun a' => nth b (nth a' (confusion n y yhat) []) 0) (seq 0 n)).
    - apply rsum_map_ext. intros i Hi. apply in_seq in Hi. apply E. lia.
    - assert (LC : length (confusion n y yhat) = n) by (unfold confusion; rewrite map_length, seq_length; auto). replace (seq 0 n) with (seq 0 (length (confusion n y yhat))) by (rewrite LC; auto). generalize (confusion n y yhat). clear.
      induction l as [|r l IH]; auto. cbn [length seq map nth]. rewrite <- seq_shift, map_map. f_equal. exact IH. }
  rewrite S. destruct (Nat.eqb_spec (n_second yhat b) 0) as [Z|Z].
  - rewrite Z. cbn [INR]. destruct (Req_EM_T 0 0); [|congruence]. assert (n_pair y yhat a b = 0%nat) as ->; [|cbn; field].
    unfold n_pair. unfold n_second in Z. clear -Z. revert yhat Z. induction y as [|x y IH]; intros [|c yhat] Z; auto. cbn [count_occ] in Z. destruct (Nat.eq_dec c b); [lia|]. cbn [combine filter fst snd].
    destruct (Nat.eqb_spec c b); [congruence|]. rewrite andb_false_r. apply IH. auto.
  - destruct (Req_EM_T _ _) as [C|_]; auto. exfalso. apply not_0_INR in Z. auto.
Qed.
Print Assumptions C100_precision_partial.
(** The documentation calls it P(yhat | y): the share of the series OF CLASS [a] that are classified as [b].  It is not, and the
    probability of an error given the class, which the expected cost adds up, reaches 2. *)
Theorem C100_refuted : exists y yhat, length y = length yhat /\ (forall i, In i y -> (i < 3)%nat) /\
  nth 1 (nth 0 (pyhatyck_entry 3 y yhat) []) 0 = 1 /\ INR (n_pair y yhat 0 1) / INR (n_second y 0) = / 2 /\
  rsum (nth 0 (pyhatyck_entry 3 y yhat) []) = 2.
Proof.
  exists [0; 0]%nat, [1; 2]%nat. split; auto. assert (HI : forall i, In i [0; 0]%nat -> (i < 3)%nat) by (intros i [<-|[<-|[]]]; lia). split; auto.
  assert (E : forall b, (b < 3)%nat -> _) by (intros b Hb; exact (C100_precision_partial 3 [0; 0]%nat [1; 2]%nat 0 b eq_refl HI ltac:(lia) Hb)).
  split; [rewrite E by lia; cbn; field|]. split; [cbn; field|].
  set (row := nth 0 (pyhatyck_entry 3 [0; 0]%nat [1; 2]%nat) []) in *. assert (LR : length row = 3%nat) by reflexivity.
  destruct row as [|x [|x' [|x'' [|? ?]]]]; try discriminate. pose proof (E 0%nat ltac:(lia)) as E0. pose proof (E 1%nat ltac:(lia)) as E1. pose proof (E 2%nat ltac:(lia)) as E2. cbn in E0, E1, E2 |- *. rewrite E0, E1, E2. field.
Qed.
Print Assumptions C100_refuted.
Example C100_nontrivial : (forall i, In i [0; 1; 1]%nat -> (i < 2)%nat) /\ In 1%nat [0; 1; 1]%nat /\ n_pair [0; 1; 1]%nat [0; 1; 0]%nat 1 0 = 1%nat.
Proof. split; [intros i [<-|[<-|[<-|[]]]]; lia|]. split; [right; left; auto|reflexivity]. Qed.

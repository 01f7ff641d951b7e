(** C167, C168: conversions between lists, arrays and tensors. *)
From Coq Require Import Bool String Ascii List Arith Lia ZArith Reals Lra.
From Flocq Require Import Core.
From Verif Require Import Py BackendModel BackendThms PropBackend.
Import ListNotations.
Local Open Scope string_scope.

(** ** Specification *)
(** the numbers in an object, each Python float changed by [f] *)
Inductive content (f : R -> R) : obj -> nest -> Prop :=
| c_float x : content f (OFloat x) (Leaf (f x))
| c_array t a : content f (OArray t a) a
| c_tensor t a : content f (OTensor t false a) a
| c_list l al : Forall2 (content f) l al -> content f (OList l) (Node al)
| c_tuple l al : Forall2 (content f) l al -> content f (OTuple l) (Node al).
Definition unchanged (x : R) : R := x.
(** all sequences at one depth have one length *)
Inductive regular : list nat -> nest -> Prop :=
| r_leaf x : regular [] (Leaf x)
| r_empty : regular [0] (Node [])
| r_node s l : l <> [] -> (forall a, In a l -> regular s a) -> regular (List.length l :: s) (Node l).
(** nested lists of Python floats *)
Inductive float_list : obj -> Prop :=
| f_float x : float_list (OFloat x)
| f_list l : (forall o, In o l -> float_list o) -> float_list (OList l).
Inductive request := ToNumpy | ToPytorch | ToList.
(** a name of the requested type, in any case *)
Definition names (s : string) (r : request) : Prop :=
  lower s = match r with ToNumpy => "numpy" | ToPytorch => "pytorch" | ToList => "list" end.
Definition has_type (r : request) (o : obj) : Prop :=
  match r, o with ToNumpy, OArray _ _ => True | ToPytorch, OTensor _ _ _ => True | ToList, OList _ => True | _, _ => False end.

(** ** lemmas *)
Lemma regular_shape a : forall s, regular s a <-> shape a = Some s.
Proof.
  induction a as [x|l IH] using nest_nested; intros s.
  - split; [intros H; inversion H; reflexivity|intros [= <-]; constructor].
  - split.
    + intros H. inversion H as [| |s' l' NE Hl]; subst; [reflexivity|]. destruct l as [|a l]; [congruence|]. cbn [shape map].
      rewrite (proj1 (IH a (or_introl eq_refl) s') (Hl a (or_introl eq_refl))).
      assert (F : forallb (fun o => match o with Some s0 => if list_eq_dec Nat.eq_dec s0 s' then true else false | None => false end) (map shape l) = true).
      { apply forallb_forall. intros o Ho. apply in_map_iff in Ho. destruct Ho as (b & <- & Hb).
        rewrite (proj1 (IH b (or_intror Hb) s') (Hl b (or_intror Hb))). destruct (list_eq_dec Nat.eq_dec s' s'); congruence. }
      rewrite F, map_length. reflexivity.
    + cbn [shape]. destruct l as [|a l]; [intros [= <-]; constructor|]. cbn [map]. destruct (shape a) as [s'|] eqn:E; [|discriminate].
      destruct (forallb _ _) eqn:F; [|discriminate]. intros [= <-]. rewrite map_length. change (S (List.length l)) with (List.length (a :: l)).
      constructor; [discriminate|]. intros b [<-|Hb]; [apply IH; [left; auto|auto]|]. apply IH; [right; auto|]. rewrite forallb_forall in F.
      specialize (F (shape b) (in_map _ _ _ Hb)). destruct (shape b) as [s0|]; [|discriminate]. destruct (list_eq_dec Nat.eq_dec s0 s'); congruence.
Qed.
Lemma regular_fun a s s' : regular s a -> regular s' a -> s = s'.
Proof. rewrite !regular_shape. congruence. Qed.
Lemma numpy_read_content : forall o a, content unchanged o a -> exists t, numpy_read o = Ok (t, a).
Proof.
  assert (L : forall l, (forall o, In o l -> forall a, content unchanged o a -> exists t, numpy_read o = Ok (t, a)) -> forall al, Forall2 (content unchanged) l al ->
     exists rs, seqM (map numpy_read l) = Ok rs /\ map snd rs = al).
  { induction l as [|o l IH]; intros H al F; inversion F as [|? b ? al' Ho Hl]; subst; [exists []; auto|].
    destruct (H o (or_introl eq_refl) b Ho) as (t & E). destruct (IH (fun o' H' => H o' (or_intror H')) al' Hl) as (rs & E' & <-).
    exists ((t, b) :: rs). cbn [map seqM]. rewrite E. cbn [bind]. rewrite E'. auto. }
  intros o. induction o as [|s|x|l IH|l IH|t b|t g b|i b] using obj_nested; intros a C; inversion C; subst; cbn [numpy_read]; eauto.
  - destruct (L l IH al H0) as (rs & E & <-). rewrite E. cbn [bind]. eauto.
  - destruct (L l IH al H0) as (rs & E & <-). rewrite E. cbn [bind]. eauto.
Qed.
Lemma torch_read_content : forall o a s, content single o a -> regular s a -> exists t, torch_read o = Ok (t, false, a).
Proof.
  assert (L : forall l, (forall o, In o l -> forall a s, content single o a -> regular s a -> exists t, torch_read o = Ok (t, false, a)) ->
     forall al s, Forall2 (content single) l al -> regular s (Node al) -> exists t, (do ts <- seqM (map torch_read l) ;; stack ts) = Ok (t, false, Node al)).
  { intros l H al s F R. assert (G : exists ts, seqM (map torch_read l) = Ok ts /\ map snd ts = al /\ existsb (fun t => snd (fst t)) ts = false).
    { assert (RR : forall b, In b al -> exists s, regular s b) by (intros b Hb; inversion R; subst; [destruct Hb|eauto]). clear R. revert al F RR.
      induction l as [|o l IH]; intros al F RR; inversion F as [|? b ? al' Ho Hl]; subst; [exists []; auto|].
      destruct (RR b (or_introl eq_refl)) as (s' & Rb). destruct (H o (or_introl eq_refl) b s' Ho Rb) as (t & E).
      destruct (IH (fun o' H' => H o' (or_intror H')) al' Hl (fun b' H' => RR b' (or_intror H'))) as (ts & E' & <- & X).
      exists ((t, false, b) :: ts). cbn [map seqM]. rewrite E. cbn [bind]. rewrite E'. cbn [bind map snd existsb fst]. rewrite X. auto. }
    destruct G as (ts & E & <- & X). rewrite E. cbn [bind]. unfold stack. apply regular_shape in R. rewrite R, X. eauto. }
  intros o. induction o as [|s|x|l IH|l IH|t b|t g b|i b] using obj_nested; intros a s' C R; inversion C; subst; cbn [torch_read]; eauto.
Qed.

(** ** C167: the result has the requested type *)
(** A list, an array or a tensor becomes an object of the requested type with the same
    numbers; only Python floats on the way to a tensor are rounded to float32. *)
Theorem C167_cast : forall show o r s a b sa sb, (forall l, o <> OTuple l) -> (forall x, o <> OFloat x) -> names s r ->
  content unchanged o a -> regular sa a -> sa <> [] -> content single o b -> regular sb b ->
  exists o', cast show true o s = Ok o' /\ has_type r o' /\ content unchanged o' (match r with ToPytorch => b | _ => a end).
Proof.
  intros show o r s a b sa sb NT NF Hn Ca Ra Na Cb Rb. unfold cast. rewrite Hn. unfold names in Hn.
  destruct (numpy_read_content o a Ca) as (t & En). destruct (torch_read_content o b sb Cb Rb) as (t' & Et).
  assert (AN : numpy_array o = Ok (OArray t a)). { unfold numpy_array. rewrite En. cbn [bind fst snd]. apply regular_shape in Ra. rewrite Ra. reflexivity. }
  assert (AT : torch_array o = Ok (OTensor t' false b)) by (unfold torch_array; rewrite Et; reflexivity).
  assert (LI : forall a sa, regular sa a -> sa <> [] -> has_type ToList (listed a)) by (intros a0 sa0 R; inversion R; simpl; auto).
  assert (LC : forall a, content unchanged (listed a) a).
  { intros a0. induction a0 as [x|l IH] using nest_nested; [change (Leaf x) with (Leaf (unchanged x)) at 2; constructor|]. cbn [listed]. constructor.
    clear -IH. induction l as [|a l IHl]; [constructor|]. simpl. constructor; [apply IH; left; auto|apply IHl; intros; apply IH; right; auto]. }
  destruct o as [|txt|x|l|l|td ad|td g ad|i k]; try (inversion Ca; fail); try (exfalso; eapply NT; reflexivity; fail); try (exfalso; eapply NF; reflexivity; fail).
  - destruct r; cbn.
    + change (has "numpy" "<class 'list'>") with false. eexists. split; [exact AN|]. split; [exact I|constructor].
    + eexists. split; [exact AT|]. split; [exact I|constructor].
    + eexists. split; [reflexivity|]. split; [exact I|exact Ca].
  - inversion Ca; subst. inversion Cb; subst. destruct r; cbn.
    + eexists. split; [reflexivity|]. split; [exact I|constructor].
    + eexists. split; [exact AT|]. split; [exact I|constructor].
    + eexists. split; [reflexivity|]. split; [exact (LI _ sa Ra Na)|apply LC].
  - inversion Ca; subst. inversion Cb; subst. destruct r; cbn.
    + eexists. split; [exact AN|]. split; [exact I|constructor].
    + eexists. split; [reflexivity|]. split; [exact I|constructor].
    + eexists. split; [reflexivity|]. split; [exact (LI _ sa Ra Na)|apply LC].
Qed.
Print Assumptions C167_cast.
(** a tuple cannot be made a list *)
Theorem C167_refuted : ~ forall show o r s a sa, names s r -> content unchanged o a -> regular sa a -> sa <> [] ->
  exists o', cast show true o s = Ok o' /\ has_type r o'.
Proof.
  intros H. specialize (H shown (OTuple [OFloat 1]) ToList "list" (Node [Leaf 1]) [1%nat] eq_refl).
  destruct H as (o' & E & _); [constructor; constructor; [change (Leaf 1) with (Leaf (unchanged 1)); constructor|constructor]| |discriminate|discriminate].
  change [1%nat] with (List.length [Leaf 1] :: [])%list. constructor; [discriminate|]. intros a [<-|[]]. constructor.
Qed.
Print Assumptions C167_refuted.
(** A tensor cast to PyTorch is itself, with its gradient; a tensor that requires a gradient cannot become an array,
    alone or in a list, but it does become a list. *)
Theorem C167_tensor : forall show t g a s,
  (names s ToPytorch -> cast show true (OTensor t g a) s = Ok (OTensor t g a)) /\
  (names s ToList -> cast show true (OTensor t g a) s = Ok (listed a)) /\
  (names s ToNumpy -> g = true -> cast show true (OTensor t g a) s = Err RuntimeError /\ forall l, cast show true (OList (OTensor t g a :: l)) s = Err RuntimeError) /\
  (names s ToPytorch -> regular [] a -> cast show true (OList [OTensor t g a]) s = Ok (OTensor t g (Node [a]))).
Proof.
  intros show t g a s. unfold cast. split; [|split; [|split]]; intros Hn; unfold names in Hn; rewrite Hn.
  - reflexivity.
  - reflexivity.
  - intros ->. split; [|intros l]; reflexivity.
  - intros R. inversion R. subst. destruct g; reflexivity.
Qed.
Print Assumptions C167_tensor.
(** arrays in a list: one float64 makes the result float64 *)
Theorem C167_dtype : forall show t t' a b s sa, names s ToNumpy -> regular sa a -> regular sa b ->
  cast show true (OList [OArray t a; OArray t' b]) s = Ok (OArray (match t, t' with F32, F32 => F32 | _, _ => F64 end) (Node [a; b])).
Proof.
  intros show t t' a b s sa Hn Ra Rb. unfold cast. unfold names in Hn. rewrite Hn. apply regular_shape in Ra. apply regular_shape in Rb.
  change (numpy_array (OList [OArray t a; OArray t' b]) = Ok (OArray (match t, t' with F32, F32 => F32 | _, _ => F64 end) (Node [a; b]))).
  unfold numpy_array. cbn. rewrite Ra, Rb. destruct (list_eq_dec Nat.eq_dec sa sa); [|congruence]. destruct t, t'; reflexivity.
Qed.
Print Assumptions C167_dtype.

(** ** C168: there and back *)
Fixpoint relist (f : R -> R) (o : obj) : obj :=
  match o with OFloat x => OFloat (f x) | OList l => OList (map (relist f) l) | o => o end.
Lemma float_content f : forall o, float_list o -> forall a, content f o a -> listed a = relist f o.
Proof.
  assert (L : forall l, (forall o, In o l -> forall a, content f o a -> listed a = relist f o) ->
    forall al, Forall2 (content f) l al -> map listed al = map (relist f) l).
  { intros l H al F. induction F as [|o b l al Ho Hl IH]; [reflexivity|]. cbn [map].
    rewrite (H o (or_introl eq_refl) b Ho), IH by (intros o' Ho'; apply H; right; auto). reflexivity. }
  intros o. induction o as [|s|x|l IH|l IH|t b|t g b|i b] using obj_nested; intros H a C; inversion H; inversion C; subst; cbn [listed relist]; auto.
  f_equal. apply L; auto.
Qed.
Lemma relist_id o : float_list o -> relist unchanged o = o.
Proof.
  induction o as [|s|x|l IH|l IH|t b|t g b|i b] using obj_nested; intros H; inversion H; subst; cbn [relist]; auto. f_equal. rewrite <- (map_id l) at 2.
  apply map_ext_in. auto.
Qed.
Lemma cast_array_list show t a : cast show true (OArray t a) "list" = Ok (listed a).
Proof. reflexivity. Qed.
Lemma cast_tensor_list show t g a : cast show true (OTensor t g a) "list" = Ok (listed a).
Proof. reflexivity. Qed.
(** a list of numbers survives numpy; an array survives PyTorch; a list that goes through
    PyTorch has its numbers rounded to float32 *)
Theorem C168_round_trip : forall show,
  (forall l a s, float_list (OList l) -> content unchanged (OList l) a -> regular s a ->
     exists o, cast show true (OList l) "numpy" = Ok o /\ cast show true o "list" = Ok (OList l)) /\
  (forall t a, exists o, cast show true (OArray t a) "pytorch" = Ok o /\ (shape a <> None -> cast show true o "numpy" = Ok (OArray t a))) /\
  (forall l a s, float_list (OList l) -> content single (OList l) a -> regular s a ->
     exists o, cast show true (OList l) "pytorch" = Ok o /\ cast show true o "list" = Ok (relist single (OList l))).
Proof.
  intros show. split; [|split].
  - intros l a s FL C R. destruct (numpy_read_content _ a C) as (t & En). exists (OArray t a). split.
    + unfold cast. cbn. change (numpy_array (OList l) = Ok (OArray t a)). unfold numpy_array. rewrite En. cbn [bind fst snd]. apply regular_shape in R. rewrite R. reflexivity.
    + rewrite cast_array_list, (float_content unchanged (OList l) FL a C), relist_id; auto.
  - intros t a. exists (OTensor t false a). split; [reflexivity|]. intros R. unfold cast. cbn. unfold numpy_array. cbn [numpy_read bind fst snd].
    destruct (shape a); [reflexivity|congruence].
  - intros l a s FL C R. destruct (torch_read_content _ a s C R) as (t & Et). exists (OTensor t false a). split.
    + unfold cast. cbn. change (torch_array (OList l) = Ok (OTensor t false a)). unfold torch_array. rewrite Et. reflexivity.
    + rewrite cast_tensor_list. f_equal. apply (float_content single (OList l) FL a C).
Qed.
Print Assumptions C168_round_trip.
Lemma single_changes : single 16777217 <> 16777217%R.
Proof.
  intros E. assert (G : generic_format radix2 (FLT_exp (-149) 24) 16777217).
  { rewrite <- E. unfold single. apply generic_format_round; [apply FLT_exp_valid; reflexivity|apply valid_rnd_N]. }
  apply FLT_format_generic in G; [|reflexivity]. destruct G as [[m e] H1 H2 H3]. cbn [Fnum Fexp] in *. unfold F2R in H1. cbn [Fnum Fexp] in H1.
  destruct (Z_le_gt_dec e 0) as [L|L].
  - assert (Hm : m = (16777217 * 2 ^ (- e))%Z).
    { apply eq_IZR. rewrite mult_IZR. change 2%Z with (radix_val radix2). rewrite (IZR_Zpower radix2 (- e)) by lia. rewrite H1, Rmult_assoc, <- bpow_plus.
      replace (e + - e)%Z with 0%Z by lia. simpl. ring. }
    assert (1 <= 2 ^ (- e))%Z by (apply (Z.pow_le_mono_r 2 0 (- e)); lia). subst m. rewrite Z.abs_eq in H2 by lia. change (radix2 ^ 24)%Z with 16777216%Z in H2. lia.
  - assert (Hm : 16777217%Z = (m * 2 ^ e)%Z).
    { apply eq_IZR. rewrite mult_IZR. change 2%Z with (radix_val radix2). rewrite (IZR_Zpower radix2 e) by lia. rewrite <- H1. reflexivity. }
    replace e with (1 + (e - 1))%Z in Hm by lia. rewrite Z.pow_add_r in Hm by lia. change (2 ^ 1)%Z with 2%Z in Hm.
    assert (16777217 mod 2 = 0)%Z. { rewrite Hm. replace (m * (2 * 2 ^ (e - 1)))%Z with ((m * 2 ^ (e - 1)) * 2)%Z by ring. apply Z_mod_mult. }
    discriminate.
Qed.
Theorem C168_pytorch_refuted : ~ forall show l a s, float_list (OList l) -> content unchanged (OList l) a -> regular s a ->
  exists o, cast show true (OList l) "pytorch" = Ok o /\ cast show true o "list" = Ok (OList l).
Proof.
  intros H. specialize (H shown [OFloat 16777217] (Node [Leaf 16777217]) [1%nat]).
  assert (FL : float_list (OList [OFloat 16777217])) by (constructor; intros o [<-|[]]; constructor).
  destruct H as (o & E1 & E2); auto.
  - constructor. constructor; [change (Leaf 16777217) with (Leaf (unchanged 16777217)); constructor|constructor].
  - change [1%nat] with (List.length [Leaf 16777217] :: [])%list. constructor; [discriminate|]. intros a [<-|[]]. constructor.
  - destruct (proj2 (proj2 (C168_round_trip shown)) [OFloat 16777217] (Node [Leaf (single 16777217)]) [1%nat] FL) as (o' & E1' & E2').
    + constructor. constructor; constructor.
    + change [1%nat] with (List.length [Leaf (single 16777217)] :: [])%list. constructor; [discriminate|]. intros a [<-|[]]. constructor.
    + assert (o' = o) by congruence. subst o'. rewrite E2 in E2'. cbn [relist map] in E2'. injection E2' as E. apply single_changes. congruence.
Qed.
Print Assumptions C168_pytorch_refuted.
(** a list with an array and a tensor in it, asked for by a name in mixed case *)
Example C167_nontrivial : let o := OList [OArray F64 (Node [Leaf 1; Leaf 2]); OTensor F32 false (Node [Leaf 3; Leaf 4])] in
  names "NumPy" ToNumpy /\ content unchanged o (Node [Node [Leaf 1; Leaf 2]; Node [Leaf 3; Leaf 4]]) /\
  regular [2; 2]%nat (Node [Node [Leaf 1; Leaf 2]; Node [Leaf 3; Leaf 4]]) /\
  cast shown true o "NumPy" = Ok (OArray F64 (Node [Node [Leaf 1; Leaf 2]; Node [Leaf 3; Leaf 4]])).
Proof.
  cbn zeta. split; [reflexivity|]. split; [repeat constructor|]. split; [apply regular_shape; reflexivity|reflexivity].
Qed.

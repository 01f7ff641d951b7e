(** C165-C168: choice of the back end and conversions between array types. *)
From Coq Require Import Bool String Ascii List Arith Lia ZArith Reals Lra.
From Flocq Require Import Core.
From Verif Require Import Py BackendModel BackendThms.
Import ListNotations.
Local Open Scope string_scope.

(** ** Specification *)
(** [s] contains the word, in any case *)
Definition mentions (w s : string) : Prop := exists a b, lower s = a ++ w ++ b.
(** numbers are printed with digits, signs, "e", "nan", "inf", brackets, commas, blanks
    and ends of lines *)
Definition number_text (s : string) : Prop :=
  forall c, In c (list_ascii_of_string s) -> In c (list_ascii_of_string "0123456789.+-einfa[], " ++ ["010"%char])%list.
(** nested lists and tuples of numbers, None, arrays and tensors *)
Inductive data : obj -> Prop :=
| d_none : data ONone
| d_float x : data (OFloat x)
| d_array t a : data (OArray t a)
| d_tensor t g a : data (OTensor t g a)
| d_list l : (forall o, In o l -> data o) -> data (OList l)
| d_tuple l : (forall o, In o l -> data o) -> data (OTuple l).
(** a float64 tensor is in it *)
Inductive holds_double : obj -> Prop :=
| h_tensor g a : holds_double (OTensor F64 g a)
| h_list l o : In o l -> holds_double o -> holds_double (OList l)
| h_tuple l o : In o l -> holds_double o -> holds_double (OTuple l).
(** the arguments that the functions of the library pass *)
Definition argument (o : obj) : Prop := data o \/ (exists s, o = OText s) \/ exists i b, o = OBackend i b.
(** what an argument says about the back end *)
Definition tells (o : obj) (b : be) : Prop :=
  match o with
  | OArray _ _ => b = NumPy
  | OTensor _ _ _ => b = PyTorch
  | OText s => b = NumPy /\ mentions "numpy" s \/ b = PyTorch /\ mentions "torch" s /\ ~ mentions "numpy" s
  | OList _ | OTuple _ => b = PyTorch /\ holds_double o
  | _ => False
  end.
Definition silent (o : obj) : Prop := (forall i b, o <> OBackend i b) /\ forall b, ~ tells o b.
Definition created (torch : bool) (b : be) : res chosen :=
  match b with NumPy => Ok (New NumPy) | PyTorch => if torch then Ok (New PyTorch) else Err ValueError end.

(** ** lemmas *)
Lemma mentions_has w s : mentions w s <-> has w (lower s) = true.
Proof. unfold mentions. rewrite has_spec. reflexivity. Qed.
Section S.
Context (show : nest -> string).
Hypothesis Hshow : forall a, number_text (show a).
Lemma new_numpy torch : new_backend show torch "numpy" = created torch NumPy.
Proof. reflexivity. Qed.
Lemma new_pytorch torch : new_backend show torch "pytorch" = created torch PyTorch.
Proof. destruct torch; reflexivity. Qed.

Lemma show_without c a : forallb (fun k => negb (Ascii.eqb (lower_char k) c)) (list_ascii_of_string "0123456789.+-einfa[], " ++ ["010"%char])%list = true ->
  without c (lower (show a)) = true.
Proof.
  intros H. specialize (Hshow a). unfold number_text in Hshow. rewrite forallb_forall in H. induction (show a) as [|k s IH]; [reflexivity|].
  cbn [lower]. change (without c (String ?x ?y)) with (negb (Ascii.eqb x c) && without c y). rewrite IH; [rewrite H; auto; apply Hshow; left; auto|].
  intros k' Hk. apply Hshow. right. auto.
Qed.
(** neither "h" nor "m" appears in the text of data, but for the "h" of "torch" *)
Lemma repr_m o : data o -> without "m" (lower (repr show o)) = true.
Proof.
  induction o as [|s|x|l IH|l IH|t a|t g a|i b] using obj_nested; intros D; inversion D; subst; cbn [repr]; rewrite ?lower_app, ?without_app; auto.
  - apply show_without. reflexivity.
  - rewrite lower_join_without; auto. intros s Hs. apply in_map_iff in Hs. destruct Hs as (o & <- & Ho). auto.
  - rewrite lower_join_without; auto; [destruct l as [|? [|? ?]]; reflexivity|]. intros s Hs. apply in_map_iff in Hs. destruct Hs as (o & <- & Ho). auto.
  - destruct t; rewrite ?lower_app, ?without_app, show_without; reflexivity.
  - rewrite show_without by reflexivity. destruct t, g; reflexivity.
Qed.
Lemma repr_h o : data o -> ~ holds_double o -> without "h" (lower (repr show o)) = true.
Proof.
  induction o as [|s|x|l IH|l IH|t a|t g a|i b] using obj_nested; intros D N; inversion D; subst; cbn [repr]; rewrite ?lower_app, ?without_app; auto.
  - apply show_without. reflexivity.
  - rewrite lower_join_without; auto. intros s Hs. apply in_map_iff in Hs. destruct Hs as (o & <- & Ho). apply IH; auto. intros Q. apply N. econstructor; eauto.
  - rewrite lower_join_without; auto; [destruct l as [|? [|? ?]]; reflexivity|]. intros s Hs. apply in_map_iff in Hs. destruct Hs as (o & <- & Ho). apply IH; auto.
    intros Q. apply N. eapply h_tuple; eauto.
  - destruct t; rewrite ?lower_app, ?without_app, show_without; reflexivity.
  - rewrite show_without by reflexivity. destruct t; [destruct g; reflexivity|]. exfalso. apply N. constructor.
Qed.
Lemma repr_torch o : holds_double o -> has "torch" (lower (repr show o)) = true.
Proof.
  induction 1 as [g a|l o Hi H IH|l o Hi H IH]; cbn [repr]; rewrite !lower_app.
  - apply has_app_r, has_app_r, has_app_l. reflexivity.
  - apply has_app_r, has_app_l. apply (lower_join_has _ _ (repr show o)); auto. apply in_map. auto.
  - apply has_app_r, has_app_l. apply (lower_join_has _ _ (repr show o)); auto. apply in_map. auto.
Qed.
Lemma text_arg w s : without ">" w = true -> has w "<class 'str'" = false -> has w (lower ("<class 'str'>" ++ s)) = has w (lower s).
Proof.
  intros W H. rewrite lower_app. change (lower "<class 'str'>" ++ lower s) with ("<class 'str'" ++ String ">" (lower s)).
  rewrite has_split by auto. rewrite H. auto.
Qed.
(** what one argument does *)
Lemma step torch o args : argument o -> (forall b, tells o b -> instantiate_backend show torch (o :: args) = created torch b) /\
  (silent o -> instantiate_backend show torch (o :: args) = instantiate_backend show torch args).
Proof.
  intros A. assert (LIST : forall l, o = OList l \/ o = OTuple l -> data o ->
     (forall b, tells o b -> instantiate_backend show torch (o :: args) = created torch b) /\ (silent o -> instantiate_backend show torch (o :: args) = instantiate_backend show torch args)).
  { intros l Ho D. assert (M : has "numpy" (lower (type_text o ++ str show o)) = false).
    { apply (has_without "m"); [|reflexivity]. rewrite lower_app, without_app. assert (E : str show o = repr show o) by (destruct Ho as [->| ->]; reflexivity). rewrite E, repr_m by auto.
      destruct Ho as [->| ->]; reflexivity. }
    assert (E : str show o = repr show o) by (destruct Ho as [->| ->]; reflexivity).
    assert (E' : instantiate_backend show torch (o :: args) = if has "torch" (lower (type_text o ++ str show o)) then new_backend show torch "pytorch" else instantiate_backend show torch args).
    { destruct Ho as [->| ->]; cbn [instantiate_backend]; rewrite M; reflexivity. }
    split.
    - intros b T. assert (b = PyTorch /\ holds_double o) as [-> H] by (destruct Ho as [->| ->]; exact T). rewrite E', E, lower_app, has_app_r by (apply repr_torch; auto). apply new_pytorch.
    - intros [_ S]. assert (N : ~ holds_double o) by (intros H; apply (S PyTorch); destruct Ho as [->| ->]; split; auto).
      rewrite E', E. rewrite (has_without "h"); [reflexivity| |reflexivity]. rewrite lower_app, without_app, repr_h by auto. destruct Ho as [->| ->]; reflexivity. }
  destruct A as [D|[(s & ->)|(i & b & ->)]].
  - inversion D; subst; try (apply (LIST l); auto; fail).
    + split; [intros b []|]. reflexivity.
    + split; [intros b []|]. intros _. cbn [instantiate_backend]. cbn [type_text str repr].
      rewrite (has_without "m"); [|rewrite lower_app, without_app, show_without; reflexivity|reflexivity].
      rewrite (has_without "h"); [reflexivity|rewrite lower_app, without_app, show_without; reflexivity|reflexivity].
    + split; [intros b ->|intros [_ S]; exfalso; apply (S NumPy); reflexivity]. cbn [instantiate_backend type_text]. rewrite lower_app, has_app_l by reflexivity. reflexivity.
    + split; [intros b ->|intros [_ S]; exfalso; apply (S PyTorch); reflexivity]. cbn [instantiate_backend type_text].
      rewrite (has_without "m"); [|change (str show (OTensor t g a)) with (repr show (OTensor t g a)); rewrite lower_app, without_app, repr_m by auto; reflexivity|reflexivity].
      rewrite lower_app, has_app_l by reflexivity. apply new_pytorch.
  - cbn [instantiate_backend type_text str]. rewrite !text_arg by reflexivity. split.
    + intros b [[-> M]|(-> & M & N)]; rewrite mentions_has in *; [rewrite M; apply new_numpy|]. destruct (has "numpy" (lower s)); [congruence|]. rewrite M. apply new_pytorch.
    + intros [_ S]. destruct (has "numpy" (lower s)) eqn:E1; [exfalso; apply (S NumPy); left; rewrite mentions_has; auto|].
      destruct (has "torch" (lower s)) eqn:E2; [exfalso; apply (S PyTorch); right; rewrite !mentions_has, E1; auto|]. reflexivity.
  - split; [intros b0 []|]. intros [N _]. exfalso. apply (N i b). auto.
Qed.
Lemma skip torch pre args : (forall o, In o pre -> argument o /\ silent o) -> instantiate_backend show torch (pre ++ args) = instantiate_backend show torch args.
Proof.
  induction pre as [|o pre IH]; intros H; [reflexivity|]. destruct (H o (or_introl eq_refl)) as [A S]. cbn [List.app].
  rewrite (proj2 (step torch o (pre ++ args) A) S). apply IH. intros; apply H; right; auto.
Qed.

(** ** C165: the first argument that tells something decides *)
Theorem C165_first : forall torch pre o post b, (forall o, In o pre -> argument o /\ silent o) -> argument o -> tells o b ->
  instantiate_backend show torch (pre ++ o :: post) = created torch b.
Proof. intros torch pre o post b H A T. rewrite skip by auto. apply (step torch o post A). auto. Qed.
Theorem C165_instance : forall torch pre i b post, (forall o, In o pre -> argument o /\ silent o) ->
  instantiate_backend show torch (pre ++ OBackend i b :: post) = Ok (Same i).
Proof. intros torch pre i b post H. rewrite skip by auto. reflexivity. Qed.
Theorem C165_default : forall torch args, (forall o, In o args -> argument o /\ silent o) -> instantiate_backend show torch args = Ok (New NumPy).
Proof. intros torch args H. rewrite <- (List.app_nil_r args). rewrite skip by auto. reflexivity. Qed.
End S.
Print Assumptions C165_first.
Print Assumptions C165_instance.
Print Assumptions C165_default.
Definition shown (a : nest) : string := match a with Leaf _ => "1.5" | Node _ => "[1.5, nan]" end.
Lemma shown_text a : number_text (shown a).
Proof. intros c H. destruct a; cbn in H |- *; intuition congruence. Qed.
(** None, a list of float32 tensors and an unknown name are passed over *)
Example C165_nontrivial : exists pre o post, (forall o, In o pre -> argument o /\ silent o) /\ argument o /\ tells o PyTorch /\ List.length pre = 3%nat /\
  instantiate_backend shown true (pre ++ o :: post) = Ok (New PyTorch).
Proof.
  exists [ONone; OList [OTensor F32 false (Node [Leaf 1; Leaf 2])]; OText "jax"], (OText "PyTorch"), [OArray F64 (Node [])].
  assert (A : forall o, In o [ONone; OList [OTensor F32 false (Node [Leaf 1; Leaf 2])]; OText "jax"] -> argument o /\ silent o).
  { intros o [<-|[<-|[<-|[]]]].
    - split; [left; constructor|split; [discriminate|intros b []]].
    - split; [left; constructor; intros o [<-|[]]; constructor|]. split; [discriminate|]. intros b [_ H]. inversion H as [|l o Hi Ho|]; subst. destruct Hi as [<-|[]]. inversion Ho.
    - split; [right; left; eauto|]. split; [discriminate|]. intros b [[_ H]|(_ & H & _)]; apply mentions_has in H; discriminate. }
  assert (T : tells (OText "PyTorch") PyTorch).
  { right. split; [auto|]. rewrite !mentions_has. split; [reflexivity|discriminate]. }
  split; [exact A|]. split; [right; left; eauto|]. split; [exact T|]. split; [reflexivity|].
  apply (C165_first shown shown_text true _ _ _ PyTorch A); [right; left; eauto|exact T].
Qed.

(** ** C166: data made of tensors is handled by PyTorch *)
Definition tensor (o : obj) : Prop := exists t g a, o = OTensor t g a.
Theorem C166_refuted : ~ forall show l, (forall a, number_text (show a)) -> l <> [] -> (forall o, In o l -> tensor o) ->
  instantiate_backend show true [OList l] = Ok (New PyTorch).
Proof.
  intros H. specialize (H shown [OTensor F32 false (Node [Leaf 1])] shown_text ltac:(discriminate)).
  assert (T : forall o, In o [OTensor F32 false (Node [Leaf 1])] -> tensor o) by (intros o [<-|[]]; unfold tensor; eauto).
  specialize (H T). vm_compute in H. discriminate.
Qed.
Print Assumptions C166_refuted.
(** a tensor of its own decides; a list of tensors does when one of them is a float64 *)
Theorem C166_dtype : forall show l, (forall a, number_text (show a)) -> (forall o, In o l -> tensor o) ->
  (forall o, In o l -> instantiate_backend show true [o] = Ok (New PyTorch)) /\
  ((exists g a, In (OTensor F64 g a) l) -> instantiate_backend show true [OList l] = Ok (New PyTorch)) /\
  (~ (exists g a, In (OTensor F64 g a) l) -> instantiate_backend show true [OList l] = Ok (New NumPy)).
Proof.
  intros show l Hs Hl. assert (D : forall o, In o l -> data o) by (intros o Ho; destruct (Hl o Ho) as (t & g & a & ->); constructor).
  split; [|split].
  - intros o Ho. apply (C165_first show Hs true [] o [] PyTorch); [intros ? []|left; auto|]. destruct (Hl o Ho) as (t & g & a & ->). reflexivity.
  - intros (g & a & Hi). apply (C165_first show Hs true [] (OList l) [] PyTorch); [intros ? []|left; constructor; auto|]. split; [auto|]. econstructor; [exact Hi|constructor].
  - intros N. apply (C165_default show Hs true [OList l]). intros o [<-|[]]. split; [left; constructor; auto|]. split; [discriminate|].
    intros b [_ H]. inversion H as [|l' o Hi Ho|]; subst. destruct (Hl o Hi) as (t & g & a & ->). inversion Ho; subst. apply N. eauto.
Qed.
Print Assumptions C166_dtype.
(** the order of an array and a tensor matters *)
Theorem C166_order_refuted : ~ forall show x y, (forall a, number_text (show a)) -> data x -> data y ->
  instantiate_backend show true [x; y] = instantiate_backend show true [y; x].
Proof.
  intros H. specialize (H shown (OArray F64 (Node [Leaf 1])) (OTensor F64 false (Node [Leaf 1])) shown_text ltac:(constructor) ltac:(constructor)).
  vm_compute in H. discriminate.
Qed.
Print Assumptions C166_order_refuted.

(** C208: the shapelets a LearningShapelets model shows are those its transform measures distances to. *)
From Coq Require Import Bool List Arith Lia Reals Lra.
From Verif Require Import Num NumLaws Py Series Dataset RList RealSeries PaaModel PreModel PropSoftCdist ShapeletModel PropShapelet PropShapelet2.
Import ListNotations.
Local Open Scope R_scope.

(** ** Specification: [shapelets layers] (PropShapelet2.v) lists the shapelets with their lengths, [padding d sz s] is [s] followed
    by rows of NaN up to length [sz] *)
(** the network that [fit] builds for the dictionary {sizes: counts} and series of [d] features, with arbitrary weights *)
Definition network (d : nat) (sizes counts : list nat) (layers : list layer) : Prop :=
  map ly_len layers = sizes /\ map (fun ly => length (ly_kernel ly)) layers = counts /\
  forall ly s, In ly layers -> In s (ly_kernel ly) -> shape2 (ly_len ly) d s.

(** ** lemmas *)
Lemma fill_one ws : forall done rest, (length ws <= length rest)%nat ->
  fill_weights ws (map Some done ++ rest) (length done) = Ok (map Some (done ++ ws) ++ skipn (length ws) rest, length (done ++ ws)).
Proof.
  induction ws as [|w ws IH]; intros done rest L; cbn [fill_weights length].
  - rewrite app_nil_r. reflexivity.
  - destruct rest as [|x rest]; [cbn in L; lia|]. rewrite app_length, map_length. cbn [length].
    destruct (Nat.ltb_spec (length done) (length done + S (length rest))); [|lia].
    assert (E : firstn (length done) (map Some done ++ x :: rest) ++ [Some w] ++ skipn (S (length done)) (map Some done ++ x :: rest) = map Some (done ++ [w]) ++ rest).
    { rewrite firstn_app, skipn_app, map_length, Nat.sub_diag. cbn [firstn]. rewrite app_nil_r, firstn_all2 by (rewrite map_length; lia).
      rewrite skipn_all2 by (rewrite map_length; lia). replace (S (length done) - length done)%nat with 1%nat by lia. cbn [skipn app]. rewrite map_app, <- app_assoc. reflexivity. }
    rewrite E. pose proof (IH (done ++ [w]) rest ltac:(cbn in L; lia)) as G. rewrite app_length in G. cbn [length] in G. rewrite Nat.add_1_r in G. rewrite G.
    rewrite <- !app_assoc. cbn [app skipn]. rewrite app_length. reflexivity.
Qed.
Lemma skipn_twice {A} n m (l : list A) : skipn m (skipn n l) = skipn (n + m) l.
Proof. revert l. induction n as [|n IH]; intros l; auto. destruct l; cbn [skipn Nat.add]; [apply skipn_nil|apply IH]. Qed.
Lemma fill_all layers : forall done rest, (fold_right Nat.add 0%nat (map (fun ly => length (ly_kernel ly)) layers) <= length rest)%nat ->
  fill_layers layers (map Some done ++ rest) (length done) = Ok (map Some (done ++ concat (map ly_kernel layers)) ++ skipn (fold_right Nat.add 0%nat (map (fun ly => length (ly_kernel ly)) layers)) rest).
Proof.
  induction layers as [|ly layers IH]; intros done rest L; cbn [fill_layers map concat fold_right] in *.
  - rewrite app_nil_r. reflexivity.
  - rewrite fill_one by lia. cbn [bind fst snd]. rewrite IH by (rewrite skipn_length; lia). rewrite <- app_assoc, skipn_twice. reflexivity.
Qed.
Lemma shapelets_snd layers : map snd (shapelets layers) = concat (map ly_kernel layers).
Proof. unfold shapelets. rewrite concat_map, !map_map. f_equal. apply map_ext. intros ly. rewrite map_map. cbn. apply map_id. Qed.
Lemma in_shapelets layers L s : In (L, s) (shapelets layers) -> exists ly, In ly layers /\ L = ly_len ly /\ In s (ly_kernel ly).
Proof.
  intros H. unfold shapelets in H. apply in_concat in H. destruct H as (c & Hc & H). apply in_map_iff in Hc. destruct Hc as (ly & <- & Hly).
  apply in_map_iff in H. destruct H as (s' & E & Hs). injection E as <- <-. exists ly. auto.
Qed.
Lemma mapM_some {A B} (f : A -> res B) (g : A -> B) l : (forall x, In x l -> f x = Ok (g x)) -> mapM f l = Ok (map g l).
Proof. induction l as [|x l IH]; intros H; auto. cbn [mapM map]. rewrite H by (left; auto). cbn [bind]. rewrite IH by (intros y Hy; apply H; right; auto). reflexivity. Qed.

(** ** The theorems *)
Theorem C208_attribute d sizes counts layers : network d sizes counts layers ->
  shapelets_attr counts layers = Ok (map (fun p => Some (snd p)) (shapelets layers)).
Proof.
  intros (_ & H & _). unfold shapelets_attr. pose proof (fill_all layers [] (repeat None (fold_right Nat.add 0%nat counts))) as F. cbn [map app length] in F. rewrite F.
  - rewrite H, skipn_all2 by (rewrite repeat_length; lia). rewrite app_nil_r, <- shapelets_snd, map_map. reflexivity.
  - rewrite H, repeat_length. lia.
Qed.
Print Assumptions C208_attribute.
(** every shapelet, in the same order, followed by NaN up to the largest size *)
Theorem C208_as_time_series d sizes counts layers : network d sizes counts layers -> (0 < fold_right Nat.add 0%nat counts)%nat -> (forall L, In L sizes -> (0 < L)%nat) ->
  shapelets_as_time_series sizes counts layers = Ok (map (fun p => padding d (list_max sizes) (snd p)) (shapelets layers)) /\
  forall L s, In (L, s) (shapelets layers) -> length s = L /\ (L <= list_max sizes)%nat.
Proof.
  intros HN Hc Hp. pose proof HN as (HL & HC & HS).
  assert (G : forall L s, In (L, s) (shapelets layers) -> shape2 L d s /\ In L sizes).
  { intros L s Hi. apply in_shapelets in Hi. destruct Hi as (ly & Hly & -> & Hs). split; [apply (HS ly s); auto|]. rewrite <- HL. apply in_map. auto. }
  assert (M : forall L, In L sizes -> (L <= list_max sizes)%nat).
  { intros L Hi. pose proof (proj1 (list_max_le sizes (list_max sizes)) (le_n _)) as Fa. rewrite Forall_forall in Fa. apply Fa. auto. }
  split.
  - unfold shapelets_as_time_series. rewrite (C208_attribute d sizes counts layers HN). cbn [bind].
    assert (LS : length (shapelets layers) = fold_right Nat.add 0%nat counts).
    { rewrite <- (map_length snd), shapelets_snd, <- HC. clear. induction layers as [|ly layers IH]; auto. cbn [map concat fold_right]. rewrite app_length, IH. auto. }
    destruct sizes as [|L0 sizes0] eqn:ES; [destruct layers; [|discriminate]; cbn in LS; lia|]. rewrite <- ES in *.
    destruct (shapelets layers) as [|[L s] rest] eqn:Es; [cbn in LS; lia|]. cbn [map snd].
    assert (D : length (hd [] s) = d).
    { destruct (G L s (or_introl eq_refl)) as [[Ls Hr] HI]. specialize (Hp L HI). destruct s as [|r s]; [cbn in Ls; lia|]. apply Hr. left. auto. }
    rewrite D. rewrite <- Es in *. change (Some s :: map (fun p => Some (snd p)) rest) with (map (fun p : nat * list (list R) => Some (snd p)) ((L, s) :: rest)). rewrite <- Es.
    rewrite (mapM_some _ (fun w => match w with Some w => padding d (list_max sizes) w | None => [] end)).
    + f_equal. rewrite map_map. change (padding d (list_max sizes) s :: map (fun p => padding d (list_max sizes) (snd p)) rest) with (map (fun p : nat * list (list R) => padding d (list_max sizes) (snd p)) ((L, s) :: rest)). rewrite <- Es. reflexivity.
    + intros w Hw. apply in_map_iff in Hw. destruct Hw as ([L' s'] & <- & Hi). cbn [snd put_shapelet]. destruct (G L' s' Hi) as [[Ls Hr] HI]. specialize (M L' HI).
      destruct (Nat.leb_spec (length s') (list_max sizes)); [|lia]. f_equal. unfold padding, nan_row, lift. f_equal.
      clear -H. generalize (repeat (XNaN) d). intros r. replace (list_max sizes) with (length s' + (list_max sizes - length s'))%nat at 1 by lia. rewrite repeat_app, skipn_app, skipn_all2, repeat_length, Nat.sub_diag by (rewrite repeat_length; lia). reflexivity.
  - intros L s Hi. destruct (G L s Hi) as [[Ls _] HI]. auto.
Qed.
Print Assumptions C208_as_time_series.
(** feature [j] of transform is the least mean squared distance to row [j] of shapelets_as_time_series_ (the NaN left out) *)
Theorem C208_transform h m d sizes counts layers X : network d sizes counts layers -> (0 < fold_right Nat.add 0%nat counts)%nat ->
  fitted_on h m d layers -> (forall ly, In ly layers -> good_layer d ly) -> X <> [] -> long_enough d m layers X ->
  exists S out, shapelets_as_time_series sizes counts layers = Ok S /\ transform h (m, d) layers (reals X) = Ok out /\ length out = length X /\
  forall i, (i < length X)%nat -> length (nth i out []) = length S /\
  forall j row, nth_error S j = Some row -> exists s v, row = padding d (list_max sizes) s /\ nth_error (nth i out []) j = Some v /\
    least (window_dists (length s) d (normalised h d (nth i X [])) s) v.
Proof.
  intros HN Hc HF HG NX HX. destruct (C106_transform_partial h m d layers X HF HG NX HX) as (out & E & Lo & H).
  destruct (C208_as_time_series d sizes counts layers HN Hc) as [ES EL].
  { intros L HL. destruct HN as (<- & _). apply in_map_iff in HL. destruct HL as (ly & <- & Hly). apply (HG ly Hly). }
  exists (map (fun p => padding d (list_max sizes) (snd p)) (shapelets layers)), out. split; [exact ES|]. split; [exact E|]. split; [exact Lo|].
  intros i Hi. destruct (H i Hi) as [Li Hj]. rewrite map_length. split; [exact Li|]. intros j row Ej. rewrite nth_error_map in Ej.
  destruct (nth_error (shapelets layers) j) as [[L s]|] eqn:Es; [|discriminate]. injection Ej as <-. destruct (Hj j L s Es) as (v & Ev & Lv).
  exists s, v. split; auto. split; auto. destruct (EL L s (nth_error_In _ _ Es)) as [-> _]. exact Lv.
Qed.
Print Assumptions C208_transform.
(** non-trivial case: one shapelet of length 1 and two of length 2 *)
Example C208_nontrivial : let layers := [{| ly_len := 2; ly_kernel := [[[1]; [2]]; [[3]; [4]]] |}; {| ly_len := 1; ly_kernel := [[[5]]] |}] in
  network 1 [2; 1]%nat [2; 1]%nat layers /\
  shapelets_as_time_series [2; 1]%nat [2; 1]%nat layers = Ok [[[XR 1]; [XR 2]]; [[XR 3]; [XR 4]]; [[XR 5]; [XNaN]]].
Proof.
  split; [|reflexivity]. split; [reflexivity|]. split; [reflexivity|]. intros ly s [<-|[<-|[]]] Hs; cbn in Hs; repeat (destruct Hs as [<-|Hs]);
    try contradiction; (split; [reflexivity|]; intros r Hr; cbn in Hr; repeat (destruct Hr as [<-|Hr]; [reflexivity|]); contradiction).
Qed.

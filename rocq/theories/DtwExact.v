(** Exact arithmetic: finite inputs give finite costs; concrete series. *)
From Coq Require Import Bool List Arith ZArith QArith Lia Floats Reals Psatz.
From Verif Require Import Num NumLaws Py Series Masks DtwModel Spec SpecDtw DpProofs DtwProofs DtwThms.
Import ListNotations.
Local Open Scope nat_scope.

Lemma xfin_inv x : xfin x -> exists r, x = XR r.
Proof. destruct x; simpl; try tauto. eauto. Qed.

Lemma fold_xadd_fin l r : (forall x, In x l -> xfin x) -> xfin (fold_left xadd l (XR r)).
Proof.
  revert r. induction l as [|a l IH]; simpl; intros r H; auto.
  destruct (xfin_inv a) as [x ->]; auto.
Qed.
Lemma local_costs_xfin d d' s1 s2 i j : finite_series (N:=Xnum) xfin d s1 -> finite_series (N:=Xnum) xfin d' s2 ->
  xfin (local_costs (N:=Xnum) s1 s2 i j).
Proof.
  intros F1 F2. unfold local_costs, sq_euclid. apply fold_xadd_fin.
  intros x Hx. apply in_map_iff in Hx. destruct Hx as ([a b] & E & Hin). subst. simpl.
  assert (Ha : In a (nth i s1 [])) by (eapply in_combine_l; eauto).
  assert (Hb : In b (nth j s2 [])) by (eapply in_combine_r; eauto).
  destruct (xfin_inv a) as [ra ->]; [exact (finite_row Xnum xfin d s1 i F1 _ Ha)|].
  destruct (xfin_inv b) as [rb ->]; [exact (finite_row Xnum xfin d' s2 j F2 _ Hb)|].
  simpl. exact I.
Qed.
Lemma path_cost_xfin (op : xr -> xr -> xr) D p :
  (forall a b, xfin a -> xfin b -> xfin (op a b)) -> (forall i j, xfin (D i j)) ->
  xfin (path_cost (N:=Xnum) op D p).
Proof.
  intros Ho HD. unfold path_cost. assert (Z : xfin (nzero (n:=Xnum))) by exact I. revert Z.
  generalize (nzero (n:=Xnum)). induction p as [|c p IH]; simpl; intros z Hz; auto.
Qed.
Lemma xadd_xfin a b : xfin a -> xfin b -> xfin (xadd a b).
Proof. destruct a, b; simpl; tauto. Qed.
Lemma nmax_xfin (a b : xr) : xfin a -> xfin b -> xfin (nmax (N:=Xnum) a b).
Proof. intros. unfold nmax. destruct (nleb (n:=Xnum) a b); auto. Qed.

Section Op.
Variable comb op : xr -> xr -> xr.
Hypothesis CL : comb_laws Xnum xnn comb.
Hypothesis Hop : forall a b, xnn a -> xnn b -> comb a b = op a b.
Hypothesis Hfin : forall a b, xfin a -> xfin b -> xfin (op a b).

(** infinite exactly when no admissible path exists *)
Lemma elastic_inf_iff d s1 s2 g r s allowed :
  finite_series (N:=Xnum) xfin d s1 -> finite_series (N:=Xnum) xfin d s2 ->
  constraint (length s1) (length s2) g r s allowed ->
  (elastic (N:=Xnum) comb (Raw2 s1) (Raw2 s2) g r s = Ok XInf <->
   forall p, ~ warping_path (length s1) (length s2) allowed p).
Proof.
  intros F1 F2 Hc.
  destruct (elastic_optimal Xnum xnn xfin Xlaws comb op CL Hop d s1 s2 F1 F2 g r s allowed Hc) as (w & E & Hw & Hl1 & Hl2).
  rewrite E. split.
  - intros Ei. assert (Es : xsqrt w = XInf) by (inversion Ei; auto).
    assert (w = XInf) by (apply (sqrt_fin_inf _ _ _ Xlaws w Hw Es)). subst w.
    destruct Hl2 as [(p & Hp & Ec)|[Hno _]]; auto.
    exfalso. assert (Hf : xfin (path_cost (N:=Xnum) op (local_costs s1 s2) p)).
    { apply path_cost_xfin; auto. intros; eapply local_costs_xfin; eauto. }
    rewrite Ec in Hf. exact Hf.
  - intros Hno. destruct Hl2 as [(p & Hp & _)|[_ ->]]; [exfalso; eapply Hno; eauto|]. reflexivity.
Qed.

Lemma elastic_finite_iff d s1 s2 g r s allowed :
  finite_series (N:=Xnum) xfin d s1 -> finite_series (N:=Xnum) xfin d s2 ->
  constraint (length s1) (length s2) g r s allowed ->
  (exists p, warping_path (length s1) (length s2) allowed p) ->
  exists v, (0 <= v)%R /\ elastic (N:=Xnum) comb (Raw2 s1) (Raw2 s2) g r s = Ok (XR v).
Proof.
  intros F1 F2 Hc (p & Hp).
  destruct (elastic_optimal Xnum xnn xfin Xlaws comb op CL Hop d s1 s2 F1 F2 g r s allowed Hc) as (w & E & Hw & Hl1 & Hl2).
  destruct Hl2 as [(q & Hq & Ec)|[Hno _]]; [|exfalso; eapply Hno; eauto].
  assert (Hf : xfin w).
  { rewrite <- Ec. apply path_cost_xfin; auto. intros; eapply local_costs_xfin; eauto. }
  destruct (xfin_inv w Hf) as [x ->]. simpl in Hw.
  exists (sqrt x). split; [apply sqrt_pos|]. rewrite E. simpl. unfold Rleb. destruct (Rle_dec 0 x); [reflexivity|contradiction].
Qed.
End Op.

(** A band always admits a path. *)
Lemma band_feasible n m r : (0 <= r)%Z -> 0 < n -> 0 < m -> exists p, warping_path n m (band n m r) p.
Proof. intros. exists (stair n m). apply stair_path; auto. intros. apply band_stair; auto. Qed.

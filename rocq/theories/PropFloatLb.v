(** C176: LB_Keogh against DTW in binary64. *)
From Coq Require Import Bool List Floats Arith ZArith Lia Permutation.
From Verif Require Import Num Py Series Masks DtwModel RList FloatScalerModel FloatLbModel PropFloatScaler.
Import ListNotations.
Local Open Scope float_scope.

(** all orders of summation of two squares agree *)
Lemma added_nil_inv l s : added l s -> l = [] -> s = 0%float.
Proof.
  induction 1 as [|x|l1 l2 l a b H1 IH1 H2 IH2 P]; intros E; auto; [discriminate|]. subst l. apply Permutation_nil in P. apply app_eq_nil in P.
  destruct P as [-> ->]. rewrite IH1, IH2; auto.
Qed.
Lemma added_const c l s : added l s -> forall k, l = repeat c k -> (k <= 2)%nat -> (0 + c = c)%float -> (c + 0 = c)%float -> (c + c + 0 = c + c)%float -> (0 + (c + c) = c + c)%float -> s = nth k [0; c; c + c]%float 0%float.
Proof.
  induction 1 as [|x|l1 l2 l a b H1 IH1 H2 IH2 P]; intros k E Hk Z1 Z2 Z3 Z4.
  - destruct k; [auto|discriminate].
  - destruct k as [|[|k]]; try discriminate. injection E as ->. auto.
  - subst l. apply perm_repeat in P. destruct P as (k1 & k2 & -> & -> & ->). rewrite (IH1 k1), (IH2 k2) by (auto; lia).
    destruct k1 as [|[|[|k1]]]; destruct k2 as [|[|[|k2]]]; try lia; cbn [nth Nat.add]; auto.
Qed.
(** ** C176 *)
(** For the query (2, 2, -1) and the candidate (0, 0, 0), radius 0, LB_Keogh is larger than the DTW
    distance (3) under the same band, in whatever order the squares are added. *)
Theorem C176_refuted : exists q c r v, dtw (N:=Fnum) (Raw1 q) (Raw1 c) GcSakoeChiba (Some (Z.of_nat r)) None = Ok v /\
  forall sum, sums sum -> exists lb, flb_keogh sum q c r = Ok lb /\ (v <? lb)%float = true.
Proof.
  exists [2; 2; -1]%float, [0; 0; 0]%float, 0%nat, 3%float. split; [vm_compute; reflexivity|]. intros sum H.
  unfold flb_keogh. replace (flb_envelope [0; 0; 0]%float 0) with ([0; 0; 0]%float, [0; 0; 0]%float) by (vm_compute; reflexivity).
  change (negb (length [2; 2; -1]%float =? length [0; 0; 0]%float)%nat) with false. cbv iota. cbv zeta.
  replace (filter (fun p : float * float => (snd p <? fst p)%float) (combine [2; 2; -1]%float [0; 0; 0]%float)) with [(2, 0); (2, 0)]%float by (vm_compute; reflexivity).
  replace (filter (fun p : float * float => (fst p <? snd p)%float) (combine [2; 2; -1]%float [0; 0; 0]%float)) with [(-1, 0)]%float by (vm_compute; reflexivity).
  unfold fnorm. replace (map (fun x => (x * x)%float) (map (fun p : float * float => (fst p - snd p)%float) [(2, 0); (2, 0)]%float)) with (repeat 4%float 2) by (vm_compute; reflexivity).
  replace (map (fun x => (x * x)%float) (map (fun p : float * float => (fst p - snd p)%float) [(-1, 0)]%float)) with (repeat 1%float 1) by (vm_compute; reflexivity).
  rewrite (added_const 4 _ _ (H _) 2 eq_refl), (added_const 1 _ _ (H _) 1 eq_refl) by (try reflexivity; lia). eexists. split; [reflexivity|]. vm_compute. reflexivity.
Qed.
Print Assumptions C176_refuted.
(** A query inside the envelope has the bound 0. *)
Definition within (q down up : list float) : Prop := forall i, (i < length q)%nat -> (nth i up 0 <? nth i q 0)%float = false /\ (nth i q 0 <? nth i down 0)%float = false.
Lemma filter_none {A} (f : A -> bool) l : (forall x, In x l -> f x = false) -> filter f l = [].
Proof. induction l as [|x l IH]; intros H; auto. cbn. rewrite (H x (or_introl eq_refl)). apply IH. intros; apply H; right; auto. Qed.
Lemma in_combine_nth {A B} (l : list A) : forall (l' : list B) x y d d', In (x, y) (combine l l') -> exists i, (i < length l)%nat /\ nth i l d = x /\ nth i l' d' = y.
Proof.
  induction l as [|a l IH]; intros [|b l'] x y d d' H; try contradiction. cbn in H. destruct H as [E|H].
  - injection E as -> ->. exists 0%nat. cbn. split; [lia|auto].
  - destruct (IH l' x y d d' H) as (i & Hi & E1 & E2). exists (S i). cbn. split; [lia|auto].
Qed.
Theorem C176_inside sum q c r : sums sum -> length q = length c -> within q (fst (flb_envelope c r)) (snd (flb_envelope c r)) -> flb_keogh sum q c r = Ok 0%float.
Proof.
  intros HS HL H. unfold flb_keogh. destruct (flb_envelope c r) as [down up]. cbn [fst snd] in H. rewrite HL, Nat.eqb_refl. cbn [negb]. cbv zeta.
  rewrite !filter_none.
  - cbn [map]. unfold fnorm. cbn [map]. rewrite (added_nil_inv _ _ (HS []) eq_refl). reflexivity.
  - intros [x y] Hp. cbn [fst snd]. destruct (in_combine_nth _ _ _ _ 0%float 0%float Hp) as (i & Hi & <- & <-). apply H; auto.
  - intros [x y] Hp. cbn [fst snd]. destruct (in_combine_nth _ _ _ _ 0%float 0%float Hp) as (i & Hi & <- & <-). apply H; auto.
Qed.
Print Assumptions C176_inside.
Example C176_nontrivial : let c := [0; 2; 1]%float in let q := [1; 0; 1.5]%float in within q (fst (flb_envelope c 1)) (snd (flb_envelope c 1)).
Proof. intros c q i Hi. unfold c, q in *. cbn [length] in Hi. destruct i as [|[|[|i]]]; [vm_compute; auto|vm_compute; auto|vm_compute; auto|lia]. Qed.

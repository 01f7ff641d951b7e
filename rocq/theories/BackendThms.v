(** Strings and nested objects of BackendModel.v. *)
From Coq Require Import Bool String Ascii List Arith Lia ZArith Reals.
From Verif Require Import Py BackendModel.
Import ListNotations.
Local Open Scope string_scope.

Lemma app_nil_r s : s ++ "" = s.
Proof. induction s; simpl; congruence. Qed.
Lemma app_assoc a b c : (a ++ b) ++ c = a ++ b ++ c.
Proof. induction a; simpl; congruence. Qed.
Lemma prefix_spec w : forall s, prefix w s = true <-> exists b, s = w ++ b.
Proof.
  induction w as [|c w IH]; intros s.
  - split; [exists s; auto|destruct s; auto].
  - destruct s as [|c' s]; [split; [discriminate|intros (b & E); discriminate]|]. cbn [prefix append].
    destruct (ascii_dec c c') as [->|N].
    + rewrite IH. split; intros (b & E); exists b; [rewrite E; auto|injection E; auto].
    + split; [discriminate|]. intros (b & E). injection E as E1 E2. congruence.
Qed.
Lemma has_spec w : forall s, has w s = true <-> exists a b, s = a ++ w ++ b.
Proof.
  induction s as [|c s IH]; cbn [has]; rewrite orb_true_iff, prefix_spec.
  - split.
    + intros [(b & E)|E]; [|discriminate]. exists "", b. auto.
    + intros (a & b & E). left. destruct a; [eauto|discriminate].
  - rewrite IH. split.
    + intros [(b & E)|(a & b & E)]; [exists "", b; auto|exists (String c a), b; simpl; congruence].
    + intros (a & b & E). destruct a as [|c' a]; [left; exists b; auto|right; exists a, b; simpl in E; congruence].
Qed.
Lemma has_false w s : has w s = false <-> ~ exists a b, s = a ++ w ++ b.
Proof. rewrite <- has_spec. destruct (has w s); split; congruence. Qed.
Lemma lower_app a b : lower (a ++ b) = lower a ++ lower b.
Proof. induction a; simpl; congruence. Qed.
Lemma has_app_l w a b : has w a = true -> has w (a ++ b) = true.
Proof. rewrite !has_spec. intros (x & y & ->). exists x, (y ++ b). rewrite !app_assoc. auto. Qed.
Lemma has_app_r w a b : has w b = true -> has w (a ++ b) = true.
Proof. rewrite !has_spec. intros (x & y & ->). exists (a ++ x), y. rewrite !app_assoc. auto. Qed.

(** characters *)
Definition without (c : ascii) (s : string) : bool := forallb (fun x => negb (Ascii.eqb x c)) (list_ascii_of_string s).
Lemma without_app c a b : without c (a ++ b) = without c a && without c b.
Proof. unfold without. induction a as [|x a IH]; simpl; auto. rewrite IH. rewrite andb_assoc. auto. Qed.
Lemma has_without c w s : without c s = true -> without c w = false -> has w s = false.
Proof.
  intros H1 H2. apply has_false. intros (a & b & ->). rewrite !without_app, H2 in H1. rewrite andb_false_r in H1. discriminate.
Qed.
Lemma split_app c : forall x y w b, x ++ String c y = w ++ b -> without c w = true -> exists z, x = w ++ z.
Proof.
  intros x y w. revert x. induction w as [|k w IH]; intros x b E W; [exists x; auto|].
  cbn in W. apply andb_true_iff in W. destruct W as [W1 W2]. destruct x as [|k' x]; simpl in E.
  - injection E as E1 _. subst k. rewrite Ascii.eqb_refl in W1. discriminate.
  - injection E as -> E. destruct (IH x b E W2) as (z & ->). exists z. auto.
Qed.
(** a word does not extend over a character that it does not contain *)
Lemma has_split c w : without c w = true -> forall x y, has w (x ++ String c y) = has w x || has w y.
Proof.
  intros W x y. induction x as [|k x IH]; cbn [append has].
  - assert (E : prefix w (String c y) = prefix w "").
    { destruct w as [|k w]; auto. simpl. cbn in W. apply andb_true_iff in W. destruct W as [W _]. destruct (ascii_dec k c) as [->|]; auto. rewrite Ascii.eqb_refl in W. discriminate. }
    rewrite E, orb_false_r. auto.
  - rewrite IH, orb_assoc. f_equal. apply eq_true_iff_eq. rewrite !orb_true_iff, !prefix_spec. split; intros [(b & E)|E]; auto; left.
    + apply (split_app c (String k x) y w b E) in W. auto.
    + exists (b ++ String c y). change (String k (x ++ String c y)) with (String k x ++ String c y). rewrite E, app_assoc. auto.
Qed.

(** induction over nested objects *)
Fixpoint obj_nested (P : obj -> Prop) (H0 : P ONone) (H1 : forall s, P (OText s)) (H2 : forall x, P (OFloat x))
    (H3 : forall l, (forall o, In o l -> P o) -> P (OList l)) (H4 : forall l, (forall o, In o l -> P o) -> P (OTuple l))
    (H5 : forall t a, P (OArray t a)) (H6 : forall t g a, P (OTensor t g a)) (H7 : forall i b, P (OBackend i b)) (o : obj) : P o :=
  let go := fix go (l : list obj) : forall o, In o l -> P o :=
    match l with
    | [] => fun o H => match H with end
    | x :: l => fun o H => match H with or_introl E => eq_ind x P (obj_nested P H0 H1 H2 H3 H4 H5 H6 H7 x) o E | or_intror H => go l o H end
    end in
  match o with
  | ONone => H0 | OText s => H1 s | OFloat x => H2 x | OList l => H3 l (go l) | OTuple l => H4 l (go l)
  | OArray t a => H5 t a | OTensor t g a => H6 t g a | OBackend i b => H7 i b
  end.
Fixpoint nest_nested (P : nest -> Prop) (H1 : forall x, P (Leaf x)) (H2 : forall l, (forall a, In a l -> P a) -> P (Node l)) (a : nest) : P a :=
  let go := fix go (l : list nest) : forall a, In a l -> P a :=
    match l with
    | [] => fun o H => match H with end
    | x :: l => fun o H => match H with or_introl E => eq_ind x P (nest_nested P H1 H2 x) o E | or_intror H => go l o H end
    end in
  match a with Leaf x => H1 x | Node l => H2 l (go l) end.

Lemma lower_join_without c l : without c ", " = true -> (forall s, In s l -> without c (lower s) = true) -> without c (lower (join l)) = true.
Proof.
  intros Hc. induction l as [|s l IH]; intros H; [reflexivity|]. destruct l as [|s' l].
  - apply H. left. auto.
  - change (join (s :: s' :: l)) with (s ++ ", " ++ join (s' :: l)). rewrite !lower_app, !without_app.
    rewrite (H s (or_introl eq_refl)). rewrite IH by (intros; apply H; right; auto). change (lower ", ") with ", ". rewrite Hc. auto.
Qed.
Lemma lower_join_has w l s : In s l -> has w (lower s) = true -> has w (lower (join l)) = true.
Proof.
  induction l as [|s0 l IH]; [intros []|]. intros [->|H] E.
  - destruct l as [|s' l]; [exact E|]. change (join (s :: s' :: l)) with (s ++ ", " ++ join (s' :: l)). rewrite lower_app. apply has_app_l. auto.
  - destruct l as [|s' l]; [destruct H|]. change (join (s0 :: s' :: l)) with (s0 ++ ", " ++ join (s' :: l)). rewrite !lower_app. apply has_app_r, has_app_r. auto.
Qed.

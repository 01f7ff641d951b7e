(** C42: series written as text and read back. *)
From Coq Require Import Bool List Arith ZArith Reals String Ascii Lia Lra Psatz.
From Flocq Require Import Core.
From Verif Require Import Num Py Series Dataset CdistThms PropImpute TextModel.
Import ListNotations.
Local Open Scope string_scope.

(** ** Specification *)
(** the values a 64-bit float can have; the sign of zero is not represented *)
Definition is_double (x : xr) : Prop :=
  match x with XR r => generic_format radix2 (FLT_exp (-1074) 53) r /\ (Rabs r < bpow radix2 1024)%R | _ => True end.
(** an array of at least one time step and one feature *)
Definition is_series (d : nat) (ts : series Xnum) : Prop := (1 <= d)%nat /\ ts <> [] /\ forall r, In r ts -> List.length r = d /\ forall x, In x r -> is_double x.

(** ** Numbers: 19 decimal digits determine a double *)
#[local] Instance prec53 : Prec_gt_0 53 := eq_refl.
#[local] Instance prec19 : Prec_gt_0 19 := eq_refl.
Notation fexp2 := (FLT_exp (-1074) 53).
Lemma format_gap x z : generic_format radix2 fexp2 x -> generic_format radix2 fexp2 z -> x <> z -> (Rabs x / 2 <= Rabs z)%R -> x <> 0%R ->
  (bpow radix2 (mag radix2 x - 54) <= Rabs (z - x))%R.
Proof.
  intros Fx Fz Hne Hz Hx.
  assert (Z0 : z <> 0%R). { intros ->. rewrite Rabs_R0 in Hz. pose proof (Rabs_pos_lt x Hx). lra. }
  assert (Mz : (mag radix2 x - 1 <= mag radix2 z)%Z).
  { apply mag_ge_bpow. replace (mag radix2 x - 1 - 1)%Z with ((mag radix2 x - 1) + (-1))%Z by lia. rewrite bpow_plus. change (bpow radix2 (-1)) with (/ 2)%R.
    pose proof (bpow_mag_le radix2 x Hx). lra. }
  set (e := (mag radix2 x - 54)%Z).
  assert (Ex : (e <= cexp radix2 fexp2 x)%Z) by (unfold cexp, FLT_exp, e; lia).
  assert (Ez : (e <= cexp radix2 fexp2 z)%Z) by (unfold cexp, FLT_exp, e; lia).
  assert (I : forall u, generic_format radix2 fexp2 u -> (e <= cexp radix2 fexp2 u)%Z -> exists n : Z, u = (IZR n * bpow radix2 e)%R).
  { intros u Fu Eu. rewrite Fu. unfold F2R. cbn [Fnum Fexp]. set (k := Ztrunc (scaled_mantissa radix2 fexp2 u)). exists (k * Zpower radix2 (cexp radix2 fexp2 u - e))%Z.
    rewrite mult_IZR, IZR_Zpower by lia. rewrite Rmult_assoc, <- bpow_plus. do 2 f_equal. lia. }
  destruct (I x Fx Ex) as (a & A). destruct (I z Fz Ez) as (b & B).
  assert (b <> a) by (intros ->; congruence).
  rewrite A, B. rewrite <- Rmult_minus_distr_r, Rabs_mult, <- minus_IZR, (Rabs_pos_eq (bpow _ _)) by apply bpow_ge_0.
  rewrite <- (Rmult_1_l (bpow radix2 e)) at 1. apply Rmult_le_compat_r; [apply bpow_ge_0|]. rewrite <- abs_IZR. apply IZR_le. lia.
Qed.
Lemma dec19_error x : (0 < x)%R -> (Rabs (dec19 x - x) <= / 2 * (x * bpow radix10 (-18)))%R.
Proof.
  intros Hx. eapply Rle_trans; [apply error_le_half_ulp; typeclasses eauto|]. apply Rmult_le_compat_l; [lra|].
  rewrite ulp_neq_0 by lra. unfold cexp, FLX_exp. replace (mag radix10 x - 19)%Z with ((mag radix10 x - 1) + (-18))%Z by lia. rewrite bpow_plus.
  apply Rmult_le_compat_r; [apply bpow_ge_0|]. pose proof (bpow_mag_le radix10 x ltac:(lra)). rewrite Rabs_pos_eq in H by lra. auto.
Qed.
Lemma small18 : (bpow radix10 (-18) < bpow radix2 (-54))%R.
Proof.
  cbn -[Z.pow_pos IZR]. apply Rinv_lt_contravar; [apply Rmult_lt_0_compat; apply IZR_lt; reflexivity|]. apply IZR_lt. reflexivity.
Qed.
Lemma double_back x : (0 <= x)%R -> generic_format radix2 fexp2 x -> binary64 (dec19 x) = x.
Proof.
  intros Hx Fx. destruct (Req_dec x 0) as [->|N0].
  { unfold binary64, dec19. rewrite (round_0 radix10), round_0; auto; typeclasses eauto. }
  destruct (Req_dec (binary64 (dec19 x)) x) as [E|E]; auto. exfalso.
  set (y := dec19 x) in *. set (z := binary64 y) in *. assert (X0 : (0 < x)%R) by lra.
  pose proof (dec19_error x X0) as Er. fold y in Er.
  assert (Fz : generic_format radix2 fexp2 z) by (apply generic_format_round; typeclasses eauto).
  destruct (round_N_pt radix2 fexp2 (fun t => negb (Z.even t)) y) as (_ & Nr). specialize (Nr x Fx). change (round radix2 fexp2 (Znearest (fun t => negb (Z.even t))) y) with z in Nr.
  assert (D : (Rabs (z - x) <= x * bpow radix10 (-18))%R).
  { replace (z - x)%R with ((z - y) + (y - x))%R by ring. eapply Rle_trans; [apply Rabs_triang|]. rewrite (Rabs_minus_sym x y) in Nr. lra. }
  assert (S18 : (bpow radix10 (-18) < / 2)%R). { eapply Rlt_trans; [apply small18|]. change (/ 2)%R with (bpow radix2 (-1)). apply bpow_lt. lia. }
  assert (Hz : (Rabs x / 2 <= Rabs z)%R).
  { rewrite (Rabs_pos_eq x) by lra. pose proof (Rabs_triang_inv x (x - z)). replace (x - (x - z))%R with z in H by ring. rewrite (Rabs_pos_eq x), (Rabs_minus_sym x z) in H by lra. nra. }
  pose proof (format_gap x z Fx Fz ltac:(auto) Hz N0) as G.
  pose proof (bpow_mag_gt radix2 x) as U. rewrite Rabs_pos_eq in U by lra.
  replace (mag radix2 x - 54)%Z with (mag radix2 x + (-54))%Z in G by lia. rewrite bpow_plus in G. pose proof small18. pose proof (bpow_gt_0 radix2 (-54)). nra.
Qed.

(** ** Digits *)
Lemma digit_read d : (0 <= d < 10)%Z -> digit_value (digit d) = Some d.
Proof. intros H. assert (C : In d [0;1;2;3;4;5;6;7;8;9]%Z) by (cbn; lia). cbn in C. repeat (destruct C as [<-|C]; [reflexivity|]). destruct C. Qed.
Lemma app_assoc_s (a b c : string) : (a ++ b) ++ c = a ++ (b ++ c).
Proof. induction a; cbn; congruence. Qed.
Lemma take_fixed k : forall m s acc n, take_digits (show_fixed k m ++ s) acc n = take_digits s (acc * 10 ^ Z.of_nat k + m mod 10 ^ Z.of_nat k)%Z (n + k).
Proof.
  induction k as [|k IH]; intros m s acc n.
  - cbn [show_fixed append]. change (10 ^ Z.of_nat 0)%Z with 1%Z. rewrite Z.mod_1_r. f_equal; lia.
  - cbn [show_fixed]. rewrite app_assoc_s. rewrite IH. cbn [append take_digits]. rewrite digit_read by (apply Z.mod_pos_bound; lia). f_equal; [|lia].
    rewrite Nat2Z.inj_succ, Z.pow_succ_r by lia. rewrite (Z.rem_mul_r m 10) by (try lia; apply Z.pow_nonzero; lia). ring.
Qed.
Lemma ndigits_spec fuel : forall m, (0 <= m < 2 ^ Z.of_nat fuel)%Z -> (m < 10 ^ Z.of_nat (ndigits fuel m))%Z.
Proof.
  induction fuel as [|f IH]; intros m H; [cbn in *; lia|]. cbn [ndigits]. destruct (Z.ltb_spec m 10); [cbn; lia|].
  rewrite Nat2Z.inj_succ, Z.pow_succ_r in * by lia. assert (B : (0 <= m / 10 < 2 ^ Z.of_nat f)%Z). { split; [apply Z.div_pos; lia|]. apply Z.div_lt_upper_bound; lia. }
  specialize (IH _ B). pose proof (Z.div_mod m 10). pose proof (Z.mod_pos_bound m 10). lia.
Qed.
Definition exp_digits (e : Z) : nat := Nat.max 2 (ndigits (Z.to_nat (Z.log2 (Z.abs e)) + 1) (Z.abs e)).
Lemma exp_bound e : (Z.abs e < 10 ^ Z.of_nat (exp_digits e))%Z.
Proof.
  unfold exp_digits. apply Z.lt_le_trans with (10 ^ Z.of_nat (ndigits (Z.to_nat (Z.log2 (Z.abs e)) + 1) (Z.abs e)))%Z; [apply ndigits_spec|apply Z.pow_le_mono_r; lia].
  split; [lia|]. rewrite Nat2Z.inj_add, Z2Nat.id by apply Z.log2_nonneg. destruct (Z.eq_dec e 0) as [->|]; [cbn; lia|]. apply (Z.log2_spec (Z.abs e)). lia.
Qed.
(** the text of a decimal number is read as its value *)
Lemma app_nil_s (a : string) : a ++ "" = a.
Proof. induction a; cbn; congruence. Qed.
Lemma read_decimal neg m e : (0 <= m < 10 ^ 19)%Z ->
  read (show_decimal neg m e) = Some (to_double ((if neg then -1 else 1) * IZR m * bpow radix10 (e - 18))%R).
Proof.
  intros Hm. unfold show_decimal.
  assert (D1 : (0 <= m / 10 ^ 18 < 10)%Z). { split; [apply Z.div_pos; lia|]. apply Z.div_lt_upper_bound; lia. }
  set (rest := "." ++ show_fixed 18 m ++ "e" ++ show_exponent e).
  assert (TS : take_sign ((if neg then "-" else "") ++ String (digit (m / 10 ^ 18)) "" ++ rest) = (neg, String (digit (m / 10 ^ 18)) rest)).
  { destruct neg; [reflexivity|]. assert (C : In (m / 10 ^ 18)%Z [0;1;2;3;4;5;6;7;8;9]%Z) by (cbn [In]; lia). cbn [In] in C. repeat (destruct C as [<-|C]; [reflexivity|]). destruct C. }
  unfold read. rewrite TS.
  assert (NN : String.eqb (String (digit (m / 10 ^ 18)) rest) "nan" = false /\ String.eqb (String (digit (m / 10 ^ 18)) rest) "inf" = false).
  { assert (C : In (m / 10 ^ 18)%Z [0;1;2;3;4;5;6;7;8;9]%Z) by (cbn [In]; lia). cbn [In] in C. repeat (destruct C as [<-|C]; [split; reflexivity|]). destruct C. }
  rewrite (proj1 NN), (proj2 NN). cbn [take_digits]. rewrite digit_read by auto.
  assert (T1 : take_digits rest (0 * 10 + m / 10 ^ 18) 1 = ((m / 10 ^ 18)%Z, 1%nat, rest)) by reflexivity. rewrite T1.
  unfold rest at 1. cbn [append]. rewrite (Ascii.eqb_refl "."). rewrite take_fixed. try change ("e" ++ show_exponent e) with (String "e" (show_exponent e)).
  assert (T2 : take_digits (String "e" (show_exponent e)) (m / 10 ^ 18 * 10 ^ Z.of_nat 18 + m mod 10 ^ Z.of_nat 18) (0 + 18) = (m, 18%nat, String "e" (show_exponent e))).
  { change (Z.of_nat 18) with 18%Z. change (take_digits (String "e" (show_exponent e)) ?a ?n) with (a, n, String "e" (show_exponent e)). cbn beta. f_equal. f_equal. pose proof (Z.div_mod m (10 ^ 18)). lia. }
  rewrite T2. cbn [Nat.add Nat.eqb]. change (Ascii.eqb "e" "e" || Ascii.eqb "e" "E")%bool with true. cbn iota.
  assert (TE : take_sign (show_exponent e) = ((e <? 0)%Z, show_fixed (exp_digits e) (Z.abs e))) by (unfold show_exponent; destruct (e <? 0)%Z; reflexivity).
  rewrite TE. rewrite <- (app_nil_s (show_fixed _ _)), take_fixed. cbn [take_digits]. rewrite Z.mod_small by (split; [lia|apply exp_bound]).
  destruct (Nat.eqb_spec (0 + exp_digits e) 0) as [Z0|_]; [unfold exp_digits in Z0; lia|].
  do 4 f_equal. change (Z.of_nat 18) with 18%Z. destruct (Z.ltb_spec e 0); lia.
Qed.
(** the digits of a positive rounded number *)
Lemma decimal_digits y : (0 < y)%R -> generic_format radix10 (FLX_exp 19) y -> let e := (mag radix10 y - 1)%Z in let m := Ztrunc (y * bpow radix10 (18 - e)) in
  (0 <= m < 10 ^ 19)%Z /\ y = (IZR m * bpow radix10 (e - 18))%R.
Proof.
  intros Hy F e m.
  assert (M : m = Ztrunc (scaled_mantissa radix10 (FLX_exp 19) y)). { unfold m, scaled_mantissa, cexp, FLX_exp, e. do 3 f_equal. lia. }
  assert (E : y = (IZR m * bpow radix10 (e - 18))%R). { rewrite F at 1. unfold F2R. cbn [Fnum Fexp]. rewrite <- M. unfold cexp, FLX_exp, e. do 2 f_equal. lia. }
  split; auto. pose proof (bpow_gt_0 radix10 (e - 18)) as P. split.
  - apply le_IZR. apply Rmult_le_reg_r with (1 := P). rewrite Rmult_0_l, <- E. lra.
  - apply lt_IZR. apply Rmult_lt_reg_r with (1 := P). rewrite <- E. pose proof (bpow_mag_gt radix10 y) as U. rewrite Rabs_pos_eq in U by lra.
    change (10 ^ 19)%Z with (Zpower radix10 19). rewrite IZR_Zpower by lia. rewrite <- bpow_plus. replace (19 + (e - 18))%Z with (mag radix10 y : Z) by (unfold e; lia). auto.
Qed.
Lemma to_double_exact r : generic_format radix2 fexp2 (Rabs r) -> (Rabs r < bpow radix2 1024)%R -> forall y, binary64 y = Rabs r ->
  to_double ((if Rlt_dec r 0 then -1 else 1) * y)%R = XR r.
Proof.
  intros F B y E. assert (E2 : binary64 ((if Rlt_dec r 0 then -1 else 1) * y)%R = r).
  { destruct (Rlt_dec r 0).
    - replace (-1 * y)%R with (- y)%R by ring. unfold binary64. rewrite round_NE_opp. unfold binary64 in E. rewrite E, Rabs_left by auto. ring.
    - rewrite Rmult_1_l, E. apply Rabs_pos_eq. lra. }
  unfold to_double. rewrite E2. destruct (Rlt_dec (Rabs r) (bpow radix2 1024)); tauto.
Qed.
Lemma read_show x : is_double x -> read (show x) = Some x.
Proof.
  destruct x as [r| | |]; try reflexivity. intros (F & B). cbn [show]. unfold show_real.
  assert (Fa : generic_format radix2 fexp2 (Rabs r)) by (apply generic_format_abs; auto).
  pose proof (double_back (Rabs r) (Rabs_pos r) Fa) as DB. set (y := dec19 (Rabs r)) in *.
  assert (Y0 : (0 <= y)%R). { unfold y, dec19. rewrite <- (round_0 radix10 (FLX_exp 19) ZnearestE). apply round_le; try typeclasses eauto. apply Rabs_pos. }
  destruct (Req_EM_T y 0) as [Ey|Ey].
  - assert (R0 : r = 0%R). { rewrite Ey in DB. unfold binary64 in DB. rewrite round_0 in DB by typeclasses eauto. destruct (Req_dec r 0) as [|N]; auto. apply Rabs_no_R0 in N. congruence. }
    rewrite read_decimal by lia. subst r. pose proof (to_double_exact 0 Fa B 0%R) as T. destruct (Rlt_dec 0 0); [lra|]. rewrite Ey in DB. rewrite <- T by auto. do 2 f_equal. ring.
  - destruct (decimal_digits y ltac:(lra) ltac:(apply generic_format_round; typeclasses eauto)) as (Hm & E).
    rewrite read_decimal by exact Hm. rewrite Rmult_assoc, <- E. f_equal. rewrite <- (to_double_exact r Fa B y DB). f_equal. destruct (Rlt_dec r 0); auto.
Qed.

(** ** Characters *)
Fixpoint all_chars (P : ascii -> bool) (s : string) : bool := match s with EmptyString => true | String c s => P c && all_chars P s end.
Lemma all_app P a b : all_chars P (a ++ b) = all_chars P a && all_chars P b.
Proof. induction a; cbn; auto. rewrite IHa. apply andb_assoc. Qed.
Definition word_char (c : ascii) : bool := negb (is_space c) && negb (Ascii.eqb c "|").
Lemma digit_char d : (0 <= d < 10)%Z -> word_char (digit d) = true.
Proof. intros H. assert (C : In d [0;1;2;3;4;5;6;7;8;9]%Z) by (cbn; lia). cbn in C. repeat (destruct C as [<-|C]; [reflexivity|]). destruct C. Qed.
Lemma fixed_chars k : forall m, all_chars word_char (show_fixed k m) = true.
Proof. induction k; intros m; cbn [show_fixed]; auto. rewrite all_app, IHk. cbn [all_chars]. rewrite digit_char by (apply Z.mod_pos_bound; lia). auto. Qed.
Lemma decimal_chars neg m e : (0 <= m < 10 ^ 19)%Z -> all_chars word_char (show_decimal neg m e) = true.
Proof.
  intros Hm. unfold show_decimal, show_exponent. rewrite !all_app, !fixed_chars. cbn [all_chars]. rewrite digit_char; [destruct neg, (e <? 0)%Z; reflexivity|].
  split; [apply Z.div_pos; lia|]. apply Z.div_lt_upper_bound; lia.
Qed.
Lemma show_chars x : all_chars word_char (show x) = true.
Proof.
  destruct x as [r| | |]; try reflexivity. cbn [show]. unfold show_real. set (y := dec19 (Rabs r)).
  assert (Y0 : (0 <= y)%R). { unfold y, dec19. rewrite <- (round_0 radix10 (FLX_exp 19) ZnearestE). apply round_le; try typeclasses eauto. apply Rabs_pos. }
  destruct (Req_EM_T y 0); [apply decimal_chars; lia|]. apply decimal_chars.
  apply (decimal_digits y); [lra|]. apply generic_format_round; typeclasses eauto.
Qed.
Lemma show_nonempty x : show x <> "".
Proof. destruct x as [r| | |]; try discriminate. cbn [show]. unfold show_real. destruct (Req_EM_T _ _); [discriminate|]. unfold show_decimal. destruct (Rlt_dec r 0); discriminate. Qed.

(** ** Words, rows and lines *)
Lemma words_word w s : w <> "" -> all_chars word_char w = true -> (s = "" \/ exists c s', s = String c s' /\ is_space c = true) -> words (w ++ s) = w :: words s.
Proof.
  intros N H Hs. induction w as [|c w IH]; [congruence|]. cbn [all_chars] in H. apply andb_prop in H. destruct H as (Hc & Hw).
  assert (Sc : is_space c = false) by (unfold word_char in Hc; destruct (is_space c); auto).
  destruct w as [|c2 w].
  - cbn [append]. cbn [words]. rewrite Sc. destruct Hs as [->|(c' & s' & -> & Hc')]; auto. rewrite Hc'. auto.
  - specialize (IH ltac:(discriminate) Hw). change (String c (String c2 w) ++ s) with (String c (String c2 w ++ s)).
    cbn [all_chars] in Hw. apply andb_prop in Hw. destruct Hw as (Hc2 & _). assert (S2 : is_space c2 = false) by (unfold word_char in Hc2; destruct (is_space c2); auto).
    change (words (String c (String c2 w ++ s))) with (if is_space c then words (String c2 w ++ s) else if is_space c2 then String c "" :: words (String c2 w ++ s) else match words (String c2 w ++ s) with [] => [String c ""] | v :: ws => String c v :: ws end).
    rewrite Sc, S2, IH. auto.
Qed.
(** a row of numbers, possibly followed by the end of the line *)
Lemma fromstring_row (l : list xr) tail : (forall x, In x l -> is_double x) -> tail = "" \/ tail = String newline "" -> fromstring (join_with " " (map show l) ++ tail) = l.
Proof.
  intros H Ht. unfold fromstring. assert (W0 : words tail = []) by (destruct Ht as [->| ->]; reflexivity).
  assert (W : words (join_with " " (map show l) ++ tail) = map show l).
  { clear H. induction l as [|x l IH]; [exact W0|]. destruct l as [|x2 l].
    - cbn [map join_with]. rewrite words_word; [rewrite W0; auto|apply show_nonempty|apply show_chars|destruct Ht as [->| ->]; [auto|right; eexists; eexists; split; eauto]].
    - change (join_with " " (map show (x :: x2 :: l))) with (show x ++ " " ++ join_with " " (map show (x2 :: l))). rewrite !app_assoc_s.
      rewrite words_word; [|apply show_nonempty|apply show_chars|right; exists " "%char; eexists; split; reflexivity]. cbn [map]. f_equal. exact IH. }
  rewrite W. clear W W0. induction l as [|x l IH]; auto. cbn [map read_all]. rewrite read_show, IH by auto with datatypes. auto.
Qed.
Lemma split_none c s : all_chars (fun x => negb (Ascii.eqb x c)) s = true -> split_on c s = [s].
Proof. induction s as [|x s IH]; cbn; auto. intros H. apply andb_prop in H. destruct H as (A & B). rewrite IH by auto. destruct (Ascii.eqb x c); [discriminate|auto]. Qed.
Lemma split_first c s r : all_chars (fun x => negb (Ascii.eqb x c)) s = true -> split_on c (s ++ String c r) = s :: split_on c r.
Proof.
  induction s as [|x s IH]; cbn; intros H; [rewrite Ascii.eqb_refl; auto|]. apply andb_prop in H. destruct H as (A & B). rewrite IH by auto. destruct (Ascii.eqb x c); [discriminate|auto].
Qed.
Lemma all_imp (P Q : ascii -> bool) s : (forall c, P c = true -> Q c = true) -> all_chars P s = true -> all_chars Q s = true.
Proof. intros H. induction s; cbn; auto. intros E. apply andb_prop in E. destruct E. rewrite H, IHs; auto. Qed.
Definition row_char (c : ascii) : bool := negb (Ascii.eqb c "|") && negb (Ascii.eqb c newline).
Lemma row_chars (l : list xr) : all_chars row_char (join_with " " (map show l)) = true.
Proof.
  assert (S : forall x, all_chars row_char (show x) = true).
  { intros x. apply (all_imp word_char); [|apply show_chars]. intros c. unfold word_char, row_char, is_space. destruct (Ascii.eqb c "|"), (Ascii.eqb c newline), (Ascii.eqb c " "); auto. }
  induction l as [|x l IH]; auto. destruct l as [|x2 l]; [cbn [map join_with]; auto|].
  change (join_with " " (map show (x :: x2 :: l))) with (show x ++ " " ++ join_with " " (map show (x2 :: l))). rewrite !all_app, S, IH. auto.
Qed.
Lemma split_rows (rows : list (list xr)) tail : rows <> [] -> all_chars (fun x => negb (Ascii.eqb x "|")) tail = true ->
  split_on "|" (join_with "|" (map (fun r => join_with " " (map show r)) rows) ++ tail) = (map (fun r => join_with " " (map show r)) (removelast rows) ++ [join_with " " (map show (last rows [])) ++ tail]%string)%list.
Proof.
  intros N Ht. assert (R : forall r, all_chars (fun x => negb (Ascii.eqb x "|")) (join_with " " (map show r)) = true).
  { intros r. apply (all_imp row_char); [|apply row_chars]. intros c. unfold row_char. destruct (Ascii.eqb c "|"); auto. }
  induction rows as [|r rows IH]; [congruence|]. destruct rows as [|r2 rows].
  - cbn [map join_with removelast last app]. apply split_none. rewrite all_app, R, Ht. auto.
  - change (join_with "|" (map (fun r => join_with " " (map show r)) (r :: r2 :: rows))) with (join_with " " (map show r) ++ String "|" (join_with "|" (map (fun r => join_with " " (map show r)) (r2 :: rows)))).
    rewrite app_assoc_s. cbn [append]. rewrite split_first by auto. rewrite IH by discriminate. reflexivity.
Qed.
Lemma substring_all s : substring 0 (String.length s) s = s.
Proof. induction s; cbn; congruence. Qed.
Lemma length_app_s (a b : string) : String.length (a ++ b) = (String.length a + String.length b)%nat.
Proof. induction a; cbn; congruence. Qed.
Lemma substring_app a b : substring 0 (String.length a) (a ++ b) = a.
Proof. induction a; cbn; [destruct b; auto|congruence]. Qed.
Lemma savetxt_join rows : rows <> [] -> savetxt rows = join_with "|" (map (fun r => join_with " " (map show r)) rows) ++ "|".
Proof.
  intros N. unfold savetxt. induction rows as [|r rows IH]; [congruence|]. destruct rows as [|r2 rows]; [reflexivity|].
  specialize (IH ltac:(discriminate)).
  change (String.concat "" (map (fun row => join_with " " (map show row) ++ "|") (r :: r2 :: rows))) with ((join_with " " (map show r) ++ "|") ++ "" ++ String.concat "" (map (fun row => join_with " " (map show row) ++ "|") (r2 :: rows))).
  rewrite IH. cbn [append]. change (join_with "|" (map (fun r => join_with " " (map show r)) (r :: r2 :: rows))) with (join_with " " (map show r) ++ "|" ++ join_with "|" (map (fun r => join_with " " (map show r)) (r2 :: rows))).
  rewrite !app_assoc_s. reflexivity.
Qed.
Lemma ts_to_str_join d ts : is_series d ts -> ts_to_str ts = join_with "|" (map (fun r => join_with " " (map show r)) (features d ts)).
Proof.
  intros (Hd & N & H). unfold ts_to_str. assert (E : ncols ts = d). { destruct ts as [|r ts]; [congruence|]. apply (H r). left. auto. }
  rewrite E. rewrite savetxt_join. { rewrite length_app_s. cbn [String.length]. rewrite Nat.add_sub. apply substring_app. }
  unfold features. destruct d; [lia|]. discriminate.
Qed.
Lemma features_doubles d ts : is_series d ts -> forall r x, In r (features d ts) -> In x r -> is_double x.
Proof.
  intros (Hd & _ & H) r x Hr Hx. unfold features in Hr. apply in_map_iff in Hr. destruct Hr as (k & <- & Hk). apply in_seq in Hk. apply in_map_iff in Hx. destruct Hx as (row & <- & Hrow).
  destruct (H row Hrow) as (L & D). apply D. apply nth_In. change (carrier Xnum) with xr in *. lia.
Qed.
Lemma nth_seq_id {A} (l : list A) z : map (fun k => nth k l z) (seq 0 (List.length l)) = l.
Proof. induction l as [|x l IH]; auto. cbn [List.length seq map nth]. f_equal. rewrite <- seq_shift, map_map. exact IH. Qed.
Lemma from_features_back d ts : is_series d ts -> from_features (features d ts) = Ok ts.
Proof.
  intros (Hd & N & H). unfold from_features. assert (L : List.length (hd [] (features d ts)) = List.length ts) by (unfold features; destruct d; [lia|]; cbn; apply map_length).
  rewrite L. replace (forallb _ _) with true.
  - apply (f_equal (@Ok (series Xnum))). transitivity (map (fun t => nth t ts []) (seq 0 (List.length ts))); [|apply nth_seq_id]. apply map_ext_in. intros t Ht. apply in_seq in Ht.
    assert (Hr : In (nth t ts []) ts) by (apply nth_In; lia). destruct (H _ Hr) as (Lr & _). unfold features. rewrite map_map.
    transitivity (map (fun k => nth k (nth t ts []) XNaN) (seq 0 (List.length (nth t ts [])))); [|apply (nth_seq_id (nth t ts []))]. rewrite Lr. apply map_ext. intros k.
    rewrite (nth_indep _ XNaN (nth k [] XNaN)) by (rewrite map_length; change (carrier Xnum) with xr in *; lia). apply (map_nth (fun r : list xr => nth k r XNaN)).
  - symmetry. apply forallb_forall. intros r Hr. apply in_map_iff in Hr. destruct Hr as (k & <- & _). rewrite map_length. apply Nat.eqb_refl.
Qed.
Lemma str_back d ts tail : is_series d ts -> tail = "" \/ tail = String newline "" -> str_to_ts (ts_to_str ts ++ tail) = Ok ts.
Proof.
  intros H Ht. unfold str_to_ts. rewrite (ts_to_str_join d) by auto. assert (N : features d ts <> []) by (destruct H as (Hd & _); unfold features; destruct d; [lia|discriminate]).
  rewrite split_rows; [|auto|destruct Ht as [->| ->]; reflexivity]. rewrite map_app, map_map. cbn [map].
  pose proof (features_doubles d ts H) as D. rewrite (app_removelast_last [] N) in D.
  rewrite fromstring_row; [|intros x Hx; apply (D (last (features d ts) [])); auto with datatypes|auto].
  assert (ID : map (fun r => fromstring (join_with " " (map show r))) (removelast (features d ts)) = removelast (features d ts)); [|rewrite ID, <- app_removelast_last by auto; apply from_features_back; auto].
  rewrite <- (map_id (removelast _)) at 2. apply map_ext_in. intros r Hr. rewrite <- (app_nil_s (join_with _ _)). apply fromstring_row; auto. intros x Hx. apply (D r); auto with datatypes.
Qed.
Lemma line_chars d ts : is_series d ts -> all_chars (fun c => negb (Ascii.eqb c newline)) (ts_to_str ts) = true.
Proof.
  intros H. rewrite (ts_to_str_join d) by auto. induction (features d ts) as [|r l IH]; auto.
  assert (R : all_chars (fun c => negb (Ascii.eqb c newline)) (join_with " " (map show r)) = true).
  { apply (all_imp row_char); [|apply row_chars]. intros c. unfold row_char. destruct (Ascii.eqb c newline); auto. rewrite andb_false_r. auto. }
  destruct l as [|r2 l]; [exact R|].
  change (join_with "|" (map (fun r => join_with " " (map show r)) (r :: r2 :: l))) with (join_with " " (map show r) ++ "|" ++ join_with "|" (map (fun r => join_with " " (map show r)) (r2 :: l))).
  rewrite !all_app, R, IH. auto.
Qed.
Lemma readlines_first s r : all_chars (fun c => negb (Ascii.eqb c newline)) s = true -> readlines (s ++ String newline r) = (s ++ String newline "")%string :: readlines r.
Proof. induction s as [|c s IH]; cbn [append all_chars]; intros H; [reflexivity|]. apply andb_prop in H. destruct H as (A & B). cbn [readlines]. rewrite IH by auto. destruct (Ascii.eqb c newline); [discriminate|auto]. Qed.

(** ** C42 *)
(** A series of doubles, infinities and NaN of any length and number of features, written with the default format, is read back exactly,
    padding included. *)
Theorem C42_string_partial d ts : is_series d ts -> str_to_ts (ts_to_str ts) = Ok ts.
Proof. intros H. rewrite <- (app_nil_s (ts_to_str ts)). apply (str_back d); auto. Qed.
Print Assumptions C42_string_partial.
(** Loading a saved file gives what to_time_series_dataset makes of the saved series, errors included. *)
Theorem C42_file_partial (D : list (series Xnum)) : (forall ts, In ts D -> exists d, is_series d ts) -> load_txt (save_txt D) = to_dataset (N:=Xnum) (map Raw2 D).
Proof.
  intros H. unfold load_txt. assert (E : mapM str_to_ts (readlines (save_txt D)) = Ok D); [|rewrite E; reflexivity].
  assert (C : forall ts (l : list (series Xnum)), save_txt (ts :: l) = ts_to_str ts ++ String newline (save_txt l)).
  { intros ts l. unfold save_txt. destruct l; [reflexivity|]. cbn [map String.concat]. rewrite app_assoc_s. reflexivity. }
  induction D as [|ts D IH]; [reflexivity|]. destruct (H ts (or_introl eq_refl)) as (d & Hd).
  rewrite C, readlines_first by (apply (line_chars d); auto). cbn [mapM]. rewrite (str_back d) by auto. rewrite IH by auto with datatypes. reflexivity.
Qed.
Print Assumptions C42_file_partial.
Lemma nan_row_repeat (r : list xr) : nan_row (N:=Xnum) r = true -> r = repeat XNaN (List.length r).
Proof. unfold nan_row. induction r as [|x r IH]; auto. cbn [forallb List.length repeat]. intros H. apply andb_prop in H. destruct H as (A & B). rewrite <- IH by exact B. destruct x; try discriminate. auto. Qed.
Lemma all_repeat {A} (a : A) l : (forall x, In x l -> x = a) -> l = repeat a (List.length l).
Proof. induction l; cbn; auto. intros H. f_equal; auto. Qed.
Lemma nth_skipn_s {A} n : forall (l : list A) k z, nth k (skipn n l) z = nth (n + k) l z.
Proof. induction n; intros [|x l] k z; cbn; auto. destruct k; auto. Qed.
Lemma repad d (ts : series Xnum) : (forall r, In r ts -> List.length r = d) ->
  (to_time_series true (Raw2 ts) ++ repeat (repeat XNaN d) (List.length ts - List.length (to_time_series true (Raw2 ts))))%list = ts.
Proof.
  intros H. unfold to_time_series, reshape. set (n := ts_size ts). rewrite <- (firstn_skipn n ts) at 4. f_equal.
  assert (L : List.length (skipn n ts) = (List.length ts - List.length (firstn n ts))%nat) by (rewrite skipn_length, firstn_length; lia). rewrite <- L. symmetry. apply all_repeat.
  intros r Hr. destruct (In_nth _ _ [] Hr) as (k & Hk & E). assert (Hin : In r ts) by (rewrite <- (firstn_skipn n ts); apply in_or_app; auto).
  rewrite <- (H r Hin). apply nan_row_repeat. destruct (nan_row (N:=Xnum) r) eqn:Nr; auto. exfalso. rewrite skipn_length in Hk.
  assert (K : (n + k < ts_size ts)%nat). { apply ts_size_iff. exists (n + k)%nat. split; [split; [lia|]; change (carrier Xnum) with xr in *; lia|]. exact (eq_trans (f_equal (nan_row (N:=Xnum)) (eq_trans (eq_sym (nth_skipn_s n ts k [])) E)) Nr). }
  fold n in K. lia.
Qed.
(** A dataset of shape (n, sz, d) is given back, padding included, if the last time step of one of its series is not all NaN. *)
Theorem C42_dataset_partial sz d (D : list (series Xnum)) : (forall ts, In ts D -> is_series d ts /\ List.length ts = sz) ->
  (exists ts, In ts D /\ exists x, In x (last ts []) /\ x <> XNaN) -> load_txt (save_txt D) = Ok D.
Proof.
  intros H (tl & Hl & x & Hx & Nx). rewrite C42_file_partial by (intros ts Hts; exists d; apply H; auto).
  assert (R : forall ts, In ts D -> forall r, In r ts -> List.length r = d). { intros ts Hts r Hr. destruct (H ts Hts) as ((_ & _ & A) & _). apply A. auto. }
  rewrite (to_dataset_ok Xnum d).
  - assert (M : max_size (N:=Xnum) (map Raw2 D) = sz).
    { assert (NE : map (@Raw2 Xnum) D <> []) by (destruct D; [destruct Hl|discriminate]). destruct (max_size_spec Xnum _ NE) as (M1 & y & Hy & M2). apply Nat.le_antisymm.
      - rewrite <- M2. apply in_map_iff in Hy. destruct Hy as (t & <- & Ht). unfold to_time_series, reshape. rewrite firstn_length. destruct (H t Ht) as (_ & E). rewrite E. lia.
      - specialize (M1 (Raw2 tl) (in_map _ _ _ Hl)). rewrite <- ts_size_strip in M1. eapply Nat.le_trans; [|exact M1]. cbn [reshape]. destruct (H tl Hl) as ((_ & Nl & _) & El). rewrite <- El.
        rewrite (app_removelast_last [] Nl), ts_size_snoc. destruct (nan_row (N:=Xnum) (last tl [])) eqn:E; [|rewrite app_length; cbn; lia].
        exfalso. unfold nan_row in E. rewrite forallb_forall in E. specialize (E x Hx). destruct x; try discriminate. congruence. }
    rewrite M, map_map. apply (f_equal (@Ok (list (series Xnum)))). rewrite <- (map_id D) at 2. apply map_ext_in. intros ts Hts. destruct (H ts Hts) as (_ & E). rewrite <- E. apply repad. apply R. auto.
  - intros y Hy. apply in_map_iff in Hy. destruct Hy as (ts & <- & Hts). destruct (H ts Hts) as ((_ & Nt & _) & _). split.
    + cbn. destruct ts as [|r ts]; [congruence|]. apply (R _ Hts). left. auto.
    + cbn. apply Forall_forall. apply R. auto.
Qed.
Print Assumptions C42_dataset_partial.
(** Otherwise the array comes back shorter, for every dataset of this sort. *)
Theorem C42_refuted d (D : list (series Xnum)) : (1 <= d)%nat -> D <> [] -> (forall ts, In ts D -> is_series d ts /\ last ts [] = repeat XNaN d) ->
  exists D', load_txt (save_txt D) = Ok D' /\ D' <> D.
Proof.
  intros Hd ND H. rewrite C42_file_partial by (intros ts Hts; exists d; apply H; auto).
  assert (R : forall ts, In ts D -> forall r, In r ts -> List.length r = d). { intros ts Hts r Hr. destruct (H ts Hts) as ((_ & _ & A) & _). apply A. auto. }
  assert (U : uniform (N:=Xnum) d (map Raw2 D)).
  { intros y Hy. apply in_map_iff in Hy. destruct Hy as (ts & <- & Hts). destruct (H ts Hts) as ((_ & Nt & _) & _). split.
    + cbn. destruct ts as [|r ts]; [congruence|]. apply (R _ Hts). left. auto.
    + cbn. apply Forall_forall. apply R. auto. }
  rewrite (to_dataset_ok Xnum d) by exact U. eexists. split; [reflexivity|]. intros E.
  assert (NE : map (@Raw2 Xnum) D <> []) by (destruct D; [congruence|discriminate]). destruct (max_size_spec Xnum _ NE) as (M1 & y & Hy & M2).
  apply in_map_iff in Hy. destruct Hy as (t & <- & Ht). destruct (H t Ht) as ((_ & Nt & _) & Lt).
  (* the series of greatest size comes back with that size *)
  destruct (In_nth _ _ [] Ht) as (i & Hi & Ei). apply (f_equal (fun l => List.length (nth i l []))) in E. cbv beta in E.
  rewrite map_map in E. match type of E with List.length (nth _ (map ?g _) _) = _ => set (f := g) in E end. assert (Ef : nth i (map f D) [] = f t).
  { rewrite (nth_indep _ [] (f [])) by (rewrite map_length; auto). rewrite (map_nth f), Ei. auto. }
  rewrite Ef, Ei in E. unfold f in E. rewrite app_length, repeat_length, M2 in E.
  assert (S : (ts_size t < List.length t)%nat).
  { clear - Nt Lt. destruct (exists_last Nt) as (u & r & ->). rewrite last_last in Lt. rewrite ts_size_snoc, Lt.
    replace (nan_row _) with true by (symmetry; apply forallb_forall; intros v Hv; apply repeat_spec in Hv; subst; auto).
    pose proof (ValidThms.ts_size_le Xnum u). rewrite app_length. change (List.length [repeat XNaN d]) with 1%nat. change (carrier Xnum) with xr in *. lia. }
  rewrite <- M2, <- ts_size_strip in E. cbn [reshape] in E. lia.
Qed.
Print Assumptions C42_refuted.
(** concrete cases *)
Example show_instance : show_decimal true 1234567890123456789 (-5) = "-1.234567890123456789e-05" /\ show_decimal false 0 0 = "0.000000000000000000e+00" /\
  show_decimal false (10 ^ 18) 300 = "1.000000000000000000e+300".
Proof. repeat split. Qed.
Lemma power_double e : (-1074 <= e < 1024)%Z -> is_double (XR (bpow radix2 e)).
Proof. intros H. split; [apply generic_format_bpow; unfold FLT_exp; lia|]. rewrite Rabs_pos_eq by apply bpow_ge_0. apply bpow_lt. lia. Qed.
Example C42_instance : let ts : series Xnum := [[XR (bpow radix2 0); XNaN]; [XR (bpow radix2 (-1074)); XInf]; [XNaN; XNaN]] in
  is_series 2 ts /\ str_to_ts (ts_to_str ts) = Ok ts /\
  exists D', load_txt (save_txt [ts]) = Ok D' /\ D' <> [ts].
Proof.
  cbv zeta. match goal with |- is_series 2 ?t /\ _ => assert (S : is_series 2 t) end.
  { split; [lia|]. split; [discriminate|]. intros r [<-|[<-|[<-|[]]]]; (split; [reflexivity|]); intros x [<-|[<-|[]]]; try exact I; apply power_double; lia. }
  split; auto. split; [apply (C42_string_partial 2); auto|]. apply (C42_refuted 2); [lia|discriminate|]. intros t [<-|[]]. auto.
Qed.
Example C42_dataset_instance : let D : list (series Xnum) := [[[XR (bpow radix2 3)]; [XNaN]]; [[XInf]; [XR (bpow radix2 1)]]] in load_txt (save_txt D) = Ok D.
Proof.
  cbv zeta. apply (C42_dataset_partial 2 1).
  - intros ts [<-|[<-|[]]]; (split; [|reflexivity]); (split; [lia|]; split; [discriminate|]); intros r [<-|[<-|[]]]; (split; [reflexivity|]); intros x [<-|[]]; try exact I; apply power_double; lia.
  - eexists. split; [right; left; reflexivity|]. eexists. split; [left; reflexivity|]. discriminate.
Qed.

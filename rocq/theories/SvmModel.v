(** Model of tslearn/svm/svm.py (TimeSeriesSVC, TimeSeriesSVR) in exact arithmetic.  The
    scikit-learn estimators are parameters: functions of the arguments they receive. *)
From Coq Require Import String Bool List Arith ZArith Reals.
From Verif Require Import Num Py Series RList DtwModel Dataset SoftModel GakModel PaaModel PreModel KernelModel.
Import ListNotations.
Local Open Scope R_scope.
Local Open Scope string_scope.

(** values of hyper-parameters.  Simplification: no callable kernel. *)
Inductive value := VNum (x : R) | VInt (z : Z) | VStr (s : string) | VBool (b : bool) | VNone | VDict (l : list (Z * R)).
(** the attributes set by [__init__] (l.258-276, l.533-549), by name *)
Definition params : Type := string -> value.
(** keyword arguments of a call *)
Definition kwargs : Type := list (string * value).
Fixpoint keyword (name : string) (k : kwargs) : option value :=
  match k with [] => None | (n, v) :: k => if (n =? name)%string then Some v else keyword name k end.

(** metrics/__init__.py l.79-80 *)
Definition variable_length_metrics : list string := ["ctw"; "dtw"; "gak"; "sax"; "softdtw"; "softdtw_normalized"; "lcss"; "frechet"].
Definition in_names (v : value) (l : list string) : bool := match v with VStr s => existsb (String.eqb s) l | _ => false end.
Definition is_str (v : value) (s : string) : bool := match v with VStr s' => (s' =? s)%string | _ => false end.
(** a value used as an operand of [/] with a float *)
Definition number (v : value) : res R :=
  match v with VNum x => Ok x | VInt z => Ok (IZR z) | VBool b => Ok (if b then 1 else 0) | _ => Err TypeError end.

Definition rows (n m : nat) (M : mat xr) : list (list xr) := map (fun i => map (M i) (seq 0 m)) (seq 0 n).
Definition finite_entry (x : xr) : bool := match x with XR _ => true | _ => false end.
Definition all_finite (D : list (series Xnum)) : bool := forallb (forallb (forallb finite_entry)) D.
(** softdtw_variants.py [gamma_soft_dtw]: [2.0 * sigma_gak(...) ** 2]; [idx] are the points drawn *)
Definition gamma_soft_dtw (D : list (series Xnum)) (idx : list nat) : res R := do s <- sigma_gak D idx ;; Ok (2 * (s * s)).
(** sigma of l.75 and l.81: [numpy.sqrt(self.gamma_ / 2.)].  The square root of a negative
    number is NaN; the kernel matrix is then filled with NaN and scikit-learn refuses it. *)
Definition sigma_of (gamma_ : value) : res R :=
  do g <- number gamma_ ;; if Rltb g 0 then Err ValueError else Ok (sqrt (g / 2)).

(** the schedules of the three batches of [_cdist_gak] *)
Record batches := { b_pairs : jobs; b_left : jobs; b_right : jobs }.

(** l.43-89 with [fit_time=True]: X_fit, [gamma_], [estimator_kernel_], the matrix given to
    scikit-learn.  [_cdist_gak] takes the dataset as it is, [cdist_gak] converts it again,
    which changes nothing.  Simplification: the values are numbers or NaN padding. *)
Definition preprocess_fit (p : params) (X : list (raw Xnum)) (idx : list nat) (b : batches)
  : res (list (series Xnum) * value * value * list (list xr)) :=
  do D <- to_dataset (N:=Xnum) X ;;
  let variable := in_names (p "kernel") variable_length_metrics in
  if negb variable && negb (all_finite D) then Err ValueError
  else
    do g <- (if is_str (p "gamma") "auto" then do g <- gamma_soft_dtw D idx ;; Ok (VNum g) else Ok (p "gamma")) ;;
    if variable then
      if is_str (p "kernel") "gak" then
        do s <- sigma_of g ;;
        do M <- cdist_gak (map Raw2 D) None s (b_pairs b) (b_left b) (b_right b) ;;
        Ok (D, g, VStr "precomputed", rows (length D) (length D) M)
      else Err AssertionError
    else Ok (D, g, p "kernel", map (@List.concat xr) D).

(** what [fit] leaves behind; [A] is the type of fitted scikit-learn estimators *)
Record fitted (A : Type) := { X_fit : list (series Xnum); gamma_ : value; svm_estimator_ : A }.
Arguments X_fit {A}. Arguments gamma_ {A}. Arguments svm_estimator_ {A}. Arguments Build_fitted {A}.

(** l.43-89 with [fit_time=False]; [check_dims] compares the shapes *)
Definition sizes (D : list (series Xnum)) : nat := match D with s :: _ => length s | [] => 0%nat end.
Definition preprocess_predict {A} (p : params) (f : fitted A) (X : list (raw Xnum)) (b : batches) : res (list (list xr)) :=
  do D <- to_dataset (N:=Xnum) X ;;
  let variable := in_names (p "kernel") variable_length_metrics in
  if negb variable && negb (all_finite D) then Err ValueError
  else if negb (arr_d D =? arr_d (X_fit f))%nat then Err ValueError
  else if negb variable && negb (sizes D =? sizes (X_fit f))%nat then Err ValueError
  else if variable then
    if is_str (p "kernel") "gak" then
      do s <- sigma_of (gamma_ f) ;;
      do M <- cdist_gak (map Raw2 D) (Some (map Raw2 (X_fit f))) s (b_pairs b) (b_left b) (b_right b) ;;
      Ok (rows (length D) (length (X_fit f)) M)
    else Err AssertionError
  else Ok (map (@List.concat xr) D).

(** l.319-327: the call [SVC(...)] *)
Definition svc_call (p : params) (kernel gamma : value) : kwargs :=
  [("C", p "C"); ("kernel", kernel); ("degree", p "degree"); ("gamma", gamma); ("coef0", p "coef0");
   ("shrinking", p "shrinking"); ("probability", p "probability"); ("tol", p "tol"); ("cache_size", p "cache_size");
   ("class_weight", p "class_weight"); ("verbose", p "verbose"); ("max_iter", p "max_iter");
   ("decision_function_shape", p "decision_function_shape"); ("random_state", p "random_state")].
(** l.585-590: the call [SVR(...)] *)
Definition svr_call (p : params) (kernel gamma : value) : kwargs :=
  [("C", p "C"); ("kernel", kernel); ("degree", p "degree"); ("gamma", gamma); ("coef0", p "coef0");
   ("shrinking", p "shrinking"); ("tol", p "tol"); ("cache_size", p "cache_size"); ("verbose", p "verbose");
   ("max_iter", p "max_iter")].

Section Svm.
(** the scikit-learn estimator: [train k K y w] is [SVC(k).fit(K, y, sample_weight=w)], [apply e K] is
    any of its prediction methods *)
Context {A Y W P : Type} (train : kwargs -> list (list xr) -> list Y -> W -> res A) (apply : A -> list (list xr) -> res P).
(** l.311-330 and l.577-593 *)
Definition svm_fit (call : params -> value -> value -> kwargs) (p : params) (X : list (raw Xnum)) (y : list Y) (w : W)
    (idx : list nat) (b : batches) : res (fitted A) :=
  match preprocess_fit p X idx b with
  | Err ZeroDivisionError => Err RuntimeError
  | Err e => Err e
  | Ok (D, g, kernel, K) => do e <- train (call p kernel g) K y w ;; Ok {| X_fit := D; gamma_ := g; svm_estimator_ := e |}
  end.
Definition svc_fit := svm_fit svc_call.
Definition svr_fit := svm_fit svr_call.
(** l.347-350, l.367-368, l.388-389, l.409-410, l.609-610 *)
Definition svm_predict (p : params) (f : fitted A) (X : list (raw Xnum)) (b : batches) : res P :=
  do K <- preprocess_predict p f X b ;; apply (svm_estimator_ f) K.
End Svm.

(** [X[indices]] *)
Fixpoint take {T} (X : list T) (indices : list nat) : res (list T) :=
  match indices with
  | [] => Ok []
  | i :: r => match nth_error X i with Some x => do l <- take X r ;; Ok (x :: l) | None => Err IndexError end
  end.
(** l.284-294 TimeSeriesSVC [support_vectors_] *)
Fixpoint support_vectors_from {T} (X : list T) (support : list nat) (n_support : list nat) (idx_start : nat) : res (list (list T)) :=
  match n_support with
  | [] => Ok []
  | n :: r =>
      do sv <- take X (firstn n (skipn idx_start support)) ;;
      do l <- support_vectors_from X support r (idx_start + n) ;;
      Ok (sv :: l)
  end.
Definition support_vectors {T} (X : list T) (support n_support : list nat) : res (list (list T)) := support_vectors_from X support n_support 0.
(** l.557-560 TimeSeriesSVR [support_vectors_] *)
Definition svr_support_vectors {T} (X : list T) (support : list nat) : res (list T) := take X support.

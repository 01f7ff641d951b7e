(** Model of tslearn/svm/svm.py, continued: the attributes of a TimeSeriesSVC or TimeSeriesSVR through
    histories of calls.  [SvmModel.v] models one successful [fit] followed by predictions; here every
    assignment happens when the code makes it, also when a later step raises. *)
From Coq Require Import String Bool List Arith ZArith Reals.
From Verif Require Import Num Py Series RList DtwModel Dataset SoftModel GakModel PaaModel PreModel KernelModel SvmModel.
Import ListNotations.
Local Open Scope string_scope.

(** the object: hyper-parameters and the attributes assigned by [fit] and [predict].  [o_svm] is None
    before [svm_estimator_] is assigned, [Some None] when it is an estimator whose own [fit] did not finish.
    Simplification: [classes_], which no method reads, is left out. *)
Record svm (A : Type) := { o_params : params; o_X : option (list (series Xnum)); o_gamma : option value; o_kernel : option value;
                           o_svm : option (option A); o_nfeat : option nat }.
Arguments o_params {A}. Arguments o_X {A}. Arguments o_gamma {A}. Arguments o_kernel {A}. Arguments o_svm {A}. Arguments o_nfeat {A}.
Definition svm_new {A} (p : params) : svm A := {| o_params := p; o_X := None; o_gamma := None; o_kernel := None; o_svm := None; o_nfeat := None |}.
Section Set_.
Context {A : Type} (s : svm A).
Definition set_params (p : params) : svm A := {| o_params := p; o_X := o_X s; o_gamma := o_gamma s; o_kernel := o_kernel s; o_svm := o_svm s; o_nfeat := o_nfeat s |}.
Definition set_X D : svm A := {| o_params := o_params s; o_X := Some D; o_gamma := o_gamma s; o_kernel := o_kernel s; o_svm := o_svm s; o_nfeat := o_nfeat s |}.
Definition set_gamma g : svm A := {| o_params := o_params s; o_X := o_X s; o_gamma := Some g; o_kernel := o_kernel s; o_svm := o_svm s; o_nfeat := o_nfeat s |}.
Definition set_kernel k : svm A := {| o_params := o_params s; o_X := o_X s; o_gamma := o_gamma s; o_kernel := Some k; o_svm := o_svm s; o_nfeat := o_nfeat s |}.
Definition set_svm e : svm A := {| o_params := o_params s; o_X := o_X s; o_gamma := o_gamma s; o_kernel := o_kernel s; o_svm := Some e; o_nfeat := o_nfeat s |}.
Definition set_nfeat n : svm A := {| o_params := o_params s; o_X := o_X s; o_gamma := o_gamma s; o_kernel := o_kernel s; o_svm := o_svm s; o_nfeat := Some n |}.
End Set_.

Section Calls.
Context {A Y W P : Type} (train : kwargs -> list (list xr) -> list Y -> W -> res A) (apply : A -> list (list xr) -> res P).

(** l.43-89 with [fit_time=True].  The first two errors come before any assignment (l.45-51; the labels are
    taken to be valid); [_X_fit] is assigned in l.55, [gamma_] in l.57 or l.59, [estimator_kernel_] in l.72 or l.86. *)
Definition o_preprocess_fit (X : list (raw Xnum)) (idx : list nat) (b : batches) (s : svm A) : svm A * res (list (list xr)) :=
  let p := o_params s in
  match to_dataset (N:=Xnum) X with
  | Err e => (s, Err e)
  | Ok D =>
      let variable := in_names (p "kernel") variable_length_metrics in
      if negb variable && negb (all_finite D) then (s, Err ValueError)
      else
        let s := set_X s D in
        match (if is_str (p "gamma") "auto" then do g <- gamma_soft_dtw D idx ;; Ok (VNum g) else Ok (p "gamma")) with
        | Err e => (s, Err e)
        | Ok g =>
            let s := set_gamma s g in
            if variable then
              if is_str (p "kernel") "gak" then
                let s := set_kernel s (VStr "precomputed") in
                (s, do sigma <- sigma_of g ;;
                    do M <- cdist_gak (map Raw2 D) None sigma (b_pairs b) (b_left b) (b_right b) ;;
                    Ok (rows (length D) (length D) M))
              else (s, Err AssertionError)
            else (set_kernel s (p "kernel"), Ok (map (@List.concat xr) D))
        end
  end.
Definition nfeat_of (X : option (list (series Xnum))) : nat := match X with Some D => arr_d D | None => 0 end.
(** l.311-330 and l.577-593: the scikit-learn estimator is assigned (l.319, l.585) before it is trained *)
Definition o_fit (call : params -> value -> value -> kwargs) (X : list (raw Xnum)) (y : list Y) (w : W) (idx : list nat) (b : batches)
    (s : svm A) : svm A * res unit :=
  match o_preprocess_fit X idx b s with
  | (s, Err ZeroDivisionError) => (s, Err RuntimeError)
  | (s, Err e) => (s, Err e)
  | (s, Ok K) =>
      match o_kernel s, o_gamma s with
      | Some k, Some g =>
          let s := set_svm s None in
          match train (call (o_params s) k g) K y w with
          | Err e => (s, Err e)
          | Ok a => (set_nfeat (set_svm s (Some a)) (nfeat_of (o_X s)), Ok tt)
          end
      | _, _ => (s, Err AttributeError)
      end
  end.
(** l.43-89 with [fit_time=False] *)
Definition o_preprocess_predict (X : list (raw Xnum)) (b : batches) (s : svm A) : svm A * res (nat * list (list xr)) :=
  let p := o_params s in
  match to_dataset (N:=Xnum) X with
  | Err e => (s, Err e)
  | Ok D =>
      let variable := in_names (p "kernel") variable_length_metrics in
      if negb variable && negb (all_finite D) then (s, Err ValueError)
      else match o_svm s, o_X s with
        | Some _, Some DX =>
            if negb (arr_d D =? arr_d DX)%nat then (s, Err ValueError)
            else if negb variable && negb (sizes D =? sizes DX)%nat then (s, Err ValueError)
            else if variable then
              if is_str (p "kernel") "gak" then
                let s := set_kernel s (VStr "precomputed") in
                (s, match o_gamma s with
                    | None => Err AttributeError
                    | Some g => do sigma <- sigma_of g ;;
                        do M <- cdist_gak (map Raw2 D) (Some (map Raw2 DX)) sigma (b_pairs b) (b_left b) (b_right b) ;;
                        Ok (arr_d D, rows (length D) (length DX) M)
                    end)
              else (s, Err AssertionError)
            else (set_kernel s (p "kernel"), Ok (arr_d D, map (@List.concat xr) D))
        | _, _ => (s, Err NotFittedError)
        end
  end.
(** l.347-350 [TimeSeriesSVC.predict]; the other prediction methods (l.367-368, l.388-389, l.409-410,
    l.609-610) do not assign [n_features_in_]: [keep] *)
Definition o_predict (keep : bool) (X : list (raw Xnum)) (b : batches) (s : svm A) : svm A * res P :=
  match o_preprocess_predict X b s with
  | (s, Err e) => (s, Err e)
  | (s, Ok (n, K)) =>
      match o_svm s with
      | Some (Some a) => match apply a K with Ok v => (if keep then s else set_nfeat s n, Ok v) | Err e => (s, Err e) end
      | _ => (s, Err NotFittedError)
      end
  end.

(** histories; [SSet] is [set_params] *)
Inductive svm_call := SFit (X : list (raw Xnum)) (y : list Y) (w : W) (idx : list nat) (b : batches)
                    | SPredict (keep : bool) (X : list (raw Xnum)) (b : batches) | SSet (p : params).
Definition svm_step (call : params -> value -> value -> kwargs) (c : svm_call) (s : svm A) : svm A :=
  match c with
  | SFit X y w idx b => fst (o_fit call X y w idx b s)
  | SPredict keep X b => fst (o_predict keep X b s)
  | SSet p => set_params s p
  end.
Definition svm_run (call : params -> value -> value -> kwargs) (l : list svm_call) (s : svm A) : svm A := fold_left (fun s c => svm_step call c s) l s.
End Calls.

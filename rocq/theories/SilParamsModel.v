(** How [metric_params] and further keyword arguments of [silhouette_score] reach the metric (tslearn/clustering/utils.py l.168-191). *)
From Coq Require Import Bool List Arith String.
From Verif Require Import Num Py ParamsModel.
Import ListNotations.
Local Open Scope string_scope.

Section SilParams.
Variable A : Type.
Inductive sil_metric := SilDtw | SilSoftdtw.
Definition sil_sig (m : sil_metric) : list string := match m with SilDtw => sig_dtw | SilSoftdtw => sig_softdtw end.
(** l.170-177; [kwds]: the keyword arguments that are not parameters of [silhouette_score] itself *)
Definition sil_params (mp : option (dict A)) (kwds : dict A) : dict A :=
  del A "n_jobs" (fold_left (fun d p => set A (fst p) (snd p) d) kwds (or_empty A mp)).
(** l.180-191; [be]: the back end of the data; scikit-learn's function ignores [kwds] for a precomputed matrix *)
Definition sil_call (m : sil_metric) (mp : option (dict A)) (kwds : dict A) (n_jobs verbose be X : A) : res (string -> option A) :=
  match m with
  | SilDtw => bind_args A (sil_sig m) [X] (("n_jobs", n_jobs) :: ("verbose", verbose) :: ("be", be) :: sil_params mp kwds)
  | SilSoftdtw => bind_args A (sil_sig m) [X] (("be", be) :: sil_params mp kwds)
  end.
End SilParams.

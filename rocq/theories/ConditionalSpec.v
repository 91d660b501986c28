(** * Vocabulary of the ConditionalCovariance properties (specification only) *)
From Coq Require Import ZArith Bool String List.
From Verif Require Import Num Numpy BaseModel ConditionalModel.
Import ListNotations.

Section S.
  Context {N : Num} (V : VolModel N).
  (** a fresh volatility model after being pushed the values [ys] one after the other *)
  Fixpoint pushed (s : vm_St V) (ys : list N) : res (vm_St V) :=
    match ys with
    | [] => Ok s
    | y :: r => match vm_push V s y with (s', Ok _) => pushed s' r | (_, Err e) => Err e end
    end.
  (** the volatility model of series [i] once the rows [pre] have been seen: only coordinate [i] reaches it *)
  Definition vol_after (i : nat) (pre : list (vec N)) : res (vm_St V) :=
    s <- vm_make V ;; pushed s (map (fun x => vget x i) pre).
  (** its forecast (mean, variance) of the next value *)
  Definition forecast (i : nat) (pre : list (vec N)) : res (N * N) :=
    s <- vol_after i pre ;; m <- vm_mean V s ;; v <- vm_var V s ;; Ok (m, v).
  (** the row [x] standardised coordinate by coordinate with the forecasts made from the rows [pre] before it
      (variance floored at 1e-12) *)
  Definition residual (pre : list (vec N)) (x : vec N) : res (vec N) :=
    mapM (fun i => '(m, v) <- forecast i pre ;; Ok (ndiv (nsub (vget x i) m) (nsqrt (py_max v (nlit 1 12))))) (seq 0 (length x)).
  Definition residuals (rows : list (vec N)) : res (list (vec N)) :=
    mapM (fun t => residual (firstn t rows) (nth t rows [])) (seq 0 (length rows)).

  (** The correlation template's class, with the template's parameters and no history, fitted on the residuals of [rows];
      and every series' forecast once all of [rows] have been seen. *)
  Definition fitted_corr {C : EstClass N} (corr : inst C) (rows : list (vec N)) : res (inst C) :=
    es <- residuals rows ;; match partial_fit (new (i_params corr)) (In2 es) with (o, Ok _) => Ok o | (_, Err e) => Err e end.
  Definition forecasts (d : nat) (rows : list (vec N)) : res (list (N * N)) := mapM (fun i => forecast i rows) (seq 0 d).
  (** standard deviation used for the scale: the variance floored at 1e-12 (when stored, and again when read) *)
  Definition scale (v : N) : N := nsqrt (np_max (py_max v (nlit 1 12)) (nlit 1 12)).
End S.

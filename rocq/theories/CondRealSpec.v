(** * Vocabulary of the numeric ConditionalCovariance properties (specification only) *)
From Coq Require Import Reals ZArith String List Lia Lra Arith Bool.
From Verif Require Import Num Numpy BaseModel Spec RMat Fin RealSpec.
Import ListNotations.
Local Open Scope R_scope.

(** the history of one coordinate *)
Definition col (i : nat) (xs : list obs) : list R := map (fun x => x i) xs.
(** The class of [vol], with its parameters and run from scratch on a single series [zs], has mean [mu zs] and variance [va zs]. *)
Definition tracks {Cv : EstClass NumX} (vol : inst Cv) (mu va : list R -> R) : Prop :=
  forall zs, zs <> [] -> exists o, partial_fit (new (i_params vol)) (In2 (map (fun z : R => [Fin z : NumX]) zs)) = (o, Ok tt) /\
    n_samples_ o = Ok (length zs) /\ location_ o = Ok [Fin (mu zs) : NumX] /\ covariance_ o = Ok [[Fin (va zs) : NumX]].
(** The class of [corr], run from scratch on [es], has covariance [F es] (symmetric, no negative variance). *)
Definition models {C : EstClass NumX} (p : nat) (corr : inst C) (F : list obs -> rmat) : Prop :=
  forall es, es <> [] -> exists o, partial_fit (new (i_params corr)) (In2 (map (fv p) es)) = (o, Ok tt) /\
    covariance_ o = Ok (fm p p (F es)) /\ sym p (F es) /\ forall i, (i < p)%nat -> 0 <= F es i i.
(** forecasts of the next value: 0 and 1 before any data *)
Definition mean_before (mu : list R -> R) (zs : list R) : R := match zs with [] => 0 | _ => mu zs end.
Definition var_before (va : list R -> R) (zs : list R) : R := match zs with [] => 1 | _ => va zs end.
(** [x] standardised by the forecasts made from [pre] *)
Definition std_residual (mu va : list R -> R) (pre : list obs) (x : obs) : obs := fun i =>
  (x i - mean_before mu (col i pre)) / sqrt (Rmax (var_before va (col i pre)) (1 / 10 ^ 12)).
Definition std_residuals (mu va : list R -> R) (xs : list obs) : list obs :=
  map (fun t => std_residual mu va (firstn t xs) (nthobs xs t)) (seq 0 (length xs)).
(** D R D with D the floored standard deviations and R the regularised correlations of [F] *)
Definition drd (v : obs) (F : rmat) : rmat := fun i j =>
  F i j / (sqrt (F i i * F j j) + 1 / 10 ^ 12) * (sqrt (Rmax (v i) (1 / 10 ^ 12)) * sqrt (Rmax (v j) (1 / 10 ^ 12))).

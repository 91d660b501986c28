(** * What the features of a sample are (independent of the model) *)
From Coq Require Import Reals List Arith.
From Verif Require Import RMat LinSpec RealSpec GaussSpec.
Import ListNotations.
Local Open Scope R_scope.

(** Variances and eigenvalues are floored at 10^-12. *)
Definition floor12 (x : R) : R := Rmax x (1 / 10 ^ 12).
(** Participation ratio of non-negative weights *)
Definition participation (p : nat) (c : nat -> R) : R := rsum p c * rsum p c / rsum p (fun i => c i * c i).
(** Fourth central moment of one variable *)
Definition moment4 (xs : list obs) (j : nat) : R := lmean (map (fun x => (x j - mean_of xs j) ^ 4) xs).
(** Correlation with floored variances, and the mean of its off-diagonal absolute values *)
Definition floored_corr (xs : list obs) (i j : nat) : R :=
  pcov_of xs i j / sqrt (floor12 (pcov_of xs i i) * floor12 (pcov_of xs j j)).
Definition mean_abs_offdiag (p : nat) (xs : list obs) : R :=
  if Nat.leb p 1 then 0
  else rsum p (fun i => rsum p (fun j => if Nat.eqb i j then 0 else Rabs (floored_corr xs i j))) / (INR p * (INR p - 1)).
Definition excess_kurtosis (p : nat) (xs : list obs) : R :=
  rsum p (fun j => moment4 xs j / (floor12 (pcov_of xs j j) ^ 2) - 3) / INR p.
(** [k] is the ratio of the largest to the smallest of c 0 .. c (p-1) *)
Definition max_over_min (p : nat) (c : nat -> R) (k : R) : Prop :=
  exists a b, (a < p)%nat /\ (b < p)%nat /\ (forall i, (i < p)%nat -> c b <= c i <= c a) /\ k = c a / c b.

(** * Vocabulary of the scoring properties (specification only) *)
From Coq Require Import Reals List.
From Verif Require Import RMat LinSpec RealSpec Det.
Import ListNotations.
Local Open Scope R_scope.

Definition lmean (l : list R) : R := lsum l / INR (length l).
(** Log-density of the Gaussian with mean m and covariance A (Ai its inverse) at x. *)
Definition gauss_logpdf (p : nat) (A Ai : rmat) (m x : nat -> R) : R :=
  - (INR p * ln (2 * PI) + ln (rdet p A) + qf p Ai (fun i => x i - m i)) / 2.
(** second-moment matrix about m *)
Definition second_moment (m : nat -> R) (xs : list (nat -> R)) : rmat :=
  fun i j => lmean (map (fun x => (x i - m i) * (x j - m j)) xs).

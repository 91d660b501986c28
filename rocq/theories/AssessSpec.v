(** * Vocabulary of the assessor properties (specification only) *)
From Coq Require Import Reals List Arith.
From Verif Require Import RMat LinSpec RealSpec Det GaussSpec.
Import ListNotations.
Local Open Scope R_scope.

Definition zero_mean : nat -> R := fun _ => 0.
(** Mean log-density of the sample under N(0, A); Ai is the inverse of A. *)
Definition mean_loglik (p : nat) (A Ai : rmat) (xs : list obs) : R := lmean (map (gauss_logpdf p A Ai zero_mean) xs).
(** the block of A with rows and columns s, s+1, ... ; the coordinates s, s+1, ... of x *)
Definition block_at (s : nat) (A : rmat) : rmat := fun i j => A (s + i)%nat (s + j)%nat.
Definition coords_from (s : nat) (x : obs) : obs := fun i => x (s + i)%nat.
(** E|Y_i - Y_j| for a centred Gaussian with covariance A *)
Definition gauss_variogram (A : rmat) : rmat := fun i j => sqrt (Rmax (A i i + A j j - 2 * A i j) 0 * (2 / PI)).
(** empirical order-1 variogram *)
Definition sample_variogram (xs : list obs) : rmat := fun i j => lmean (map (fun x => Rabs (x i - x j)) xs).
(** the minimum-variance weights B 1 / 1'B1 (B the inverse covariance) *)
Definition gmv_weights (p : nat) (B : rmat) : nat -> R :=
  fun i => rsum p (fun j => B i j) / rsum p (fun i => rsum p (fun j => B i j)).

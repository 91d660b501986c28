(** * Vocabulary of the block-estimator properties (specification only)

    [np.array_split] of p variables into k blocks: block b is the half-open interval
    [block_start p k b, block_start p k (b+1)); the first p mod k blocks have one variable more. *)
From Coq Require Import Reals ZArith List Lia Lra Arith Bool.
From Verif Require Import Num RMat LinSpec RealSpec Fin.
Import ListNotations.
Local Open Scope nat_scope.

Definition block_start (p k b : nat) : nat := b * (p / k) + Nat.min b (p mod k).
(** the block of variable i: the number of blocks that end at or before i *)
Definition block_of (p k i : nat) : nat := length (filter (fun b => Nat.leb (block_start p k (S b)) i) (seq 0 k)).
(** the number of blocks for a requested n_blocks (at least one, at most one per variable) *)
Definition blocks (n_blocks : Z) (p : nat) : nat := Z.to_nat (Z.min (Z.max 1 n_blocks) (Z.of_nat p)).

Local Open Scope R_scope.
(** entries between variables of different blocks multiplied by gamma *)
Definition damped (p k : nat) (gamma : R) (A : rmat) : rmat :=
  fun i j => if Nat.eqb (block_of p k i) (block_of p k j) then A i j else gamma * A i j.
Definition block_diagonal (p k : nat) (A : rmat) : Prop :=
  forall i j, (i < p)%nat -> (j < p)%nat -> block_of p k i <> block_of p k j -> A i j = 0.
(** sum over the pairs of variables in different blocks *)
Definition cross_sum (p k : nat) (F : rmat) : R :=
  rsum p (fun i => rsum p (fun j => if Nat.eqb (block_of p k i) (block_of p k j) then 0 else F i j)).
(** B is the nearest matrix (Frobenius) to the symmetric part of A with all eigenvalues >= 1e-8. *)
Definition pd_projection (p : nat) (A B : rmat) : Prop :=
  bounded_below p e8 B /\
  forall C, bounded_below p e8 C -> fro2 p (fun i j => B i j - symm A i j) <= fro2 p (fun i j => C i j - symm A i j).
(** Sampling noise of the cross-block covariances: exponentially weighted average, from the end of the
    burn-in, of the squared cross-block distance of the scatter of each observation from the running covariance. *)
Definition cross_noise (p k : nat) (r : R) (nb : nat) (xs : list obs) : R :=
  ewsum r nb (fun pre x => cross_sum p k (fun i j => (dev r nb pre x i * dev r nb pre x j - ewa_cov r nb pre i j) ^ 2)) xs.
(** Ledoit-Wolf keep fraction of the cross-block coupling: 1 - r * noise / signal, clipped to [0, 1]; 1 without coupling. *)
Definition coupling_reliability (p k : nat) (r : R) (xs : list obs) : R :=
  let nb := burn_len r in
  let m2 := cross_sum p k (fun i j => ewa_cov r nb xs i j ^ 2) in
  if Rlt_dec 0 m2 then Rmin (Rmax (1 - r * cross_noise p k r nb xs / m2) 0) 1 else 1.

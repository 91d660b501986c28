(** * Vocabulary of the SchurConditionalCovariance property (specification only)

    The estimator works on the (regularised) correlation matrix R of the EWA covariance.  Blocks are the
    intervals of BlockSpec.v; block b conditions on the variables before it, 0 .. a-1 with a = block_start b. *)
From Coq Require Import Reals ZArith List Lia Lra Arith Bool.
From Verif Require Import Num RMat LinSpec RealSpec Fin BlockSpec.
Import ListNotations.
Local Open Scope R_scope.

(** C_ij / (sqrt (C_ii C_jj) + 1e-12) *)
Definition corr_of (C : rmat) : rmat := fun i j => C i j / (sqrt (C i i * C j j) + e12).
(** effective sample size of n observations weighted with rate r: at least 2, at most (2 - r)/r *)
Definition effective_n (r : R) (n : nat) : R := Rmax 2 (Rmin (INR n) ((2 - r) / r)).
(** Share of the cross-block squared correlation that exceeds its sampling variance (1 + rho^2)/n: 1 when
    there is a single block, 0 when there is no cross-block correlation, clipped to [0, 1]. *)
Definition gaussian_reliability (p k : nat) (n : R) (Rm : rmat) : R :=
  let num := cross_sum p k (fun i j => Rmax (Rm i j ^ 2 - (1 + Rm i j ^ 2) / n) 0) in
  let den := cross_sum p k (fun i j => Rm i j ^ 2) in
  if Nat.leb k 1 then 1 else if Rlt_dec 0 den then Rmin (Rmax (num / den) 0) 1 else 0.
(** ridge weight when conditioning on a variables: a/n, at most 0.9 *)
Definition ridge (a : nat) (n : R) : R := Rmin (INR a / n) (9 / 10).
(** the conditioning matrix: off-diagonal entries multiplied by (1 - ridge), 1e-10 added to the diagonal *)
Definition regularised (a : nat) (n : R) (Rm : rmat) : rmat :=
  fun i j => if Nat.eqb i j then Rm i i + 1 / 10 ^ 10 else (1 - ridge a n) * Rm i j.
(** Block b of G = the reassembled matrix.  H: ridge regression (hedge) of the block on the variables before it;
    S: projected conditional covariance; H is damped by gamma and S mixed with the marginal block. *)
Definition conditional_block (p k : nat) (gamma n : R) (Rm G : rmat) (b : nat) : Prop :=
  let a := block_start p k b in
  let m := (block_start p k (S b) - a)%nat in
  exists H S : rmat,
    (forall i v, (i < a)%nat -> (v < m)%nat -> rsum a (fun l => regularised a n Rm i l * H l v) = Rm i (a + v)%nat) /\
    pd_projection m (fun u v => Rm (a + u)%nat (a + v)%nat - rsum a (fun l => Rm l (a + u)%nat * H l v)) S /\
    (forall u j, (u < m)%nat -> (j < a)%nat ->
       G (a + u)%nat j = rsum a (fun l => gamma * H l u * G l j) /\ G j (a + u)%nat = G (a + u)%nat j) /\
    (forall u v, (u < m)%nat -> (v < m)%nat ->
       G (a + u)%nat (a + v)%nat = (1 - gamma) * Rm (a + u)%nat (a + v)%nat + gamma * S u v +
         rsum a (fun l' => rsum a (fun l => gamma * H l u * G l l') * (gamma * H l' v))).
(** G is R on the first block and follows the conditional recursion on the others. *)
Definition reassembled (p k : nat) (gamma n : R) (Rm G : rmat) : Prop :=
  (forall i j, (i < block_start p k 1)%nat -> (j < block_start p k 1)%nat -> G i j = Rm i j) /\
  forall b, (1 <= b < k)%nat -> conditional_block p k gamma n Rm G b.
(** standard deviation, floored at 1e-6 *)
Definition floored_sd (C : rmat) (i : nat) : R := sqrt (Rmax (C i i) e12).

(** * Specification vocabulary for the gamma-Schur theory: laws of one block given the earlier ones *)
From Coq Require Import Reals List Arith.
From Verif Require Import RMat LinSpec.
Import ListNotations.
Local Open Scope R_scope.

(** [law C g s m B S]: under the covariance [C] with damping [g], block [s, s+m) given the earlier coordinates 0..s-1 has
    regression coefficients [B] (m x s) and conditional covariance [S] (m x m):
    B C_WW = g C_KW  and  S = C_KK - B C_WK.   With g = 1 this is the Gaussian conditional law. *)
Definition law (C : rmat) (g : R) (s m : nat) (B S : rmat) : Prop :=
  (forall i j, (i < m)%nat -> (j < s)%nat -> rmul s B C i j = g * C (s + i)%nat j) /\
  (forall i l, (i < m)%nat -> (l < m)%nat -> S i l = C (s + i)%nat (s + l)%nat - rsum s (fun k => B i k * C k (s + l)%nat)).

(** offsets and sizes of the consecutive blocks *)
Fixpoint offsets (s : nat) (sizes : list nat) : list (nat * nat) :=
  match sizes with [] => [] | m :: r => (s, m) :: offsets (s + m) r end.
(** the damped law of [C] is the exact law of [T] in every block *)
Definition same_law (T C : rmat) (g : R) (b : nat * nat) : Prop :=
  exists B S, law T 1 (fst b) (snd b) B S /\ law C g (fst b) (snd b) B S.

(** Squared canonical correlation.  u^T T_12 v is the covariance of the combination [u] of the first [s] coordinates with the
    combination [v] of the next [m]; [r] is the largest squared correlation of two such combinations. *)
Definition cross_cov (s m : nat) (T : rmat) (u v : nat -> R) : R := rsum s (fun i => rsum m (fun j => u i * T i (s + j)%nat * v j)).
Definition second_block (s : nat) (T : rmat) : rmat := fun i j => T (s + i)%nat (s + j)%nat.
Definition not_zero (n : nat) (v : nat -> R) : Prop := exists i, (i < n)%nat /\ v i <> 0.
Definition top_corr2 (T : rmat) (s m : nat) (r : R) : Prop :=
  (forall u v, cross_cov s m T u v * cross_cov s m T u v <= r * (qf s T u * qf m (second_block s T) v)) /\
  exists u v, not_zero s u /\ not_zero m v /\ cross_cov s m T u v * cross_cov s m T u v = r * (qf s T u * qf m (second_block s T) v).

(** * Vocabulary of the linear-algebra property statements (specification only)

    Real matrices are functions [nat -> nat -> R]; [sym], [qf] (v^T A v), [psd], [pd], [rmul], [rT],
    [rI] are in RMat.v. *)
From Coq Require Import Reals List Lia Lra Arith.
From Verif Require Import RMat.
Local Open Scope R_scope.

(** symmetric part (A + A^T)/2 *)
Definition symm (A : rmat) : rmat := fun i j => (A i j + A j i) / 2.

(** all eigenvalues of [A] are at least [lo]: v^T A v >= lo |v|^2 *)
Definition bounded_below (n : nat) (lo : R) (A : rmat) : Prop := sym n A /\ forall v, lo * rdot n v v <= qf n A v.

(** [U] is orthogonal: U^T U = I and U U^T = I. *)
Definition orth (n : nat) (U : rmat) : Prop :=
  meq n n (rmul n (rT U) U) rI /\ meq n n (rmul n U (rT U)) rI.
(** [A] = U diag(lam) U^T *)
Definition eig_of (n : nat) (A U : rmat) (lam : nat -> R) : Prop :=
  orth n U /\ forall i j, (i < n)%nat -> (j < n)%nat -> A i j = rsum n (fun k => U i k * lam k * U j k).
(** U diag(f) U^T *)
Definition spec (n : nat) (U : rmat) (f : nat -> R) : rmat := fun i j => rsum n (fun k => U i k * f k * U j k).

Definition inverse (n : nat) (A B : rmat) : Prop := meq n n (rmul n A B) rI /\ meq n n (rmul n B A) rI.
Definition invertible (n : nat) (A : rmat) : Prop := exists B, inverse n A B.
(** Moore-Penrose conditions *)
Definition penrose (n : nat) (A B : rmat) : Prop :=
  meq n n (rmul n A (rmul n B A)) A /\ meq n n (rmul n B (rmul n A B)) B /\
  sym n (rmul n A B) /\ sym n (rmul n B A).

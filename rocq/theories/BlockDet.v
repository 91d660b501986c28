(** * Determinant of a block-diagonal matrix *)
From Coq Require Import Reals Lra Lia.
From mathcomp Require Import ssreflect ssrfun ssrbool eqtype ssrnat seq choice fintype finfun bigop ssralg matrix.
From Verif Require Import RMat LinSpec Det AssessSpec.
Import GRing.Theory.
Local Open Scope R_scope.

Lemma toM_block a b A :
  (forall i j, (i < a)%coq_nat -> (j < b)%coq_nat -> A i (Nat.add a j) = 0) ->
  toM (a + b)%nat A = (block_mx (toM a A) 0 (\matrix_(i < b, j < a) A (Nat.add a (nat_of_ord i)) (nat_of_ord j)) (toM b (block_at a A)))%Ri.
Proof.
  move=> H. apply/matrixP => i j. rewrite !mxE.
  case: (splitP i) => i' Ei; rewrite !mxE; case: (splitP j) => j' Ej; rewrite !mxE Ei Ej //.
  by apply: H; apply/ltP.
Qed.
Lemma rdet_block a b A :
  (forall i j, (i < a)%coq_nat -> (j < b)%coq_nat -> A i (Nat.add a j) = 0) ->
  rdet (Nat.add a b) A = rdet a A * rdet b (block_at a A).
Proof. move=> H. rewrite /rdet (toM_block a b A H) det_lblock. reflexivity. Qed.

(** * Determinant of a real matrix (mathcomp's [\det], read on the matrices of RMat.v)

    Coq's reals are made a mathcomp commutative unit ring; everything mathcomp stays in this file. *)
From mathcomp Require Import all_ssreflect all_algebra.
From Coq Require Import Reals Lra Lia Epsilon FunctionalExtensionality ClassicalEpsilon.
From Verif Require Import RMat LinSpec.
Set Implicit Arguments. Unset Strict Implicit. Unset Printing Implicit Defensive.
Delimit Scope ring_scope with Ri.
Local Open Scope R_scope.

Definition eqR (x y : R) : bool := if Req_EM_T x y then true else false.
Lemma eqRP : Equality.axiom eqR.
Proof. by move=> x y; rewrite /eqR; case: (Req_EM_T x y) => H; constructor. Qed.
Canonical R_eqMixin := EqMixin eqRP.
Canonical R_eqType := EqType R R_eqMixin.

Definition pickR (P : pred R) (n : nat) : option R :=
  let x := epsilon (inhabits 0) (fun x => is_true (P x)) in if P x then Some x else None.
Lemma pickR_some (P : pred R) n x : pickR P n = Some x -> P x.
Proof. by rewrite /pickR; case E: (P _) => // -[<-]. Qed.
Lemma pickR_ex (P : pred R) : (exists x, P x) -> exists n, pickR P n.
Proof. by move=> H; exists O; rewrite /pickR (epsilon_spec (inhabits 0) (fun x => is_true (P x)) H). Qed.
Lemma pickR_ext (P Q : pred R) : P =1 Q -> pickR P =1 pickR Q.
Proof. by move=> H n; have -> : P = Q by apply: functional_extensionality. Qed.
Definition R_choiceMixin : choiceMixin R := Choice.Mixin pickR_some pickR_ex pickR_ext.
Canonical R_choiceType := ChoiceType R R_choiceMixin.

Lemma RaddA : associative Rplus. Proof. by move=> *; rewrite Rplus_assoc. Qed.
Lemma RaddC : commutative Rplus. Proof. by move=> *; rewrite Rplus_comm. Qed.
Lemma Radd0 : left_id 0 Rplus. Proof. by move=> *; rewrite Rplus_0_l. Qed.
Lemma RaddN : left_inverse 0 Ropp Rplus. Proof. by move=> *; rewrite Rplus_opp_l. Qed.
Definition R_zmodMixin := ZmodMixin RaddA RaddC Radd0 RaddN.
Canonical R_zmodType := ZmodType R R_zmodMixin.
Lemma RmulA : associative Rmult. Proof. by move=> *; rewrite Rmult_assoc. Qed.
Lemma RmulC : commutative Rmult. Proof. by move=> *; rewrite Rmult_comm. Qed.
Lemma Rmul1 : left_id 1 Rmult. Proof. by move=> *; rewrite Rmult_1_l. Qed.
Lemma RmulD : left_distributive Rmult Rplus. Proof. by move=> *; rewrite Rmult_plus_distr_r. Qed.
Lemma R1n0 : 1 != 0 :> R. Proof. by apply/eqP; lra. Qed.
Definition R_ringMixin := ComRingMixin RmulA RmulC Rmul1 RmulD R1n0.
Canonical R_ringType := RingType R R_ringMixin.
Canonical R_comRingType := ComRingType R RmulC.

Definition toM (n : nat) (A : rmat) : 'M[R]_n := (\matrix_(i, j) A (nat_of_ord i) (nat_of_ord j))%Ri.
(** determinant of the leading n x n block of A *)
Definition rdet (n : nat) (A : rmat) : R := (\det (toM n A))%Ri.

Lemma toM_eq n A B : meq n n A B -> toM n A = toM n B.
Proof. by move=> H; apply/matrixP => i j; rewrite !mxE; apply: H; apply/ltP. Qed.
Lemma rsum_big n f : rsum n f = (\sum_(i < n) f (nat_of_ord i))%Ri.
Proof.
elim: n => [|n IH] /=; first by rewrite big_ord0.
by rewrite big_ord_recr /= IH.
Qed.
Lemma toM_mul n A B : toM n (rmul n A B) = (toM n A *m toM n B)%Ri.
Proof. by apply/matrixP => i j; rewrite !mxE /rmul rsum_big; apply: eq_bigr => k _; rewrite !mxE. Qed.
Lemma toM_T n A : toM n (rT A) = ((toM n A)^T)%Ri.
Proof. by apply/matrixP => i j; rewrite !mxE. Qed.

Lemma rdet_ext n A B : meq n n A B -> rdet n A = rdet n B.
Proof. by move=> H; rewrite /rdet (toM_eq H). Qed.
Lemma rdet_mul n A B : rdet n (rmul n A B) = rdet n A * rdet n B.
Proof. by rewrite /rdet toM_mul det_mulmx. Qed.
Lemma rdet_T n A : rdet n (rT A) = rdet n A.
Proof. by rewrite /rdet toM_T det_tr. Qed.
Fixpoint rprod (n : nat) (f : nat -> R) : R := match n with O => 1 | S n => rprod n f * f n end.
Lemma rprod_big n f : rprod n f = (\prod_(i < n) f (nat_of_ord i))%Ri.
Proof.
elim: n => [|n IH] /=; first by rewrite big_ord0.
by rewrite big_ord_recr /= IH.
Qed.
Lemma rdet_diag n d : rdet n (rdiag d) = rprod n d.
Proof.
rewrite /rdet rprod_big.
have -> : toM n (rdiag d) = diag_mx (\row_i d (nat_of_ord i))%Ri.
  apply/matrixP => i j; rewrite !mxE /rdiag. case: (Nat.eqb_spec i j) => [E|E].
  - have -> : i = j by apply: val_inj. by rewrite eqxx.
  - have -> : (i == j) = false by apply/eqP => H; apply: E; rewrite H. by [].
rewrite det_diag. by apply: eq_bigr => i _; rewrite !mxE.
Qed.
Lemma rdet_I n : rdet n rI = 1.
Proof.
have -> : rdet n rI = rdet n (rdiag (fun _ => 1)) by apply: rdet_ext => i j _ _; rewrite /rI /rdiag.
rewrite rdet_diag. elim: n => [|n IH] //=. by rewrite IH Rmult_1_l.
Qed.

(** ** Determinant and invertibility *)
Definition ofM (n : nat) (M : 'M[R]_n) : rmat :=
  fun i j => match insub i, insub j with Some i', Some j' => M i' j' | _, _ => 0 end.
Arguments ofM {n}.
Lemma toM_ofM n (M : 'M[R]_n) : toM n (ofM M) = M.
Proof. by apply/matrixP => i j; rewrite !mxE /ofM !valK. Qed.
Lemma meq_toM n A B : toM n A = toM n B -> meq n n A B.
Proof.
move=> H i j /ltP Hi /ltP Hj. have := congr1 (fun M : 'M[R]_n => M (Ordinal Hi) (Ordinal Hj)) H.
by rewrite !mxE.
Qed.
Lemma toM_I n : toM n rI = (1%:M)%Ri.
Proof.
apply/matrixP => i j; rewrite !mxE /rI. case: (Nat.eqb_spec i j) => [E|E].
- have -> : i = j by apply: val_inj. by rewrite eqxx.
- have -> : (i == j) = false by apply/eqP => H; apply: E; rewrite H. by [].
Qed.
Lemma rdet_adj n A : rdet n A <> 0 -> invertible n A.
Proof.
move=> H. exists (ofM ((/ rdet n A) *: \adj (toM n A))%Ri). split; apply: meq_toM; rewrite toM_mul toM_I toM_ofM.
- rewrite -scalemxAr mul_mx_adj scale_scalar_mx. congr (scalar_mx _). by apply: Rinv_l.
- rewrite -scalemxAl mul_adj_mx scale_scalar_mx. congr (scalar_mx _). by apply: Rinv_l.
Qed.
Lemma rdet_inverse n A B : inverse n A B -> rdet n A * rdet n B = 1.
Proof. by case=> H _; rewrite -rdet_mul (rdet_ext H) rdet_I. Qed.
Theorem rdet_invertible n A : invertible n A <-> rdet n A <> 0.
Proof.
split; last exact: rdet_adj. case=> B /rdet_inverse H E. rewrite E Rmult_0_l in H. lra.
Qed.
Lemma rdet_orth n U : orth n U -> rdet n U * rdet n U = 1.
Proof. by case=> H _; rewrite -{1}(rdet_T n U) -rdet_mul (rdet_ext H) rdet_I. Qed.
(** the determinant of a symmetric matrix is the product of its eigenvalues *)
Theorem rdet_eig n A U lam : eig_of n A U lam -> rdet n A = rprod n lam.
Proof.
case=> HU HA.
have E : meq n n A (rmul n U (rmul n (rdiag lam) (rT U))).
  move=> i j Hi Hj. rewrite (HA i j Hi Hj) /rmul. apply: rsum_ext => k Hk.
  rewrite Rmult_assoc. congr (_ * _). rewrite /rT.
  rewrite (rsum_ext n _ (fun l => (if Nat.eqb k l then lam l * U j l else 0))).
    by rewrite (rsum_delta' n k (fun l => lam l * U j l)).
  move=> l Hl. rewrite /rdiag. case: (Nat.eqb_spec k l) => [<-|]; [done|by rewrite Rmult_0_l].
rewrite (rdet_ext E) !rdet_mul rdet_T rdet_diag. have := rdet_orth HU => H.
transitivity ((rdet n U * rdet n U) * rprod n lam); [ring|by rewrite H Rmult_1_l].
Qed.

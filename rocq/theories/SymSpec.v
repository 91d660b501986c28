(** * Vocabulary of the symmetry properties (specification only)

    A change of coordinates is y |-> A y + b ([aff p A b], EmpFacts.v); A C A^T is [congr p A C]. *)
From Coq Require Import Reals List Lia Lra Arith Bool.
From Verif Require Import Num Numpy BaseModel Spec ListLemmas RMat LinSpec Fin RealSpec RunFin EwaReal EmpFacts Props_Emp.
Import ListNotations.
Local Open Scope R_scope.

(** A multiplies every length by sqrt s: a rotation, reflection or relabelling, together with a change of units *)
Definition similarity (p : nat) (s : R) (A : rmat) : Prop :=
  0 < s /\ meq p p (rmul p (rT A) A) (fun i j => s * rI i j) /\ meq p p (rmul p A (rT A)) (fun i j => s * rI i j).
(** [sg] reorders the p variables *)
Definition reorders (p : nat) (sg : nat -> nat) : Prop :=
  (forall i, (i < p)%nat -> (sg i < p)%nat) /\ (forall i j, (i < p)%nat -> (j < p)%nat -> sg i = sg j -> i = j).

(** Feeding A y + b instead of y turns location_ m into A m + b (A m on differences) and covariance_ S into A S A^T. *)
Definition follows (p : nat) (A : rmat) (b : obs) (C : EstClass NumX) (P : bool -> c_P C) (diff : bool) (ys : list obs) : Prop :=
  exists o o' m S,
    fitted_on (P diff) (map (fv p) ys) o /\ fitted_on (P diff) (map (fv p) (map (aff p A b) ys)) o' /\
    location_ o = Ok (fv p m) /\ covariance_ o = Ok (fm p p S) /\
    location_ o' = Ok (fv p (aff p A (if diff then fun _ => 0 else b) m)) /\
    covariance_ o' = Ok (fm p p (congr p A S)).
(** Feeding the variables in another order permutes location_ and covariance_ accordingly. *)
Definition ignores_order (p : nat) (sg : nat -> nat) (C : EstClass NumX) (P : bool -> c_P C) (diff : bool) (ys : list obs) : Prop :=
  exists o o' m S,
    fitted_on (P diff) (map (fv p) ys) o /\ fitted_on (P diff) (map (fv p) (map (fun (y : obs) i => y (sg i)) ys)) o' /\
    location_ o = Ok (fv p m) /\ covariance_ o = Ok (fm p p S) /\
    location_ o' = Ok (fv p (fun i => m (sg i))) /\
    covariance_ o' = Ok (fm p p (fun i j => S (sg i) (sg j))).
(** Shifting the stream by b shifts location_ by b and leaves covariance_ alone (on differences: leaves both alone). *)
Definition ignores_shift (p : nat) (b : obs) (C : EstClass NumX) (P : bool -> c_P C) (diff : bool) (ys : list obs) : Prop :=
  exists o o' m S,
    fitted_on (P diff) (map (fv p) ys) o /\ fitted_on (P diff) (map (fv p) (map (fun (y : obs) i => y i + b i) ys)) o' /\
    location_ o = Ok (fv p m) /\ covariance_ o = Ok (fm p p S) /\
    location_ o' = Ok (fv p (fun i => m i + (if diff then 0 else b i))) /\
    covariance_ o' = Ok (fm p p S).
(** Both are fitted, and some pair of variables gets another covariance because they are fed in another order ... *)
Definition order_matters (p : nat) (C : EstClass NumX) (P : bool -> c_P C) (diff : bool) : Prop :=
  exists sg (ys : list obs) o o' S S' i j, reorders p sg /\
    fitted_on (P diff) (map (fv p) ys) o /\ fitted_on (P diff) (map (fv p) (map (fun (y : obs) i => y (sg i)) ys)) o' /\
    covariance_ o = Ok (fm p p S) /\ covariance_ o' = Ok (fm p p S') /\
    (i < p)%nat /\ (j < p)%nat /\ S' i j <> S (sg i) (sg j).
(** ... or because the whole stream was shifted by b. *)
Definition shift_matters (p : nat) (C : EstClass NumX) (P : bool -> c_P C) (diff : bool) : Prop :=
  exists b (ys : list obs) o o' S S' i j,
    fitted_on (P diff) (map (fv p) ys) o /\ fitted_on (P diff) (map (fv p) (map (fun (y : obs) i => y i + b i) ys)) o' /\
    covariance_ o = Ok (fm p p S) /\ covariance_ o' = Ok (fm p p S') /\
    (i < p)%nat /\ (j < p)%nat /\ S' i j <> S i j.

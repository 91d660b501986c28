(** * Vocabulary of the binary64 property statements (specification only)

    [NumB] (NumBin.v) is IEEE binary64 with round-to-nearest-even.  A row of float64 numbers is a [vec NumB]. *)
From Coq Require Import Reals ZArith List Bool.
From Flocq Require Import Core BinarySingleNaN.
From Verif Require Import Num NumBin Numpy BaseModel Spec ListLemmas RealSpec.
Import ListNotations.
Local Open Scope R_scope.

(** neither infinite nor NaN; the real number a finite float stands for *)
Definition finite64 (x : NumB) : Prop := is_finite x = true.
Definition real64 (x : NumB) : R := B2R x.
Definition entry64 (A : mat NumB) (i j : nat) : R := real64 (mget A i j).
(** the rows as exact real observations *)
Definition real_rows (rows : list (vec NumB)) : list obs := map (fun row i => real64 (vget row i)) rows.
(** all entries finite, with absolute value at most [B] *)
Definition rows_within (B : R) (rows : list (vec NumB)) : Prop :=
  Forall (Forall (fun x : NumB => finite64 x /\ Rabs (real64 x) <= B)) rows.
Definition pow2 (k : Z) : R := powerRZ 2 k.
(** the magnitudes the accuracy statements cover: 2^-400 to 2^480 *)
Definition moderate (B : R) : Prop := pow2 (-400) <= B <= pow2 480.
(** a smoothing rate between 2^-30 and 1 *)
Definition rate64 (r : NumB) : Prop := finite64 r /\ pow2 (-30) <= real64 r <= 1.
(** the fitted estimator *)
Definition fitted64 {C : EstClass NumB} (P : c_P C) (rows : list (vec NumB)) (o : inst C) : Prop :=
  partial_fit (new P) (In2 rows) = (o, Ok tt).
(** [location_] and [covariance_] are a p-vector and a p x p matrix of finite numbers *)
Definition finite_attributes {C : EstClass NumB} (p : nat) (o : inst C) (loc : vec NumB) (cov : mat NumB) : Prop :=
  location_ o = Ok loc /\ covariance_ o = Ok cov /\ length loc = p /\ is_mat p p cov /\
  Forall finite64 loc /\ Forall (Forall finite64) cov.

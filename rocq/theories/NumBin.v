(** * A carrier that rounds: IEEE binary64 as formalised by Flocq

    Models no line of /repo: it instantiates [Num] with round-to-nearest-even binary64 arithmetic (the float64 of
    numpy and CPython), as data on which Flocq's correctness theorems apply, without the axioms about primitive floats. *)
From Coq Require Import Reals ZArith List Bool.
From Flocq Require Import Core BinarySingleNaN.
From Verif Require Import Num.

(** IEEE binary64 (numpy float64), no line of /repo *)
Definition b64 : Type := binary_float 53 1024.
Lemma prec53 : Prec_gt_0 53. Proof. reflexivity. Qed.
Lemma prec_emax : Prec_lt_emax 53 1024. Proof. reflexivity. Qed.
(** [math.ceil] *)
(** [math.ceil] (precise/_state.py:52) on binary64 *)
Definition b_ceil (x : b64) : res Z :=
  match x with
  | B754_zero _ => Ok 0%Z
  | B754_nan => Err ValueError
  | B754_infinity _ => Err OverflowError
  | B754_finite s m e _ =>
      let v := if s then Zneg m else Zpos m in
      Ok (if Z.leb 0 e then v * 2 ^ e else - ((- v) / 2 ^ (- e)))%Z
  end.
(** integers round to nearest (CPython raises OverflowError from 2^1024 on; here they become infinite) *)
(** int to float64 conversion on binary64, no line of /repo *)
Definition b_ofZ (z : Z) : b64 := binary_normalize 53 1024 prec53 prec_emax mode_NE z 0 false.
(** the carrier of the rounding theorems, no line of /repo *)
Definition NumB : Num :=
  mkNum b64
    (@Bplus 53 1024 prec53 prec_emax mode_NE) (@Bminus 53 1024 prec53 prec_emax mode_NE)
    (@Bmult 53 1024 prec53 prec_emax mode_NE) (@Bdiv 53 1024 prec53 prec_emax mode_NE)
    Bopp (@Bsqrt 53 1024 prec53 prec_emax mode_NE)
    Bltb Bleb is_nan B754_nan b_ofZ b_ceil.

Example b_ceil_ex : b_ceil (@ndiv NumB (b_ofZ 1) (b_ofZ 3)) = Ok 1%Z.
Proof. vm_compute. reflexivity. Qed.

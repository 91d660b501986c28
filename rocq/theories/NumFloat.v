(** * The executable carrier: IEEE binary64 (Coq primitive floats)

    Models no line of /repo: it instantiates [Num] with the arithmetic numpy actually uses, so that the
    model can be executed with [vm_compute] and so that every law-free theorem visibly covers it. *)
From Coq Require Import Floats.
From Coq Require Import ZArith List Bool.
From Verif Require Import Num.

(** ** IEEE binary64 (Coq primitive floats), for executing the model *)
(** int to float64 conversion on primitive floats, no line of /repo *)
Definition f_ofZ (z : Z) : float :=
  match z with
  | Z0 => 0%float
  | Zpos _ => PrimFloat.of_uint63 (Uint63.of_Z z)
  | Zneg p => PrimFloat.opp (PrimFloat.of_uint63 (Uint63.of_Z (Zpos p)))
  end.
(** [math.ceil] (precise/_state.py:52) on primitive floats *)
Definition f_ceil (x : float) : res Z :=
  match FloatOps.Prim2SF x with
  | SpecFloat.S754_zero _ => Ok 0%Z
  | SpecFloat.S754_nan => Err ValueError
  | SpecFloat.S754_infinity _ => Err OverflowError
  | SpecFloat.S754_finite s m e =>
      let v := if s then Zneg m else Zpos m in
      Ok (if Z.leb 0 e then v * 2 ^ e else - ((- v) / 2 ^ (- e)))%Z
  end.
(** the executable carrier, no line of /repo *)
Definition NumF : Num :=
  mkNum float PrimFloat.add PrimFloat.sub PrimFloat.mul PrimFloat.div PrimFloat.opp PrimFloat.sqrt
        PrimFloat.ltb PrimFloat.leb
        (fun x => negb (PrimFloat.eqb x x)) PrimFloat.nan f_ofZ f_ceil.

Example f_ceil_ex : f_ceil (PrimFloat.div (f_ofZ 1) (f_ofZ 3)) = Ok 1%Z.
Proof. vm_compute. reflexivity. Qed.
Example f_ceil_ex2 : f_ceil (f_ofZ (-7)) = Ok (-7)%Z.
Proof. vm_compute. reflexivity. Qed.

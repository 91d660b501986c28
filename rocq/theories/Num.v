(** * Numbers, exceptions and the result monad

    The library computes with numpy float64 scalars.  Every function of the model is written over a
    record [Num] of *operations without laws*, so one text of the model can be read at several
    carriers:
    - [NumX]: the extended reals [xreal] (reals plus +inf, -inf, NaN), where a division by zero or
      the square root of a negative number is visible as a non-finite value;
    - [NumF] (NumFloat.v): Coq's primitive IEEE binary64 floats (executable with [vm_compute]).
    Theorems quantified over all [N : Num] use no arithmetic law, so they hold for binary64 too.

    Nothing here models a line of /repo: it is the numeric substrate (numpy / CPython semantics). *)
From Coq Require Import Reals ZArith List String Bool Lra Lia.
Import ListNotations.

(** Python exceptions raised by the modelled code. *)
(** the exception classes raised by /repo code (base.py:24-25, 71, 76; _conventions.py:25; keyed.py:39; conditional.py:131, 163-171) or by CPython/numpy under it; [FuelExhausted] is the model's own *)
Inductive exn :=
| ValueError | NotFittedError | KeyError | TypeError | AttributeError | ZeroDivisionError | OverflowError
| LinAlgError | NotImplementedError | AssertionError | IndexError | FuelExhausted.

(** Result of a computation that may raise. *)
(** CPython semantics of every function of /repo/precise: it returns or raises *)
Inductive res (A : Type) := Ok (a : A) | Err (e : exn).
Arguments Ok {A} a.
Arguments Err {A} e.

(** CPython semantics: the next statement runs only if the previous one did not raise (e.g. precise/base.py:110-113) *)
Definition bind {A B} (m : res A) (f : A -> res B) : res B :=
  match m with Ok a => f a | Err e => Err e end.
Notation "x <- m ;; k" := (bind m (fun x => k)) (at level 61, m at next level, right associativity).
Notation "' p <- m ;; k" := (bind m (fun p => k))
  (at level 61, p pattern, m at next level, right associativity).

(** Sequence a list of fallible computations, left to right (a Python list comprehension). *)
(** list comprehensions and loops, e.g. precise/conditional.py:144-145, precise/keyed.py:264-268 *)
Fixpoint mapM {A B} (f : A -> res B) (l : list A) : res (list B) :=
  match l with
  | [] => Ok []
  | a :: l' => b <- f a ;; bs <- mapM f l' ;; Ok (b :: bs)
  end.

(** The operations of a float scalar.  [nltb]/[nleb] are the IEEE comparisons (false on NaN);
    [nceil] is [math.ceil] (raises on NaN / infinities). *)
(** float64 scalars as used throughout /repo/precise; [math.ceil] at precise/_state.py:52 *)
Record Num := mkNum {
  num :> Type;
  nadd : num -> num -> num;
  nsub : num -> num -> num;
  nmul : num -> num -> num;
  ndiv : num -> num -> num;
  nopp : num -> num;
  nsqrt : num -> num;
  nltb : num -> num -> bool;
  nleb : num -> num -> bool;
  nisnan : num -> bool;
  nnan : num;
  nofZ : Z -> num;
  nceil : num -> res Z;
}.
Arguments nadd {_}. Arguments nsub {_}. Arguments nmul {_}. Arguments ndiv {_}.
Arguments nopp {_}. Arguments nsqrt {_}. Arguments nltb {_}. Arguments nleb {_}.
Arguments nisnan {_}. Arguments nnan {_}. Arguments nofZ {_}. Arguments nceil {_}.

Section Derived.
  Context {N : Num}.
  (** the literal 0.0, e.g. precise/schurcov.py:57 *)
  Definition n0 : N := nofZ 0.
  (** the literal 1.0, e.g. precise/schur_conditional.py:99 *)
  Definition n1 : N := nofZ 1.
  (** an int used as a float, e.g. precise/schur_conditional.py:66 *)
  Definition nofn (n : nat) : N := nofZ (Z.of_nat n).
  (** [np.abs], precise/recommend.py:54, precise/assessment/assessors.py:168 *)
  Definition nabs (x : N) : N := if nltb x n0 then nopp x else x.
  (** Decimal literal [m * 10^-k], e.g. [nlit 1 12] for [1e-12]. *)
  (** decimal literals, e.g. 1e-12 at precise/dcc.py:54 *)
  Definition nlit (m : Z) (k : nat) : N := ndiv (nofZ m) (nofZ (10 ^ Z.of_nat k)).

  (** CPython's built-in [max(a, b)] / [min(a, b)]: the first argument unless the second is
      strictly larger / smaller (so a NaN in second position is ignored). *)
  (** precise/oas.py:40, 46; precise/tyler.py:54; precise/adaptive.py:57; precise/conditional.py:145 *)
  Definition py_max (a b : N) : N := if nltb a b then b else a.
  (** precise/ledoitwolf.py:62; precise/oas.py:46; precise/adaptive.py:57; precise/dcc.py:38 *)
  Definition py_min (a b : N) : N := if nltb b a then b else a.
  (** [np.maximum] / [np.minimum]: NaN propagates. *)
  (** [np.maximum], precise/dcc.py:54, 75, 77; precise/conditional.py:158 *)
  Definition np_max (a b : N) : N :=
    if nisnan a then a else if nisnan b then b else if nltb a b then b else a.
  (** the upper half of [np.clip], precise/schur_ledoit_wolf.py:84 *)
  Definition np_min (a b : N) : N :=
    if nisnan a then a else if nisnan b then b else if nltb b a then b else a.
  (** [np.clip(x, lo, None)] and [np.clip(x, lo, hi)]. *)
  (** precise/partialmoments.py:56-57; precise/schur_conditional.py:77, 85; precise/recommend.py:38, 41 *)
  Definition np_clip_lo (x lo : N) : N := np_max x lo.
  (** precise/schur_ledoit_wolf.py:84; precise/schur_conditional.py:79, 98 *)
  Definition np_clip (x lo hi : N) : N := np_min (np_max x lo) hi.
  (** Python float division: raises on a zero divisor (numpy division does not). *)
  (** [/] between Python floats, e.g. precise/oas.py:40, precise/schur_conditional.py:66 *)
  Definition py_div (a b : N) : res N :=
    if andb (nleb b n0) (nleb n0 b) then Err ZeroDivisionError else Ok (ndiv a b).
  (** [x ** 2], e.g. precise/schur_ledoit_wolf.py:68 *)
  Definition nsq (x : N) : N := nmul x x.
End Derived.

(** ** Extended reals *)
Local Open Scope R_scope.
(** values of the carrier [NumX]: no line of /repo, the mathematical reading of a float64 *)
Inductive xreal := Fin (r : R) | PInf | NInf | NaN.

(** decidable order of the reals (Coq standard library), no line of /repo *)
Definition Rltb (a b : R) : bool := if Rlt_dec a b then true else false.
(** decidable order of the reals (Coq standard library), no line of /repo *)
Definition Rleb (a b : R) : bool := if Rle_dec a b then true else false.
(** decidable equality of the reals (Coq standard library), no line of /repo *)
Definition Reqb (a b : R) : bool := if Req_EM_T a b then true else false.

(** unary minus on [NumX], no line of /repo *)
Definition xopp (a : xreal) : xreal :=
  match a with Fin r => Fin (- r) | PInf => NInf | NInf => PInf | NaN => NaN end.

(** [+] on [NumX]: exact sum, IEEE rules for the non-finite values, no line of /repo *)
Definition xadd (a b : xreal) : xreal :=
  match a, b with
  | Fin r, Fin s => Fin (r + s)
  | NaN, _ | _, NaN => NaN
  | PInf, NInf | NInf, PInf => NaN
  | PInf, _ | _, PInf => PInf
  | NInf, _ | _, NInf => NInf
  end.

(** [-] on [NumX], no line of /repo *)
Definition xsub (a b : xreal) : xreal :=
  match a, b with Fin r, Fin s => Fin (r - s) | _, _ => xadd a (xopp b) end.

(** Sign of an extended real: 1, -1 or 0 (NaN is handled by the callers). *)
Definition xsgn (a : xreal) : Z :=
  match a with
  | Fin r => if Rltb 0 r then 1%Z else if Rltb r 0 then (-1)%Z else 0%Z
  | PInf => 1%Z | NInf => (-1)%Z | NaN => 0%Z
  end.
(** the infinity of a given sign, NaN for sign 0 (0 * inf, 0 / 0), no line of /repo *)
Definition xinf (s : Z) : xreal :=
  if Z.ltb 0 s then PInf else if Z.ltb s 0 then NInf else NaN.

(** [*] on [NumX], no line of /repo *)
Definition xmul (a b : xreal) : xreal :=
  match a, b with
  | Fin r, Fin s => Fin (r * s)
  | NaN, _ | _, NaN => NaN
  | _, _ => xinf (xsgn a * xsgn b)
  end.

(** numpy float division; zero is taken to be +0 (the reals have no signed zero). *)
(** numpy [/] on [NumX], no line of /repo *)
Definition xdiv (a b : xreal) : xreal :=
  match a, b with
  | NaN, _ | _, NaN => NaN
  | Fin r, Fin s => if Reqb s 0 then xinf (xsgn a) else Fin (r / s)
  | Fin _, _ => Fin 0
  | _, Fin s => if Reqb s 0 then a else xinf (xsgn a * xsgn b)
  | _, _ => NaN
  end.

(** [np.sqrt] on [NumX]: NaN below zero, no line of /repo *)
Definition xsqrt (a : xreal) : xreal :=
  match a with
  | Fin r => if Rltb r 0 then NaN else Fin (sqrt r)
  | PInf => PInf | NInf => NaN | NaN => NaN
  end.

(** [<] on [NumX]: false on NaN, no line of /repo *)
Definition xltb (a b : xreal) : bool :=
  match a, b with
  | NaN, _ | _, NaN => false
  | Fin r, Fin s => Rltb r s
  | PInf, _ => false
  | _, PInf => true
  | _, NInf => false
  | NInf, _ => true
  end.
(** [<=] on [NumX]: false on NaN, no line of /repo *)
Definition xleb (a b : xreal) : bool :=
  match a, b with
  | NaN, _ | _, NaN => false
  | Fin r, Fin s => Rleb r s
  | NInf, _ => true
  | _, PInf => true
  | _, NInf => false
  | PInf, _ => false
  end.
(** [np.isnan] (precise/keyed.py:276-279) on [NumX] *)
Definition xisnan (a : xreal) : bool := match a with NaN => true | _ => false end.

(** [math.ceil]: the least integer not below the argument ([up r] is the least integer strictly
    above [r], so the ceiling of [r] is [- (up (-r) - 1)]). *)
(** [math.ceil] (precise/_state.py:52) on [NumX] *)
Definition xceil (a : xreal) : res Z :=
  match a with
  | Fin r => Ok (1 - up (- r))%Z
  | NaN => Err ValueError
  | _ => Err OverflowError
  end.

(** the carrier of the real-valued theorems, no line of /repo *)
Definition NumX : Num :=
  mkNum xreal xadd xsub xmul xdiv xopp xsqrt xltb xleb xisnan NaN (fun z => Fin (IZR z)) xceil.

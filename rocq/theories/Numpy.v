(** * The numpy subset used by the library

    1-d arrays are lists, 2-d arrays are lists of rows.  Binary operations follow numpy's
    broadcasting rules (equal lengths, or a length of one is stretched, otherwise ValueError), because
    the library never checks shapes itself and relies on numpy to do so.
    Simplification: a 2-d array of shape (0, k) is the empty list, its column count is forgotten.
    Simplification: [np.sum] is a left fold (numpy uses pairwise summation; same real value). *)
From Coq Require Import ZArith List Bool.
From Verif Require Import Num.
Import ListNotations.

(** a 1-d float64 array (numpy; e.g. state['mean'], precise/_state.py:8-12) *)
Definition vec (N : Num) := list N.
(** a 2-d float64 array (numpy; e.g. state['cov'], precise/_state.py:8-12) *)
Definition mat (N : Num) := list (list N).

(** Tabulated arrays. *)
(** numpy array construction, no line of /repo *)
Definition tab {A} (p : nat) (f : nat -> A) : list A := map f (seq 0 p).
(** numpy array construction, no line of /repo *)
Definition tab2 {A} (p q : nat) (f : nat -> nat -> A) : list (list A) :=
  tab p (fun i => tab q (fun j => f i j)).

(** numpy elementwise operation on equal lengths, no line of /repo *)
Fixpoint zipw {A B C} (f : A -> B -> C) (a : list A) (b : list B) : list C :=
  match a, b with x :: a', y :: b' => f x y :: zipw f a' b' | _, _ => [] end.

(** numpy broadcasting of a binary operation along one axis. *)
(** numpy broadcasting, relied on wherever /repo combines arrays (e.g. precise/base.py:58, 112) *)
Definition bc {A B C} (f : A -> B -> C) (a : list A) (b : list B) : res (list C) :=
  if Nat.eqb (length a) (length b) then Ok (zipw f a b)
  else match a, b with
       | [x], _ => Ok (map (f x) b)
       | _, [y] => Ok (map (fun x => f x y) a)
       | _, _ => Err ValueError
       end.
(** ... and along two axes. *)
(** numpy broadcasting of 2-d arrays, relied on wherever /repo combines matrices (e.g. precise/_state.py:42) *)
Definition bc2 {A B C} (f : A -> B -> C) (a : list (list A)) (b : list (list B))
  : res (list (list C)) :=
  rows <- bc (bc f) a b ;; mapM (fun r => r) rows.

Section Arrays.
  Context {N : Num}.
  Notation vec := (vec N).
  Notation mat := (mat N).

  (** [a + b] on 1-d arrays, e.g. precise/_state.py:40 *)
  Definition vadd (a b : vec) : res vec := bc nadd a b.
  (** [a - b] on 1-d arrays, e.g. precise/base.py:58 *)
  Definition vsub (a b : vec) : res vec := bc nsub a b.
  (** [a * b] on 1-d arrays, e.g. precise/dcc.py:52-55 *)
  Definition vmul (a b : vec) : res vec := bc nmul a b.
  (** [a / b] on 1-d arrays, e.g. precise/dcc.py:54 *)
  Definition vdiv (a b : vec) : res vec := bc ndiv a b.
  (** [c * a], e.g. precise/factor.py:69 *)
  Definition vscale (c : N) (a : vec) : vec := map (nmul c) a.          (* c * a *)
  (** [a / c], e.g. precise/factor.py:67 *)
  Definition vdivs (a : vec) (c : N) : vec := map (fun x => ndiv x c) a. (* a / c *)
  (** [np.zeros(p)], e.g. precise/partialmoments.py:38 *)
  Definition vzeros (p : nat) : vec := tab p (fun _ => n0).
  (** [np.ones(p)], e.g. precise/dcc.py:34 *)
  Definition vones (p : nat) : vec := tab p (fun _ => n1).
  (** [np.sum] of a 1-d array, e.g. precise/schur_conditional.py:77 *)
  Definition vsum (a : vec) : N := fold_left nadd a n0.
  (** [np.mean] of a 1-d array, e.g. precise/base.py:123 *)
  Definition vmean (a : vec) : N := ndiv (vsum a) (nofn (length a)).
  (** [a[i]] with [i] in range, e.g. precise/assessment/assessors.py:165 *)
  Definition vget (a : vec) (i : nat) : N := nth i a n0.

  (** [a + b] on 2-d arrays, e.g. precise/shrunk.py:59 *)
  Definition madd (a b : mat) : res mat := bc2 nadd a b.
  (** [a - b] on 2-d arrays, e.g. precise/schur_ledoit_wolf.py:68 *)
  Definition msub (a b : mat) : res mat := bc2 nsub a b.
  (** [a * b] on 2-d arrays, e.g. precise/dcc.py:76-78 *)
  Definition mmul (a b : mat) : res mat := bc2 nmul a b.  (* elementwise * *)
  (** [a / b] on 2-d arrays, e.g. precise/shrunk.py:54 *)
  Definition mdiv (a b : mat) : res mat := bc2 ndiv a b.
  (** a numpy function applied to every entry, e.g. precise/schur_ledoit_wolf.py:82 *)
  Definition mmap (f : N -> N) (a : mat) : mat := map (map f) a.
  (** [c * a], e.g. precise/shrunk.py:51 *)
  Definition mscale (c : N) (a : mat) : mat := mmap (nmul c) a.
  (** [a / c], e.g. precise/tyler.py:56 *)
  Definition mdivs (a : mat) (c : N) : mat := mmap (fun x => ndiv x c) a.
  (** [np.zeros((p, q))], e.g. precise/schur_conditional.py:91 *)
  Definition mzeros (p q : nat) : mat := tab2 p q (fun _ _ => n0).
  (** [np.eye(p)], e.g. precise/tyler.py:38 *)
  Definition meye (p : nat) : mat := tab2 p p (fun i j => if Nat.eqb i j then n1 else n0).
  (** [np.diag(v)], e.g. precise/diagonal.py:58 *)
  Definition mdiag (v : vec) : mat :=                     (* np.diag of a 1-d array *)
    tab2 (length v) (length v) (fun i j => if Nat.eqb i j then vget v i else n0).
  (** [a[i, j]] with the indices in range, e.g. precise/keyed.py:274 *)
  Definition mget (a : mat) (i j : nat) : N := nth j (nth i a []) n0.
  (** [len(a)] / [a.shape[0]], e.g. precise/assessment/assessors.py:23 *)
  Definition nrows (a : mat) : nat := length a.
  (** [a.shape[1]], e.g. precise/base.py:120 *)
  Definition ncols (a : mat) : nat := length (hd [] a).
  (** [np.diagonal(a)] / [np.diag(a)], e.g. precise/_linalg.py:24, precise/dcc.py:75 *)
  Definition diagonal (a : mat) : vec := tab (Nat.min (nrows a) (ncols a)) (fun i => mget a i i).
  (** [np.trace], e.g. precise/tyler.py:56, precise/oas.py:41 *)
  Definition mtrace (a : mat) : N := vsum (diagonal a).
  (** [np.sum] of a 2-d array, e.g. precise/assessment/assessors.py:169 *)
  Definition msum (a : mat) : N := vsum (map vsum a).
  (** [a.T], e.g. precise/_linalg.py:18-19, precise/schur_conditional.py:103 *)
  Definition transpose (a : mat) : mat := tab2 (ncols a) (nrows a) (fun i j => mget a j i).
  (** [np.outer] *)
  (** e.g. precise/geodesic.py:49, precise/schur_ledoit_wolf.py:67 *)
  Definition outer (a b : vec) : mat := map (fun x => map (fun y => nmul x y) b) a.

  (** [@] on 1-d / 2-d operands: ValueError on a shape mismatch. *)
  (** [a @ b] on 1-d arrays, e.g. precise/factor.py:68 *)
  Definition vdot (a b : vec) : res N :=
    if Nat.eqb (length a) (length b) then Ok (vsum (zipw nmul a b)) else Err ValueError.
  (** [a[:, j]]: numpy indexing used inside [@], no line of /repo *)
  Definition mcol (a : mat) (j : nat) : vec := map (fun row => nth j row n0) a.
  (** [v @ a], e.g. precise/tyler.py:54 *)
  Definition vecmat (v : vec) (a : mat) : res vec :=
    if Nat.eqb (length v) (nrows a)
    then Ok (tab (ncols a) (fun j => vsum (zipw nmul v (mcol a j)))) else Err ValueError.
  (** [a @ v], e.g. precise/assessment/assessors.py:149, 151 *)
  Definition matvec (a : mat) (v : vec) : res vec := mapM (fun row => vdot row v) a.
  (** [a @ b] on 2-d arrays, e.g. precise/assessment/assessors.py:119, precise/schur_conditional.py:107-109 *)
  Definition matmul (a b : mat) : res mat :=
    if Nat.eqb (ncols a) (nrows b)
    then Ok (tab2 (nrows a) (ncols b) (fun i j => vsum (zipw nmul (nth i a []) (mcol b j))))
    else Err ValueError.

  (** One row of [np.einsum("ij,jk,ik->i", C, P, C)] (P square): c^T P c.  einsum stretches axes of
      length one (row of one entry against a larger P, or a 1x1 P against a longer row). *)
  (** precise/base.py:113, precise/assessment/assessors.py:22 *)
  Definition einsum_quad (c : vec) (P : mat) : res N :=
    if Nat.eqb (length c) (nrows P) then cp <- vecmat c P ;; vdot cp c
    else match c, P with
         | [x], _ => Ok (msum (tab2 (nrows P) (ncols P) (fun i j => nmul (nmul x (mget P i j)) x)))
         | _, [[y]] => Ok (msum (tab2 (length c) (length c) (fun i j => nmul (nmul (vget c i) y) (vget c j))))
         | _, _ => Err ValueError
         end.

  (** [a[i0:i1, j0:j1]] *)
  (** [l[a:b]], e.g. precise/block_covariance.py:60 *)
  Definition slice {A} (a b : nat) (l : list A) : list A := firstn (b - a) (skipn a l).
  (** precise/assessment/assessors.py:51-53, precise/schur_conditional.py:96-101 *)
  Definition mslice (a : mat) (i0 i1 j0 j1 : nat) : mat := map (slice j0 j1) (slice i0 i1 a).

  (** Euclidean / Frobenius norm ([np.linalg.norm]). *)
  (** precise/factor.py:63, 89 *)
  Definition vnorm (v : vec) : N := nsqrt (vsum (map nsq v)).
  (** precise/_linalg.py:50, precise/assessment/assessors.py:137 *)
  Definition mnorm (a : mat) : N := nsqrt (msum (mmap nsq a)).
  (** Smallest / largest entry, [np.min] / [np.max] (ValueError on an empty array). *)
  (** precise/_linalg.py:54, precise/recommend.py:53 *)
  Definition vmin (v : vec) : res N :=
    match v with [] => Err ValueError | x :: r => Ok (fold_left np_min r x) end.
  (** precise/recommend.py:53 *)
  Definition vmax (v : vec) : res N :=
    match v with [] => Err ValueError | x :: r => Ok (fold_left np_max r x) end.
End Arrays.

(** LAPACK / libm routines reached through numpy.  They are not modelled: they are parameters of the
    model, and theorems that depend on them state the contract they use (see Contracts.v). *)
(** called at precise/_linalg.py:32, 44-54, 63, 81-86, 102-108, precise/assessment/assessors.py:21, 120, precise/schur_conditional.py:102, precise/recommend.py:38 *)
Record LinAlg (N : Num) := mkLA {
  la_inv : mat N -> res (mat N);                       (* np.linalg.inv *)
  la_pinv : mat N -> res (mat N);                      (* np.linalg.pinv *)
  la_eigh : mat N -> res (vec N * mat N);              (* np.linalg.eigh: (evals, evecs) *)
  la_svd : mat N -> res (mat N * vec N * mat N);       (* np.linalg.svd: (U, s, Vh) *)
  la_cholesky : mat N -> res (mat N);                  (* np.linalg.cholesky *)
  la_eigvals_re : mat N -> res (vec N);                (* np.real(np.linalg.eigvals(.)) *)
  la_solve : mat N -> mat N -> res (mat N);            (* np.linalg.solve *)
  la_slogdet : mat N -> res (N * N);                   (* np.linalg.slogdet: (sign, logdet) *)
  la_spacing : N -> N;                                 (* np.spacing *)
  la_pow : N -> N -> N;                                (* x ** g on floats *)
  la_log2pi : N;                                       (* np.log(2 * np.pi) *)
  la_two_over_pi : N;                                  (* 2.0 / np.pi *)
}.
Arguments la_inv {N}. Arguments la_pinv {N}. Arguments la_eigh {N}. Arguments la_svd {N}.
Arguments la_cholesky {N}. Arguments la_eigvals_re {N}. Arguments la_solve {N}.
Arguments la_slogdet {N}. Arguments la_spacing {N}. Arguments la_pow {N}.
Arguments la_log2pi {N}. Arguments la_two_over_pi {N}.

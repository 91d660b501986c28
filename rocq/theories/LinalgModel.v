(** * Model of precise/_linalg.py *)
From Coq Require Import ZArith List Bool.
From Verif Require Import Num Numpy.
Import ListNotations.

Section LinalgModel.
  Context {N : Num} (L : LinAlg N).
  Notation vec := (vec N).
  Notation mat := (mat N).

  (** precise/_linalg.py:15  [EPS = 1e-12] *)
  Definition EPS : N := nlit 1 12.

  (** precise/_linalg.py:18-19  [to_symmetric] *)
  Definition to_symmetric (a : mat) : res mat :=
    s <- madd a (transpose a) ;; Ok (mdivs s (nofZ 2)).

  (** precise/_linalg.py:22-26  [cov_to_corrcoef] *)
  Definition cov_to_corrcoef (a : mat) : res mat :=
    let variances := diagonal a in
    let denominator :=
      map (fun vi => map (fun vj => nadd (nsqrt (nmul vj vi)) EPS) variances) variances in
    mdiv a denominator.

  (** precise/_linalg.py:29-35  [is_positive_def]: Cholesky succeeds; only LinAlgError is caught *)
  Definition is_positive_def (a : mat) : res bool :=
    match la_cholesky L a with
    | Ok _ => Ok true
    | Err LinAlgError => Ok false
    | Err e => Err e
    end.

  (** precise/_linalg.py:53-56  the [while] loop of [nearest_pos_def]; [fuel] bounds the iterations *)
  Fixpoint npd_loop (fuel k : nat) (spacing : N) (identity a3 : mat) : res mat :=
    pd <- is_positive_def a3 ;;
    if pd then Ok a3
    else match fuel with
         | O => Err FuelExhausted
         | S fuel' =>
           ev <- la_eigvals_re L a3 ;;
           mineig <- vmin ev ;;
           a3' <- madd a3 (mmap (fun e => nmul e
                     (nadd (nmul (nopp mineig) (nofn (k * k))) spacing)) identity) ;;
           npd_loop fuel' (S k) spacing identity a3'
         end.

  (** precise/_linalg.py:38-57  [nearest_pos_def] *)
  Definition nearest_pos_def (fuel : nat) (a : mat) : res mat :=
    b <- to_symmetric a ;;
    '(_, s, V) <- la_svd L b ;;
    VD <- matmul (transpose V) (mdiag s) ;;
    H <- matmul VD V ;;
    bH <- madd b H ;;
    a3 <- to_symmetric (mdivs bH (nofZ 2)) ;;
    pd <- is_positive_def a3 ;;
    if pd then Ok a3
    else
      let spacing := la_spacing L (mnorm a) in
      let identity := meye (nrows a) in
      npd_loop fuel 1 spacing identity a3.

  (** precise/_linalg.py:60-65  [make_pos_def(a, eps=1e-8)].
      [(evecs * evals) @ evecs.T]: row-broadcast of [evals] over the columns of [evecs]. *)
  Definition make_pos_def (a : mat) : res mat :=
    let eps := nlit 1 8 in
    a <- to_symmetric a ;;
    '(evals, evecs) <- la_eigh L a ;;
    let evals := map (fun l => np_clip_lo l eps) evals in
    VE <- mapM (fun row => vmul row evals) evecs ;;
    out <- matmul VE (transpose evecs) ;;
    to_symmetric out.

  (** precise/_linalg.py:68-75  [affine_shrink] *)
  Definition affine_shrink (a : mat) (phi lmbd : N) : res mat :=
    let n := nrows a in
    let b := tab2 (nrows a) (ncols a)
                  (fun i j => if Nat.eqb i j then nmul (mget a i j) phi else mget a i j) in
    let mu := vmean (diagonal b) in
    madd (mscale (nsub n1 lmbd) b) (mscale (nmul lmbd mu) (meye n)).

  (** precise/_linalg.py:78-86  [try_invert] (defaults phi=1.01, lmbd=0.01); only LinAlgError is caught *)
  Definition try_invert (a : mat) : res mat :=
    match la_inv L a with
    | Err LinAlgError =>
      match la_pinv L a with
      | Err LinAlgError => b <- affine_shrink a (nlit 101 2) (nlit 1 2) ;; la_inv L b
      | r => r
      end
    | r => r
    end.

  (** precise/_linalg.py:89-112  [geodesic_step] *)
  Definition geodesic_step (start end_ : mat) (gamma : N) : res mat :=
    start <- make_pos_def start ;;
    end_ <- make_pos_def end_ ;;
    '(evals_s, evecs_s) <- la_eigh L start ;;
    let evals_s := map (fun l => np_clip_lo l EPS) evals_s in
    VS <- mapM (fun row => vmul row (map nsqrt evals_s)) evecs_s ;;
    start_sqrt <- matmul VS (transpose evecs_s) ;;
    VI <- mapM (fun row => vmul row (map (fun l => ndiv n1 (nsqrt l)) evals_s)) evecs_s ;;
    start_inv_sqrt <- matmul VI (transpose evecs_s) ;;
    m1 <- matmul start_inv_sqrt end_ ;;
    m2 <- matmul m1 start_inv_sqrt ;;
    middle <- to_symmetric m2 ;;
    '(evals_m, evecs_m) <- la_eigh L middle ;;
    let evals_m := map (fun l => la_pow L (np_clip_lo l n0) gamma) evals_m in
    VM <- mapM (fun row => vmul row evals_m) evecs_m ;;
    middle_power <- matmul VM (transpose evecs_m) ;;
    o1 <- matmul start_sqrt middle_power ;;
    o2 <- matmul o1 start_sqrt ;;
    to_symmetric o2.
End LinalgModel.

(** * Model of precise/assessment (assessors.py, base.py, registry.py)

    Held-out data [X_test] is a 2-d array (list of rows), or absent ([None]).
    Simplification: which exception a missing [X_test] raises inside numpy is not exact (it always raises). *)
From Coq Require Import ZArith List Bool String.
From Verif Require Import Num Numpy LinalgModel BaseModel Estimators.
Import ListNotations.

Section Assess.
  Context {N : Num} (L : LinAlg N).
  Notation vec := (vec N).
  Notation mat := (mat N).

  (** precise/assessment/assessors.py:19-23  [_gaussian_loglik] *)
  Definition gaussian_loglik (cov X : mat) : res N :=
    prec <- try_invert L cov ;;
    '(_, logdet) <- la_slogdet L prec ;;
    quad <- mapM (fun row => einsum_quad row prec) X ;;
    let half := nlit 5 1 in
    Ok (vmean (map (fun q => nsub (nsub (nmul half logdet) (nmul half q))
                                  (nmul (nmul half (nofn (nrows cov))) (la_log2pi L))) quad)).

  (** [range(0, p, step)] for a positive step *)
  (** precise/assessment/assessors.py:51 *)
  Definition starts (p step : nat) : list nat := map (fun k => k * step) (seq 0 ((p + step - 1) / step)).
  (** [total += f(s)] over a list *)
  (** precise/assessment/assessors.py:50-54 *)
  Fixpoint accum (f : nat -> res N) (l : list nat) (total : N) : res N :=
    match l with
    | [] => Ok total
    | s :: r => x <- f s ;; accum f r (nadd total x)
    end.
  (** precise/assessment/assessors.py:47-54  [BlockPseudoLikelihood.score];
      [range] raises ValueError on a zero step and is empty on a negative one *)
  Definition block_pseudo (block_size : Z) (cov X : mat) : res N :=
    let p := nrows cov in
    if (block_size =? 0)%Z then Err ValueError
    else if (block_size <? 0)%Z then Ok n0
    else
      let bs := Z.to_nat block_size in
      accum (fun s => let e := Nat.min (s + bs) p in
               gaussian_loglik (mslice cov s e s e) (map (slice s e) X)) (starts p bs) n0.

  (** precise/assessment/assessors.py:85-100  [SchurLikelihood.score] *)
  Definition schur_lik (gamma : N) (n_blocks : Z) (interpolation : string) (cov X : mat) : res N :=
    let p := nrows cov in
    bid <- block_id n_blocks p ;;
    let cross := cross_of bid in
    cov_gamma <- (if String.eqb interpolation "geodesic" then
        block_diag <- zero_cross p cross cov ;;
        a <- make_pos_def L block_diag ;;
        b <- make_pos_def L cov ;;
        geodesic_step L a b gamma
      else damp p cross gamma cov) ;;
    c <- make_pos_def L cov_gamma ;;
    gaussian_loglik c X.

  (** [np.cov(X, rowvar=False, bias=True)] followed by [np.atleast_2d].
      Simplification: at least two rows (numpy before 2.2 reads a single row as one variable). *)
  (** precise/assessment/assessors.py:118, precise/recommend.py:37 *)
  Definition np_cov (X : mat) : res mat :=
    let n := nrows X in
    let avg := tab (ncols X) (fun j => vmean (mcol X j)) in
    Xc <- mapM (fun row => vsub row avg) X ;;
    c <- matmul (transpose Xc) Xc ;;
    Ok (mscale (ndiv n1 (nofn n)) c).
  (** precise/assessment/assessors.py:116-121  [SteinLoss.score] *)
  Definition stein (cov X : mat) : res N :=
    S <- np_cov X ;;
    P <- try_invert L cov ;;
    M <- matmul P S ;;
    '(_, logdet) <- la_slogdet L M ;;
    Ok (nopp (nsub (nsub (mtrace M) logdet) (nofn (nrows cov)))).

  (** precise/assessment/assessors.py:134-137  [FrobeniusToTruth.score];
      [np.asarray(None, dtype=float)] is the scalar nan, and so is the score *)
  Definition frobenius (cov : mat) (true_cov : option mat) : res N :=
    match true_cov with
    | None => Ok nnan
    | Some T => D <- msub cov T ;; Ok (nopp (ndiv (mnorm D) (mnorm T)))
    end.

  (** precise/assessment/assessors.py:147-151  [GMVVariance.score] *)
  Definition gmv (cov X : mat) : res N :=
    P <- try_invert L cov ;;
    w <- matvec P (vones (nrows cov)) ;;
    let w := vdivs w (vsum w) in
    r <- matvec X w ;;
    Ok (nopp (vmean (map nsq r))).

  (** precise/assessment/assessors.py:162-169  [VariogramScore.score] *)
  Definition variogram (cov X : mat) : res N :=
    cov <- to_symmetric cov ;;
    let d := diagonal cov in
    let expected := tab2 (nrows cov) (ncols cov) (fun i j =>
      nsqrt (nmul (np_max (nsub (nadd (vget d i) (vget d j)) (nmul (nofZ 2) (mget cov i j))) n0) (la_two_over_pi L))) in
    sums <- mapM (fun row =>
      let diffs := tab2 (List.length row) (List.length row) (fun i j => nabs (nsub (vget row i) (vget row j))) in
      D <- msub diffs expected ;; Ok (msum (mmap nsq D))) X ;;
    Ok (nopp (vmean sums)).

  (** The seven registered assessors with their constructor arguments
      (precise/assessment/assessors.py:26, 36, 60, 109, 124, 140, 154) *)
  Inductive assessor :=
  | LogLikelihood
  | BlockPseudoLikelihood (block_size : Z)
  | SchurLikelihood (gamma : N) (n_blocks : Z) (interpolation : string)
  | SteinLoss
  | FrobeniusToTruth
  | GMVVariance
  | VariogramScore.

  (** [Assessor.score(cov, X_test=..., true_cov=...)]. *)
  (** precise/assessment/base.py:28-35 and the seven [score] methods, assessors.py:32, 47, 85, 116, 134, 147, 162 *)
  Definition assess (a : assessor) (cov : mat) (X_test true_cov : option mat) : res N :=
    match a with
    | FrobeniusToTruth => frobenius cov true_cov
    | LogLikelihood => match X_test with Some X => gaussian_loglik cov X | None => Err ValueError end
    | BlockPseudoLikelihood b =>
      match X_test with
      | Some X => block_pseudo b cov X
      | None => if (b =? 0)%Z then Err ValueError
                else if (b <? 0)%Z || Nat.eqb (nrows cov) 0 then Ok n0 else Err TypeError
      end
    | SchurLikelihood g b i => match X_test with Some X => schur_lik g b i cov X | None => Err ValueError end
    | SteinLoss => match X_test with Some X => stein cov X | None => Err TypeError end
    | GMVVariance => match X_test with Some X => gmv cov X | None => Err ValueError end
    | VariogramScore => match X_test with Some X => variogram cov X | None => Err TypeError end
    end.

  (** precise/assessment/base.py:25-26, assessors.py:131-132: the capability flags *)
  Definition needs_data (a : assessor) : bool := match a with FrobeniusToTruth => false | _ => true end.
  (** precise/assessment/base.py:25-26, assessors.py:131-132 *)
  Definition needs_truth (a : assessor) : bool := match a with FrobeniusToTruth => true | _ => false end.
  (** precise/assessment/base.py:37-39  [usable] *)
  Definition usable (a : assessor) (have_data have_truth : bool) : bool :=
    (have_data || negb (needs_data a)) && (have_truth || negb (needs_truth a)).
  (** precise/assessment/base.py:41-43  [name] *)
  Definition aname (a : assessor) : string :=
    match a with
    | LogLikelihood => "LogLikelihood"
    | BlockPseudoLikelihood _ => "BlockPseudoLikelihood"
    | SchurLikelihood _ _ _ => "SchurLikelihood"
    | SteinLoss => "SteinLoss"
    | FrobeniusToTruth => "FrobeniusToTruth"
    | GMVVariance => "GMVVariance"
    | VariogramScore => "VariogramScore"
    end.
  (** precise/assessment/registry.py:17-27  [all_assessors] *)
  Definition all_assessors : list assessor :=
    [LogLikelihood; BlockPseudoLikelihood 10; SchurLikelihood (nlit 5 1) 4 "linear"; SteinLoss;
     FrobeniusToTruth; GMVVariance; VariogramScore].
  (** precise/assessment/registry.py:30-34  [assessor_from_name] *)
  Definition assessor_from_name (name : string) : res assessor :=
    match find (fun a => String.eqb (aname a) name) all_assessors with
    | Some a => Ok a
    | None => Err KeyError
    end.
End Assess.

(** * Model of research/schur_likelihood_theory.py, research/schur_gamma_star.py and the closed forms of research/schur_godambe.py

    The scripts that justify the gamma-Schur likelihood.  Scalars are Python floats, so [/] raises on a
    zero divisor ([py_div]) unless an operand is a numpy scalar.
    Not modelled: the printing ([report], [report_general]) and the random searches
    ([_numerical_argmax], [_local_search_confirms], [_random_spd], [empirical_gamma_star]), and of schur_godambe.py
    the sampling experiments after [snr], which are in PowerModel.v. *)
From Coq Require Import ZArith List Bool.
From Verif Require Import Num Numpy.
Import ListNotations.

Section Research.
  Context {N : Num} (L : LinAlg N).
  (** [np.log] (a parameter, like the routines of [LinAlg]) *)
  Context (log : N -> N).
  Notation vec := (vec N).
  Notation mat := (mat N).

  (** the literal -0.5, research/schur_likelihood_theory.py:42, 45, 166 *)
  Definition mhalf : N := nopp (nlit 5 1).          (* -0.5 *)
  (** the literal 0.5, research/schur_likelihood_theory.py:163, 195 *)
  Definition phalf : N := nlit 5 1.                 (* 0.5 *)
  (** [-np.inf] *)
  (** research/schur_likelihood_theory.py:40, 165 *)
  Definition minus_inf : N := ndiv (nofZ (-1)) n0.

  (** ** The scalar two-block model *)
  (** research/schur_likelihood_theory.py:34-46  [schur_loglik_population] *)
  Definition schur_loglik_population (a b_star s_star gamma A C D : N) : res N :=
    beta <- py_div (nmul gamma C) A ;;
    q <- py_div (nmul (nmul gamma C) C) A ;;
    let Sg := nsub D q in
    if nleb A n0 || nleb Sg n0 then Ok minus_inf
    else
      r1 <- py_div a A ;;
      let t1 := nmul mhalf (nadd (log A) r1) in
      let resid := nadd (nmul (nsq (nsub b_star beta)) a) s_star in
      r2 <- py_div resid Sg ;;
      let t2 := nmul mhalf (nadd (log Sg) r2) in
      Ok (nadd t1 t2).

  (** research/schur_likelihood_theory.py:49-53  [closed_form_maximizer] *)
  Definition closed_form_maximizer (a b_star s_star gamma : N) : res (N * N * N) :=
    C <- py_div (nmul b_star a) gamma ;;
    d <- py_div (nmul (nsq b_star) a) gamma ;;
    Ok (a, C, nadd s_star d).

  (** research/schur_likelihood_theory.py:56-59  [spd_threshold_holds] *)
  Definition spd_threshold_holds (a b_star s_star gamma : N) : bool :=
    let e := nmul (nsq b_star) a in
    nltb (nmul (nsub n1 gamma) e) (nmul (nsq gamma) s_star).

  (** research/schur_likelihood_theory.py:113-116  [_solve_spd_threshold]; [np.sqrt] returns a numpy
      scalar, so the division does not raise *)
  Definition solve_spd_threshold (rho2 : N) : N :=
    let A := nsub n1 rho2 in let B := rho2 in let C := nopp rho2 in
    ndiv (nadd (nopp B) (nsqrt (nsub (nmul B B) (nmul (nmul (nofZ 4) A) C)))) (nmul (nofZ 2) A).

  (** ** Vector blocks *)
  (** research/schur_likelihood_theory.py:134-139  [_blocks] *)
  Fixpoint blocks_from (start : nat) (sizes : list nat) : list (list nat) :=
    match sizes with
    | [] => []
    | s :: r => seq start s :: blocks_from (start + s) r
    end.
  (** research/schur_likelihood_theory.py:134-139  [_blocks] *)
  Definition blocks_of (sizes : list nat) : list (list nat) := blocks_from 0 sizes.

  (** research/schur_likelihood_theory.py:142-143  [_sub]: [M[np.ix_(rows, cols)]] *)
  Definition sub (M : mat) (rows cols : list nat) : res mat :=
    if forallb (fun i => i <? nrows M) rows && forallb (fun j => j <? ncols M) cols
    then Ok (map (fun i => map (fun j => mget M i j) cols) rows) else Err IndexError.

  (** [np.linalg.eigvalsh]: the eigenvalues returned by [eigh] *)
  (** research/schur_likelihood_theory.py:163, 204, 208 *)
  Definition eigvalsh (a : mat) : res vec := '(evals, _) <- la_eigh L a ;; Ok evals.
  (** [0.5 * (a + a.T)] *)
  (** research/schur_likelihood_theory.py:163, 195, 204; research/schur_godambe.py:63, 67 *)
  Definition half_sym (a : mat) : res mat := s <- madd a (transpose a) ;; Ok (mscale phalf s).

  (** research/schur_likelihood_theory.py:150-163  the body of the loop of [expected_schur_loglik] up to
      [Sg] and [Mk] *)
  Definition block_terms (Sig_true Sig_cand : mat) (gamma : N) (prev rows : list nat) : res (mat * mat) :=
    match prev with
    | [] => Sg <- sub Sig_cand rows rows ;; Mk <- sub Sig_true rows rows ;; Ok (Sg, Mk)
    | _ =>
      cWW <- sub Sig_cand prev prev ;;
      cKW <- sub Sig_cand rows prev ;;
      iWW <- la_inv L cWW ;;
      Gk <- matmul (mscale gamma cKW) iWW ;;
      cKK <- sub Sig_cand rows rows ;;
      X <- la_solve L cWW (transpose cKW) ;;
      h <- matmul (mscale gamma cKW) X ;;
      Sg <- msub cKK h ;;
      tWW <- sub Sig_true prev prev ;;
      tKW <- sub Sig_true rows prev ;;
      tKK <- sub Sig_true rows rows ;;
      m1 <- matmul Gk (transpose tKW) ;;
      m2 <- matmul tKW (transpose Gk) ;;
      m3 <- matmul Gk tWW ;;
      m4 <- matmul m3 (transpose Gk) ;;
      d1 <- msub tKK m1 ;;
      d2 <- msub d1 m2 ;;
      Mk <- madd d2 m4 ;;
      Ok (Sg, Mk)
    end.

  (** research/schur_likelihood_theory.py:146-168  [expected_schur_loglik] *)
  Fixpoint expected_loop (Sig_true Sig_cand : mat) (gamma : N) (idx : list (list nat)) (total : N) (prev : list nat) : res N :=
    match idx with
    | [] => Ok total
    | rows :: rest =>
      '(Sg, Mk) <- block_terms Sig_true Sig_cand gamma prev rows ;;
      sS <- half_sym Sg ;;
      evals <- eigvalsh sS ;;
      lo <- vmin evals ;;
      if nleb lo n0 then Ok minus_inf
      else
        X <- la_solve L Sg Mk ;;
        let term := nmul mhalf (nadd (vsum (map log evals)) (mtrace X)) in
        expected_loop Sig_true Sig_cand gamma rest (nadd total term) (prev ++ rows)
    end.
  (** research/schur_likelihood_theory.py:146-168  [expected_schur_loglik] *)
  Definition expected_schur_loglik (Sig_true Sig_cand : mat) (sizes : list nat) (gamma : N) : res N :=
    expected_loop Sig_true Sig_cand gamma (blocks_of sizes) n0 [].

  (** [M[np.ix_(rows, cols)] = V] *)
  (** part of the assignments of research/schur_likelihood_theory.py:180, 191-193 *)
  Definition position (i : nat) (l : list nat) : option nat :=
    (fix go (l : list nat) (k : nat) := match l with [] => None | x :: r => if x =? i then Some k else go r (S k) end) l 0.
  (** research/schur_likelihood_theory.py:180, 191-193 *)
  Definition set_sub (M : mat) (rows cols : list nat) (V : mat) : mat :=
    tab2 (nrows M) (ncols M) (fun i j =>
      match position i rows, position j cols with Some a, Some b => mget V a b | _, _ => mget M i j end).

  (** research/schur_likelihood_theory.py:171-195  [closed_form_general] *)
  Fixpoint closed_loop (Sig_true : mat) (gamma : N) (idx : list (list nat)) (Sig : mat) (prev : list nat) : res mat :=
    match idx with
    | [] => Ok Sig
    | rows :: rest =>
      Sig <- match prev with
        | [] => t <- sub Sig_true rows rows ;; Ok (set_sub Sig rows rows t)
        | _ =>
          tWW <- sub Sig_true prev prev ;;
          tKW <- sub Sig_true rows prev ;;
          tKK <- sub Sig_true rows rows ;;
          iWW <- la_inv L tWW ;;
          Bk <- matmul tKW iWW ;;
          h <- matmul Bk (transpose tKW) ;;
          Sk <- msub tKK h ;;
          cWW <- sub Sig prev prev ;;
          let Gk := mdivs Bk gamma in
          cKW <- matmul Gk cWW ;;
          k1 <- matmul (mscale gamma Gk) cWW ;;
          k2 <- matmul k1 (transpose Gk) ;;
          cKK <- madd Sk k2 ;;
          let Sig := set_sub Sig rows prev cKW in
          let Sig := set_sub Sig prev rows (transpose cKW) in
          Ok (set_sub Sig rows rows cKK)
        end ;;
      closed_loop Sig_true gamma rest Sig (prev ++ rows)
    end.
  (** research/schur_likelihood_theory.py:171-195  [closed_form_general] *)
  Definition closed_form_general (Sig_true : mat) (sizes : list nat) (gamma : N) : res mat :=
    let p := fold_left Nat.add sizes 0 in
    Sig <- closed_loop Sig_true gamma (blocks_of sizes) (mzeros p p) [] ;;
    half_sym Sig.

  (** [np.sort] of a 1-d array (NaN is left where the comparisons leave it) *)
  (** research/schur_likelihood_theory.py:204  [np.sort] *)
  Fixpoint insert (x : N) (l : vec) : vec :=
    match l with [] => [x] | y :: r => if nleb x y then x :: l else y :: insert x r end.
  (** research/schur_likelihood_theory.py:204  [np.sort] *)
  Fixpoint np_sort (l : vec) : vec := match l with [] => [] | x :: r => insert x (np_sort r) end.

  (** research/schur_likelihood_theory.py:198-204  [canonical_corr2] *)
  Definition canonical_corr2 (Sig : mat) (p1 : nat) : res vec :=
    let p := nrows Sig in
    let S11 := mslice Sig 0 p1 0 p1 in
    let S22 := mslice Sig p1 p p1 p in
    let S12 := mslice Sig 0 p1 p1 p in
    X <- la_solve L S11 S12 ;;
    Y <- la_solve L S22 (transpose S12) ;;
    Mmat <- matmul X Y ;;
    s <- half_sym Mmat ;;
    ev <- eigvalsh s ;;
    Ok (map (fun l => np_clip l n0 n1) (rev (np_sort ev))).

  (** research/schur_likelihood_theory.py:207-208  [_is_spd(M, tol)] *)
  Definition is_spd (M : mat) (tol : N) : res bool :=
    s <- half_sym M ;; ev <- eigvalsh s ;; lo <- vmin ev ;; Ok (nltb tol lo).

  (** ** gamma-star *)
  (** research/schur_gamma_star.py:34-36  [gamma_star]; [n] is a Python int *)
  Definition gamma_star (n : Z) (rho2 : N) : res N :=
    let k := nmul (nofZ (n - 2)) rho2 in py_div k (nadd k (nsub n1 rho2)).
  (** research/schur_gamma_star.py:39-42  [_ab_s_from(rho2, s)] *)
  Definition ab_s_from (rho2 s : N) : res (N * N * N) :=
    r <- py_div rho2 (nsub n1 rho2) ;; Ok (n1, nsqrt (nmul r s), s).
  (** research/schur_gamma_star.py:45-53  [residual_R]; the random draws are an argument: one pair (x1, eps)
      per repetition.  [b_hat] is a numpy scalar, its division does not raise *)
  Definition draw_value (gamma a b s : N) (d : vec * vec) : res N :=
    let '(x1, eps) := d in
    x2 <- vadd (vscale b x1) eps ;;
    u <- vdot x1 x2 ;;
    v <- vdot x1 x1 ;;
    let b_hat := ndiv u v in
    Ok (nadd (nmul (nsq (nsub b (nmul gamma b_hat))) a) s).
  (** research/schur_gamma_star.py:45-53  [residual_R] *)
  Definition residual_R (gamma a b s : N) (draws : list (vec * vec)) : res N :=
    vals <- mapM (draw_value gamma a b s) draws ;; Ok (vmean vals).

  (** ** The quadratic form of the score *)
  (** research/schur_godambe.py:52-65  the body of the loop of [schur_operator]: the damped residual map T, the symmetrised
      conditional covariance Sg, and the two increments.  [T[:, cols] = V] is [set_sub] over all rows of T *)
  Definition operator_terms (Sig : mat) (gamma : N) (p : nat) (prev rows : list nat) : res (mat * N) :=
    let k := length rows in
    let T0 := set_sub (mzeros k p) (seq 0 k) rows (meye k) in
    '(T, Sg) <- match prev with
      | [] => Sg <- sub Sig rows rows ;; Ok (T0, Sg)
      | _ =>
        cWW <- sub Sig prev prev ;;
        cKW <- sub Sig rows prev ;;
        iWW <- la_inv L cWW ;;
        Gk <- matmul cKW iWW ;;
        cKK <- sub Sig rows rows ;;
        X <- la_solve L cWW (transpose cKW) ;;
        h <- matmul (mscale gamma cKW) X ;;
        Sg <- msub cKK h ;;
        Ok (set_sub T0 (seq 0 k) prev (mscale (nopp gamma) Gk), Sg)
      end ;;
    Sg <- half_sym Sg ;;
    X <- la_solve L Sg T ;;
    dW <- matmul (transpose T) X ;;
    '(_, ld) <- la_slogdet L Sg ;;
    Ok (dW, ld).
  (** research/schur_godambe.py:45-67  the loop of [schur_operator] *)
  Fixpoint operator_loop (Sig : mat) (gamma : N) (p : nat) (idx : list (list nat)) (W : mat) (Ld : N) (prev : list nat) : res (mat * N) :=
    match idx with
    | [] => Ok (W, Ld)
    | rows :: rest =>
      '(dW, ld) <- operator_terms Sig gamma p prev rows ;;
      W' <- madd W dW ;;
      operator_loop Sig gamma p rest W' (nadd Ld ld) (prev ++ rows)
    end.
  (** research/schur_godambe.py:45-67  [schur_operator] *)
  Definition schur_operator (Sig : mat) (sizes : list nat) (gamma : N) : res (mat * N) :=
    let p := fold_left Nat.add sizes 0 in
    '(W, Ld) <- operator_loop Sig gamma p (blocks_of sizes) (mzeros p p) n0 [] ;;
    W <- half_sym W ;;
    Ok (W, Ld).
  (** [np.inf] *)
  (** research/schur_godambe.py:78 *)
  Definition plus_inf : N := ndiv n1 n0.
  (** research/schur_godambe.py:70-78  [snr] *)
  Definition snr (Sig_A Sig_B Sig_t : mat) (sizes : list nat) (gamma : N) : res N :=
    '(WA, LdA) <- schur_operator Sig_A sizes gamma ;;
    '(WB, LdB) <- schur_operator Sig_B sizes gamma ;;
    dW <- msub WA WB ;;
    M <- matmul dW Sig_t ;;
    let mu := nmul mhalf (nadd (nsub LdA LdB) (mtrace M)) in
    MM <- matmul M M ;;
    let var := nmul phalf (mtrace MM) in
    Ok (if nltb n0 var then ndiv mu (nsqrt var) else plus_inf).
  (** research/schur_godambe.py:115-120  [_kl] *)
  Definition kl (Sig_hat Sig_t : mat) : res N :=
    let p := nrows Sig_t in
    iH <- la_inv L Sig_hat ;;
    M <- matmul iH Sig_t ;;
    '(_, lh) <- la_slogdet L Sig_hat ;;
    '(_, lt) <- la_slogdet L Sig_t ;;
    Ok (nmul phalf (nsub (nadd (nsub (mtrace M) (nofZ (Z.of_nat p))) lh) lt)).
End Research.

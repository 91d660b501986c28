(** * Model of the scoring functions of research/metric_power.py

    [X] is a 2-d array of test rows, [dirs] an array of directions (one per row), a subspace is a (k, p) array.
    The random generators and the Monte-Carlo loops around these functions are in PowerModel.v; their paired comparison is [agrees].
    Not modelled: timing and printing. *)
From Coq Require Import ZArith List Bool.
From Verif Require Import Num Numpy LinalgModel BaseModel Estimators AssessModel ResearchModel.
Import ListNotations.

Section Metric.
  Context {N : Num} (L : LinAlg N).
  (** [np.log] *)
  Context (log : N -> N).
  Notation vec := (vec N).
  Notation mat := (mat N).

  (** research/metric_power.py:28-31  [_project_pd(m, floor_ratio=1e-3)] *)
  Definition project_pd (m : mat) : res mat :=
    a <- to_symmetric m ;;
    '(w, V) <- la_eigh L a ;;
    top <- vmax w ;;
    let w := map (fun l => np_clip_lo l (nmul (nlit 1 3) top)) w in
    VW <- mapM (fun row => vmul row w) V ;;
    matmul VW (transpose V).

  (** research/metric_power.py:42-48  [_kl(true_cov, est_cov)] *)
  Definition mp_kl (true_cov est_cov : mat) : res N :=
    let p := nrows true_cov in
    prec <- la_inv L est_cov ;;
    '(_, ld_est) <- la_slogdet L est_cov ;;
    '(_, ld_true) <- la_slogdet L true_cov ;;
    M <- matmul prec true_cov ;;
    Ok (nmul phalf (nsub (nadd (nsub (mtrace M) (nofn p)) ld_est) ld_true)).

  (** research/metric_power.py:52-56  [_loglik] *)
  Definition mp_loglik (cov X : mat) : res N :=
    prec <- la_inv L cov ;;
    '(_, logdet) <- la_slogdet L prec ;;
    quad <- mapM (fun row => einsum_quad row prec) X ;;
    Ok (vmean (map (fun q => nsub (nmul phalf logdet) (nmul phalf q)) quad)).

  (** research/metric_power.py:59-61  [_frobenius]; with one variable [np.cov] is 0-d and the subtraction broadcasts to the same result *)
  Definition mp_frobenius (cov X : mat) : res N :=
    S <- np_cov X ;; D <- msub cov S ;; Ok (nopp (mnorm D)).

  (** research/metric_power.py:64-68  [_stein]; with one variable [np.cov] is 0-d and [@] raises ValueError *)
  Definition mp_stein (cov X : mat) : res N :=
    S <- np_cov X ;;
    P <- la_inv L cov ;;
    if Nat.eqb (ncols X) 1 then Err ValueError else
    M <- matmul P S ;;
    '(_, logdet) <- la_slogdet L M ;;
    Ok (nopp (nsub (nsub (mtrace M) logdet) (nofn (nrows cov)))).

  (** research/metric_power.py:71-76  [_random_projection] *)
  Definition mp_random_projection (cov X dirs : mat) : res N :=
    pv <- mapM (fun d => einsum_quad d cov) dirs ;;
    proj <- matmul X (transpose dirs) ;;
    ll <- mapM (fun row =>
        t <- vdiv (map (fun z => nmul phalf (nsq z)) row) pv ;;
        vsub (map (fun v => nmul mhalf (log v)) pv) t) proj ;;
    Ok (vmean (concat ll)).

  (** research/metric_power.py:79-83  [_min_variance]; the 1-d right-hand side of [solve] is a one-column array *)
  Definition mp_min_variance (cov X : mat) : res N :=
    W <- la_solve L cov (map (fun x => [x]) (vones (nrows cov))) ;;
    let w := mcol W 0 in
    let w := vdivs w (vsum w) in
    r <- matvec X w ;;
    Ok (nopp (vmean (map nsq r))).

  (** research/metric_power.py:86-89  [_mahalanobis_cal] *)
  Definition mp_maha_calib (cov X : mat) : res N :=
    prec <- la_inv L cov ;;
    maha2 <- mapM (fun row => einsum_quad row prec) X ;;
    Ok (nopp (nabs (nsub (vmean maha2) (nofn (nrows cov))))).

  (** research/metric_power.py:163-173  [_kproj_loglik]: the body of the loop is [_loglik] of the projected covariance and data *)
  Definition projected_loglik (cov X W : mat) : res N :=
    Z <- matmul X (transpose W) ;;
    WC <- matmul W cov ;;
    C <- matmul WC (transpose W) ;;
    mp_loglik C Z.
  (** research/metric_power.py:163-173  [_kproj_loglik], the loop *)
  Fixpoint kproj_total (cov X : mat) (subspaces : list mat) (total : N) : res N :=
    match subspaces with
    | [] => Ok total
    | W :: r => t <- projected_loglik cov X W ;; kproj_total cov X r (nadd total t)
    end.
  (** research/metric_power.py:163-173  [_kproj_loglik] *)
  Definition mp_kproj_loglik (cov X : mat) (subspaces : list mat) : res N :=
    total <- kproj_total cov X subspaces n0 ;;
    py_div total (nofn (length subspaces)).

  (** research/metric_power.py:296-305  [_schur_loglik(cov, X, block_id, gamma)] *)
  Definition mp_schur_loglik (cov X : mat) (block_id : list nat) (gamma : N) : res N :=
    c <- damp (length block_id) (cross_of block_id) gamma cov ;;
    c <- project_pd c ;;
    mp_loglik c X.

  (** research/metric_power.py:362-383  [block_pseudo_loglik]; [range] raises on a zero step and is empty on a negative one *)
  Definition mp_block_pseudo_loglik (cov X : mat) (block_size : Z) : res N :=
    let p := nrows cov in
    if (block_size =? 0)%Z then Err ValueError
    else if (block_size <? 0)%Z then Ok n0
    else
      let bs := Z.to_nat block_size in
      accum (fun s => let e := Nat.min (s + bs) p in
        c <- project_pd (mslice cov s e s e) ;;
        '(_, logdet) <- la_slogdet L c ;;
        ci <- la_inv L c ;;
        quad <- mapM (fun row => einsum_quad row ci) (map (slice s e) X) ;;
        Ok (vmean (map (fun q => nmul mhalf (nadd (nadd (nmul (nofn (nrows c)) (la_log2pi L)) logdet) q)) quad))) (starts p bs) n0.

  (** research/metric_power.py:131, 202, 285-291, 353-357, 424-427: the paired comparison [fn(good) > fn(bad)] of one trial *)
  Definition agrees (fn : mat -> res N) (good bad : mat) : res bool :=
    a <- fn good ;; b <- fn bad ;; Ok (nltb b a).
  (** research/metric_power.py:116-118, 191-192, 421: the genuinely better one of the two estimates comes first *)
  Definition by_kl (true_cov good bad : mat) : res (mat * mat) :=
    kg <- mp_kl true_cov good ;; kb <- mp_kl true_cov bad ;;
    Ok (if nleb kg kb then (good, bad) else (bad, good)).

End Metric.

(** * Models of the positional estimator classes

    One section per module of /repo/precise.  Each class is an [EstClass] over a parameter record;
    the [diff] flag is handled by the base class. *)
From Coq Require Import ZArith Bool String List.
From Verif Require Import Num Numpy PyVal LinalgModel StateModel BaseModel.
Import ListNotations.
Local Open Scope string_scope.

Section Estimators.
  Context {N : Num} (L : LinAlg N).
  Notation vec := (vec N).
  Notation mat := (mat N).
  Notation dict := (dict N).

  (** precise/base.py:37-47, 140-161: a class that overrides only the state hooks *)
  Definition dict_class (name : string) (P : Type) (diff : P -> bool)
      (init : P -> nat -> res dict) (update : P -> dict -> vec -> res dict)
      (cov : P -> dict -> res mat) : EstClass N :=
    mkClass N name P dict diff init update cov (fun _ => dict_mean) dict_nsamples None
            dict_get dict_set.

  (** ** precise/empirical.py *)
  Record EmpP := mkEmpP { emp_diff : bool }.
  (** precise/empirical.py:27-31 *)
  Definition Empirical : EstClass N :=
    dict_class "EmpiricalCovariance" EmpP emp_diff
      (fun _ n => Ok (emp_init n)) (fun _ => emp_update) (fun _ => dict_cov).

  (** ** precise/ewa.py *)
  Record EwaP := mkEwaP { ewa_r : N; ewa_diff : bool }.
  (** precise/ewa.py:28-32 *)
  Definition Ewa : EstClass N :=
    dict_class "EwaCovariance" EwaP ewa_diff
      (fun p n => ewa_init n (ewa_r p)) (fun _ => ewa_update) (fun _ => dict_cov).

  (** ** precise/diagonal.py *)
  (** precise/diagonal.py:28-36 *)
  Definition diag_init (p : EwaP) (n_dim : nat) : res dict :=
    n_burn <- ewa_burn_n (ewa_r p) ;;
    Ok [("n_dim", VInt n_dim); ("n_samples", VInt 0); ("mean", VArr (A1 (vzeros n_dim)));
        ("var", VArr (A1 (vzeros n_dim))); ("r", VNum (ewa_r p)); ("n_burn", VInt n_burn)].
  (** precise/diagonal.py:38-55 *)
  Definition diag_update (s : dict) (x : vec) : res dict :=
    ns <- getI "n_samples" s ;;
    n_burn <- getI "n_burn" s ;;
    r <- getN "r" s ;;
    s_mean <- getV "mean" s ;;
    s_var <- getV "var" s ;;
    n_dim <- getI "n_dim" s ;;
    let n := S ns in
    dev <- vsub x s_mean ;;
    sq <- vmul dev dev ;;
    '(mean, var) <-
      (if Nat.leb n n_burn then
         mean <- vadd s_mean (vdivs dev (nofn n)) ;;
         dv <- vsub sq s_var ;;
         var <- vadd s_var (vdivs dv (nofn n)) ;;
         Ok (mean, var)
       else
         mean <- vadd (vscale (nsub n1 r) s_mean) (vscale r x) ;;
         var <- vadd (vscale (nsub n1 r) s_var) (vscale r sq) ;;
         Ok (mean, var)) ;;
    Ok [("n_dim", VInt n_dim); ("n_samples", VInt n); ("mean", VArr (A1 mean));
        ("var", VArr (A1 var)); ("r", VNum r); ("n_burn", VInt n_burn)].
  (** precise/diagonal.py:57-58 *)
  Definition diag_cov (s : dict) : res mat := v <- getV "var" s ;; Ok (mdiag v).
  (** precise/diagonal.py:16-61 *)
  Definition Diagonal : EstClass N :=
    dict_class "DiagonalCovariance" EwaP ewa_diff diag_init (fun _ => diag_update) (fun _ => diag_cov).

  (** ** precise/adaptive.py *)
  Record AdaP := mkAdaP { ada_r : N; ada_max_r : N; ada_diff : bool }.
  (** precise/adaptive.py:35  [_DETECT] *)
  Definition DETECT : N := nlit 1 1.
  (** precise/adaptive.py:37-41 *)
  Definition ada_init (p : AdaP) (n_dim : nat) : res dict :=
    s <- ewa_init n_dim (ada_r p) ;;
    Ok (s ++ [("max_r", VNum (ada_max_r p)); ("sbar", VNum n1)])%list.
  (** precise/adaptive.py:43-67 *)
  Definition ada_update (s : dict) (x : vec) : res dict :=
    ns <- getI "n_samples" s ;;
    n_burn <- getI "n_burn" s ;;
    base <- getN "r" s ;;
    max_r <- getN "max_r" s ;;
    s_sbar <- getN "sbar" s ;;
    if Nat.ltb ns n_burn then
      out <- emp_update s x ;;
      Ok (out ++ [("r", VNum base); ("n_burn", VInt n_burn); ("max_r", VNum max_r);
                  ("sbar", VNum s_sbar)])%list
    else
      p <- getI "n_dim" s ;;
      s_mean <- getV "mean" s ;;
      s_cov <- getM "cov" s ;;
      dev <- vsub x s_mean ;;
      inv <- try_invert L s_cov ;;
      dp <- vecmat dev inv ;;
      maha2 <- vdot dp dev ;;
      let ratio := if Nat.ltb 0 p then ndiv maha2 (nofn p) else n1 in
      let sbar := nadd (nmul (nsub n1 DETECT) s_sbar) (nmul DETECT ratio) in
      let r_eff := py_min (py_max (nmul base sbar) base) max_r in
      mean <- vadd (vscale (nsub n1 r_eff) s_mean) (vscale r_eff x) ;;
      cov <- madd (mscale (nsub n1 r_eff) s_cov) (mscale r_eff (outer dev dev)) ;;
      Ok [("n_dim", VInt p); ("n_samples", VInt (S ns)); ("mean", VArr (A1 mean));
          ("cov", VArr (A2 cov)); ("r", VNum base); ("n_burn", VInt n_burn);
          ("max_r", VNum max_r); ("sbar", VNum sbar)].
  (** precise/adaptive.py:18-67 *)
  Definition Adaptive : EstClass N :=
    dict_class "AdaptiveEwaCovariance" AdaP ada_diff ada_init (fun _ => ada_update) (fun _ => dict_cov).

  (** ** precise/ledoitwolf.py *)
  (** precise/ledoitwolf.py:29-32 *)
  Definition lw_init (p : EwaP) (n_dim : nat) : res dict :=
    s <- ewa_init n_dim (ewa_r p) ;; Ok (s ++ [("pi_bar", VNum n0)])%list.
  (** precise/ledoitwolf.py:34-52 *)
  Definition lw_update (s : dict) (x : vec) : res dict :=
    ns <- getI "n_samples" s ;;
    n_burn <- getI "n_burn" s ;;
    r <- getN "r" s ;;
    pi_bar <- getN "pi_bar" s ;;
    if Nat.ltb ns n_burn then
      out <- emp_update s x ;;
      Ok (out ++ [("r", VNum r); ("n_burn", VInt n_burn); ("pi_bar", VNum pi_bar)])%list
    else
      p <- getI "n_dim" s ;;
      s_mean <- getV "mean" s ;;
      s_cov <- getM "cov" s ;;
      delta <- vsub x s_mean ;;
      let scatter := outer delta delta in
      d <- msub scatter s_cov ;;
      let q := ndiv (msum (mmap nsq d)) (nofn p) in
      mean <- vadd (vscale (nsub n1 r) s_mean) (vscale r x) ;;
      cov <- madd (mscale (nsub n1 r) s_cov) (mscale r scatter) ;;
      Ok [("n_dim", VInt p); ("n_samples", VInt (S ns)); ("mean", VArr (A1 mean));
          ("cov", VArr (A2 cov)); ("r", VNum r); ("n_burn", VInt n_burn);
          ("pi_bar", VNum (nadd (nmul (nsub n1 r) pi_bar) (nmul r q)))].
  (** precise/ledoitwolf.py:54-64 *)
  Definition lw_cov (s : dict) : res mat :=
    S_ <- getM "cov" s ;;
    p <- getI "n_dim" s ;;
    let mu := ndiv (mtrace S_) (nofn p) in
    dm <- msub S_ (mscale mu (meye p)) ;;
    let d2 := ndiv (msum (mmap nsq dm)) (nofn p) in
    pi_bar <- getN_default "pi_bar" n0 s ;;
    if nleb d2 n0 || nleb pi_bar n0 then Ok S_
    else
      r <- getN "r" s ;;
      let b2 := py_min (nmul pi_bar r) d2 in
      let intensity := np_clip (ndiv b2 d2) n0 n1 in
      madd (mscale (nsub n1 intensity) S_) (mscale (nmul intensity mu) (meye p)).
  (** precise/ledoitwolf.py:17-64 *)
  Definition LedoitWolf : EstClass N :=
    dict_class "LedoitWolfCovariance" EwaP ewa_diff lw_init (fun _ => lw_update) (fun _ => lw_cov).

  (** ** precise/oas.py *)
  (** precise/oas.py:36-47 *)
  Definition oas_cov (s : dict) : res mat :=
    S_ <- getM "cov" s ;;
    p <- getI "n_dim" s ;;
    r <- getN "r" s ;;
    rinv <- py_div n1 r ;;
    let n := py_max rinv (nofZ 2) in
    let tr := mtrace S_ in
    SS <- matmul S_ S_ ;;
    let tr2 := mtrace SS in
    let mu := ndiv tr (nofn p) in
    two_p <- py_div (nofZ 2) (nofn p) ;;
    let num := nadd (nmul (nsub n1 two_p) tr2) (nmul tr tr) in
    let den := nmul (nsub (nadd n n1) two_p) (nsub tr2 (ndiv (nmul tr tr) (nofn p))) in
    let rho := if nleb den n0 then n1 else py_min (py_max (ndiv num den) n0) n1 in
    madd (mscale (nsub n1 rho) S_) (mscale (nmul rho mu) (meye p)).
  (** precise/oas.py:30-34 *)
  Definition OAS : EstClass N :=
    dict_class "OASCovariance" EwaP ewa_diff
      (fun p n => ewa_init n (ewa_r p)) (fun _ => ewa_update) (fun _ => oas_cov).

  (** ** precise/shrunk.py *)
  Record ShrP := mkShrP { shr_r : N; shr_delta : N; shr_target : string; shr_diff : bool }.
  (** Entries [(i, j)] of a p x p array selected by a boolean mask, in row-major order. *)
  (** precise/shrunk.py:55, precise/schur_ledoit_wolf.py:68, 82, precise/schur_conditional.py:73 *)
  Definition masked (p : nat) (mask : nat -> nat -> bool) (a : mat) : vec :=
    flat_map (fun i => flat_map (fun j => if mask i j then [mget a i j] else []) (seq 0 p)) (seq 0 p).
  (** Boolean-mask indexing needs the array to have the mask's shape, else IndexError. *)
  (** numpy's condition on the masks of precise/shrunk.py:55, precise/schurcov.py:57, 60, precise/schur_ledoit_wolf.py:87 *)
  Definition check_shape (p : nat) (a : mat) : res unit :=
    if Nat.eqb (nrows a) p && forallb (fun r => Nat.eqb (length r) p) a then Ok tt else Err IndexError.
  (** precise/shrunk.py:47-59 *)
  Definition shr_cov (P : ShrP) (s : dict) : res mat :=
    S_ <- getM "cov" s ;;
    p <- getI "n_dim" s ;;
    target <-
      (if String.eqb (shr_target P) "identity" then
         Ok (mscale (ndiv (mtrace S_) (nofn p)) (meye p))
       else
         let d := map (fun v => nsqrt (np_max v (nlit 1 12))) (diagonal S_) in
         corr <- mdiv S_ (outer d d) ;;
         _ <- check_shape p corr ;;
         let off := masked p (fun i j => negb (Nat.eqb i j)) corr in
         let rbar := match off with [] => n0 | _ => vmean off end in
         let t := mscale rbar (outer d d) in
         Ok (tab2 (nrows t) (ncols t)
                  (fun i j => if Nat.eqb i j then mget S_ i i else mget t i j))) ;;
    madd (mscale (nsub n1 (shr_delta P)) S_) (mscale (shr_delta P) target).
  (** precise/shrunk.py:41-45 *)
  Definition Shrunk : EstClass N :=
    dict_class "ShrunkCovariance" ShrP shr_diff
      (fun p n => ewa_init n (shr_r p)) (fun _ => ewa_update) shr_cov.

  (** ** Contiguous blocks: [np.array_split(np.arange(p), nb)] *)
  (** numpy's rule: the first [p mod nb] sections have one element more; [nb <= 0] raises. *)
  (** precise/schurcov.py:52, precise/schur_ledoit_wolf.py:48, precise/block_covariance.py:42, precise/schur_conditional.py:48, 53 *)
  Definition split_sizes (p : nat) (nb : Z) : res (list nat) :=
    if (nb <=? 0)%Z then Err ValueError
    else let k := Z.to_nat nb in
         Ok (repeat (S (p / k)) (p mod k) ++ repeat (p / k) (k - p mod k))%list.
  (** precise/block_covariance.py:40-42: first and last index of each section *)
  Fixpoint bounds (a : nat) (sizes : list nat) : list (nat * nat) :=
    match sizes with [] => [] | s :: r => (a, a + s) :: bounds (a + s) r end.
  (** precise/schurcov.py:51-53: the section number of every index *)
  Fixpoint ids (b : nat) (sizes : list nat) : list nat :=
    match sizes with [] => [] | s :: r => (repeat b s ++ ids (S b) r)%list end.
  (** precise/block_covariance.py:40-42, precise/schur_conditional.py:46-48  [_slices] *)
  Definition slices (n_blocks : Z) (p : nat) : res (list (nat * nat)) :=
    sz <- split_sizes p (Z.min (Z.max 1 n_blocks) (Z.of_nat p)) ;; Ok (bounds 0 sz).
  (** precise/schurcov.py:50-53, precise/schur_ledoit_wolf.py:46-49 (no lower clamp on n_blocks) *)
  Definition block_id (n_blocks : Z) (p : nat) : res (list nat) :=
    sz <- split_sizes p (Z.min n_blocks (Z.of_nat p)) ;; Ok (ids 0 sz).
  (** precise/schur_conditional.py:50-55 (with the lower clamp) *)
  Definition block_id1 (n_blocks : Z) (p : nat) : res (list nat) :=
    sz <- split_sizes p (Z.min (Z.max 1 n_blocks) (Z.of_nat p)) ;; Ok (ids 0 sz).
  (** [block_id[:, None] != block_id[None, :]] *)
  (** precise/schurcov.py:54, precise/schur_ledoit_wolf.py:50, precise/schur_conditional.py:72 *)
  Definition cross_of (bid : list nat) (i j : nat) : bool :=
    negb (Nat.eqb (nth i bid 0) (nth j bid 0)).
  (** [out = cov.copy(); out[cross] *= gamma] *)
  (** precise/schurcov.py:59-60, precise/schur_ledoit_wolf.py:86-87 *)
  Definition damp (p : nat) (cross : nat -> nat -> bool) (gamma : N) (cov : mat) : res mat :=
    _ <- check_shape p cov ;;
    Ok (tab2 p p (fun i j => if cross i j then nmul (mget cov i j) gamma else mget cov i j)).
  (** [block_diag = cov.copy(); block_diag[cross] = 0.0] *)
  (** precise/schurcov.py:56-57 *)
  Definition zero_cross (p : nat) (cross : nat -> nat -> bool) (cov : mat) : res mat :=
    _ <- check_shape p cov ;;
    Ok (tab2 p p (fun i j => if cross i j then n0 else mget cov i j)).

  (** ** precise/block_covariance.py *)
  Record BlkP := mkBlkP { blk_r : N; blk_n_blocks : Z; blk_diff : bool }.
  (** precise/block_covariance.py:44-53: the entries of [_state] *)
  Record blk_state := mkBlk {
    b_dim : nat; b_n : nat; b_r : N; b_burn : nat;
    b_slices : list (nat * nat); b_subs : list dict }.
  (** precise/block_covariance.py:44-53 *)
  Definition blk_init (p : BlkP) (n_dim : nat) : res blk_state :=
    sl <- slices (blk_n_blocks p) n_dim ;;
    n_burn <- ewa_burn_n (blk_r p) ;;
    subs <- mapM (fun ab => ewa_init (snd ab - fst ab) (blk_r p)) sl ;;
    Ok (mkBlk n_dim 0 (blk_r p) n_burn sl subs).
  (** precise/block_covariance.py:57-60: a loop over [zip] *)
  Fixpoint zipM {A B C} (f : A -> B -> res C) (a : list A) (b : list B) : res (list C) :=
    match a, b with
    | x :: a', y :: b' => c <- f x y ;; cs <- zipM f a' b' ;; Ok (c :: cs)
    | _, _ => Ok []
    end.
  (** precise/block_covariance.py:55-61 *)
  Definition blk_update (s : blk_state) (x : vec) : res blk_state :=
    subs <- zipM (fun sub ab => ewa_update sub (slice (fst ab) (snd ab) x)) (b_subs s) (b_slices s) ;;
    Ok (mkBlk (b_dim s) (S (b_n s)) (b_r s) (b_burn s) (b_slices s) subs).
  (** precise/block_covariance.py:63-65 *)
  Definition pd_block (sub : dict) : res mat :=
    c <- getM "cov" sub ;; s <- to_symmetric c ;; make_pos_def L s.
  (** [out[a:b, a:b] = blk] on a zero matrix: the [k]-th block is read at local indices.
      Simplification: assigning a block of the wrong shape raises ValueError. *)
  (** precise/block_covariance.py:71, 83 *)
  Definition block_ok (ab : nat * nat) (blk : mat) : bool :=
    Nat.eqb (nrows blk) (snd ab - fst ab)
    && forallb (fun r => Nat.eqb (length r) (snd ab - fst ab)) blk.
  (** precise/block_covariance.py:71, 83: is the index inside [a:b] *)
  Definition in_block (ab : nat * nat) (i : nat) : bool := Nat.leb (fst ab) i && Nat.ltb i (snd ab).
  (** precise/block_covariance.py:67-72: the entry after all block assignments *)
  Fixpoint block_entry (l : list ((nat * nat) * mat)) (i j : nat) : N :=
    match l with
    | [] => n0
    | (ab, blk) :: r =>
      if in_block ab i && in_block ab j then mget blk (i - fst ab) (j - fst ab)
      else block_entry r i j
    end.
  (** precise/block_covariance.py:67-72, 78-84: the loop of block assignments *)
  Definition assemble (p : nat) (l : list ((nat * nat) * mat)) : res mat :=
    if forallb (fun e => block_ok (fst e) (snd e)) l then Ok (tab2 p p (block_entry l)) else Err ValueError.
  (** precise/block_covariance.py:67-72 *)
  Definition blk_cov (s : blk_state) : res mat :=
    l <- zipM (fun sub ab => b <- pd_block sub ;; Ok (ab, b)) (b_subs s) (b_slices s) ;;
    assemble (b_dim s) l.
  (** precise/block_covariance.py:74-84 *)
  Definition blk_prec (s : blk_state) : res mat :=
    l <- zipM (fun sub ab => b <- pd_block sub ;; i <- la_inv L b ;; Ok (ab, i))
              (b_subs s) (b_slices s) ;;
    assemble (b_dim s) l.
  (** precise/block_covariance.py:86-90 *)
  Fixpoint block_ventry (l : list ((nat * nat) * vec)) (i : nat) : N :=
    match l with
    | [] => n0
    | (ab, v) :: r => if in_block ab i then vget v (i - fst ab) else block_ventry r i
    end.
  (** precise/block_covariance.py:86-90 *)
  Definition blk_mean (s : blk_state) : res vec :=
    l <- zipM (fun sub ab => m <- getV "mean" sub ;; Ok (ab, m)) (b_subs s) (b_slices s) ;;
    if forallb (fun e => Nat.eqb (length (snd e)) (snd (fst e) - fst (fst e))) l
    then Ok (tab (b_dim s) (block_ventry l)) else Err ValueError.
  (** precise/block_covariance.py:94-106  [get_state] *)
  Definition blk_get (s : blk_state) : res (jdict N) :=
    means <- mapM (fun sub => m <- getV "mean" sub ;; Ok (tolist (A1 m))) (b_subs s) ;;
    covs <- mapM (fun sub => c <- getM "cov" sub ;; Ok (tolist (A2 c))) (b_subs s) ;;
    Ok [("n_dim", JInt (b_dim s)); ("n_samples", JInt (b_n s)); ("r", JNum (b_r s));
        ("n_burn", JInt (b_burn s));
        ("slices", JList (map (fun ab => JList [JInt (fst ab); JInt (snd ab)]) (b_slices s)));
        ("block_means", JList means); ("block_covs", JList covs)].
  (** precise/block_covariance.py:108-123: an int entry of the saved dict *)
  Definition jgetI (k : string) (d : jdict N) : res nat :=
    match dget k d with None => Err KeyError | Some (JInt n) => Ok n | Some _ => Err TypeError end.
  (** precise/block_covariance.py:108-123: a float entry of the saved dict *)
  Definition jgetN (k : string) (d : jdict N) : res N :=
    match dget k d with
    | None => Err KeyError | Some (JNum x) => Ok x | Some (JInt n) => Ok (nofn n)
    | Some _ => Err TypeError end.
  (** precise/block_covariance.py:108-123: a list entry of the saved dict *)
  Definition jgetL (k : string) (d : jdict N) : res (list (json N)) :=
    match dget k d with None => Err KeyError | Some (JList l) => Ok l | Some _ => Err TypeError end.
  (** precise/block_covariance.py:113-119: [np.array(m, dtype=float)] *)
  Definition as_array (j : json N) : res (ndarray N) :=
    match j with JList l => np_array l | _ => Err TypeError end.
  (** precise/block_covariance.py:113-119: the comprehension over three zipped lists *)
  Fixpoint zip3M {A B C D} (f : A -> B -> C -> res D) (a : list A) (b : list B) (c : list C)
    : res (list D) :=
    match a, b, c with
    | x :: a', y :: b', z :: c' => d <- f x y z ;; ds <- zip3M f a' b' c' ;; Ok (d :: ds)
    | _, _, _ => Ok []
    end.
  (** precise/block_covariance.py:108-123  [set_state] of a non-None state *)
  Definition blk_set (d : jdict N) : res (blk_state * option nat) :=
    ns <- jgetI "n_samples" d ;;
    r <- jgetN "r" d ;;
    n_burn <- jgetI "n_burn" d ;;
    sl <- jgetL "slices" d ;;
    sl <- mapM (fun j => match j with JList [JInt a; JInt b] => Ok (a, b) | _ => Err ValueError end) sl ;;
    means <- jgetL "block_means" d ;;
    covs <- jgetL "block_covs" d ;;
    subs <- zip3M (fun ab m c =>
               ma <- as_array m ;; ca <- as_array c ;;
               Ok [("n_dim", VInt (snd ab - fst ab)); ("n_samples", VInt ns); ("r", VNum r);
                   ("n_burn", VInt n_burn); ("mean", VArr ma); ("cov", VArr ca)]) sl means covs ;;
    n_dim <- jgetI "n_dim" d ;;
    Ok (mkBlk n_dim ns r n_burn sl subs, Some n_dim).
  (** precise/block_covariance.py:26-123 *)
  Definition Block : EstClass N :=
    mkClass N "BlockCovariance" BlkP blk_state blk_diff blk_init (fun _ => blk_update)
            (fun _ => blk_cov) (fun _ => blk_mean) (fun s => Ok (b_n s)) (Some (fun _ => blk_prec))
            blk_get blk_set.

  (** ** precise/schurcov.py *)
  Record SchP := mkSchP { sch_r : N; sch_n_blocks : Z; sch_gamma : N; sch_interp : string; sch_diff : bool }.
  (** precise/schurcov.py:47-61 *)
  Definition sch_cov (P : SchP) (s : dict) : res mat :=
    cov <- getM "cov" s ;;
    p <- getI "n_dim" s ;;
    bid <- block_id (sch_n_blocks P) p ;;
    let cross := cross_of bid in
    if String.eqb (sch_interp P) "geodesic" then
      block_diag <- zero_cross p cross cov ;;
      a <- make_pos_def L block_diag ;;
      b <- make_pos_def L cov ;;
      geodesic_step L a b (sch_gamma P)
    else
      out <- damp p cross (sch_gamma P) cov ;;
      o <- to_symmetric out ;;
      make_pos_def L o.
  (** precise/schurcov.py:41-45 *)
  Definition Schur : EstClass N :=
    dict_class "SchurCovariance" SchP sch_diff
      (fun p n => ewa_init n (sch_r p)) (fun _ => ewa_update) sch_cov.

  (** ** precise/schur_ledoit_wolf.py *)
  (** precise/schur_ledoit_wolf.py:52-57 *)
  Definition slw_init (P : BlkP) (n_dim : nat) : res dict :=
    s <- ewa_init n_dim (blk_r P) ;; Ok (s ++ [("pi_cross", VNum n0)])%list.
  (** precise/schur_ledoit_wolf.py:59-77 *)
  Definition slw_update (P : BlkP) (s : dict) (x : vec) : res dict :=
    ns <- getI "n_samples" s ;;
    n_burn <- getI "n_burn" s ;;
    r <- getN "r" s ;;
    pi_cross <- getN "pi_cross" s ;;
    if Nat.ltb ns n_burn then
      out <- emp_update s x ;;
      Ok (out ++ [("r", VNum r); ("n_burn", VInt n_burn); ("pi_cross", VNum pi_cross)])%list
    else
      p <- getI "n_dim" s ;;
      bid <- block_id (blk_n_blocks P) p ;;
      s_mean <- getV "mean" s ;;
      s_cov <- getM "cov" s ;;
      delta <- vsub x s_mean ;;
      let scatter := outer delta delta in
      d <- msub scatter s_cov ;;
      let d2 := mmap nsq d in
      _ <- check_shape p d2 ;;
      let q := vsum (masked p (cross_of bid) d2) in
      mean <- vadd (vscale (nsub n1 r) s_mean) (vscale r x) ;;
      cov <- madd (mscale (nsub n1 r) s_cov) (mscale r scatter) ;;
      Ok [("n_dim", VInt p); ("n_samples", VInt (S ns)); ("mean", VArr (A1 mean));
          ("cov", VArr (A2 cov)); ("r", VNum r); ("n_burn", VInt n_burn);
          ("pi_cross", VNum (nadd (nmul (nsub n1 r) pi_cross) (nmul r q)))].
  (** precise/schur_ledoit_wolf.py:80-85  the value stored in [gamma_] on read *)
  Definition slw_gamma (P : BlkP) (s : dict) : res N :=
    cov <- getM "cov" s ;;
    p <- getI "n_dim" s ;;
    bid <- block_id (blk_n_blocks P) p ;;
    _ <- check_shape p cov ;;
    let m2 := vsum (masked p (cross_of bid) (mmap nsq cov)) in
    pi_cross <- getN_default "pi_cross" n0 s ;;
    r <- getN "r" s ;;
    let b2 := nmul pi_cross r in
    if nltb n0 m2
    then q <- py_div b2 m2 ;; Ok (np_clip (nsub n1 q) n0 n1)
    else Ok n1.
  (** precise/schur_ledoit_wolf.py:79-88 *)
  Definition slw_cov (P : BlkP) (s : dict) : res mat :=
    gamma <- slw_gamma P s ;;
    cov <- getM "cov" s ;;
    p <- getI "n_dim" s ;;
    bid <- block_id (blk_n_blocks P) p ;;
    out <- damp p (cross_of bid) gamma cov ;;
    o <- to_symmetric out ;;
    make_pos_def L o.
  (** precise/schur_ledoit_wolf.py:28-88 *)
  Definition SchurLW : EstClass N :=
    dict_class "SchurLedoitWolfCovariance" BlkP blk_diff slw_init slw_update slw_cov.
  (** precise/schur_ledoit_wolf.py:85  [self.gamma_]: its value after [covariance_] has been read on a
      fitted instance (every read recomputes it from the state). *)
  Definition slw_gamma_ (o : inst SchurLW) : res N := s <- fitted_state o ;; slw_gamma (i_params o) s.

  (** ** precise/schur_conditional.py *)
  (** precise/schur_conditional.py:63-66  [_n_eff]: max(2.0, min(float(n), (2.0 - r) / r)) *)
  Definition sc_n_eff (s : dict) : res N :=
    r <- getN "r" s ;;
    ns <- getI "n_samples" s ;;
    w <- py_div (nsub (nofZ 2) r) r ;;
    Ok (py_max (nofZ 2) (py_min (nofn ns) w)).
  (** precise/schur_conditional.py:68-79  [_gamma_star] *)
  Definition sc_gamma_star (n_blocks : Z) (R : mat) (n_eff : N) : res N :=
    let p := nrows R in
    bid <- block_id1 n_blocks p ;;
    _ <- check_shape p R ;;
    let rij := masked p (cross_of bid) R in
    match rij with
    | [] => Ok n1
    | _ =>
      let num := vsum (map (fun x => np_clip_lo (nsub (nsq x) (ndiv (nadd n1 (nsq x)) n_eff)) n0) rij) in
      let den := vsum (map nsq rij) in
      if nltb n0 den then q <- py_div num den ;; Ok (np_clip q n0 n1) else Ok n0
    end.
  (** [[top, right], [bottom, corner]]: the grown leading block of [Rg] *)
  (** precise/schur_conditional.py:107-109 *)
  Definition grow (g br bl c : mat) : mat :=
    (zipw (fun a b => a ++ b) g br ++ zipw (fun a b => a ++ b) bl c)%list.
  (** precise/schur_conditional.py:95-109  one iteration of the block loop.  [G] is the part of [Rg]
      already filled, [Rg[0:ak, 0:ak]]; the rest of [Rg] is still zero and is not represented. *)
  Definition sc_block (R : mat) (gamma n_eff : N) (G : mat) (ab : nat * nat) : res mat :=
    let ak := fst ab in let bk := snd ab in
    let Rcc := mslice R 0 ak 0 ak in
    let ridge := np_clip (ndiv (nofn ak) n_eff) n0 (nlit 9 1) in
    Rcc_reg <- madd (mscale (nsub n1 ridge) Rcc) (mscale ridge (mdiag (diagonal Rcc))) ;;
    let Rck := mslice R 0 ak ak bk in
    let Rkk := mslice R ak bk ak bk in
    lhs <- madd Rcc_reg (mscale (nlit 1 10) (meye ak)) ;;
    b <- la_solve L lhs Rck ;;
    cb <- matmul (transpose Rck) b ;;
    rc <- msub Rkk cb ;;
    rcs <- to_symmetric rc ;;
    S_ <- make_pos_def L rcs ;;
    let bg := mscale gamma b in
    Sg <- madd (mscale (nsub n1 gamma) Rkk) (mscale gamma S_) ;;
    lower <- matmul (transpose bg) G ;;
    lb <- matmul lower bg ;;
    corner <- madd Sg lb ;;
    Ok (grow G (transpose lower) lower corner).
  (** precise/schur_conditional.py:94-109: a loop over the blocks *)
  Fixpoint foldM {A B} (f : A -> B -> res A) (a : A) (l : list B) : res A :=
    match l with [] => Ok a | b :: r => a' <- f a b ;; foldM f a' r end.
  (** precise/schur_conditional.py:82-89  correlation matrix, n_eff and the value stored in [gamma_] *)
  Definition sc_gamma (P : BlkP) (s : dict) : res N :=
    cov <- getM "cov" s ;;
    R <- cov_to_corrcoef cov ;;
    n_eff <- sc_n_eff s ;;
    sc_gamma_star (blk_n_blocks P) R n_eff.
  (** precise/schur_conditional.py:81-111 *)
  Definition sc_cov (P : BlkP) (s : dict) : res mat :=
    cov <- getM "cov" s ;;
    let p := nrows cov in
    sl <- slices (blk_n_blocks P) p ;;
    let d := map (fun v => nsqrt (np_clip_lo v (nlit 1 12))) (diagonal cov) in
    R <- cov_to_corrcoef cov ;;
    n_eff <- sc_n_eff s ;;
    gamma <- sc_gamma_star (blk_n_blocks P) R n_eff ;;
    match sl with
    | [] => Err IndexError
    | (a0, b0) :: rest =>
      Rg <- foldM (sc_block R gamma n_eff) (mslice R a0 b0 a0 b0) rest ;;
      Rgs <- to_symmetric Rg ;;
      Rgp <- make_pos_def L Rgs ;;
      mmul Rgp (outer d d)
    end.
  (** precise/schur_conditional.py:57-61 *)
  Definition SchurCond : EstClass N :=
    dict_class "SchurConditionalCovariance" BlkP blk_diff
      (fun p n => ewa_init n (blk_r p)) (fun _ => ewa_update) sc_cov.
  (** precise/schur_conditional.py:89  [self.gamma_] after [covariance_] has been read on a fitted instance *)
  Definition sc_gamma_ (o : inst SchurCond) : res N := s <- fitted_state o ;; sc_gamma (i_params o) s.

  (** ** precise/partialmoments.py *)
  (** precise/partialmoments.py:18 *)
  Definition QUADRANTS : list (Z * Z) := [(1, 1); (-1, 1); (1, -1); (-1, -1)]%Z.
  (** precise/partialmoments.py:33-42 *)
  Definition pm_init (p : EwaP) (n_dim : nat) : res dict :=
    n_burn <- ewa_burn_n (ewa_r p) ;;
    Ok [("n_dim", VInt n_dim); ("n_samples", VInt 0); ("mean", VArr (A1 (vzeros n_dim)));
        ("quadrants", VArr (A3 (map (fun _ => mzeros n_dim n_dim) QUADRANTS)));
        ("r", VNum (ewa_r p)); ("n_burn", VInt n_burn)].
  (** precise/partialmoments.py:56-57  np.clip(centered * sign, 0, None) * sign *)
  Definition pm_leg (sign : Z) (centered : vec) : vec :=
    map (fun c => nmul (np_clip_lo (nmul c (nofZ sign)) n0) (nofZ sign)) centered.
  (** [quadrants[q] = new] in an array allocated like [prev]: ValueError when the shapes differ (a slot of another
      shape than [new] has an axis of length one that [new] has stretched, which numpy cannot assign) *)
  (** precise/partialmoments.py:59-63 *)
  Definition slot_assign (old new : mat) : res mat :=
    if Nat.eqb (nrows new) (nrows old) && Nat.eqb (ncols new) (ncols old) then Ok new else Err ValueError.
  (** precise/partialmoments.py:44-71 *)
  Definition pm_update (s : dict) (x : vec) : res dict :=
    ns <- getI "n_samples" s ;;
    n_burn <- getI "n_burn" s ;;
    r <- getN "r" s ;;
    s_mean <- getV "mean" s ;;
    prev <- getT "quadrants" s ;;
    n_dim <- getI "n_dim" s ;;
    let count := S ns in
    dm <- vsub x s_mean ;;
    mean <- (if Nat.leb count n_burn
             then vadd s_mean (vdivs dm (nofn count))
             else vadd (vscale (nsub n1 r) s_mean) (vscale r x)) ;;
    centered <- vsub x s_mean ;;
    quadrants <- zipM (fun pq sg =>
        let scatter := outer (pm_leg (fst sg) centered) (pm_leg (snd sg) centered) in
        new <- (if Nat.leb count n_burn
                then d <- msub scatter pq ;; madd pq (mdivs d (nofn count))
                else madd (mscale (nsub n1 r) pq) (mscale r scatter)) ;;
        slot_assign pq new) prev QUADRANTS ;;
    Ok [("n_dim", VInt n_dim); ("n_samples", VInt count); ("mean", VArr (A1 mean));
        ("quadrants", VArr (A3 quadrants)); ("r", VNum r); ("n_burn", VInt n_burn)].
  (** [quadrants.sum(axis=0)] *)
  (** precise/partialmoments.py:74 *)
  Definition sum_axis0 (t : list mat) : res mat :=
    match t with [] => Ok [] | m :: r => foldM madd m r end.
  (** precise/partialmoments.py:73-75 (with the iteration bound of [nearest_pos_def]) *)
  Definition pm_cov (fuel : nat) (s : dict) : res mat :=
    q <- getT "quadrants" s ;;
    total <- sum_axis0 q ;;
    t <- to_symmetric total ;;
    nearest_pos_def L fuel t.
  (** precise/partialmoments.py:21-75 *)
  Definition PartialMoments (fuel : nat) : EstClass N :=
    dict_class "PartialMomentsCovariance" EwaP ewa_diff pm_init (fun _ => pm_update)
               (fun _ => pm_cov fuel).

  (** ** precise/huber.py *)
  Record HubP := mkHubP { hub_r : N; hub_c : N; hub_diff : bool }.
  (** precise/huber.py:36-56 *)
  Definition hub_update (P : HubP) (s : dict) (x : vec) : res dict :=
    ns <- getI "n_samples" s ;;
    n_burn <- getI "n_burn" s ;;
    r <- getN "r" s ;;
    if Nat.ltb ns n_burn then
      out <- emp_update s x ;;
      Ok (out ++ [("r", VNum r); ("n_burn", VInt n_burn)])%list
    else
      p <- getI "n_dim" s ;;
      s_mean <- getV "mean" s ;;
      s_cov <- getM "cov" s ;;
      delta <- vsub x s_mean ;;
      inv <- try_invert L s_cov ;;
      dp <- vecmat delta inv ;;
      maha2 <- vdot dp delta ;;
      let threshold := nmul (nmul (hub_c P) (hub_c P)) (nofn p) in
      w <- (if nleb maha2 threshold then Ok n1
            else q <- py_div threshold maha2 ;; Ok (nsqrt q)) ;;
      let weighted := vscale w delta in
      mean <- vadd s_mean (vscale r weighted) ;;
      cov <- madd (mscale (nsub n1 r) s_cov) (mscale r (outer weighted weighted)) ;;
      Ok [("n_dim", VInt p); ("n_samples", VInt (S ns)); ("mean", VArr (A1 mean));
          ("cov", VArr (A2 cov)); ("r", VNum r); ("n_burn", VInt n_burn)].
  (** precise/huber.py:33-34 *)
  Definition Huber : EstClass N :=
    dict_class "HuberCovariance" HubP hub_diff
      (fun p n => ewa_init n (hub_r p)) hub_update (fun _ => dict_cov).

  (** ** precise/tyler.py *)
  (** precise/tyler.py:33-41 *)
  Definition tyl_init (p : EwaP) (n_dim : nat) : res dict :=
    n_burn <- ewa_burn_n (ewa_r p) ;;
    Ok [("n_dim", VInt n_dim); ("n_samples", VInt 0); ("mean", VArr (A1 (vzeros n_dim)));
        ("C", VArr (A2 (meye n_dim))); ("r", VNum (ewa_r p)); ("n_burn", VInt n_burn)].
  (** precise/tyler.py:43-59 *)
  Definition tyl_update (s : dict) (x : vec) : res dict :=
    p <- getI "n_dim" s ;;
    ns <- getI "n_samples" s ;;
    n_burn <- getI "n_burn" s ;;
    r <- getN "r" s ;;
    s_mean <- getV "mean" s ;;
    C <- getM "C" s ;;
    let n := S ns in
    dm <- vsub x s_mean ;;
    '(lr, mean) <-
      (if Nat.leb n n_burn then
         mean <- vadd s_mean (vdivs dm (nofn n)) ;; Ok (ndiv n1 (nofn n), mean)
       else
         mean <- vadd (vscale (nsub n1 r) s_mean) (vscale r x) ;; Ok (r, mean)) ;;
    dev <- vsub x s_mean ;;
    inv <- try_invert L C ;;
    dp <- vecmat dev inv ;;
    qf <- vdot dp dev ;;
    let q := py_max qf (nlit 1 12) in
    C1 <- madd (mscale (nsub n1 lr) C)
               (mdivs (mscale (nmul lr (nofn p)) (outer dev dev)) q) ;;
    let C2 := mdivs (mscale (nofn p) C1) (mtrace C1) in
    Ok [("n_dim", VInt p); ("n_samples", VInt n); ("mean", VArr (A1 mean)); ("C", VArr (A2 C2));
        ("r", VNum r); ("n_burn", VInt n_burn)].
  (** precise/tyler.py:61-62 *)
  Definition tyl_cov (s : dict) : res mat := C <- getM "C" s ;; cov_to_corrcoef C.
  (** precise/tyler.py:21-65 *)
  Definition Tyler : EstClass N :=
    dict_class "TylerCovariance" EwaP ewa_diff tyl_init (fun _ => tyl_update) (fun _ => tyl_cov).

  (** ** precise/geodesic.py *)
  (** precise/geodesic.py:39-58 *)
  Definition geo_update (s : dict) (x : vec) : res dict :=
    ns <- getI "n_samples" s ;;
    n_burn <- getI "n_burn" s ;;
    r <- getN "r" s ;;
    if Nat.ltb ns n_burn then
      out <- emp_update s x ;;
      Ok (out ++ [("r", VNum r); ("n_burn", VInt n_burn)])%list
    else
      n_dim <- getI "n_dim" s ;;
      s_mean <- getV "mean" s ;;
      s_cov <- getM "cov" s ;;
      delta <- vsub x s_mean ;;
      mean <- vadd (vscale (nsub n1 r) s_mean) (vscale r x) ;;
      cov <- geodesic_step L s_cov (outer delta delta) r ;;
      Ok [("n_dim", VInt n_dim); ("n_samples", VInt (S ns)); ("mean", VArr (A1 mean));
          ("cov", VArr (A2 cov)); ("r", VNum r); ("n_burn", VInt n_burn)].
  (** precise/geodesic.py:36-37 *)
  Definition Geodesic : EstClass N :=
    dict_class "GeodesicEwaCovariance" EwaP ewa_diff
      (fun p n => ewa_init n (ewa_r p)) (fun _ => geo_update) (fun _ => dict_cov).

  (** ** precise/dcc.py *)
  Record DccP := mkDccP { dcc_r : N; dcc_vol_r : option N; dcc_diff : bool }.
  (** precise/dcc.py:32-39 *)
  Definition dcc_init (P : DccP) (n_dim : nat) : res dict :=
    let r := dcc_r P in
    let vol_r := match dcc_vol_r P with Some v => v | None => r end in
    n_burn <- ewa_burn_n (py_min r vol_r) ;;
    Ok (emp_init n_dim ++
        [("h", VArr (A1 (vones n_dim))); ("Q", VArr (A2 (meye n_dim))); ("r", VNum r);
         ("vol_r", VNum vol_r); ("n_burn", VInt n_burn)])%list.
  (** precise/dcc.py:41-70 *)
  Definition dcc_update (s : dict) (x : vec) : res dict :=
    p <- getI "n_dim" s ;;
    ns <- getI "n_samples" s ;;
    r <- getN "r" s ;;
    rv <- getN "vol_r" s ;;
    n_burn <- getI "n_burn" s ;;
    s_mean <- getV "mean" s ;;
    s_h <- getV "h" s ;;
    s_Q <- getM "Q" s ;;
    let n := S ns in
    dev <- vsub x s_mean ;;
    d2 <- vmul dev dev ;;
    '(mean, h) <-
      (if Nat.leb n n_burn then
         mean <- vadd s_mean (vdivs dev (nofn n)) ;;
         dh <- vsub d2 s_h ;;
         h <- vadd s_h (vdivs dh (nofn n)) ;;
         Ok (mean, h)
       else
         mean <- vadd (vscale (nsub n1 rv) s_mean) (vscale rv x) ;;
         h <- vadd (vscale (nsub n1 rv) s_h) (vscale rv d2) ;;
         Ok (mean, h)) ;;
    eps <- vdiv dev (map (fun v => nsqrt (np_max v (nlit 1 12))) h) ;;
    let outer_ := outer eps eps in
    Q <- (if Nat.leb n n_burn
          then d <- msub outer_ s_Q ;; madd s_Q (mdivs d (nofn n))
          else madd (mscale (nsub n1 r) s_Q) (mscale r outer_)) ;;
    Ok [("n_dim", VInt p); ("n_samples", VInt n); ("mean", VArr (A1 mean)); ("h", VArr (A1 h));
        ("Q", VArr (A2 Q)); ("r", VNum r); ("vol_r", VNum rv); ("n_burn", VInt n_burn)].
  (** precise/dcc.py:72-78 *)
  Definition dcc_cov (s : dict) : res mat :=
    Q <- getM "Q" s ;;
    h <- getV "h" s ;;
    let q_inv := map (fun v => ndiv n1 (nsqrt (np_max v (nlit 1 12)))) (diagonal Q) in
    R <- mmul Q (outer q_inv q_inv) ;;
    let d := map (fun v => nsqrt (np_max v (nlit 1 12))) h in
    mmul R (outer d d).
  (** precise/dcc.py:18-78 *)
  Definition DCC : EstClass N :=
    dict_class "DCCCovariance" DccP dcc_diff dcc_init (fun _ => dcc_update) (fun _ => dcc_cov).

  (** ** precise/factor.py *)
  Record FacP := mkFacP { fac_k : Z; fac_r : N; fac_diff : bool }.
  (** precise/factor.py:31-42 *)
  Definition fac_init (P : FacP) (n_dim : nat) : res dict :=
    let k := Z.min (fac_k P) (Z.of_nat n_dim) in
    if (k <? 0)%Z then Err ValueError
    else
      let k := Z.to_nat k in
      Ok [("n_dim", VInt n_dim); ("n_samples", VInt 0); ("mean", VArr (A1 (vzeros n_dim)));
          ("var", VArr (A1 (vzeros n_dim))); ("V", VArr (A2 (mzeros k n_dim))); ("k", VInt k);
          ("r", VNum (fac_r P)); ("n_burn", VInt (k + 1))].
  (** [V[j] = u]: numpy row assignment (broadcasts a length-1 value) *)
  (** precise/factor.py:65, 69 *)
  Definition row_assign (old u : vec) : res vec :=
    if Nat.eqb (length u) (length old) then Ok u
    else match u with [c] => Ok (map (fun _ => c) old) | _ => Err ValueError end.
  (** precise/factor.py:62-70  the CCIPCA loop over the rows of [V] (one row per component) *)
  Fixpoint ccipca (lr : N) (u : vec) (V : mat) : res mat :=
    match V with
    | [] => Ok []
    | v :: rest =>
      let norm := vnorm v in
      if nltb norm (nlit 1 12) then
        v' <- row_assign v u ;; Ok (v' :: rest)
      else
        let vhat := vdivs v norm in
        proj <- vdot u vhat ;;
        v1 <- vadd (vscale (nsub n1 lr) v) (vscale (nmul lr proj) u) ;;
        v' <- row_assign v v1 ;;
        u' <- vsub u (vscale proj vhat) ;;
        rest' <- ccipca lr u' rest ;;
        Ok (v' :: rest')
    end.
  (** precise/factor.py:44-81 *)
  Definition fac_update (s : dict) (x : vec) : res dict :=
    ns <- getI "n_samples" s ;;
    r <- getN "r" s ;;
    k <- getI "k" s ;;
    n_burn <- getI "n_burn" s ;;
    s_mean <- getV "mean" s ;;
    s_var <- getV "var" s ;;
    n_dim <- getI "n_dim" s ;;
    V <- getM "V" s ;;
    let n := S ns in
    dev <- vsub x s_mean ;;
    sq <- vmul dev dev ;;
    '(lr, mean, var) <-
      (if Nat.leb n n_burn then
         dm <- vsub x s_mean ;;
         mean <- vadd s_mean (vdivs dm (nofn n)) ;;
         dv <- vsub sq s_var ;;
         var <- vadd s_var (vdivs dv (nofn n)) ;;
         Ok (ndiv n1 (nofn n), mean, var)
       else
         mean <- vadd (vscale (nsub n1 r) s_mean) (vscale r x) ;;
         var <- vadd (vscale (nsub n1 r) s_var) (vscale r sq) ;;
         Ok (r, mean, var)) ;;
    V' <- ccipca lr dev V ;;
    Ok [("n_dim", VInt n_dim); ("n_samples", VInt n); ("mean", VArr (A1 mean));
        ("var", VArr (A1 var)); ("V", VArr (A2 V')); ("k", VInt k); ("r", VNum r);
        ("n_burn", VInt n_burn)].
  (** precise/factor.py:88-92  accumulate [factor] and [captured] over the components *)
  Definition fac_acc (acc : mat * vec) (vj : vec) : res (mat * vec) :=
    let norm := vnorm vj in
    if nltb (nlit 1 12) norm then
      f <- madd (fst acc) (mdivs (outer vj vj) norm) ;;
      c <- vadd (snd acc) (map (fun x => nmul norm (nsq (ndiv x norm))) vj) ;;
      Ok (f, c)
    else Ok acc.
  (** precise/factor.py:83-95 *)
  Definition fac_cov (s : dict) : res mat :=
    V <- getM "V" s ;;
    p <- getI "n_dim" s ;;
    s_var <- getV "var" s ;;
    '(factor, captured) <- foldM fac_acc (mzeros p p, vzeros p) V ;;
    d <- vsub s_var captured ;;
    let resid := map (fun x => np_max x n0) d in
    madd factor (mdiag resid).
  (** precise/factor.py:17-95 *)
  Definition Factor : EstClass N :=
    dict_class "FactorCovariance" FacP fac_diff fac_init (fun _ => fac_update) (fun _ => fac_cov).
End Estimators.

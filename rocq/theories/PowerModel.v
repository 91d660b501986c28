(** * Model of the power experiments: the Monte-Carlo loops of research/metric_power.py and research/schur_godambe.py

    The generator is that of TrainModel.v with two more draws; nothing is assumed of it here.  [np.linalg.qr], [np.log], [np.exp] and the
    formatting of floats are arbitrary functions.  A dict of counters is the list of the verdicts it counts.  Not modelled: printing and
    timing ([report], [projection_report], [compute_scaling]). *)
From Coq Require Import ZArith Bool String List DecimalString.
From Verif Require Import Num Numpy PyVal LinalgModel BaseModel Estimators AssessModel ResearchModel MetricModel SpikedModel TrainModel.
Import ListNotations.
Local Open Scope string_scope.
Local Open Scope list_scope.

(** numpy.random.Generator, with [rng.normal(0, sd, n)] and [rng.permutation(n)] *)
(** research/metric_power.py:271-272, 344 *)
Record PowerRand (N : Num) := mkPowerRand {
  pr_rand : Rand N;
  pr_gauss : N -> nat -> rg pr_rand -> vec N * rg pr_rand;
  pr_permutation : nat -> rg pr_rand -> list nat * rg pr_rand }.
Arguments pr_rand {N}. Arguments pr_gauss {N}. Arguments pr_permutation {N}.

(** ** Counting *)
(** [correct[key] += verdict], once for every verdict, from 0 *)
(** research/metric_power.py:132, 203, 285-291, 353-357, 423-427; research/schur_godambe.py:217 *)
Definition tally {K} (eqb : K -> K -> bool) (key : K) (verdicts : list (K * bool)) : nat :=
  length (filter (fun v => eqb key (fst v) && snd v) verdicts).
(** [{k: correct[k] / total for k in keys}].  Simplification: a repeated key is listed again (with the same value). *)
(** research/metric_power.py:204, 292, 358, 428; research/schur_godambe.py:218 *)
Definition powers {N : Num} {K} (eqb : K -> K -> bool) (keys : list K) (verdicts : list (K * bool)) (total : nat) : res (list (K * N)) :=
  mapM (fun k => q <- py_div (nofn (tally eqb k verdicts)) (nofn total) ;; Ok (k, q)) keys.
(** f"{n}" of an int *)
(** research/metric_power.py:266, 398 *)
Definition show_int (z : Z) : string := NilZero.string_of_int (Z.to_int z).
(** equality of the keys of [projection_power]: ints and None *)
(** research/metric_power.py:185 *)
Definition optnat_eqb (a b : option nat) : bool :=
  match a, b with Some x, Some y => Nat.eqb x y | None, None => true | _, _ => false end.

Section Power.
  Context {N : Num} (L : LinAlg N) (log exp : N -> N) (np_qr : mat N -> res (mat N)) (repr : N -> string) (P : PowerRand N).
  Notation vec := (vec N).
  Notation mat := (mat N).
  Notation R := (pr_rand P).
  Notation D := (TrainModel.D R).
  Notation "' p <~ m ;; k" := (dbind R m (fun p => k)) (at level 61, p pattern, m at next level, right associativity).
  Notation "x <~ m ;; k" := (dbind R m (fun x => k)) (at level 61, m at next level, right associativity).

  (** ** Truths and estimates *)
  (** research/metric_power.py:23-25  [_spd_factor(p, rng, k=3)] *)
  Definition spd_factor (p : nat) : D mat :=
    B <~ ddraw R (r_normal R p 3) ;;
    d <~ ddraw R (r_uniform R (nlit 3 1) (nlit 12 1) p) ;;
    dlift R (three_factor_cov B d).
  (** research/metric_power.py:34-39  [_perturb], given the noise *)
  Definition perturb_by (cov a : mat) (eps : N) : res mat :=
    e <- to_symmetric a ;;
    let e := mmap (fun x => nmul x (ndiv (mnorm cov) (mnorm e))) e in
    M <- madd cov (mscale eps e) ;;
    project_pd L M.
  (** research/metric_power.py:34-39  [_perturb] *)
  Definition perturb (cov : mat) (eps : N) : D mat :=
    a <~ ddraw R (r_normal R (nrows cov) (ncols cov)) ;; dlift R (perturb_by cov a eps).
  (** The two estimates of a trial, the better one first, and by how much *)
  (** research/metric_power.py:114-119, 187-192, 419-421 *)
  Record contest := mkContest { c_truth : mat; c_good : mat; c_bad : mat; c_gap : N }.
  (** research/metric_power.py:116-119, 189-192, 421  ordered by the exact divergence *)
  Definition kl_contest (truth good bad : mat) : res contest :=
    kg <- mp_kl L truth good ;; kb <- mp_kl L truth bad ;;
    Ok (mkContest truth (if nleb kg kb then good else bad) (if nleb kg kb then bad else good) (nabs (nsub kg kb))).
  (** research/metric_power.py:113-119, 187-192, 419-421 *)
  Definition perturbed_contest (p : nat) (eps_good eps_bad : N) : D contest :=
    truth <~ spd_factor p ;;
    good <~ perturb truth eps_good ;;
    bad <~ perturb truth eps_bad ;;
    dlift R (kl_contest truth good bad).

  (** ** [run] *)
  (** research/metric_power.py:92-99  [METRICS] *)
  Definition METRICS : list (string * (mat -> mat -> mat -> res N)) :=
    [("loglik", fun cov X dirs => mp_loglik L cov X);
     ("frobenius", fun cov X dirs => mp_frobenius cov X);
     ("stein", fun cov X dirs => mp_stein L cov X);
     ("random_proj", fun cov X dirs => mp_random_projection log cov X dirs);
     ("min_variance", fun cov X dirs => mp_min_variance L cov X);
     ("maha_calib", fun cov X dirs => mp_maha_calib L cov X)].
  (** [dirs /= np.linalg.norm(dirs, axis=1, keepdims=True)], research/metric_power.py:124 *)
  Definition unit_rows (dirs : mat) : mat := map (fun d => vdivs d (vnorm d)) dirs.
  (** [max(n_grid)], research/metric_power.py:125 *)
  Definition biggest (l : list nat) : res nat := match l with [] => Err ValueError | _ => Ok (list_max l) end.
  (** research/metric_power.py:127-132  the verdicts of a trial, under their test-set size *)
  Definition run_verdicts (n_grid : list nat) (c : contest) (dirs pool : mat) : res (list (nat * list (string * bool))) :=
    mapM (fun n =>
      vs <- mapM (fun m => b <- agrees (fun cov => snd m cov (firstn n pool) dirs) (c_good c) (c_bad c) ;; Ok (fst m, b)) METRICS ;;
      Ok (n, vs)) n_grid.
  (** research/metric_power.py:112-132  the body of the loop; None when the two estimates are essentially tied *)
  Definition run_trial (p : nat) (eps_good eps_bad : N) (n_grid : list nat) (n_dirs : nat) (min_gap : N)
    : D (option (N * list (nat * list (string * bool)))) :=
    c <~ perturbed_contest p eps_good eps_bad ;;
    if nltb (c_gap c) min_gap then dret R None else
    dirs <~ ddraw R (r_normal R n_dirs p) ;;
    n <~ dlift R (biggest n_grid) ;;
    pool <~ r_mvn R (c_truth c) n ;;
    vs <~ dlift R (run_verdicts n_grid c (unit_rows dirs) pool) ;;
    dret R (Some (c_gap c, vs)).
  (** [continue]: the trials that were not skipped *)
  (** research/metric_power.py:120-121, 193-194 *)
  Definition counted {A} (l : list (option A)) : list A := flat_map (fun o => match o with Some a => [a] | None => [] end) l.
  (** the verdicts counted by [correct[m][n]], and (by their number) by [counted[n]] *)
  (** research/metric_power.py:129-132 *)
  Definition at_size {B} (n : nat) (ts : list (list (nat * B))) : list B :=
    map snd (filter (fun e => Nat.eqb n (fst e)) (concat ts)).
  (** research/metric_power.py:134-135  the table and the mean gap.  Simplification: a repeated n is listed again. *)
  Definition run_table (n_grid : list nat) (ts : list (N * list (nat * list (string * bool)))) : res (list (string * list (nat * N)) * N) :=
    pw <- mapM (fun m =>
      row <- mapM (fun n => let vs := at_size n (map snd ts) in
        q <- py_div (nofn (tally String.eqb m (concat vs))) (nofn (length vs)) ;; Ok (n, q)) n_grid ;;
      Ok (m, row)) (map fst METRICS) ;;
    Ok (pw, vmean (map fst ts)).
  (** research/metric_power.py:103-135  [run], from the generator's first state *)
  Definition run (p : nat) (eps_good eps_bad : N) (n_grid : list nat) (trials n_dirs : nat) (min_gap : N) : D (list (string * list (nat * N)) * N) :=
    ts <~ dtimes R trials (run_trial p eps_good eps_bad n_grid n_dirs min_gap) ;;
    dlift R (run_table n_grid (counted ts)).

  (** ** [projection_power] *)
  (** research/metric_power.py:154-160  [_random_subspaces] *)
  Definition random_subspaces (p k n_sub : nat) : D (list mat) :=
    dtimes R n_sub (A <~ ddraw R (r_normal R p k) ;; q <~ dlift R (np_qr A) ;; dret R (transpose (map (firstn k) q))).
  (** [max(1, total // k)], research/metric_power.py:200, 290 *)
  Definition n_subspaces (total k : nat) : res nat := if Nat.eqb k 0 then Err ZeroDivisionError else Ok (Nat.max 1 (total / k)).
  (** research/metric_power.py:198-202, 288-291  the verdict of k-dimensional projections *)
  Definition projection_verdict (p total k : nat) (good bad X : mat) : D bool :=
    n_sub <~ dlift R (n_subspaces total k) ;;
    subs <~ random_subspaces p k n_sub ;;
    dlift R (agrees (fun cov => mp_kproj_loglik L cov X subs) good bad).
  (** [p if k is None else k], research/metric_power.py:199, 266, 289 *)
  Definition or_full (p : nat) (k : option nat) : nat := match k with None => p | Some k => k end.
  (** research/metric_power.py:186-203  the body of the loop *)
  Definition projection_trial (p : nat) (k_list : list (option nat)) (total_dirs : nat) (eps_good eps_bad : N) (n_test : nat) (min_gap : N)
    : D (option (N * list (option nat * bool))) :=
    c <~ perturbed_contest p eps_good eps_bad ;;
    if nltb (c_gap c) min_gap then dret R None else
    X <~ r_mvn R (c_truth c) n_test ;;
    vs <~ dmap R (fun k => b <~ projection_verdict p total_dirs (or_full p k) (c_good c) (c_bad c) X ;; dret R (k, b)) k_list ;;
    dret R (Some (c_gap c, vs)).
  (** research/metric_power.py:176-205  [projection_power] *)
  Definition projection_power (p : nat) (k_list : list (option nat)) (total_dirs : nat) (eps_good eps_bad : N) (n_test trials : nat) (min_gap : N)
    : D (list (option nat * N) * N) :=
    ts <~ dtimes R trials (projection_trial p k_list total_dirs eps_good eps_bad n_test min_gap) ;;
    let ts := counted ts in
    pw <~ dlift R (powers optnat_eqb k_list (concat (map snd ts)) (length ts)) ;;
    dret R (pw, vmean (map fst ts)).

  (** ** [proof_high_dim] *)
  (** [(Q * lam) @ Q.T] *)
  (** research/metric_power.py:274, 284, 411, 416 *)
  Definition from_spectrum (Q : mat) (lam : vec) : res mat := Q' <- mapM (fun row => vmul row lam) Q ;; matmul Q' (transpose Q).
  (** research/metric_power.py:271, 408  [np.clip(lam_true[:bulk] * (1 + z), 0.05, None)] *)
  Definition noisy_bulk (lam z : vec) : res vec := v <- vmul lam (map (nadd n1) z) ;; Ok (map (fun x => np_clip_lo x (nlit 5 2)) v).
  (** research/metric_power.py:272, 409  [np.maximum(tail_level * np.exp(z), 1e-4)] *)
  Definition noisy_tail (tail_level : N) (z : vec) : vec := map (fun x => np_max (nmul tail_level (exp x)) (nlit 1 4)) z.
  (** research/metric_power.py:270-274, 407-411  [_estimate]: a covariance and its error in the bulk *)
  Definition noisy_estimate (Q : mat) (lam_bulk : vec) (tail : nat) (tail_level sig sig_tail : N) : D (mat * N) :=
    z <~ ddraw R (pr_gauss P sig (length lam_bulk)) ;;
    b <~ dlift R (noisy_bulk lam_bulk z) ;;
    zt <~ ddraw R (pr_gauss P sig_tail tail) ;;
    cov <~ dlift R (from_spectrum Q (b ++ noisy_tail tail_level zt)) ;;
    d <~ dlift R (vsub b lam_bulk) ;;
    dret R (cov, vnorm d).
  (** research/metric_power.py:277-280, 404-416  the two estimates, the one with the smaller error first, and the truth *)
  Definition tail_contest (p : nat) (lam_bulk : vec) (tail : nat) (tail_level sig_good sig_bad sig_tail : N) : D contest :=
    A <~ ddraw R (r_normal R p p) ;;
    Q <~ dlift R (np_qr A) ;;
    '(a, ea) <~ noisy_estimate Q lam_bulk tail tail_level sig_good sig_tail ;;
    '(b, eb) <~ noisy_estimate Q lam_bulk tail tail_level sig_bad sig_tail ;;
    truth <~ dlift R (from_spectrum Q (lam_bulk ++ repeat tail_level tail)) ;;
    dret R (mkContest truth (if nleb ea eb then a else b) (if nleb ea eb then b else a) (nabs (nsub ea eb))).
  (** [np.concatenate([rng.uniform(2.0, 6.0, bulk), np.full(tail, tail_level)])]: the first part; a negative [tail] raises *)
  (** research/metric_power.py:264-265, 400-401 *)
  Definition draw_bulk (p bulk : nat) : D vec :=
    l <~ ddraw R (r_uniform R (nofZ 2) (nofZ 6) bulk) ;; if Nat.ltb p bulk then dlift R (Err ValueError) else dret R l.
  (** a verdict that draws nothing, under its key *)
  (** research/metric_power.py:285-287, 353-357, 423-427 *)
  Definition keyed_verdict {K} (key : K) (fn : mat -> res N) (c : contest) : res (K * bool) :=
    b <- agrees fn (c_good c) (c_bad c) ;; Ok (key, b).
  (** f"proj_k{k}", research/metric_power.py:266, 291 *)
  Definition proj_key (k : nat) : string := "proj_k" ++ show_int (Z.of_nat k).
  (** research/metric_power.py:276-291  the body of the loop *)
  Definition high_dim_trial (p : nat) (lam_bulk : vec) (sig_good sig_bad sig_tail tail_level : N) (k_list : list (option nat)) (n_test : nat)
    : D (list (string * bool)) :=
    c <~ tail_contest p lam_bulk (p - length lam_bulk) tail_level sig_good sig_bad sig_tail ;;
    X <~ r_mvn R (c_truth c) n_test ;;
    v1 <~ dlift R (keyed_verdict "loglik" (fun cov => mp_loglik L cov X) c) ;;
    v2 <~ dlift R (keyed_verdict "stein" (fun cov => mp_stein L cov X) c) ;;
    v3 <~ dlift R (keyed_verdict "frobenius" (fun cov => mp_frobenius cov X) c) ;;
    vs <~ dmap R (fun k => b <~ projection_verdict p 60 (or_full p k) (c_good c) (c_bad c) X ;; dret R (proj_key (or_full p k), b)) k_list ;;
    dret R (v1 :: v2 :: v3 :: vs).
  (** research/metric_power.py:254-292  [proof_high_dim] *)
  Definition proof_high_dim (p bulk : nat) (sig_good sig_bad sig_tail tail_level : N) (k_list : list (option nat)) (n_test trials : nat)
    : D (list (string * N)) :=
    lam_bulk <~ draw_bulk p bulk ;;
    ts <~ dtimes R trials (high_dim_trial p lam_bulk sig_good sig_bad sig_tail tail_level k_list n_test) ;;
    dlift R (powers String.eqb ("loglik" :: "stein" :: "frobenius" :: map (fun k => proj_key (or_full p k)) k_list) (concat ts) trials).

  (** ** [schur_power] and [structured_power_over_draws] *)
  (** [np.repeat(np.arange(g), gs)], research/metric_power.py:325, 338; research/schur_godambe.py:189 *)
  Definition groups (g gs : nat) : list nat := concat (map (fun j => repeat j gs) (seq 0 g)).
  (** research/metric_power.py:329-334, research/schur_godambe.py:192-197  [_within] *)
  Definition within (p g gs : nat) (re : N) : mat :=
    tab2 p p (fun i j =>
      if Nat.ltb i (g * gs) && Nat.ltb j (g * gs) && Nat.eqb (i / gs) (j / gs)
      then nadd (nmul (nsub n1 re) (if Nat.eqb i j then n1 else n0)) (nmul re n1) else n0).
  (** research/metric_power.py:341-346, research/schur_godambe.py:199-205  [_make] before the permutation; the boolean mask must have the
      shape of the array *)
  Definition noisy_groups (p g gs : nat) (rho err sig_cross : N) : D (mat * N) :=
    s <~ choose R [(-1)%Z; 1%Z] ;;
    let re := nadd rho (nmul (nofZ s) err) in
    A <~ ddraw R (r_normal R p p) ;;
    n <~ dlift R (to_symmetric A) ;;
    let c := within p g gs re in
    _ <~ dlift R (check_shape (g * gs) c) ;;
    M <~ dlift R (project_pd L (tab2 p p (fun i j =>
      if cross_of (groups g gs) i j then nadd (mget c i j) (nmul sig_cross (mget n i j)) else mget c i j))) ;;
    dret R (M, nabs (nsub re rho)).
  (** [m[np.ix_(perm, perm)]], research/metric_power.py:346, 350 *)
  Definition reorder (perm : list nat) (m : mat) : mat := map (fun i => map (fun j => mget m i j) perm) perm.
  (** f"gamma_{x}", research/metric_power.py:326, 357 *)
  Definition gamma_key (x : N) : string := "gamma_" ++ repr x.
  (** [p // g], research/metric_power.py:324, research/schur_godambe.py:187 *)
  Definition group_size (p g : nat) : res nat := if Nat.eqb g 0 then Err ZeroDivisionError else Ok (p / g).
  (** research/metric_power.py:343-352  the permutation, the estimates, the one with the smaller error first, and the truth *)
  Definition group_contest (p g gs : nat) (rho err_good err_bad sig_cross : N) : D contest :=
    perm <~ ddraw R (pr_permutation P p) ;;
    '(a, ea) <~ noisy_groups p g gs rho err_good sig_cross ;;
    '(b, eb) <~ noisy_groups p g gs rho err_bad sig_cross ;;
    t <~ dlift R (project_pd L (within p g gs rho)) ;;
    dret R (mkContest (reorder perm t) (reorder perm (if nleb ea eb then a else b)) (reorder perm (if nleb ea eb then b else a)) (nabs (nsub ea eb))).
  (** research/metric_power.py:343-357  the body of the loop *)
  Definition schur_trial (p g gs : nat) (rho err_good err_bad sig_cross : N) (gammas : list N) (n_test : nat) : D (list (string * bool)) :=
    c <~ group_contest p g gs rho err_good err_bad sig_cross ;;
    X <~ r_mvn R (c_truth c) n_test ;;
    v <~ dlift R (keyed_verdict "full" (fun cov => mp_loglik L cov X) c) ;;
    vs <~ dlift R (mapM (fun x => keyed_verdict (gamma_key x) (fun cov => mp_schur_loglik L cov X (groups g gs) x) c) gammas) ;;
    dret R (v :: vs).
  (** research/metric_power.py:308-358  [schur_power] *)
  Definition schur_power (p g : nat) (rho err_good err_bad sig_cross : N) (gammas : list N) (n_test trials : nat) : D (list (string * N)) :=
    gs <~ dlift R (group_size p g) ;;
    ts <~ dtimes R trials (schur_trial p g gs rho err_good err_bad sig_cross gammas n_test) ;;
    dlift R (powers String.eqb ("full" :: map gamma_key gammas) (concat ts) trials).

  (** ** [pseudo_likelihood_power] *)
  (** f"pll_b{b}", research/metric_power.py:398, 427 *)
  Definition pll_key (b : Z) : string := "pll_b" ++ show_int b.
  (** research/metric_power.py:403-427  the body of the loop; [noisy] is [regime == "noisy_tail"] *)
  Definition pll_trial (noisy : bool) (p : nat) (lam_bulk : vec) (sig_good sig_bad sig_tail tail_level eps_good eps_bad : N) (bs : list Z) (n_test : nat)
    : D (list (string * bool)) :=
    c <~ (if noisy then tail_contest p lam_bulk (p - length lam_bulk) tail_level sig_good sig_bad sig_tail
          else perturbed_contest p eps_good eps_bad) ;;
    X <~ r_mvn R (c_truth c) n_test ;;
    v1 <~ dlift R (keyed_verdict "frobenius" (fun cov => mp_frobenius cov X) c) ;;
    v2 <~ dlift R (keyed_verdict "full_loglik" (fun cov => mp_loglik L cov X) c) ;;
    vs <~ dlift R (mapM (fun b => keyed_verdict (pll_key b) (fun cov => mp_block_pseudo_loglik L cov X b) c) bs) ;;
    dret R (v1 :: v2 :: vs).
  (** research/metric_power.py:395-398  [p] in the clean regime, and the block sizes *)
  Definition pll_dim (regime : string) (p : nat) : nat := if String.eqb regime "clean" then Nat.min p 20 else p.
  (** research/metric_power.py:397 *)
  Definition pll_sizes (p : nat) (block_sizes : list (option Z)) : list Z :=
    map (fun b => match b with None => Z.of_nat p | Some b => b end) block_sizes.
  (** research/metric_power.py:386-428  [pseudo_likelihood_power] *)
  Definition pseudo_likelihood_power (regime : string) (block_sizes : list (option Z)) (p bulk : nat)
    (sig_good sig_bad sig_tail tail_level eps_good eps_bad : N) (n_test trials : nat) : D (list (string * N)) :=
    let p := pll_dim regime p in
    let bs := pll_sizes p block_sizes in
    lam_bulk <~ draw_bulk p bulk ;;
    ts <~ dtimes R trials (pll_trial (String.eqb regime "noisy_tail") p lam_bulk sig_good sig_bad sig_tail tail_level eps_good eps_bad bs n_test) ;;
    dlift R (powers String.eqb ("frobenius" :: "full_loglik" :: map pll_key bs) (concat ts) trials).
End Power.
Arguments mkContest {N}. Arguments c_truth {N}. Arguments c_good {N}. Arguments c_bad {N}. Arguments c_gap {N}.

(** ** research/schur_godambe.py *)
Section Godambe.
  Context {N : Num} (L : LinAlg N) (np_qr : mat N -> res (mat N)) (P : PowerRand N).
  Notation vec := (vec N).
  Notation mat := (mat N).
  Notation R := (pr_rand P).
  Notation D := (TrainModel.D R).
  Notation "' p <~ m ;; k" := (dbind R m (fun p => k)) (at level 61, p pattern, m at next level, right associativity).
  Notation "x <~ m ;; k" := (dbind R m (fun x => k)) (at level 61, m at next level, right associativity).

  (** [d.std()] *)
  (** research/schur_godambe.py:90, 170-171 *)
  Definition vstd (d : vec) : N := nsqrt (vmean (map (fun x => nsq (nsub x (vmean d))) d)).
  (** research/schur_godambe.py:84-89  the per-row score gaps of [snr_montecarlo] *)
  Definition row_gaps (X Sig_A Sig_B : mat) (sizes : list nat) (gamma : N) : res vec :=
    '(WA, LdA) <- schur_operator L Sig_A sizes gamma ;;
    '(WB, LdB) <- schur_operator L Sig_B sizes gamma ;;
    qa <- mapM (fun x => einsum_quad x WA) X ;;
    qb <- mapM (fun x => einsum_quad x WB) X ;;
    q <- vsub qa qb ;;
    Ok (map (fun x => nmul mhalf (nadd (nsub LdA LdB) x)) q).
  (** research/schur_godambe.py:81-90  [snr_montecarlo] *)
  Definition snr_montecarlo (Sig_A Sig_B Sig_t : mat) (sizes : list nat) (gamma : N) (n : nat) : D N :=
    X <~ r_mvn R Sig_t n ;;
    d <~ dlift R (row_gaps X Sig_A Sig_B sizes gamma) ;;
    dret R (ndiv (vmean d) (vstd d)).
  (** research/schur_godambe.py:130-134  [_finite_sample_pair]: the two estimates from the training rows *)
  Definition sample_pair (X : mat) (p : nat) : res (mat * mat) :=
    S <- np_cov X ;;
    let target := mscale (ndiv (mtrace S) (nofn p)) (meye p) in
    A <- madd (mscale phalf S) (mscale phalf target) ;;
    B <- madd (mscale (nlit 93 2) S) (mscale (nlit 7 2) target) ;;
    A <- half_sym A ;; B <- half_sym B ;;
    Ok (A, B).
  (** research/schur_godambe.py:155-160  the two estimates of one training draw *)
  Definition ridge_pair (X : mat) (p : nat) (ridge : N) : res (mat * mat) :=
    S <- np_cov X ;;
    let target := mscale (ndiv (mtrace S) (nofn p)) (meye p) in
    A <- madd (mscale phalf S) (mscale phalf target) ;;
    B <- madd S (mscale ridge (meye p)) ;;
    A <- half_sym A ;; B <- half_sym B ;;
    Ok (A, B).
  (** research/schur_godambe.py:166-168  the expected score gap *)
  Definition expected_gap (A B Sig_t : mat) (sizes : list nat) (g : N) : res N :=
    '(WA, LdA) <- schur_operator L A sizes g ;;
    '(WB, LdB) <- schur_operator L B sizes g ;;
    W <- msub WA WB ;;
    M <- matmul W Sig_t ;;
    Ok (nmul mhalf (nadd (nsub LdA LdB) (mtrace M))).
  (** One training draw that is not skipped: the two divergences and the gap for every gamma *)
  (** research/schur_godambe.py:161-168  *)
  Definition training_draw (X : mat) (p : nat) (ridge : N) (Sig_t : mat) (sizes : list nat) (gammas : list N) : res (option (N * N * vec)) :=
    '(A, B) <- ridge_pair X p ridge ;;
    oka <- is_spd L A (nlit 1 9) ;;
    ok <- (if oka : bool then is_spd L B (nlit 1 9) else Ok false) ;;
    if negb ok then Ok None else
    ka <- kl L A Sig_t ;;
    kb <- kl L B Sig_t ;;
    ds <- mapM (fun g => expected_gap A B Sig_t sizes g) gammas ;;
    Ok (Some (ka, kb, ds)).
  (** What is reported for one gamma *)
  (** research/schur_godambe.py:170-173 *)
  Record draws_summary := mkSummary { s_mean : N; s_sd : N; s_snr : N; s_power : N }.
  (** research/schur_godambe.py:169-173; the mean of no value is NaN, as is the mean of no verdict.  Simplification: [d > 0] is averaged
      as the number of positive values divided by their number *)
  Definition summarise (d : vec) : draws_summary :=
    mkSummary (vmean d) (vstd d) (if nltb n0 (vstd d) then ndiv (vmean d) (vstd d) else plus_inf)
      (ndiv (nofn (length (filter (fun x => nltb n0 x) d))) (nofn (length d))).
  (** research/schur_godambe.py:138-174  [discrimination_power_over_draws], given the truth.  Simplification: [gammas] has no repetition. *)
  Definition discrimination_power (p n_train : nat) (Sig_t : mat) (gammas : list N) (n_draws : nat) : D (list (N * draws_summary) * N * N) :=
    let sizes := repeat 4 (p / 4) in
    let ridge := ndiv (nmul (nlit 2 2) (mtrace Sig_t)) (nofn p) in
    ts <~ dtimes R n_draws (X <~ r_mvn R Sig_t n_train ;; dlift R (training_draw X p ridge Sig_t sizes gammas)) ;;
    let ts := counted ts in
    dret R (map (fun i => (nth i gammas n0, summarise (map (fun t => vget (snd t) i) ts))) (seq 0 (length gammas)),
            vmean (map (fun t => fst (fst t)) ts), vmean (map (fun t => snd (fst t)) ts)).
  (** research/schur_godambe.py:211-217  the judge of [structured_power_over_draws] *)
  Definition operator_score (X : mat) (sizes : list nat) (gm : N) (cov : mat) : res N :=
    '(W, Ld) <- schur_operator L cov sizes gm ;;
    q <- mapM (fun x => einsum_quad x W) X ;;
    Ok (nmul mhalf (nadd Ld (vmean q))).
  (** research/schur_godambe.py:207-217  the body of the loop.  Simplification: the two scores are computed one after the other, not the
      two operators first *)
  Definition structured_trial (p g gs : nat) (rho err_good err_bad sig_cross : N) (gammas : list N) (n_test : nat) : D (list (N * bool)) :=
    '(good, _) <~ noisy_groups L P p g gs rho err_good sig_cross ;;
    '(bad, _) <~ noisy_groups L P p g gs rho err_bad sig_cross ;;
    let truth := within p g gs rho in
    X <~ r_mvn R truth n_test ;;
    dlift R (mapM (fun gm => keyed_verdict gm (operator_score X (repeat gs g) gm) (mkContest truth good bad n0)) gammas).
  (** equality of float keys, research/schur_godambe.py:206 *)
  Definition neqb (a b : N) : bool := nleb a b && nleb b a.
  (** research/schur_godambe.py:178-218  [structured_power_over_draws] *)
  Definition structured_power (p g : nat) (rho err_good err_bad sig_cross : N) (gammas : list N) (n_test trials : nat) : D (list (N * N)) :=
    gs <~ dlift R (group_size p g) ;;
    ts <~ dtimes R trials (structured_trial p g gs rho err_good err_bad sig_cross gammas n_test) ;;
    dlift R (powers neqb gammas (concat ts) trials).
End Godambe.
Arguments mkSummary {N}. Arguments s_mean {N}. Arguments s_sd {N}. Arguments s_snr {N}. Arguments s_power {N}.

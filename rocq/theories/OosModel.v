(** * Model of the out-of-sample harnesses: research/oos_equity.py, research/oos.py and research/bakeoff.py

    The random number generators, the printed tables and scikit-learn are not modelled: what is here is what the harnesses
    compute from given data.  Simplifications: window lengths and steps are not negative; a dict keyed by estimator name is an
    association list in insertion order; running out of the fuel of PartialMoments (see Estimators.v) is not an exception
    the harness may catch. *)
From Coq Require Import ZArith Bool String List.
From Verif Require Import Num Numpy PyVal LinalgModel StateModel BaseModel Estimators RegistryModel ParamsModel AssessModel RecommendModel.
Import ListNotations.
Local Open Scope string_scope.

Section Oos.
  Context {N : Num} (L : LinAlg N) (fuel : nat) (model : bool).
  Notation vec := (vec N).
  Notation mat := (mat N).

  (** [E().fit(train).covariance_] *)
  (** research/oos_equity.py:58, research/oos.py:118, research/bakeoff.py:124 *)
  Definition fit_cov (k : Signed N) (train : mat) : res mat :=
    o <- construct k [] ;;
    match view k o with
    | None => Err TypeError
    | Some i => match fit i (In2 train) with (i', Ok _) => covariance_ i' | (_, Err e) => Err e end
    end.
  (** [E.__name__], research/oos_equity.py:59 *)
  Definition est_name (k : Signed N) : string := c_name (sg_class k).
  (** [all_estimators()] with what their constructors are (ParamsModel.v) *)
  (** precise/registry.py:51-53 *)
  Definition ests : list (Signed N) := signatures L fuel.

  (** research/oos_equity.py:36-38  [_gmv_weights] *)
  Definition gmv_weights (cov : mat) : res vec :=
    P <- try_invert L cov ;;
    w <- matvec P (vones (nrows cov)) ;;
    Ok (vdivs w (vsum w)).
  (** research/oos_equity.py:59, 66  [float(np.mean((test @ w) ** 2))] *)
  Definition realised (test : mat) (w : vec) : res N :=
    r <- matvec test w ;; Ok (vmean (map nsq r)).
  (** CPython's [min] of a non-empty sequence *)
  (** research/oos_equity.py:64 *)
  Definition py_minimum (l : list N) : res N :=
    match l with [] => Err ValueError | x :: r => Ok (fold_left py_min r x) end.
  (** dict lookup, research/oos_equity.py:63 *)
  Definition key {A} (d : list (string * A)) (k : string) : res A :=
    match find (fun e => String.eqb (fst e) k) d with Some e => Ok (snd e) | None => Err KeyError end.

  (** What one iteration of the loop of [rolling_oos] computes *)
  (** research/oos_equity.py:54-66 *)
  Record window := mkWindow { w_this : list (string * N); w_rec : string; w_pick : N; w_oracle : N; w_equal : N }.
  (** research/oos_equity.py:54-66  one iteration *)
  Definition window_at (R : mat) (train_len test_len t : nat) : res window :=
    let train := slice t (t + train_len) R in
    let test := slice (t + train_len) (t + train_len + test_len) R in
    this <- mapM (fun k => cov <- fit_cov k train ;; w <- gmv_weights cov ;; v <- realised test w ;; Ok (est_name k, v)) ests ;;
    top <- suggest L model fuel (In2 train) 1 ;;
    rec <- (match top with [] => Err IndexError | r :: _ => Ok (name_of r) end) ;;
    pick <- key this rec ;;
    oracle <- py_minimum (map snd this) ;;
    let p := ncols R in
    equal <- realised test (vdivs (vones p) (nofn p)) ;;
    Ok (mkWindow this rec pick oracle equal).

  (** [counts[rec] = counts.get(rec, 0) + 1] *)
  (** research/oos_equity.py:62 *)
  Fixpoint bump (rec : string) (counts : list (string * nat)) : list (string * nat) :=
    match counts with
    | [] => [(rec, 1)]
    | (k, n) :: c => if String.eqb k rec then (k, S n) :: c else (k, n) :: bump rec c
    end.
  (** research/oos_equity.py:68-69  [annvol] *)
  Definition annvol (v : list N) : N := nsqrt (nmul (nofZ 252) (vmean v)).

  (** research/oos_equity.py:72 *)
  Record oos := mkOos { o_fixed : list (string * N); o_rec : N; o_oracle : N; o_equal : N; o_counts : list (string * nat) }.
  (** research/oos_equity.py:41-72  [rolling_oos].  [range] raises ValueError on a zero step; [T, p = R.shape] is the shape of a
      2-d array. *)
  Definition rolling_oos (R : mat) (train_len test_len step : nat) : res oos :=
    if Nat.eqb step 0 then Err ValueError else
    ws <- mapM (window_at R train_len test_len) (starts (nrows R + 1 - (train_len + test_len)) step) ;;
    fixed <- mapM (fun k => l <- mapM (fun w => key (w_this w) (est_name k)) ws ;; Ok (est_name k, annvol l)) ests ;;
    Ok (mkOos fixed (annvol (map w_pick ws)) (annvol (map w_oracle ws)) (annvol (map w_equal ws))
              (fold_left (fun c w => bump (w_rec w) c) ws [])).
  (** research/oos_equity.py:78  the recommender's rank in [report] *)
  Definition report_rank (o : oos) : nat := S (length (filter (fun e => nltb (snd e) (o_rec o)) (o_fixed o))).

  (** [sorted(l, key=...)] with a float key: stable insertion.  Simplification: keys are not NaN. *)
  (** research/oos.py:101 (CPython's stable sort) *)
  Fixpoint insert_num {A} (f : A -> N) (x : A) (l : list A) : list A :=
    match l with
    | [] => [x]
    | y :: l' => if nleb (f x) (f y) then x :: y :: l' else y :: insert_num f x l'
    end.
  (** research/oos.py:101, research/bakeoff.py:147, 158  [sorted] *)
  Definition sorted_num {A} (f : A -> N) (l : list A) : list A := fold_right (insert_num f) [] l.
  (** research/oos_equity.py:76  [ranked] in [report] *)
  Definition report_ranked (o : oos) : list (string * N) := sorted_num (fun e => snd e) (o_fixed o).
  (** research/oos_equity.py:77  [best_fixed_name, best_fixed_vol = ranked[0]] in [report] *)
  Definition report_best (o : oos) : res (string * N) := match report_ranked o with [] => Err IndexError | e :: _ => Ok e end.
  (** research/oos.py:99-102  [_ranks] *)
  Definition ranks (scores : list (string * N)) : list (string * nat) :=
    let order := sorted_num (fun e => nopp (snd e)) scores in
    map (fun ie => (fst (snd ie), S (fst ie))) (combine (seq 0 (length order)) order).

  (** [-np.inf] *)
  (** research/oos.py:120, research/bakeoff.py:131 *)
  Definition minus_inf : N := nopp (ndiv n1 n0).
  (** [try: x  except Exception: -np.inf] *)
  (** research/oos.py:116-120, research/bakeoff.py:125-131 *)
  Definition or_minus_inf (r : res N) : res N :=
    match r with Err FuelExhausted => Err FuelExhausted | Err _ => Ok minus_inf | Ok x => Ok x end.
  (** research/oos.py:105-125  [_trial], given the two samples and the shipped recommender *)
  Definition trial (a : assessor) (train test : mat) : res (list (string * N) * string) :=
    sc <- mapM (fun k => s <- or_minus_inf (cov <- fit_cov k train ;; assess L a cov (Some test) None) ;; Ok (est_name k, s)) ests ;;
    top <- suggest L model fuel (In2 train) 1 ;;
    rec <- (match top with [] => Err IndexError | r :: _ => Ok (name_of r) end) ;;
    Ok (sc, rec).

  (** CPython's [min] / [max] of a non-empty list by a float key: the first least / greatest *)
  (** research/oos.py:137 *)
  Definition first_min {A} (f : A -> N) (l : list A) : res A :=
    match l with [] => Err ValueError | x :: r => Ok (fold_left (fun b y => if nltb (f y) (f b) then y else b) r x) end.
  (** research/bakeoff.py:169 *)
  Definition first_max {A} (f : A -> N) (l : list A) : res A :=
    match l with [] => Err ValueError | x :: r => Ok (fold_left (fun b y => if nltb (f b) (f y) then y else b) r x) end.
  (** the mean of a list of ranks *)
  (** research/oos.py:137, research/bakeoff.py:150 *)
  Definition mean_rank (rs : list nat) : N := vmean (map (fun r => nofn r) rs).
  (** research/oos.py:128-137  [_best_fixed], given the scores of the trials.  [accum] is a defaultdict: its keys come from the
      first trial, in the order of its ranking. *)
  Definition best_fixed (trials : list (list (string * N))) : res string :=
    match trials with
    | [] => Err ValueError
    | sc :: _ =>
      accum <- mapM (fun e => l <- mapM (fun s => key (ranks s) (fst e)) trials ;; Ok (fst e, l)) (ranks sc) ;;
      b <- first_min (fun e => mean_rank (snd e)) accum ;; Ok (fst b)
    end.

  (** research/bakeoff.py:114-133  [run], given the scenarios (name, train, test, true covariance).  An exception of an assessor is
      replaced by -inf; one of an estimator is not caught. *)
  Definition scenario := (string * mat * mat * mat)%type.
  (** research/bakeoff.py:124-131 *)
  Definition cell_scores (cov test truth : mat) : res (list (string * N)) :=
    mapM (fun a => s <- or_minus_inf (assess L a cov (Some test) (Some truth)) ;; Ok (aname a, s))
         (filter (fun a => usable a true true) all_assessors).
  (** research/bakeoff.py:114-133  [run] *)
  Definition run (scs : list scenario) : res (list (string * list (string * list (string * N)))) :=
    grid <- mapM (fun sc : scenario => let '(nm, train, test, truth) := sc in
                    row <- mapM (fun k => cov <- fit_cov k train ;; s <- cell_scores cov test truth ;; Ok (est_name k, s)) ests ;;
                    Ok (nm, row)) scs ;;
    mapM (fun k => cells <- mapM (fun g => s <- key (snd g) (est_name k) ;; Ok (fst g, s)) grid ;; Ok (est_name k, cells)) ests.

  (** research/bakeoff.py:136-138  [_mean]: the finite scores only *)
  Definition nfinite (x : N) : bool := negb (nisnan (nsub x x)).
  (** research/bakeoff.py:136-138  [_mean] *)
  Definition bake_mean (cells : list (string * list (string * N))) (primary : string) : N :=
    let vals := filter nfinite (map (fun c => match key (snd c) primary with Ok v => v | Err _ => nnan end) cells) in
    match vals with [] => minus_inf | _ => vmean vals end.
  (** [results[nm][cell].get(primary, -np.inf)] *)
  (** research/bakeoff.py:147, 169 *)
  Definition cell_score (primary cell : string) (r : string * list (string * list (string * N))) : N :=
    match key (snd r) cell with Ok d => match key d primary with Ok v => v | Err _ => minus_inf end | Err _ => minus_inf end.
  (** research/bakeoff.py:141-150, 158  the average ranks of [leaderboard] and its order *)
  Definition avg_ranks (results : list (string * list (string * list (string * N)))) (cells : list string) (primary : string)
    : res (list (string * N)) :=
    mapM (fun r => l <- mapM (fun c => key (ranks (map (fun r' => (fst r', cell_score primary c r')) results)) (fst r)) cells ;;
                   Ok (fst r, mean_rank l)) results.
  (** research/bakeoff.py:165-171  the winner of one scenario in [per_scenario_winners] *)
  Definition winner (results : list (string * list (string * list (string * N)))) (primary cell : string) : res string :=
    b <- first_max (cell_score primary cell) results ;; Ok (fst b).
End Oos.
Arguments mkWindow {N}. Arguments w_this {N}. Arguments w_rec {N}. Arguments w_pick {N}. Arguments w_oracle {N}. Arguments w_equal {N}.
Arguments o_fixed {N}. Arguments o_rec {N}. Arguments o_oracle {N}. Arguments o_equal {N}. Arguments o_counts {N}.

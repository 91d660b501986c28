(** * Model of the protocols with a random number generator: research/oos.py, research/train_recommender.py and the scenarios of
      research/bakeoff.py

    The generator is a state and the functions numpy's Generator has on it; nothing is assumed of them here.  scikit-learn's decision
    tree is a function of the training set ([random_state] is fixed in the code).  Simplifications: [randomcov] is not installed
    (research/oos.py:31-36); sizes and counts are not negative; nothing that is printed or written to a file is a string here. *)
From Coq Require Import ZArith Bool String List.
From Verif Require Import Num Numpy PyVal LinalgModel StateModel BaseModel Estimators RegistryModel ParamsModel AssessModel RecommendModel
  OosModel.
Import ListNotations.
Local Open Scope string_scope.
Local Open Scope list_scope.

(** numpy.random.Generator: its state and the draws the protocols use.  [rng.choice] of a list is an index into it;
    [rng.multivariate_normal] has mean zero and may raise (its SVD may not converge). *)
(** research/oos.py:50-64, 90-96, 133, 143, 183-185; research/bakeoff.py:40-108 *)
Record Rand (N : Num) := mkRand {
  rg : Type;
  r_integers : nat -> rg -> nat * rg;
  r_choice : nat -> rg -> nat * rg;
  r_uniform : N -> N -> nat -> rg -> vec N * rg;
  r_random : nat -> rg -> vec N * rg;
  r_normal : nat -> nat -> rg -> mat N * rg;
  r_mvn : mat N -> nat -> rg -> res (mat N * rg);
  r_chisquare : N -> nat -> rg -> vec N * rg }.
Arguments rg {N}. Arguments r_integers {N}. Arguments r_choice {N}. Arguments r_uniform {N}. Arguments r_random {N}.
Arguments r_normal {N}. Arguments r_mvn {N}. Arguments r_chisquare {N}.

Section Train.
  Context {N : Num} (L : LinAlg N) (fuel : nat) (model : bool) (R : Rand N).
  Notation vec := (vec N).
  Notation mat := (mat N).

  (** A computation that may draw from the generator and may raise *)
  (** CPython semantics of a function with an argument [rng], e.g. research/oos.py:47 *)
  Definition D (A : Type) := rg R -> res (A * rg R).
  (** research/oos.py:47 *)
  Definition dret {A} (a : A) : D A := fun g => Ok (a, g).
  (** research/oos.py:47 *)
  Definition dbind {A B} (m : D A) (f : A -> D B) : D B := fun g => match m g with Ok (a, g') => f a g' | Err e => Err e end.
  (** a step that draws nothing, research/oos.py:118 *)
  Definition dlift {A} (r : res A) : D A := fun g => match r with Ok a => Ok (a, g) | Err e => Err e end.
  (** a draw, research/oos.py:48 *)
  Definition ddraw {A} (f : rg R -> A * rg R) : D A := fun g => Ok (f g).
  (** [for _ in range(n)], research/oos.py:132, 152, 181 *)
  Fixpoint dtimes {A} (n : nat) (m : D A) : D (list A) :=
    match n with O => dret [] | S n' => dbind m (fun a => dbind (dtimes n' m) (fun l => dret (a :: l))) end.
  (** [for x in l], research/oos.py:146, 220 *)
  Fixpoint dmap {A B} (f : A -> D B) (l : list A) : D (list B) :=
    match l with [] => dret [] | a :: l' => dbind (f a) (fun b => dbind (dmap f l') (fun bs => dret (b :: bs))) end.
  Notation "' p <~ m ;; k" := (dbind m (fun p => k)) (at level 61, p pattern, m at next level, right associativity).
  Notation "x <~ m ;; k" := (dbind m (fun x => k)) (at level 61, m at next level, right associativity).

  (** ** The generative families *)
  (** [x ** k] for an int [k >= 0] *)
  (** research/oos.py:60, research/bakeoff.py:51 *)
  Fixpoint npow (x : N) (k : nat) : N := match k with O => n1 | S k' => nmul x (npow x k') end.
  (** research/oos.py:42-45 [_equicorr] (rho = 0.6), research/bakeoff.py:34-37 [_equicorrelation] *)
  Definition equicorr (p : nat) (rho : N) : mat := tab2 p p (fun i j => if Nat.eqb i j then n1 else rho).
  (** research/oos.py:47-49, research/bakeoff.py:40-42  [_one_factor]: the matrix *)
  Definition one_factor_cov (b d : vec) : res mat := madd (outer b b) (mdiag d).
  (** research/oos.py:47-49, research/bakeoff.py:40-42  [_one_factor] *)
  Definition one_factor (p : nat) : D mat :=
    b <~ ddraw (r_uniform R (nlit 5 1) (nlit 15 1) p) ;;
    d <~ ddraw (r_uniform R (nlit 2 1) n1 p) ;;
    dlift (one_factor_cov b d).
  (** research/oos.py:52-54, research/bakeoff.py:45-47  [_three_factor]: the matrix *)
  Definition three_factor_cov (B : mat) (d : vec) : res mat := M <- matmul B (transpose B) ;; madd M (mdiag d).
  (** research/oos.py:52-54, research/bakeoff.py:45-47  [_three_factor] *)
  Definition three_factor (p : nat) : D mat :=
    B <~ ddraw (r_normal R p 3) ;;
    d <~ ddraw (r_uniform R (nlit 2 1) n1 p) ;;
    dlift (three_factor_cov B d).
  (** research/oos.py:57-59 [_ar1] (rho = 0.7), research/bakeoff.py:50-52 [_ar1_toeplitz] *)
  Definition ar1 (p : nat) (rho : N) : mat := tab2 p p (fun i j => npow rho ((i - j) + (j - i))).
  (** research/oos.py:62-65  [_spiked]: the matrix, given Q and the three spikes; [np.full] of a negative length raises *)
  Definition spiked_cov (Q : mat) (s : vec) (p : nat) : res mat :=
    if Nat.ltb p 3 then Err ValueError else
    Q' <- mapM (fun row => vmul row (s ++ repeat (nlit 4 1) (p - 3))) Q ;;
    matmul Q' (transpose Q).
  (** research/oos.py:62-65  [_spiked]; [np_qr] is the first factor of np.linalg.qr *)
  Definition spiked_gen (np_qr : mat -> res mat) (p : nat) : D mat :=
    s <~ ddraw (r_uniform R (nofZ 8) (nofZ 15) 3) ;;
    if Nat.ltb p 3 then dlift (Err ValueError) else
    A <~ ddraw (r_normal R p p) ;;
    Q <~ dlift (np_qr A) ;;
    dlift (spiked_cov Q s p).
  (** research/oos.py:68-69  [_diag_hetero] *)
  Definition diag_hetero (p : nat) : D mat :=
    d <~ ddraw (r_uniform R (nlit 1 1) (nofZ 5) p) ;; dret (mdiag d).

  (** An entry of ENSEMBLES: (generator, heavy-tailed?) *)
  (** research/oos.py:72 *)
  Record family := mkFamily { f_gen : nat -> D mat; f_heavy : bool }.
  (** research/oos.py:73-82  [ENSEMBLES] *)
  Definition ENSEMBLES (np_qr : mat -> res mat) : list (string * family) :=
    [("equicorr", mkFamily (fun p => dret (equicorr p (nlit 6 1))) false);
     ("one_factor", mkFamily one_factor false);
     ("three_factor", mkFamily three_factor false);
     ("ar1_toeplitz", mkFamily (fun p => dret (ar1 p (nlit 7 1))) false);
     ("spiked", mkFamily (spiked_gen np_qr) false);
     ("diag_hetero", mkFamily diag_hetero false);
     ("one_factor_heavy", mkFamily one_factor true);
     ("ar1_heavy", mkFamily (fun p => dret (ar1 p (nlit 7 1))) true)].

  (** [z * np.sqrt(df / chi)] with [chi] of shape (n, 1) *)
  (** research/oos.py:96, research/bakeoff.py:62 *)
  Definition scale_rows (z : mat) (chi : vec) : mat :=
    zipw (fun row c => map (fun x => nmul x (nsqrt (ndiv (nofZ 5) c))) row) z chi.
  (** research/oos.py:91-96  [_sample]; research/bakeoff.py:55-62 [_gaussian], [_heavy_tailed] *)
  Definition sample (cov : mat) (n : nat) (heavy : bool) : D mat :=
    if heavy then
      z <~ r_mvn R (mdivs (mmap (fun x => nmul x (nofZ 3)) cov) (nofZ 5)) n ;;
      chi <~ ddraw (r_chisquare R (nofZ 5) n) ;;
      dret (scale_rows z chi)
    else r_mvn R cov n.

  (** [names[rng.integers(len(names))]]: [rng.integers(0)] raises *)
  (** research/oos.py:133, 182 *)
  Definition pick_name (names : list string) : D string :=
    match names with
    | [] => dlift (Err ValueError)
    | _ => i <~ ddraw (r_integers R (length names)) ;; dlift (match nth_error names i with Some s => Ok s | None => Err IndexError end)
    end.

  (** ** One trial *)
  (** research/oos.py:115-120  the scores of [_trial] *)
  Definition trial_scores (a : assessor) (train test : mat) : res (list (string * N)) :=
    mapM (fun k => s <- or_minus_inf (cov <- fit_cov k train ;; assess L a cov (Some test) None) ;; Ok (est_name k, s)) (ests L fuel).
  (** [suggest(train, top=1)[0].__name__], research/oos.py:124 *)
  Definition shipped (train : mat) : res string :=
    top <- suggest L model fuel (In2 train) 1 ;; match top with [] => Err IndexError | r :: _ => Ok (name_of r) end.
  (** research/oos.py:105-125  [_trial] *)
  Definition trial_draw (fam : family) (p n_train n_test : nat) (a : assessor) (recommender : mat -> res string)
    : D (list (string * N) * string) :=
    true_cov <~ f_gen fam p ;;
    train <~ sample true_cov n_train (f_heavy fam) ;;
    test <~ sample true_cov n_test (f_heavy fam) ;;
    sc <~ dlift (trial_scores a train test) ;;
    rec <~ dlift (recommender train) ;;
    dret (sc, rec).

  (** research/oos.py:128-137  [_best_fixed] *)
  Definition best_fixed_draw (ens : list (string * family)) (names : list string) (p n_train n_test trials : nat) (a : assessor) : D string :=
    scs <~ dtimes trials (nm <~ pick_name names ;;
                          fam <~ dlift (key ens nm) ;;
                          '(sc, _) <~ trial_draw fam p n_train n_test a shipped ;;
                          dret sc) ;;
    dlift (best_fixed scs).

  (** ** The leave-one-out protocols *)
  (** One entry of the results *)
  (** research/oos.py:157-161, 234-238 *)
  Record lofo := mkLofo { l_best_fixed : string; l_rank_recommender : N; l_rank_best_fixed : N }.
  (** research/oos.py:149-161, 223-238  the trials on the held-out family *)
  Definition evaluate (fam : family) (p n_train n_test trials : nat) (a : assessor) (recommender : mat -> res string) (bf : string) : D lofo :=
    rks <~ dtimes trials ('(sc, rec) <~ trial_draw fam p n_train n_test a recommender ;;
                          r <~ dlift (key (ranks sc) rec) ;;
                          b <~ dlift (key (ranks sc) bf) ;;
                          dret (r, b)) ;;
    dret (mkLofo bf (mean_rank (map fst rks)) (mean_rank (map snd rks))).
  (** [[e for e in names if e != held]], research/oos.py:147, 221 *)
  Definition others (names : list string) (held : string) : list string := filter (fun e => negb (String.eqb e held)) names.
  (** research/oos.py:146-161  one held-out family of [leave_one_ensemble_out] *)
  Definition ensemble_out (ens : list (string * family)) (p n_train n_test trials : nat) (a : assessor) (held : string) : D lofo :=
    bf <~ best_fixed_draw ens (others (map fst ens) held) p n_train n_test trials a ;;
    fam <~ dlift (key ens held) ;;
    evaluate fam p n_train n_test trials a shipped bf.
  (** research/oos.py:140-162  [leave_one_ensemble_out], from the generator's first state *)
  Definition leave_one_ensemble_out (ens : list (string * family)) (p n_train n_test trials : nat) (a : assessor) : D (list (string * lofo)) :=
    dmap (fun held => r <~ ensemble_out ens p n_train n_test trials a held ;; dret (held, r)) (map fst ens).

  (** ** Training *)
  (** numpy's argmax: the first NaN if there is one, else the first maximum *)
  (** research/oos.py:195, research/train_recommender.py:52 *)
  Fixpoint argmax_go (mp : N) (bi i : nat) (l : vec) : nat :=
    if nisnan mp then bi else
    match l with [] => bi | x :: l' => if nleb x mp then argmax_go mp bi (S i) l' else argmax_go x i (S i) l' end.
  (** research/oos.py:195 *)
  Definition np_argmax (l : vec) : res nat := match l with [] => Err ValueError | x :: l' => Ok (argmax_go x 0 1 l') end.
  (** research/train_recommender.py:34-36  [_features] *)
  Definition train_features (X : mat) : res vec := f <- covariance_features L (In2 X) ;; Ok (FEATURES f).
  (** [int(p * c)] for c = 0.5, 0.8, 1.5, 3.0; the products are exact or rounded to an integer (15 * 0.8 = 12.0) *)
  (** research/oos.py:184, research/train_recommender.py:47 *)
  Definition RATIOS : list (nat * nat) := [(1, 2); (4, 5); (3, 2); (3, 1)].
  (** research/oos.py:183, research/train_recommender.py:46 *)
  Definition SIZES : list nat := [15; 25; 40; 60].
  (** research/oos.py:184 *)
  Definition window_len (p : nat) (c : nat * nat) : nat := Nat.max (p * fst c / snd c) 10.
  (** [rng.choice(l)] *)
  (** research/oos.py:183-184 *)
  Definition choose {A} (l : list A) : D A :=
    i <~ ddraw (r_choice R (length l)) ;; dlift (match nth_error l i with Some x => Ok x | None => Err IndexError end).
  (** research/oos.py:182-186, research/train_recommender.py:45-49  one synthetic problem *)
  Definition problem (ens : list (string * family)) (names : list string) : D (mat * mat) :=
    nm <~ pick_name names ;;
    fam <~ dlift (key ens nm) ;;
    p <~ choose SIZES ;;
    c <~ choose RATIOS ;;
    true_cov <~ f_gen fam p ;;
    tr <~ sample true_cov (window_len p c) (f_heavy fam) ;;
    te <~ sample true_cov 400 (f_heavy fam) ;;
    dret (tr, te).
  (** [names[int(np.argmax(scores))]] *)
  (** research/oos.py:195, research/train_recommender.py:52 *)
  Definition label (scores : vec) : res string :=
    i <- np_argmax scores ;;
    match nth_error (map (fun k : Signed N => est_name k) (ests L fuel)) i with Some s => Ok s | None => Err IndexError end.
  (** research/oos.py:187-195  the example made of a problem: an estimator that raises scores -inf *)
  Definition example (a : assessor) (pr : mat * mat) : res (vec * string) :=
    sc <- mapM (fun k => or_minus_inf (cov <- fit_cov k (fst pr) ;; assess L a cov (Some (snd pr)) None)) (ests L fuel) ;;
    f <- train_features (fst pr) ;;
    y <- label sc ;;
    Ok (f, y).
  (** research/train_recommender.py:50-52  the same in [generate]: an estimator that raises is not caught *)
  Definition example_raising (a : assessor) (pr : mat * mat) : res (vec * string) :=
    sc <- mapM (fun k => cov <- fit_cov k (fst pr) ;; assess L a cov (Some (snd pr)) None) (ests L fuel) ;;
    f <- train_features (fst pr) ;;
    y <- label sc ;;
    Ok (f, y).
  (** research/train_recommender.py:39-53  [generate]: the rows of X with the labels y *)
  Definition generate (ens : list (string * family)) (n_problems : nat) : D (list (vec * string)) :=
    dtimes n_problems (pr <~ problem ens (map fst ens) ;; dlift (example_raising GMVVariance pr)).
  (** [X.mean(0)], research/oos.py:197, research/train_recommender.py:86 *)
  Definition col_means (X : mat) : vec := tab (ncols X) (fun j => vmean (mcol X j)).
  (** [X.std(0) + 1e-9], research/oos.py:197, research/train_recommender.py:86 *)
  Definition col_stds (X : mat) : vec :=
    tab (ncols X) (fun j => nadd (nsqrt (vmean (map (fun x => nsq (nsub x (vmean (mcol X j)))) (mcol X j)))) (nlit 1 9)).
  (** [(x - mean) / std], research/oos.py:200, 203 *)
  Definition standardise (mean std x : vec) : res vec := d <- vsub x mean ;; vdiv d std.
  (** research/oos.py:197-200, research/train_recommender.py:86-88  fit the tree to a training set; [sk_fit] is
      DecisionTreeClassifier(max_depth=5, min_samples_leaf=10, random_state=0).fit, which raises when there is nothing to fit *)
  Definition fit_tree (sk_fit : mat -> list string -> res (vec -> res string)) (set : list (vec * string)) : res (vec * vec * (vec -> res string)) :=
    match set with
    | [] => Err ValueError
    | _ =>
      let X := map fst set in
      let mean := col_means X in
      let std := col_stds X in
      Z <- mapM (standardise mean std) X ;;
      clf <- sk_fit Z (map snd set) ;;
      Ok (mean, std, clf)
    end.
  (** research/oos.py:202-204  [predict] *)
  Definition predict (t : vec * vec * (vec -> res string)) (window : mat) : res string :=
    f <- train_features window ;;
    x <- standardise (fst (fst t)) (snd (fst t)) f ;;
    snd t x.
  (** research/oos.py:165-206  [_train_recommender] *)
  Definition train_recommender (sk_fit : mat -> list string -> res (vec -> res string)) (ens : list (string * family)) (names : list string)
    (n_problems : nat) (a : assessor) : D (mat -> res string) :=
    set <~ dtimes n_problems (pr <~ problem ens names ;; dlift (example a pr)) ;;
    t <~ dlift (fit_tree sk_fit set) ;;
    dret (predict t).
  (** research/oos.py:220-238  one held-out family of [leave_one_family_out_trained] *)
  Definition family_out (sk_fit : mat -> list string -> res (vec -> res string)) (ens : list (string * family))
    (p n_train n_test trials n_problems : nat) (a : assessor) (held : string) : D lofo :=
    rec <~ train_recommender sk_fit ens (others (map fst ens) held) n_problems a ;;
    bf <~ best_fixed_draw ens (others (map fst ens) held) p n_train n_test trials a ;;
    fam <~ dlift (key ens held) ;;
    evaluate fam p n_train n_test trials a rec bf.
  (** research/oos.py:209-239  [leave_one_family_out_trained], from the generator's first state *)
  Definition leave_one_family_out_trained (sk_fit : mat -> list string -> res (vec -> res string)) (ens : list (string * family))
    (p n_train n_test trials n_problems : nat) (a : assessor) : D (list (string * lofo)) :=
    dmap (fun held => r <~ family_out sk_fit ens p n_train n_test trials n_problems a held ;; dret (held, r)) (map fst ens).

  (** ** What is reported and exported *)
  (** research/oos.py:249-254  the columns of one line of [report]: the family, the ranks and who wins *)
  Definition report_line (r : string * lofo) : string * N * N * string :=
    (fst r, l_rank_recommender (snd r), l_rank_best_fixed (snd r),
     if nleb (l_rank_recommender (snd r)) (l_rank_best_fixed (snd r)) then "rec" else "fix").
  (** research/oos.py:248-261  [report]: its lines and the two means (floats divided by an int) *)
  Definition report (results : list (string * lofo)) : res (list (string * N * N * string) * N * N) :=
    let rec_tot := fold_left (fun t r => nadd t (l_rank_recommender (snd r))) results n0 in
    let fix_tot := fold_left (fun t r => nadd t (l_rank_best_fixed (snd r))) results n0 in
    m <- py_div rec_tot (nofn (length results)) ;;
    m' <- py_div fix_tot (nofn (length results)) ;;
    Ok (map report_line results, m, m').
  (** [int(c)] of a float: towards zero *)
  (** research/train_recommender.py:77 *)
  Definition py_int (c : N) : res Z :=
    if nltb c n0 then nceil c else z <- nceil (nopp c) ;; Ok (- z)%Z.
  (** [round(float(v), 6)].  Simplification: a tie goes down (CPython: to even). *)
  (** research/train_recommender.py:71-72, 75 *)
  Definition py_round6 (v : N) : res N :=
    k <- nceil (nsub (nmul v (nofZ 1000000)) (nlit 5 1)) ;; Ok (ndiv (nofZ k) (nofZ 1000000)).
  (** research/train_recommender.py:71-77  the tables [MEAN], [STD] and [VALUE] of the file [export] writes *)
  Definition export (mean std : vec) (value : list vec) : res (vec * vec * list (list Z)) :=
    m <- mapM py_round6 mean ;; s <- mapM py_round6 std ;; v <- mapM (mapM py_int) value ;; Ok (m, s, v).

  (** ** The scenarios of the bake-off *)
  (** [tr[mask] = noise]: the rows with a true mask take the next row of the noise *)
  (** research/bakeoff.py:92-93 *)
  Fixpoint overwrite (mask : list bool) (noise tr : mat) : mat :=
    match tr, mask with
    | row :: tr', true :: mask' => match noise with z :: noise' => z :: overwrite mask' noise' tr' | [] => row :: overwrite mask' [] tr' end
    | row :: tr', false :: mask' => row :: overwrite mask' noise tr'
    | _, _ => tr
    end.
  (** a scenario drawn from one covariance, research/bakeoff.py:77, 82, 98 *)
  Definition drawn (nm : string) (cov : mat) (n n_test : nat) (heavy : bool) : D (scenario (N := N)) :=
    train <~ sample cov n heavy ;; test <~ sample cov n_test heavy ;; dret (nm, train, test, cov).
  (** research/bakeoff.py:66-109  [build_scenarios].  The first list is built before anything is sampled. *)
  Definition build_scenarios (d n n_test : nat) : D (list (scenario (N := N))) :=
    cov1 <~ one_factor d ;;
    s1 <~ drawn "equicorr" (equicorr d (nlit 6 1)) n n_test false ;;
    s2 <~ drawn "one_factor" cov1 n n_test false ;;
    s3 <~ drawn "ar1_toeplitz" (ar1 d (nlit 7 1)) n n_test false ;;
    covh <~ one_factor 40 ;;
    s4 <~ drawn "high_dim_low_n" covh 60 n_test false ;;
    ra <~ sample (equicorr d (nlit 2 1)) (n / 2) false ;;
    rb <~ sample (equicorr d (nlit 85 2)) (n / 2) false ;;
    rt <~ sample (equicorr d (nlit 85 2)) n_test false ;;
    covc <~ one_factor d ;;
    tr <~ sample covc n false ;;
    u <~ ddraw (r_random R (length tr)) ;;
    let mask := map (fun x => nltb x (nlit 5 2)) u in
    z <~ ddraw (r_normal R (length (filter (fun b => b) mask)) d) ;;
    te <~ sample covc n_test false ;;
    cov3 <~ three_factor d ;;
    s7 <~ drawn "heavy_tailed" cov3 n n_test true ;;
    dret [s1; s2; s3; s4; ("regime_change", ra ++ rb, rt, equicorr d (nlit 85 2));
          ("contaminated", overwrite mask (mmap (fun x => nmul x (nofZ 8)) z) tr, te, covc); s7].
End Train.
Arguments mkFamily {N R}. Arguments f_gen {N R}. Arguments f_heavy {N R}.
Arguments mkLofo {N}. Arguments l_best_fixed {N}. Arguments l_rank_recommender {N}. Arguments l_rank_best_fixed {N}.

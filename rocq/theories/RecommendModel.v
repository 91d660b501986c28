(** * Model of precise/recommend.py and precise/_recommender_model.py *)
From Coq Require Import ZArith Bool String List.
From Verif Require Import Num Numpy PyVal LinalgModel StateModel BaseModel Estimators RegistryModel AssessModel.
Import ListNotations.
Local Open Scope string_scope.

Section Recommend.
  Context {N : Num} (L : LinAlg N).

  (** The dict returned by [covariance_features] *)
  (** precise/recommend.py:47-56 *)
  Record features := mkFeatures {
    f_n : nat; f_p : nat; f_p_over_n : N; f_effective_rank : N; f_sphericity : N; f_condition_number : N;
    f_mean_abs_offdiag_corr : N; f_avg_excess_kurtosis : N }.

  (** The off-diagonal entries of a p x p array, row by row: [corr[~np.eye(p, dtype=bool)]] *)
  (** precise/recommend.py:43 *)
  Definition offdiag (p : nat) (a : mat N) : vec N :=
    List.concat (tab p (fun i => map (mget a i) (filter (fun j => negb (Nat.eqb i j)) (seq 0 p)))).

  (** precise/recommend.py:30-56  [covariance_features].
      Simplifications: at least two rows ([np_cov]); [eigvalsh] returns the eigenvalues of [eigh];
      [total**2] does not raise OverflowError; [x**4] is (x*x)*(x*x). *)
  Definition covariance_features (X : input N) : res features :=
    rows <- as_rows X ;;
    let n := nrows rows in
    let p := ncols rows in
    S <- np_cov rows ;;
    '(ev, _) <- la_eigh L S ;;
    let evals := map (fun e => np_clip_lo e (nlit 1 12)) ev in
    let total := vsum evals in
    eff_rank <- (if nltb n0 total then py_div (nsq total) (vsum (map nsq evals)) else Ok n1) ;;
    let var := map (fun v => np_clip_lo v (nlit 1 12)) (diagonal S) in
    corr <- mdiv S (mmap nsqrt (outer var var)) ;;
    let off := if Nat.ltb 1 p then offdiag p corr else [n0] in
    centered <- mapM (fun row => vsub row (tab p (fun j => vmean (mcol rows j)))) rows ;;
    let m4 := tab p (fun j => vmean (map (fun x => nsq (nsq x)) (mcol centered j))) in
    k <- vdiv m4 (map (fun v => nsq (np_clip_lo v (nlit 1 12))) var) ;;
    let excess_kurt := vmean (map (fun x => nsub x (nofZ 3)) k) in
    p_over_n <- py_div (nofn p) (nofn n) ;;
    sphericity <- py_div eff_rank (nofn p) ;;
    mx <- vmax evals ;;
    mn <- vmin evals ;;
    Ok (mkFeatures n p p_over_n eff_rank sphericity (ndiv mx mn) (vmean (map nabs off)) excess_kurt).

  (** A dict of scores.  The scores of [_scores] are multiples of 0.5 (exact in binary64) and the leaf counts are ints;
      both are modelled as integers, a score being counted in halves. *)
  (** precise/recommend.py:61, precise/_recommender_model.py:14 *)
  Definition scores := list (string * Z).
  (** [weights.get(...)], [heuristic[...]], precise/recommend.py:113, 116 *)
  Definition sc_get (d : scores) (k : string) : option Z :=
    option_map snd (find (fun e => String.eqb (fst e) k) d).
  (** [d[k] += v]: KeyError when absent *)
  (** precise/recommend.py:65-78 *)
  Definition sc_add (v : Z) (d : scores) (k : string) : res scores :=
    match sc_get d k with
    | None => Err KeyError
    | Some _ => Ok (map (fun e => if String.eqb (fst e) k then (fst e, snd e + v)%Z else e) d)
    end.
  (** the loops of precise/recommend.py:65-78 *)
  Fixpoint sc_add_all (v : Z) (d : scores) (ks : list string) : res scores :=
    match ks with [] => Ok d | k :: ks' => d' <- sc_add v d k ;; sc_add_all v d' ks' end.

  (** precise/recommend.py:62-64  the three tests of [_scores] *)
  Definition high_dim (f : features) : bool :=
    orb (nltb (nlit 25 2) (f_p_over_n f)) (nltb (f_sphericity f) (nlit 6 1)).
  (** precise/recommend.py:63 *)
  Definition ill_conditioned (f : features) : bool := nltb (nlit 500 1) (f_condition_number f).
  (** precise/recommend.py:64 *)
  Definition heavy_tailed (f : features) : bool := nltb (nlit 10 1) (f_avg_excess_kurtosis f).
  (** precise/recommend.py:59-79  [_scores], from the names of all_estimators() *)
  Definition heuristic_scores (names : list string) (f : features) : res scores :=
    let score := map (fun nm => (nm, 0%Z)) names in
    s1 <- (if orb (high_dim f) (ill_conditioned f)
           then sc_add_all 4 score ["FactorCovariance"; "LedoitWolfCovariance"; "OASCovariance"; "ShrunkCovariance"; "SchurCovariance"]
           else sc_add_all 4 score ["EmpiricalCovariance"; "EwaCovariance"]) ;;
    s2 <- (if heavy_tailed f then sc_add_all 3 s1 ["HuberCovariance"; "TylerCovariance"] else Ok s1) ;;
    sc_add 1 s2 "LedoitWolfCovariance".

  (** precise/_recommender_model.py:6-9 *)
  Definition FEATURES (f : features) : vec N :=
    [f_p_over_n f; f_effective_rank f; f_sphericity f; f_condition_number f; f_mean_abs_offdiag_corr f; f_avg_excess_kurtosis f; nofn (f_p f)].
  (** precise/_recommender_model.py:7 *)
  Definition MEAN : vec N := [nlit (104275) 5; nlit (6547773) 6; nlit (192256) 6; nlit (12670493965966932) 3; nlit (382714) 6; nlit (180726) 6; nlit (3546875) 5].
  (** precise/_recommender_model.py:8 *)
  Definition STD : vec N := [nlit (601385) 6; nlit (6717606) 6; nlit (141076) 6; nlit (20646381982312164) 3; nlit (184443) 6; nlit (1276679) 6; nlit (16996294) 6].
  (** precise/_recommender_model.py:9 *)
  Definition CLASSES : list string := ["DiagonalCovariance"; "EmpiricalCovariance"; "FactorCovariance"; "GeodesicEwaCovariance"; "LedoitWolfCovariance"; "OASCovariance"; "PartialMomentsCovariance"; "SchurCovariance"; "ShrunkCovariance"].
  (** precise/_recommender_model.py:10-14 *)
  Definition FEATURE : list Z := [2; 4; 0; 1; (-2); 5; (-2); (-2); 5; 5; (-2); (-2); (-2); 5; 1; 2; (-2); (-2); 4; (-2); (-2); 3; 5; (-2); (-2); (-2); 5; 1; 3; 2; (-2); (-2); 3; (-2); (-2); 2; 0; (-2); (-2); 4; (-2); (-2); 2; 4; (-2); (-2); (-2)]%Z.
  (** precise/_recommender_model.py:11 *)
  Definition THRESHOLD : vec N := [nlit (-249988) 6; nlit (621256) 6; nlit (-605275) 6; nlit (-482504) 6; nlit (-20) 1; nlit (-163481) 6; nlit (-20) 1; nlit (-20) 1; nlit (181827) 6; nlit (-340146) 6; nlit (-20) 1; nlit (-20) 1; nlit (-20) 1; nlit (450474) 6; nlit (-636807) 6; nlit (-879736) 6; nlit (-20) 1; nlit (-20) 1; nlit (1176196) 6; nlit (-20) 1; nlit (-20) 1; nlit (29924) 6; nlit (1252056) 6; nlit (-20) 1; nlit (-20) 1; nlit (-20) 1; nlit (803702) 6; nlit (-302127) 6; nlit (-449482) 6; nlit (362462) 6; nlit (-20) 1; nlit (-20) 1; nlit (-8938) 6; nlit (-20) 1; nlit (-20) 1; nlit (1244011) 6; nlit (-617872) 6; nlit (-20) 1; nlit (-20) 1; nlit (-1208764) 6; nlit (-20) 1; nlit (-20) 1; nlit (625918) 6; nlit (-1044892) 6; nlit (-20) 1; nlit (-20) 1; nlit (-20) 1].
  (** precise/_recommender_model.py:12 *)
  Definition LEFT : list Z := [1; 2; 3; 4; (-1); 6; (-1); (-1); 9; 10; (-1); (-1); (-1); 14; 15; 16; (-1); (-1); 19; (-1); (-1); 22; 23; (-1); (-1); (-1); 27; 28; 29; 30; (-1); (-1); 33; (-1); (-1); 36; 37; (-1); (-1); 40; (-1); (-1); 43; 44; (-1); (-1); (-1)]%Z.
  (** precise/_recommender_model.py:13 *)
  Definition RIGHT : list Z := [26; 13; 8; 5; (-1); 7; (-1); (-1); 12; 11; (-1); (-1); (-1); 21; 18; 17; (-1); (-1); 20; (-1); (-1); 25; 24; (-1); (-1); (-1); 42; 35; 32; 31; (-1); (-1); 34; (-1); (-1); 39; 38; (-1); (-1); 41; (-1); (-1); 46; 45; (-1); (-1); (-1)]%Z.
  (** precise/_recommender_model.py:14 *)
  Definition VALUE : list (list Z) := [[0; 0; 0; 0; 0; 0; 0; 0; 0]; [0; 0; 0; 0; 0; 0; 0; 0; 0]; [0; 0; 0; 0; 0; 0; 0; 0; 0]; [0; 0; 0; 0; 0; 0; 0; 0; 0]; [0; 0; 0; 0; 0; 0; 0; 0; 0]; [0; 0; 0; 0; 0; 0; 0; 0; 0]; [0; 0; 0; 0; 0; 0; 0; 0; 0]; [0; 0; 0; 0; 0; 0; 0; 0; 0]; [0; 0; 0; 0; 0; 0; 0; 0; 0]; [0; 0; 0; 0; 0; 0; 0; 0; 0]; [0; 0; 0; 0; 0; 0; 0; 0; 0]; [0; 0; 0; 0; 0; 0; 0; 0; 0]; [0; 0; 0; 0; 0; 0; 0; 0; 0]; [0; 0; 0; 0; 0; 0; 0; 0; 0]; [0; 0; 0; 0; 0; 0; 0; 0; 0]; [0; 0; 0; 0; 0; 0; 0; 0; 0]; [0; 0; 0; 0; 0; 0; 0; 0; 0]; [0; 0; 0; 0; 0; 0; 0; 0; 0]; [0; 0; 0; 0; 0; 0; 0; 0; 0]; [0; 0; 0; 0; 0; 0; 0; 0; 0]; [0; 0; 0; 0; 0; 0; 0; 0; 0]; [0; 0; 0; 0; 0; 0; 0; 0; 0]; [0; 0; 0; 0; 0; 0; 0; 0; 0]; [0; 0; 0; 0; 0; 0; 0; 0; 0]; [0; 0; 0; 0; 0; 0; 0; 0; 0]; [0; 0; 0; 0; 0; 0; 0; 0; 0]; [0; 0; 0; 0; 0; 0; 0; 0; 0]; [0; 0; 0; 0; 0; 0; 0; 0; 0]; [0; 0; 0; 0; 0; 0; 0; 0; 0]; [0; 0; 0; 0; 0; 0; 0; 0; 0]; [0; 0; 0; 0; 0; 0; 0; 0; 0]; [0; 0; 0; 0; 0; 0; 0; 0; 0]; [0; 0; 0; 0; 0; 0; 0; 0; 0]; [0; 0; 0; 0; 0; 0; 0; 0; 0]; [0; 0; 0; 0; 0; 0; 0; 0; 0]; [0; 0; 0; 0; 0; 0; 0; 0; 0]; [0; 0; 0; 0; 0; 0; 0; 0; 0]; [0; 0; 0; 0; 0; 0; 0; 0; 0]; [0; 0; 0; 0; 0; 0; 0; 0; 0]; [0; 0; 0; 0; 0; 0; 0; 0; 0]; [0; 0; 0; 0; 0; 0; 0; 0; 0]; [0; 0; 0; 0; 0; 0; 0; 0; 0]; [0; 0; 0; 0; 0; 0; 0; 0; 0]; [0; 0; 0; 0; 0; 0; 0; 0; 0]; [0; 0; 0; 0; 0; 0; 0; 0; 0]; [0; 0; 0; 0; 0; 0; 0; 0; 0]; [0; 0; 0; 0; 1; 0; 0; 0; 0]]%Z.

  (** precise/recommend.py:86-88  the standardised features *)
  Definition standardised (f : features) : res (vec N) :=
    d <- vsub (FEATURES f) MEAN ;; vdiv d STD.
  (** precise/recommend.py:87-91  [while feat[node] != -2: ...].  Python's loop has no bound; [fuel] bounds it here and
      running out is visible as FuelExhausted (theorem C58_walk_terminates: it never does with one unit per node). *)
  Fixpoint walk (fuel : nat) (xs : vec N) (node : nat) : res nat :=
    let k := nth node FEATURE (-2)%Z in
    if Z.eqb k (-2) then Ok node else
    match fuel with
    | O => Err FuelExhausted
    | S fuel' =>
      walk fuel' xs (Z.to_nat (if nleb (vget xs (Z.to_nat k)) (nth node THRESHOLD n0) then nth node LEFT 0%Z else nth node RIGHT 0%Z))
    end.
  (** precise/recommend.py:82-92  [_trained_weights] *)
  Definition trained_weights (f : features) : res scores :=
    xs <- standardised f ;;
    node <- walk (length FEATURE) xs 0 ;;
    Ok (combine CLASSES (nth node VALUE [])).

  (** [sorted(l, key=...)] with a key of two ints: stable insertion *)
  (** precise/recommend.py:113, 116: comparison of two keys *)
  Definition key_le (a b : Z * Z) : bool := orb (Z.ltb (fst a) (fst b)) (andb (Z.eqb (fst a) (fst b)) (Z.leb (snd a) (snd b))).
  (** precise/recommend.py:111-116 (CPython's stable sort) *)
  Fixpoint insert_by {A} (key : A -> Z * Z) (x : A) (l : list A) : list A :=
    match l with
    | [] => [x]
    | y :: l' => if key_le (key x) (key y) then x :: y :: l' else y :: insert_by key x l'
    end.
  (** precise/recommend.py:111-116  [sorted] *)
  Definition sorted_by {A} (key : A -> Z * Z) (l : list A) : list A := fold_right (insert_by key) [] l.

  (** [l[:top]] *)
  (** precise/recommend.py:117 *)
  Definition py_take {A} (top : Z) (l : list A) : list A :=
    firstn (Z.to_nat (if Z.ltb top 0 then Z.of_nat (length l) + top else top)%Z) l.

  (** precise/recommend.py:107-117  the ranking; [model] is whether _recommender_model could be imported *)
  Definition name_of (r : Registered N) : string := c_name (rg_class r).
  (** precise/recommend.py:113  the default of [.get(name, 0)] *)
  Definition dflt (o : option Z) : Z := match o with Some z => z | None => 0%Z end.
  (** precise/recommend.py:107-116 *)
  Definition ranking (model : bool) (fuel : nat) (f : features) : res (list (Registered N)) :=
    heuristic <- heuristic_scores (map name_of (all_estimators L fuel)) f ;;
    if model then
      weights <- trained_weights f ;;
      Ok (sorted_by (fun r => (- dflt (sc_get weights (name_of r)), - dflt (sc_get heuristic (name_of r)))%Z) (all_estimators L fuel))
    else Ok (sorted_by (fun r => (- dflt (sc_get heuristic (name_of r)), 0)%Z) (all_estimators L fuel)).
  (** precise/recommend.py:95-117  [suggest] ([fuel] belongs to the PartialMoments class, see Estimators.v) *)
  Definition suggest (model : bool) (fuel : nat) (X : input N) (top : Z) : res (list (Registered N)) :=
    f <- covariance_features X ;; r <- ranking model fuel f ;; Ok (py_take top r).
End Recommend.
Arguments features N : clear implicits.

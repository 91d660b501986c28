# Formal model of microprediction/precise — design

## 1. What is modelled, and how

The model is in `rocq/theories`, plain Gallina, one file per layer.  Every definition of a model file cites the file
and lines of /repo it models and says where it simplifies.

| model file | models |
|---|---|
| `Num.v` | the scalar type (law-free record `Num`), exceptions, the `res` monad; the carrier `NumX` (reals + inf + NaN) |
| `NumFloat.v`, `NumBin.v` | carriers for IEEE binary64: Coq's primitive floats (`NumF`, executable) and Flocq's `binary_float 53 1024` (`NumB`, for the theorems about rounding) |
| `Numpy.v` | the numpy subset used (broadcasting, outer, `@`, diag, trace, slices, norms); the `LinAlg` record of LAPACK/libm routines |
| `PyVal.v` | state dicts, their JSON form, `tolist` / `np.array` |
| `LinalgModel.v` | `precise/_linalg.py`, all of it |
| `StateModel.v` | `precise/_state.py`, all of it |
| `BaseModel.v` | `precise/_conventions.py`, `precise/base.py` (parameters as a typed record; by name: next row) |
| `ParamsModel.v` | the constructors of the 17 registered classes with their defaults, `get_params`, `set_params`, `_param_names`, `_clone`, `__repr__` on instances as attribute dictionaries |
| `Estimators.v` | the seventeen registered estimator classes (`precise/*.py`) |
| `RegistryModel.v` | `precise/registry.py` |
| `KeyedModel.v` | `precise/keyed.py` (except `to_frame`, `__repr__`) |
| `ConditionalModel.v`, `CondObjModel.v` | `precise/conditional.py` (the second: the object with its templates, the attributes inherited from `base.py`, pickling) |
| `AssessModel.v` | `precise/assessment/*` |
| `RecommendModel.v` | `precise/recommend.py`, `precise/_recommender_model.py` (tree, coefficients and class table copied literally) |
| `GammaModel.v` | the attribute `gamma_` of `precise/schur_ledoit_wolf.py` and `precise/schur_conditional.py`, assigned during reads (simplified: a `set_state` that raises leaves the object as it was) |
| `ResearchModel.v` | `research/schur_likelihood_theory.py`, `research/schur_gamma_star.py`, and `schur_operator`, `snr`, `_kl` of `research/schur_godambe.py` (without printing and random searches; the sampling experiments are in `PowerModel.v`) |
| `MetricModel.v` | the scoring functions of `research/metric_power.py` |
| `OosModel.v` | `research/oos_equity.py`, `research/oos.py`, `research/bakeoff.py` on given data |
| `TrainModel.v` | `research/oos.py`, `research/train_recommender.py`, `build_scenarios` of `research/bakeoff.py`, with the random number generator as a state and its draws, the QR factorisation and scikit-learn's tree as arbitrary functions |
| `PowerModel.v` | the experiments of `research/metric_power.py` and the Monte-Carlo functions of `research/schur_godambe.py`, with the generator of `TrainModel.v` and two more draws (without printing and timing) |
| `EloModel.v` | of `research/legacy_skatervaluation/battleutil`: `eloformulas.py`, `elo_from_win_counts` of `compilingeloratings.py` (without the column of CPU times) `load_win_data` of `battleio.py` and the pairwise comparison in `generic_battle` of `arrangingbattles.py`; `10 ** x` and `random.choices` are parameters |
| `SpikedModel.v` | `research/schur_spiked.py`, `_spiked` and `_noise_subspace_pair` of `research/schur_godambe.py`, given the draws |
| `HeapModel.v` | object identity: a heap of mutable ndarrays under the estimators, for C12 and C13 |

| specification file (no code, no proofs about code) | vocabulary of |
|---|---|
| `Spec.v` | streams, histories of calls, indistinguishability |
| `RealSpec.v`, `LinSpec.v` | mean, covariance, EWMA of a list of real vectors; psd, inverse, eigen-decomposition |
| `KeyedSpec.v`, `BlockSpec.v`, `SchurCondSpec.v`, `GaussSpec.v`, `AssessSpec.v`, `ConditionalSpec.v`, `CondRealSpec.v`, `RecommendSpec.v`, `HeapSpec.v`, `FloatSpec.v`, `SymSpec.v`, `ResearchSpec.v` | the property group named |

The theorems are in `Props_*.v`; every other file is proof infrastructure:
`ListLemmas BaseProofs Shapes ClassShapes BlockShapes StreamProofs RegistryProofs KeyedProofs DynProofs DynProofs2 AsmProofs
ConditionalProofs HeapProofs` (law-free) and `RMat Fin RunFin EwaReal RunAvg EmpFacts ShrinkReal MomentReal FactorReal Spectral
MatAlg Det Contracts LinalgReal RobustReal TylerReal BlockGeom BlockReal BlockRun BlockRun2 BlockDet SchurCondReal GaussReal
ScoreReal AssessReal AssessBlock CondReal RecommendReal SymReal SymRun SymGeo SymPerm ResearchReal ResearchRun ResearchTwo ResearchOp` (real arithmetic) and
`FloatBase FloatRun FloatErr FloatAcc FloatEwa FloatDiag` (binary64).

**Scalars.** All code is written once over a record `Num` of operations *without laws*.  A theorem
quantified over every `N : Num` uses no arithmetic law, so it holds of binary64 with its rounding
(streaming, checkpoints, keyed bookkeeping, heap ...).  Numeric theorems (means, PSD, shrinkage ...) are about
`NumX`, exact arithmetic on extended reals in which x/0, 0/0 and sqrt of a negative are visible as
inf/NaN; they say nothing about rounding error.  That is the largest simplification of the model.  It is lifted for
EmpiricalCovariance, EwaCovariance and DiagonalCovariance by the theorems about `NumB` (C75-C78), where every operation rounds.

**LAPACK.** `inv, pinv, eigh, svd, cholesky, eigvals, solve, slogdet, spacing, pow` are fields of a record
`LinAlg` the model is parameterised by.  Three kinds of hypothesis about it occur in theorems:
- `lawful L` (`Contracts.v`): on finite symmetric input the routine returns what its documentation says (eigh an orthonormal
  eigenbasis, inv the inverse or LinAlgError on singular input ...), in exact arithmetic.  `lawful_satisfiable` builds such
  routines (`Spectral.v` proves the real spectral theorem).
- `la_shapes L` (`Shapes.v`): results have the documented shapes.  Any scalar type.
- `la_quiet L` (`RegistryProofs.v`): the routines raise nothing but LinAlgError.  Any scalar type.

No theorem assumes `lawful` together with one of the other two; these two are also met by routines that always raise
LinAlgError, which is why no numeric conclusion is drawn from them.

**State and exceptions.** A mutating method returns the new instance *and* its outcome, so what survives an
exception is visible.  Loops with data-dependent trip count (`nearest_pos_def`'s `while`, the tree walk) use fuel and
return an error when it runs out; theorems prove that error does not happen.

**Object identity.** Python objects are values in the model, which is adequate because every update returns new arrays, except for
the four places where an array is shared with the caller (`as_rows` views, `_prev_x`, the array behind `location_`, Block's copy);
`HeapModel.v` has those, and C12 proves that on programs that do not write into shared arrays the value model and the heap model
agree.  It uses these numpy facts: `np.asarray` of a float ndarray and row indexing do not copy; arithmetic, `np.array`, slicing plus
arithmetic, `np.concatenate` produce new arrays.

**Not modelled.** float rounding, outside `NumB`; the order in which numpy's `sum`, `mean`, `@` and `einsum` add; the keyed `__repr__`; `to_frame` (pandas); `precise/skaters`
(a module that only raises ImportError); Python ints are `nat`/`Z`; JSON text (taken as the identity on JSON trees); dtype coercion of
non-float input; a 2-d array with no rows does not remember its number of columns;
threads (the code has none); of `research/`: the rest of `legacy_skatervaluation`, plotting and printing, scikit-learn's tree (an arbitrary function of its training set), the families of `randomcov`, and the distribution of the random draws (the modelled scripts take them as arguments or from an arbitrary generator); tests, docs.

## 2. Proof technique per property

Notation: *law-free* = for every `Num`; *real* = on `NumX` with finite input; *contract* = under `lawful`;
*rounded* = on `NumB`; *refuted* = the natural claim is false of the code, a witness theorem is proved, together
with the strongest true variant.

| id | plan |
|---|---|
| C01 | law-free; induction over rows of `fit_rows` (append law), outcome included |
| C02 | law-free; `fit` and `partial_fit` on a new instance differ only in `n_features_in_` before the first row |
| C03 | law-free; simulation between the diff=True run and the diff=False run on differences |
| C04 | law-free; shape invariant of every class's state, `np.array(tolist a) = a` on rectangular arrays, so `set_state(get_state)` is the identity (for BlockCovariance: equal up to sub-dict key order, then simulation) |
| C05 | refuted (witness), plus exact description: the resumed estimator misses one difference |
| C06 | law-free, as C04 with `prev_x` |
| C07 | law-free; counter invariant of every class |
| C08 | refuted by broadcasting (witnesses); exact rule for every class (Block separately, by its slices; one-variable estimators class by class in Props_OneVar.v) |
| C09 | refuted (witness); C10 law-free, induction over rows |
| C11 | law-free; updates and reads of those classes ignore the parameters once a state exists |
| C12 | heap model; forward simulation between heap runs and value runs for polite programs; exact description of the impolite buffer-reuse program |
| C13 | heap model; ownership invariant; location_ refuted with the exact effect of a write |
| C14, C15 | real; Welford invariant: mean/cov of the state are the prefix mean/population covariance; permutation of sums |
| C16 | real; induction, closed form of the EWMA recursion |
| C17 | real; lemmas on ceil/clamp, monotonicity |
| C18 | real, contract for the classes that call LAPACK; quadratic-form invariants, congruence and convexity lemmas |
| C19 | real; convexity invariant (rounded: C75) |
| C20, C21 | real; simulation relation between the two streams (linear map / sub-selection); C21 also law-free (Props_Marginal): related states, column selection commutes with every operation of the update |
| C22 | law-free up to commutativity of addition, which `NumX` and `NumB` have |
| C23 | real, contract where needed; finite-state invariants for each class (rounded: C77) |
| C24, C25 | real; Cauchy-Schwarz for PSD matrices; C25 refutes a unit diagonal, exact value |
| C26-C29 | real; algebra on the read function, clip lemmas |
| C30 | refuted with witness (zero-variance coordinate); proved when all variances exceed the floor |
| C31 | refuted (constant stream) with the exact shift; C32 real, comparison invariant |
| C33 | refuted: the quadrant sum is exactly the plain recency-weighted scatter |
| C34 | real, contract on inv; bounded influence by weight identity |
| C35 | real; clip lemmas, equality run with Ewa |
| C36 | real, contract; trace normalisation, homogeneity |
| C37 | refuted with witness run, NaN invariant |
| C38, C41, C42 | real, contract; spectral calculus from `Spectral.v`, Frobenius optimality |
| C39, C40 | real; algebra + PSD lemmas |
| C43-C46 | real, contract; Schur product with a PSD mask; uniqueness of spectral functions for C45 |
| C47 | real, contract; reliability formula, ridge-regularised conditioning |
| C48, C49, C71 | law-free model of conditional.py (composition theorem for any pair of classes), real instance for Ewa/Ewa; C49 and the PSD claim refuted by witness; C71 by running one rejected row |
| C50-C55, C57 | law-free; refinement of the adapter to the positional estimator, invariants over update histories; C55 refuted (eviction of the fresh universe) with the exact condition |
| C56 | law-free for the assembly (fold invariant), contract for the projection |
| C58, C59 | case analysis of the frozen tree for every feature vector (walk terminates; ranking is a permutation prefix); C59 refuted: the first answer is always one of two classes |
| C60, C61 | enumeration of the registries, law-free |
| C62, C63, C69, C70 | real, contract for the inverse and slogdet; sums of squares, Cauchy-Schwarz, Stein's inequality (`GaussReal.v`) |
| C64, C65 | law-free splitting of the block loop; contract and block determinants for the likelihood identities |
| C66, C67 | contract; Penrose equations, positivity of quadratic forms |
| C68 | contract; Gibbs' inequality over all instances of all classes |
| C72 | real; perturbation bound of the 1e-12 in the denominator; refuted as an exact statement |
| C73 | real, contract on eigh; power-mean and Cauchy-Schwarz inequalities, uniqueness of eigenvalue multisets |
| C74 | law-free; the shape of every class's state is a function of the parameters and p only, so its size is |
| C75 | binary64 (`NumB`); monotonicity of rounding: m + (x-m)/n rounded stays between m and x; literal witness for the refutation after the burn-in |
| C76 | binary64; sign argument on the rounded innovations; literal witness that semidefiniteness is lost; Props_FloatShrink.v (LedoitWolf, OAS, Shrunk): clipped intensities are in [0,1] in binary64, so the mixture keeps the sign |
| C77 | binary64; magnitude invariant by induction on the stream; literal witness for the overflow; FloatBound.v, Props_FloatShrink.v: powers of two bound every intermediate result, partial sums included |
| C78 | binary64; local rounding error of one update plus induction: telescoping (Empirical), geometric contraction by 1-r (Ewa, Diagonal); Props_FloatShrunk.v: a left-to-right sum is off by at most 2n^2 roundings of its largest term, then the shrinkage formula term by term |
| C79 | real model; the run of the reordered stream is the reordered run (SymPerm.v): every update is a sum over variables or acts entrywise; SchurConditional: each conditioning step commutes with the reordering (SymCond.v); literal counterexamples across blocks |
| C80 | real model; similarity invariance of traces, Frobenius norms, inverses, Mahalanobis distances, spectral functions (SymReal.v, SymGeo.v), then induction on the stream (SymRun.v) |
| C81 | differences: law-free corollary of C03; levels: means move with the data from the first row on; counterexamples from the closed forms of one row |
| C82 | instances as attribute dictionaries (ParamsModel.v); induction on the history of calls: the constructor's attributes are always present; the typed records used elsewhere are the same thing (C82_typed_*) |
| C83 | corollary of C18, C23, C47 at the constructors' defaults, by cases on the registry |
| C84 | Props_Improper.v: the damped matrix is positive definite when the candidate is, Gibbs' inequality (C66) for the damped law; increase in gamma by concavity of log det and Fischer's inequality; non-vacuous by C84_witness |
| C85 | Props_Forget.v: difference of two runs of the exact recursion, induction on the common tail; bounds by the triangle inequality; Props_Nonexp.v: Shrunk, Schur and Block, through the nonexpansiveness of the repair (C41: variational inequality of a nearest point in a convex set) |
| C86 | Props_Range.v: necessity by an explicit adversarial stream (a spike, zeros, one chosen row), sufficiency by C18 and v^T S v <= tr S |v|^2; Props_RangeBlocks.v: the damped matrix as a convex combination of the estimate and its block diagonal, necessity by a two-row stream |
| C87 | Props_Research.v: the scalar model evaluated on reals; uniqueness by ln x <= x - 1 twice; threshold by the sign of the quadratic |
| C88 | ResearchSpec.v (conditional law of a block), ResearchReal.v (Schur complement, determinant, one-block bound by Gibbs' inequality), ResearchRun.v (induction over the blocks), Props_ResearchBlocks.v |
| C89 | Props_Research.v: completing the square in gamma; residual_R by linearity of the mean over any list of draws |
| C90 | ResearchTwo.v (completing the square in the first block, existence of rho^2 by the spectral theorem, the maximising pair is an eigenvector), Props_Canonical.v; refutations by the explicit 3x3 matrix skewed e |
| C91 | ResearchOp.v: one invariant over the block loop relates the score loop to the operator loop; at gamma = 1 the block-inverse step (W A = I on the leading block); Props_Godambe.v: Stein's inequality for the divergence, tr((D T)^2) = norm of R D R with R the square root of T |
| C92 | GammaModel.v (an object = instance + attribute, every method a state transformer), Props_Gamma.v: induction over programs; law-free except the value in [0,1] (via C46, C47) and the staleness witness |
| C93 | Props_Incomplete.v: law-free; the schema of each class' state, reads of a filtered dictionary, a case per entry; loading a filtered checkpoint is the filtered state |
| C94 | Props_Counts.v: law-free; two parameter sets that the class functions cannot distinguish on states of dimension p give twin runs (induction over histories); late failures by the state schema |
| C95 | MetricModel.v (the judges, function by function), MetricReal.v (their values on finite reals), Props_Metric.v and Props_Judges.v: Stein's inequality for the divergences, congruence by orthonormal rows for the projections, the spectral decomposition for _project_pd; one explicit pair of diagonal matrices for the refutation. C70_few_rows: the centred data matrix has the left null vector (1,...,1); Props_Report.v: degenerate block sizes |
| C96 | OosModel.v (the harness, loop and dictionaries included), OosSpec.v (windows as row ranges), Props_Oos.v: law-free, by inversion of the loop and row-range lemmas; Props_OosReal.v: monotonicity of mean and square root on extended reals; Props_OosRun.v: completion for positive definite fits; Props_OosWitness.v: all seventeen estimators on one asset; Props_Report.v: the printed ranking, from the sorted-list lemmas of Props_Ranks.v |
| C97 | Props_Ranks.v: position of an element in a stable insertion sort by induction; permutations for the totals; Props_RanksWitness.v: completion and a run of all estimators and assessors; Props_Report.v: empty inputs |
| C98 | SpikedModel.v (given the random draws), Props_Spiked.v: stein_pair and the trace of a product of semidefinite matrices for the divergence along a line, the gap through C91; Props_SpikedVar.v: index sums for the variance, epsilon-delta for the numerical gradient; Props_SpikedTruth.v: spectral form of the truth, Frobenius bound on the quadratic form, totality of snr_delta |
| C99 | Props_KeyedRead.v: law-free, induction over the insertions of the two dictionaries; Props_KeyedCorr.v: the reported correlation of C72 plus a nonnegative diagonal; one explicit three-name universe for the refutation |
| C100 | CondObjModel.v (the object with its templates, inherited reads, pickling), CondObjProofs.v: heterogeneous bisimulation between the instance and its copy, invariant 'every volatility sub-model good in dimension 1, correlation sub-model in dimension p' along any history; Props_CondPickle.v; Props_CondCorr.v: (x^2+e)(y^2+e) = (xy+e)^2 + e(x-y)^2 for the bound, an explicit stream for the refutation |
| C101 | TrainModel.v (the generator as a state with abstract draws, scikit-learn as a function), Props_Train.v: a state-and-exception monad, extensionality of its loops for the absence of a leak, inversion for the training set, invariant of numpy's argmax loop for the labels, C97 for the ranks; Props_TrainRun.v: totality through the monad, archimed for the export; Props_TrainSet.v: means and deviations of columns, induction on the mask |
| C102 | Props_Families.v: semidefinite plus diagonal for the factor models, induction on the dimension with a strengthened quadratic-form bound for the autoregressive matrix, spectral form for the spiked one |
| C103 | PowerModel.v (the loops in the state-and-exception monad of TrainModel.v; a dict of counters is the list of verdicts), Props_Power.v: inversion of the monad and counting lemmas, law-free; Props_PowerReal.v: Frobenius norm bounds the perturbation's largest eigenvalue, C95 for the repair; Props_PowerRun.v: totality through the monad, C64, C69, C95 for the recoveries, a constant generator as the witness; Props_PowerNoise.v: the noise levels, through the level zero |
| C104 | PowerModel.v Section Godambe, Props_GodambeRun.v: the gap as a trace (C91), means of quadratic forms, totality through the monad, C98 for the reversal; Props_Structured.v: counting lemmas of Props_Power.v with float keys, equicorrelated groups are positive semidefinite, C91 at full trust, a constant generator as the witness |
| C105 | Props_Tuning.v: simulation between the instance and the one with the other parameters, by induction over the history (law-free), with a row budget for the burn-in; Props_TuningReal.v: the fold of SchurLedoitWolf over the reals read with another block count |
| C106 | Props_Missing.v: a set of values closed under arithmetic (proved of NaN and of the non-finite values in the extended reals and in binary64), an invariant of the state followed along the accepted stream (one lemma for all classes, one step lemma per update rule); Props_MissingCov.v: the same for the stored covariance and its readers; Props_MissingAll.v: NaN through the trace, the Mahalanobis form and Python's max/min, and totality of the updates |
| C107 | Props_FloatCorr.v: the rounding lemmas of FloatBase.v/FloatBound.v along one entry (product, square root, sum, quotient), with Flocq's overflow and invalid cases for the rest; Props_CondScore.v carries C66, C67 and C100 to ConditionalCovariance |
| C108 | Props_Invert.v: C20 reduces a combination of variables to one series, whose variance vanishes only if it is constant (induction on the history); the shrunk matrix by its quadratic form, v^T S v <= tr S |v|^2, and tr(S^2) <= (tr S)^2 for the OAS intensity |
| C109 | Props_Masking.v: a lower bound c d d^T <= S on the estimate gives d^T S^+ d <= 1/c (Penrose identities); the bound is one row's share of the scatter (Cauchy-Schwarz over the other rows, or the last EWA step) |
| C110 | Props_AffineScore.v: C20's covariance A S A^T, its inverse A^-T S^-1 A^-1 (pseudo-inverse for a similarity) and det(A S A^T) = det(A)^2 det S, through C66/C67 |
| C111 | Props_Bias.v: expectation as a finite weighted sum; one recursion for mean and covariance (gain 1/n in the burn-in, r after), moments by induction on the number of rows, closed forms noise/bias and their limits ; Props_BiasDiag.v: the same induction on the innovation variances (harmonic numbers in the burn-in), DCC through C39; Props_BiasBlocks.v: linearity of the damping while no eigenvalue is floored |
| C112 | Props_Consistency.v: Markov and Chebyshev on C111's moments; the covariance as the mean of the centred products minus the product of the mean errors; a second-moment lower bound for Ewa, whose mean stays within the range of the data |
| C113 | Props_Drift.v: C111's induction around a path of means (the cross terms have mean 0); the level shift and the trend solved in closed form on the means, and the limits of lag and spread |
| C114 | Props_Fresh.v: expectation of a quadratic form, then ScoreReal's Stein inequality ln det(P Sig) <= tr(P Sig) - p with its equality case |
| C115 | Props_Walk.v: the lag of the mean behind the current level obeys a scalar recursion (new increments are uncorrelated with it), solved in closed form through the burn-in and after it; with diff=True the rows are the increments, so C111 applies |
| C116 | EloModel.v, Props_Elo.v: induction over the battles left; the loop replays some sequence of recorded battles under a separate specification (EloSpec.v), from which conservation and bounds follow; `split` of a key inverts its construction when names have no ">"; Props_EloRounds.v, Props_EloPool.v: every history of rounds and pool of files is a counter of that form; two battles computed in both orders; Props_EloBest.v: an invariant on the recorded pairs |

## 3. Trusted base

- Coq 8.16.1's kernel (with `vm_compute` in a few examples).
- The axioms `Print Assumptions` lists for each theorem, below.  All are the standard library's:
  `ClassicalDedekindReals.sig_forall_dec`, `ClassicalDedekindReals.sig_not_dec` and
  `FunctionalExtensionality.functional_extensionality_dep` (the reals), `Classical_Prop.classic` and
  `ClassicalEpsilon.constructive_indefinite_description` (through `Contracts.v` and Flocq).
- The faithfulness of the reading of /repo documented in the comments of the model files.
- The contracts on LAPACK, as hypotheses, where a theorem mentions `lawful`, `la_shapes` or `la_quiet`.

No axiom of our own, no functor, no module type, no `Admitted`; `Assumptions.v` prints the assumptions of every theorem listed in
MANIFEST.json at each build.

<!-- ASSUMPTIONS -->
**no axioms (closed under the global context)** (195 theorems):
C01_batch_and_stream_agree, C01_batch_is_rows_one_at_a_time, C01_accepted_batch_as_calls, C02_fit_forgets, C03_diff_is_differencing, C03_diff_is_differencing_with_exceptions, C04_checkpoint_and_resume, C06_pickle_and_resume, C05_checkpoint_diff_refuted, C05_resumed_misses_one_difference, C05_set_state_keeps_baseline, C07_counts_and_fitted_attributes, C08_shape_refuted_short, C08_shape_refuted_grow, C08_shape_refuted_block, C08_mismatch_rejected, C09_failed_fit_refuted, C09_failed_fit_refuted_witness, C09_failed_partial_fit_harmless, C10_exception_keeps_prefix, C10_failing_row_moves_baseline, C11_parameters_frozen, C08_block_rule, C08_block_surplus_ignored, C22_covariance_is_exactly_symmetric, C22_any_class_any_state, C50_fixed_universe_refines_positional, C50_dict_order_and_extra_keys_ignored, C51_ffill_uses_last_seen_value, C51_zero_uses_zero, C51_mean_uses_running_mean, C52_selection_is_submatrix, C52_unknown_name_raises, C52_no_observation_raises, C52_selection_for_registered_classes, C57_prototype_and_adapter_do_not_interfere, C57_prototype_is_never_fitted, C57_clone_is_unfitted, C57_kwargs_only_with_a_class, C57_late_set_params_reaches_new_universes, C57_fixed_universe_keeps_its_parameters, C53_at_most_max_universes, C53_no_stale_universe, C53_dropped_only_when_stale_or_full, C54_universes_are_faithful, C55_current_key_set_tracked_iff, C55_tracked_when_room, C55_tracking_fails_forever, C56_assembled_matrix, C56_known_is_determined, C56_default_keys, C56_nothing_to_read_before_data, C56_readable_for_registered_classes, C56_duplicate_query_names, C44_blocks_partition, C66_only_LinAlgError_is_caught, C66_unfitted_precision, C67_single_row, C67_score_is_assessor_score, C60_estimator_lookup, C60_assessor_lookup, C61_usable, C61_unneeded_input_is_ignored, C61_missing_input, C61_exceptions_occur, C64_unusual_block_sizes, C65_no_blocks, C48_composition, C48_succeeds, C48_batches, C48_fit_forgets, C48_fit_needs_2d, C48_bad_vol_rejected, C48_templates_untouched, C48_forecast_before_data, C48_forecast_estimator, C48_forecast_skater, C48_unfitted, C58_walk_terminates, C58_suggest, C58_order, C59_top_three, C59_first, C59_ranking, C12_classes, C12_polite_programs, C12_any_writes, C12_lists_are_copied, C13_location_is_shared, C13_block_location_is_a_copy, C74_state_does_not_grow, C74_pickle_does_not_grow, C74_diagonal_state, C74_factor_state, C74_block_state, C82_registry, C82_constructor, C82_get_params_total, C82_set_params, C82_unknown_name_silent, C82_property_rejected, C82_roundtrip, C82_clone, C82_typed_constructor, C82_typed_set_params, C82_diff_flag, C82_repr, C92_reads_do_not_disturb, C92_none_until_read, C92_last_read_ledoit_wolf, C92_last_read_conditional, C92_copies_forget, C92_unfitted, C08_scalar_is_broadcast, C08_one_variable_grows, C08_one_variable_refused, C08_one_variable_factor, C08_one_variable_burn, C93_detected_at_the_next_row, C93_detected_schur_ledoit_wolf, C93_detected_factor, C93_block_refuses_to_load, C94_clamped_blocks, C94_clamped_above, C94_schur_no_blocks, C94_schur_lw_no_blocks, C94_factor_negative, C21_columns_bitwise, C21_columns_bitwise_distinct, C21_location_bitwise, C95_stein_is_the_assessor, C95_no_projections, C96_zero_step, C96_fixed, C96_picks, C96_picks_see_training_rows_only, C96_sees_the_windows_only, C96_any_failure_raises, C96_constant_pick, C97_ranks_bijection, C97_trial, C97_trial_fails_with_the_recommender, C97_run, C97_run_fit_error, C99_dict_of_dicts, C99_covariance_reads, C99_fixed_covariance, C99_unit_diagonal, C99_learn_many, C82_default_table, C93_zero_count, C100_pickle_and_resume, C100_pickle_skater, C100_clone_carries_no_data, C100_set_params_waits_for_fit, C100_unfitted, C100_fit_uses_new_templates, C97_nothing_to_choose_from, C95_unusual_block_sizes, C101_training_never_sees_the_held_out_family, C101_best_fixed_never_sees_the_held_out_family, C101_held_out_entry, C101_training_set, C101_picks_are_registered, C101_generate_mirrors_training, C101_generate_stops_at_a_failure, C101_nothing_to_do, C101_trial, C101_scenarios, C103_schur_power, C103_pseudo_likelihood_power, C103_repeated_block_sizes, C103_proof_high_dim, C103_projection_power, C103_run, C101_contaminated, C105_shrunk_read_time, C105_schur_read_time, C105_schur_conditional_read_time, C105_shrunk_rate, C105_schur_rate, C105_schur_conditional_rate, C105_schur_lw_rate, C105_huber_rate, C105_huber_cutoff_burn_in, C105_schur_lw_blocks_burn_in, C106_location, C106_covariance, C106_diagonal, C106_pooled_lost, C106_lost_after_burn_in, C106_difference, C106_no_error, C67_conditional_score_is_assessor_score, C116_files_are_pooled

**`ClassicalDedekindReals.sig_forall_dec`, `FunctionalExtensionality.functional_extensionality_dep`** (7 theorems):
C33_quadrants_add_up, C33_partial_moments_vs_ewa, C101_report_wins, C111_limits, C115_limits, C111_diagonal_limits, C111_effective_sample

**`ClassicalDedekindReals.sig_forall_dec`, `ClassicalDedekindReals.sig_not_dec`, `FunctionalExtensionality.functional_extensionality_dep`** (179 theorems):
C14_empirical_is_population_covariance, C15_empirical_ignores_order, C16_ewa_closed_form, C16_ewa_closed_form_explicit, C16_ewa_equals_empirical_during_burn_in, C17_burn_in_is_clamped_ceiling, C17_burn_in_bounds, C17_burn_in_antitone, C17_zero_rate_raises, C18_empirical_psd, C18_ewa_psd, C19_empirical_mean_in_range, C19_ewa_mean_in_range, C20_ewa_affine_equivariance, C20_empirical_affine_equivariance, C20_ewa_translation_invariant, C21_ewa_marginal, C21_empirical_marginal, C24_correlations_bounded, C25_correlation_diagonal_below_one, C23_empirical_finite, C23_ewa_finite, C26_ledoit_wolf_convex_shrinkage, C18_ledoit_wolf_psd, C23_ledoit_wolf_finite, C27_oas_convex_shrinkage, C18_oas_psd, C23_oas_finite, C28_shrunk_identity, C18_shrunk_identity_psd, C29_shrunk_constant_correlation, C30_constant_correlation_psd, C30_constant_correlation_not_psd_in_general, C23_shrunk_finite, C32_diagonal_closed_form, C31_diagonal_translation, C31_diagonal_constant_stream, C18_diagonal_psd, C19_diagonal_mean_in_range, C23_diagonal_finite, C33_partial_moments_is_plain, C39_dcc_composition, C18_dcc_psd, C23_dcc_finite, C40_factor_dominates, C18_factor_psd, C23_factor_finite, C43_nonpositive_blocks, C66_last_resort, C67_mahalanobis, C60_assessor_parameters, C62_frobenius, C62_zero_truth, C48_closed_form, C48_entries_bounded, C48_ewa_ewa, C48_ewa_residuals, C49_same_location, C49_not_a_special_case, C71_rejected_row_half_absorbed, C72_correlation_not_psd, C48_not_psd, C12_reused_buffer, C12_reused_buffer_empirical, C13_write_into_location, C72_correlation_nearly_psd, C72_correlation_not_psd_empirical, C80_ewa_follows, C80_empirical_follows, C80_ledoit_wolf_follows, C80_oas_follows, C80_shrunk_identity_follows, C79_order_empirical, C79_order_ewa, C79_order_ledoit_wolf, C79_order_oas, C79_order_shrunk, C79_order_diagonal, C79_order_dcc, C79_order_factor, C81_differences_any_class, C81_empirical_shift, C81_ewa_shift, C81_ledoit_wolf_shift, C81_oas_shift, C81_shrunk_shift, C81_diagonal_remembers_origin, C81_dcc_shift_matters, C81_factor_shift_matters, C85_ewa_exact, C85_ewa_forgets, C85_diagonal_forgets, C85_empirical_remembers, C86_ewa_rate, C86_diagonal_rate, C86_shrunk_delta, C87_definite_above_threshold, C87_threshold_monotone, C87_threshold_ends, C89_optimal, C89_monotone, C89_ends, C89_too_few_samples, C89_simulated, C89_simulated_minimum, C89_parametrisation, C95_frobenius, C95_schur, C96_oracle, C96_too_short, C97_rank, C97_winner_is_rank_one, C97_best_fixed, C97_mean_skips_failures, C97_average_ranks, C98_estimates, C98_quadform_no_observations, C98_gradient_counts_pairs_twice, C98_spiked, C99_correlation, C99_correlation_not_psd, C42_loop_ends_with_margin, C100_correlation_closed_form, C100_correlation_bounded, C100_correlation_exceeds_one, C96_report, C96_report_too_short, C101_label, C101_all_fail, C101_leave_one_family_out, C101_leave_one_ensemble_out, C101_unknown_pick, C101_completes, C101_report, C101_export_keeps_only_pure_nodes, C101_export_loses_the_floor, C102_families, C102_heavy_sample, C102_scenario_truths, C102_heavy_families, C103_tail_contest, C103_groups_must_divide, C103_clean_regime_bulk, C103_powers, C104_full_trust_power, C104_degenerate, C104_summary_range, C104_structured_power, C104_groups_must_divide, C101_standardised, C103_noise_levels, C106_extended_nan, C106_extended_infinite, C67_conditional_mahalanobis, C85_shrunk_forgets, C108_ewa_null_directions, C108_empirical_null_directions, C108_never_worse_conditioned, C111_ewa, C111_empirical, C111_shrunk_identity, C112_empirical_consistent, C112_ewa_floor, C113_ewa, C113_empirical, C113_ewa_level_shift, C113_empirical_level_shift, C113_ewa_trend, C113_empirical_trend, C113_trend_limits, C115_ewa_levels, C115_empirical_levels, C115_differences, C111_diagonal, C111_dcc_variances, C116_malformed_key, C116_three_names, C116_round, C116_round_is_transitive

**`ClassicalDedekindReals.sig_forall_dec`, `ClassicalDedekindReals.sig_not_dec`, `Classical_Prop.classic`, `FunctionalExtensionality.functional_extensionality_dep`** (45 theorems):
C22_binary64_covariance_is_exactly_symmetric, C75_empirical_mean_stays_in_range, C75_burn_in_mean_stays_in_range, C75_ewa_mean_leaves_the_range, C76_empirical_variance_never_negative, C76_ewa_variance_never_negative, C76_diagonal_variance_never_negative, C76_rounded_covariance_can_fail_psd, C77_empirical_stays_finite, C77_ewa_stays_finite, C77_diagonal_stays_finite, C77_overflow_is_silent, C78_empirical_accuracy, C78_ewa_accuracy_uniform_in_time, C78_diagonal_accuracy_uniform_in_time, C87_unique_maximiser, C90_correlation, C95_random_projection, C98_quadform, C98_variance_overstated, C77_oas_stays_finite, C77_shrunk_stays_finite, C77_ledoit_wolf_stays_finite, C76_shrinkage_variance_never_negative, C77_shrinkage_overflow_is_silent, C106_float_nan, C106_float_infinite, C107_accuracy, C107_diagonal, C107_overflow, C107_negative_variance, C107_ewa, C107_empirical, C107_overflow_reached, C78_shrunk_accuracy_uniform_in_time, C78_shrinkage_location_accuracy, C107_shrinkage, C116_expected_points, C116_zero_sum, C116_ratings, C116_points_conserved, C116_order_matters, C116_history_can_be_rated, C116_pool_can_be_rated, C116_best_and_worst

**`ClassicalDedekindReals.sig_forall_dec`, `ClassicalDedekindReals.sig_not_dec`, `ClassicalEpsilon.constructive_indefinite_description`, `Classical_Prop.classic`, `FunctionalExtensionality.functional_extensionality_dep`** (201 theorems):
C41_make_pos_def, C41_make_pos_def_idempotent, C42_nearest_pos_def, C42_pos_def_unchanged, C38_geodesic_step, C38_geodesic_endpoints, C34_huber_equals_ewa_on_inliers, C34_huber_bounded_influence, C34_huber_unbounded_when_singular, C35_rate_in_range, C35_equal_rates_is_ewa, C36_tyler_shape, C36_tyler_scale_invariant, C37_tyler_zero_first_observation_refuted, C38_geodesic_estimator, C38_geodesic_burn_in_is_ewa, C18_huber_psd, C18_adaptive_psd, C18_geodesic_psd, C23_huber_finite, C23_adaptive_finite, C23_geodesic_finite, C23_tyler_finite, C37_tyler_nonzero_first_observation, C56_reported_matrix, C44_reported_slices, C43_schur_linear, C43_gamma_one, C43_schur_geodesic, C45_block_is_schur_zero, C45_block_covariance, C46_schur_ledoit_wolf, C18_schur_psd, C18_block_psd, C18_schur_lw_psd, C47_schur_conditional, C47_no_error, C47_single_block, C66_precision_is_pseudo_inverse, C67_score, C68_empirical_has_the_highest_training_score, C62_variogram, C63_gmv_is_portfolio_second_moment, C63_gmv_scale_invariant, C63_gmv_best_at_second_moment, C64_sum_over_blocks, C64_one_block, C64_block_diagonal, C65_gamma_one, C65_gamma_zero, C65_gamma_zero_blocks, C69_loglik_is_proper, C70_stein, C73_features, C73_ranges, C73_shift_invariant, C73_order_invariant, C73_suggest_invariant, C59_first_real, C59_ranking_real, C59_both_occur, C18_partial_moments_psd, C23_partial_moments_finite, C23_schur_finite, C23_block_finite, C23_schur_lw_finite, C18_tyler_nearly_psd, C80_huber_follows, C80_adaptive_follows, C80_geodesic_follows, C80_partial_moments_follows, C79_order_huber, C79_order_adaptive, C79_order_geodesic, C79_order_partial_moments, C79_order_tyler, C79_order_block, C79_order_schur, C79_order_schur_ledoit_wolf, C79_block_order_matters, C79_schur_order_matters, C81_huber_shift, C81_adaptive_shift, C81_geodesic_shift, C81_block_shift, C81_schur_shift, C81_schur_ledoit_wolf_shift, C81_partial_moments_shift_matters, C81_tyler_shift_matters, C83_finite, C83_psd, C83_tyler, C83_schur_conditional, C84_schur_maximiser, C84_increases_with_gamma, C84_improper, C84_block_pseudo, C88_recovers_every_law, C88_unique_maximiser, C88_full_trust, C88_two_blocks, C88_singular_leading_block_raises, C88_outcome, C88_definite_candidates_are_scored, C90_definite, C90_threshold, C90_is_spd, C90_overestimates, C90_scalar_first_block, C90_prediction_wrong, C90_no_threshold, C91_score_is_quadratic, C91_score_of_a_sample, C91_full_trust, C91_divergence, C91_ratio, C91_full_trust_ranks_by_divergence, C79_order_schur_conditional, C81_schur_conditional_shift, C79_schur_conditional_order_matters, C92_value_ledoit_wolf, C92_value_conditional, C92_stale, C70_few_rows, C95_divergence, C95_better_first, C95_loglik_is_the_assessor, C95_loglik_is_divergence, C95_loglik_verdict, C95_stein_one_variable, C95_stein_is_divergence, C95_stein_powerless, C95_calibration, C95_calibration_is_improper, C95_min_variance_is_the_assessor, C95_projections, C95_full_projections, C95_random_projection_is_1d, C95_project_pd, C95_block_pseudo_is_the_assessor, C95_floor_hides_small_eigenvalues, C95_schur_gamma_one, C95_schur_is_the_assessor, C95_one_block_is_not_the_likelihood, C96_completes, C97_run_completes, C98_divergence_along_a_line, C98_gap_undefined, C98_gap_is_score_difference, C98_full_trust_gap, C98_population_gap, C98_noise_pair, C98_prediction, C103_perturb, C103_perturb_at_one, C103_perturbed_contest, C103_group_contest, C103_schur_completes, C103_schur_full_trust, C103_pseudo_completes, C103_single_block, C103_high_dim_completes, C103_full_projection, C103_projection_completes, C103_nothing_counted, C103_run_completes, C104_gap_is_score_difference, C104_expected_gap, C104_montecarlo, C104_discrimination, C104_sample_pair, C104_blocks_of_four, C104_structured_completes, C104_structured_full_trust, C105_schur_lw_switch, C105_schur_lw_from_one_block, C66_conditional_precision, C67_conditional_score, C67_conditional_score_of_stream, C100_score_unbounded, C100_default_score_unbounded, C86_schur_gamma_safe, C86_schur_gamma_unsafe, C41_make_pos_def_nonexpansive, C41_any_lapack, C85_schur_forgets, C85_block_forgets, C108_few_rows, C108_shrunk_conditioned, C108_oas_conditioned, C109_empirical_masking, C109_ewa_masking, C109_before_and_after, C110_change_of_variables, C110_similarity, C110_ewa, C110_empirical, C110_similarity_instances, C114_fresh_mahalanobis, C114_truth_scores_best, C111_blocks
<!-- /ASSUMPTIONS -->

## 4. Testing the theorems

`tools/mutate.py` applies an edit to a model definition in a scratch copy, rebuilds, and records which theorems fail;
results are in `seeded/LOG.jsonl`.

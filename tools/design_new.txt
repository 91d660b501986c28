| C74 | law-free; the shape of every class's state is a function of the parameters and p only, so its size is |
| C75 | binary64 (`NumB`); monotonicity of rounding: m + (x-m)/n rounded stays between m and x; literal witness for the refutation after the burn-in |
| C76 | binary64; sign argument on the rounded innovations; literal witness that semidefiniteness is lost; Props_FloatShrink.v (LedoitWolf, OAS, Shrunk): clipped intensities are in [0,1] in binary64, so the mixture keeps the sign |
| C77 | binary64; magnitude invariant by induction on the stream; literal witness for the overflow; FloatBound.v, Props_FloatShrink.v: powers of two bound every intermediate result, partial sums included |
| C78 | binary64; local rounding error of one update plus induction: telescoping (Empirical), geometric contraction by 1-r (Ewa, Diagonal); Props_FloatShrunk.v: a left-to-right sum is off by at most 2n^2 roundings of its largest term, then the shrinkage formula term by term |
| C79 | real model; the run of the reordered stream is the reordered run (SymPerm.v): every update is a sum over variables or acts entrywise; SchurConditional: each conditioning step commutes with the reordering (SymCond.v); literal counterexamples across blocks |
| C80 | real model; similarity invariance of traces, Frobenius norms, inverses, Mahalanobis distances, spectral functions (SymReal.v, SymGeo.v), then induction on the stream (SymRun.v) |
| C81 | differences: law-free corollary of C03; levels: means move with the data from the first row on; counterexamples from the closed forms of one row |
| C82 | instances as attribute dictionaries (ParamsModel.v); induction on the history of calls: the constructor's attributes are always present; the typed records used elsewhere are the same thing (C82_typed_*) |
| C83 | corollary of C18, C23, C47 at the constructors' defaults, by cases on the registry |
| C84 | Props_Improper.v: the damped matrix is positive definite when the candidate is, Gibbs' inequality (C66) for the damped law; increase in gamma by concavity of log det and Fischer's inequality; non-vacuous by C84_witness |
| C85 | Props_Forget.v: difference of two runs of the exact recursion, induction on the common tail; bounds by the triangle inequality; Props_Nonexp.v: Shrunk, Schur and Block, through the nonexpansiveness of the repair (C41: variational inequality of a nearest point in a convex set) |
| C86 | Props_Range.v: necessity by an explicit adversarial stream (a spike, zeros, one chosen row), sufficiency by C18 and v^T S v <= tr S |v|^2; Props_RangeBlocks.v: the damped matrix as a convex combination of the estimate and its block diagonal, necessity by a two-row stream |
| C87 | Props_Research.v: the scalar model evaluated on reals; uniqueness by ln x <= x - 1 twice; threshold by the sign of the quadratic |
| C88 | ResearchSpec.v (conditional law of a block), ResearchReal.v (Schur complement, determinant, one-block bound by Gibbs' inequality), ResearchRun.v (induction over the blocks), Props_ResearchBlocks.v |
| C89 | Props_Research.v: completing the square in gamma; residual_R by linearity of the mean over any list of draws |
| C90 | ResearchTwo.v (completing the square in the first block, existence of rho^2 by the spectral theorem, the maximising pair is an eigenvector), Props_Canonical.v; refutations by the explicit 3x3 matrix skewed e |
| C91 | ResearchOp.v: one invariant over the block loop relates the score loop to the operator loop; at gamma = 1 the block-inverse step (W A = I on the leading block); Props_Godambe.v: Stein's inequality for the divergence, tr((D T)^2) = norm of R D R with R the square root of T |
| C92 | GammaModel.v (an object = instance + attribute, every method a state transformer), Props_Gamma.v: induction over programs; law-free except the value in [0,1] (via C46, C47) and the staleness witness |
| C93 | Props_Incomplete.v: law-free; the schema of each class' state, reads of a filtered dictionary, a case per entry; loading a filtered checkpoint is the filtered state |
| C94 | Props_Counts.v: law-free; two parameter sets that the class functions cannot distinguish on states of dimension p give twin runs (induction over histories); late failures by the state schema |
| C95 | MetricModel.v (the judges, function by function), MetricReal.v (their values on finite reals), Props_Metric.v and Props_Judges.v: Stein's inequality for the divergences, congruence by orthonormal rows for the projections, the spectral decomposition for _project_pd; one explicit pair of diagonal matrices for the refutation. C70_few_rows: the centred data matrix has the left null vector (1,...,1); Props_Report.v: degenerate block sizes |
| C96 | OosModel.v (the harness, loop and dictionaries included), OosSpec.v (windows as row ranges), Props_Oos.v: law-free, by inversion of the loop and row-range lemmas; Props_OosReal.v: monotonicity of mean and square root on extended reals; Props_OosRun.v: completion for positive definite fits; Props_OosWitness.v: all seventeen estimators on one asset; Props_Report.v: the printed ranking, from the sorted-list lemmas of Props_Ranks.v |
| C97 | Props_Ranks.v: position of an element in a stable insertion sort by induction; permutations for the totals; Props_RanksWitness.v: completion and a run of all estimators and assessors; Props_Report.v: empty inputs |
| C98 | SpikedModel.v (given the random draws), Props_Spiked.v: stein_pair and the trace of a product of semidefinite matrices for the divergence along a line, the gap through C91; Props_SpikedVar.v: index sums for the variance, epsilon-delta for the numerical gradient; Props_SpikedTruth.v: spectral form of the truth, Frobenius bound on the quadratic form, totality of snr_delta |
| C99 | Props_KeyedRead.v: law-free, induction over the insertions of the two dictionaries; Props_KeyedCorr.v: the reported correlation of C72 plus a nonnegative diagonal; one explicit three-name universe for the refutation |
| C100 | CondObjModel.v (the object with its templates, inherited reads, pickling), CondObjProofs.v: heterogeneous bisimulation between the instance and its copy, invariant 'every volatility sub-model good in dimension 1, correlation sub-model in dimension p' along any history; Props_CondPickle.v; Props_CondCorr.v: (x^2+e)(y^2+e) = (xy+e)^2 + e(x-y)^2 for the bound, an explicit stream for the refutation |
| C101 | TrainModel.v (the generator as a state with abstract draws, scikit-learn as a function), Props_Train.v: a state-and-exception monad, extensionality of its loops for the absence of a leak, inversion for the training set, invariant of numpy's argmax loop for the labels, C97 for the ranks; Props_TrainRun.v: totality through the monad, archimed for the export; Props_TrainSet.v: means and deviations of columns, induction on the mask |
| C102 | Props_Families.v: semidefinite plus diagonal for the factor models, induction on the dimension with a strengthened quadratic-form bound for the autoregressive matrix, spectral form for the spiked one |
| C103 | PowerModel.v (the loops in the state-and-exception monad of TrainModel.v; a dict of counters is the list of verdicts), Props_Power.v: inversion of the monad and counting lemmas, law-free; Props_PowerReal.v: Frobenius norm bounds the perturbation's largest eigenvalue, C95 for the repair; Props_PowerRun.v: totality through the monad, C64, C69, C95 for the recoveries, a constant generator as the witness; Props_PowerNoise.v: the noise levels, through the level zero |
| C104 | PowerModel.v Section Godambe, Props_GodambeRun.v: the gap as a trace (C91), means of quadratic forms, totality through the monad, C98 for the reversal; Props_Structured.v: counting lemmas of Props_Power.v with float keys, equicorrelated groups are positive semidefinite, C91 at full trust, a constant generator as the witness |
| C105 | Props_Tuning.v: simulation between the instance and the one with the other parameters, by induction over the history (law-free), with a row budget for the burn-in; Props_TuningReal.v: the fold of SchurLedoitWolf over the reals read with another block count |
| C106 | Props_Missing.v: a set of values closed under arithmetic (proved of NaN and of the non-finite values in the extended reals and in binary64), an invariant of the state followed along the accepted stream (one lemma for all classes, one step lemma per update rule); Props_MissingCov.v: the same for the stored covariance and its readers; Props_MissingAll.v: NaN through the trace, the Mahalanobis form and Python's max/min, and totality of the updates |
| C107 | Props_FloatCorr.v: the rounding lemmas of FloatBase.v/FloatBound.v along one entry (product, square root, sum, quotient), with Flocq's overflow and invalid cases for the rest; Props_CondScore.v carries C66, C67 and C100 to ConditionalCovariance |
| C108 | Props_Invert.v: C20 reduces a combination of variables to one series, whose variance vanishes only if it is constant (induction on the history); the shrunk matrix by its quadratic form, v^T S v <= tr S |v|^2, and tr(S^2) <= (tr S)^2 for the OAS intensity |
| C109 | Props_Masking.v: a lower bound c d d^T <= S on the estimate gives d^T S^+ d <= 1/c (Penrose identities); the bound is one row's share of the scatter (Cauchy-Schwarz over the other rows, or the last EWA step) |
| C110 | Props_AffineScore.v: C20's covariance A S A^T, its inverse A^-T S^-1 A^-1 (pseudo-inverse for a similarity) and det(A S A^T) = det(A)^2 det S, through C66/C67 |
| C111 | Props_Bias.v: expectation as a finite weighted sum; one recursion for mean and covariance (gain 1/n in the burn-in, r after), moments by induction on the number of rows, closed forms noise/bias and their limits ; Props_BiasDiag.v: the same induction on the innovation variances (harmonic numbers in the burn-in), DCC through C39; Props_BiasBlocks.v: linearity of the damping while no eigenvalue is floored |
| C112 | Props_Consistency.v: Markov and Chebyshev on C111's moments; the covariance as the mean of the centred products minus the product of the mean errors; a second-moment lower bound for Ewa, whose mean stays within the range of the data |
| C113 | Props_Drift.v: C111's induction around a path of means (the cross terms have mean 0); the level shift and the trend solved in closed form on the means, and the limits of lag and spread |
| C114 | Props_Fresh.v: expectation of a quadratic form, then ScoreReal's Stein inequality ln det(P Sig) <= tr(P Sig) - p with its equality case |
| C115 | Props_Walk.v: the lag of the mean behind the current level obeys a scalar recursion (new increments are uncorrelated with it), solved in closed form through the burn-in and after it; with diff=True the rows are the increments, so C111 applies |
| C116 | EloModel.v, Props_Elo.v: induction over the battles left; the loop replays some sequence of recorded battles under a separate specification (EloSpec.v), from which conservation and bounds follow; `split` of a key inverts its construction when names have no ">"; Props_EloRounds.v, Props_EloPool.v: every history of rounds and pool of files is a counter of that form; two battles computed in both orders; Props_EloBest.v: an invariant on the recorded pairs |

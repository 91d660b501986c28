head = r'''# Formal model of microprediction/precise — design

## 1. What is modelled, and how

The model is in `rocq/theories`, plain Gallina, one file per layer.  Every definition of a model file cites the file
and lines of /repo it models and says where it simplifies.

| model file | models |
|---|---|
| `Num.v` | the scalar type (law-free record `Num`), exceptions, the `res` monad; the carrier `NumX` (reals + inf + NaN) |
| `NumFloat.v`, `NumBin.v` | carriers for IEEE binary64: Coq's primitive floats (`NumF`, executable) and Flocq's `binary_float 53 1024` (`NumB`, for the theorems about rounding) |
| `Numpy.v` | the numpy subset used (broadcasting, outer, `@`, diag, trace, slices, norms); the `LinAlg` record of LAPACK/libm routines |
| `PyVal.v` | state dicts, their JSON form, `tolist` / `np.array` |
| `LinalgModel.v` | `precise/_linalg.py`, all of it |
| `StateModel.v` | `precise/_state.py`, all of it |
| `BaseModel.v` | `precise/_conventions.py`, `precise/base.py` (parameters as a typed record; by name: next row) |
| `ParamsModel.v` | the constructors of the 17 registered classes with their defaults, `get_params`, `set_params`, `_param_names`, `_clone`, `__repr__` on instances as attribute dictionaries |
| `Estimators.v` | the seventeen registered estimator classes (`precise/*.py`) |
| `RegistryModel.v` | `precise/registry.py` |
| `KeyedModel.v` | `precise/keyed.py` (except `to_frame`, `__repr__`) |
| `ConditionalModel.v`, `CondObjModel.v` | `precise/conditional.py` (the second: the object with its templates, the attributes inherited from `base.py`, pickling) |
| `AssessModel.v` | `precise/assessment/*` |
| `RecommendModel.v` | `precise/recommend.py`, `precise/_recommender_model.py` (tree, coefficients and class table copied literally) |
| `GammaModel.v` | the attribute `gamma_` of `precise/schur_ledoit_wolf.py` and `precise/schur_conditional.py`, assigned during reads (simplified: a `set_state` that raises leaves the object as it was) |
| `ResearchModel.v` | `research/schur_likelihood_theory.py`, `research/schur_gamma_star.py`, and `schur_operator`, `snr`, `_kl` of `research/schur_godambe.py` (without printing and random searches; the sampling experiments are in `PowerModel.v`) |
| `MetricModel.v` | the scoring functions of `research/metric_power.py` |
| `OosModel.v` | `research/oos_equity.py`, `research/oos.py`, `research/bakeoff.py` on given data |
| `TrainModel.v` | `research/oos.py`, `research/train_recommender.py`, `build_scenarios` of `research/bakeoff.py`, with the random number generator as a state and its draws, the QR factorisation and scikit-learn's tree as arbitrary functions |
| `PowerModel.v` | the experiments of `research/metric_power.py` and the Monte-Carlo functions of `research/schur_godambe.py`, with the generator of `TrainModel.v` and two more draws (without printing and timing) |
| `EloModel.v` | of `research/legacy_skatervaluation/battleutil`: `eloformulas.py`, `elo_from_win_counts` of `compilingeloratings.py` (without the column of CPU times) `load_win_data` of `battleio.py` and the pairwise comparison in `generic_battle` of `arrangingbattles.py`; `10 ** x` and `random.choices` are parameters |
| `SpikedModel.v` | `research/schur_spiked.py`, `_spiked` and `_noise_subspace_pair` of `research/schur_godambe.py`, given the draws |
| `HeapModel.v` | object identity: a heap of mutable ndarrays under the estimators, for C12 and C13 |

| specification file (no code, no proofs about code) | vocabulary of |
|---|---|
| `Spec.v` | streams, histories of calls, indistinguishability |
| `RealSpec.v`, `LinSpec.v` | mean, covariance, EWMA of a list of real vectors; psd, inverse, eigen-decomposition |
| `KeyedSpec.v`, `BlockSpec.v`, `SchurCondSpec.v`, `GaussSpec.v`, `AssessSpec.v`, `ConditionalSpec.v`, `CondRealSpec.v`, `RecommendSpec.v`, `HeapSpec.v`, `FloatSpec.v`, `SymSpec.v`, `ResearchSpec.v` | the property group named |

The theorems are in `Props_*.v`; every other file is proof infrastructure:
`ListLemmas BaseProofs Shapes ClassShapes BlockShapes StreamProofs RegistryProofs KeyedProofs DynProofs DynProofs2 AsmProofs
ConditionalProofs HeapProofs` (law-free) and `RMat Fin RunFin EwaReal RunAvg EmpFacts ShrinkReal MomentReal FactorReal Spectral
MatAlg Det Contracts LinalgReal RobustReal TylerReal BlockGeom BlockReal BlockRun BlockRun2 BlockDet SchurCondReal GaussReal
ScoreReal AssessReal AssessBlock CondReal RecommendReal SymReal SymRun SymGeo SymPerm ResearchReal ResearchRun ResearchTwo ResearchOp` (real arithmetic) and
`FloatBase FloatRun FloatErr FloatAcc FloatEwa FloatDiag` (binary64).

**Scalars.** All code is written once over a record `Num` of operations *without laws*.  A theorem
quantified over every `N : Num` uses no arithmetic law, so it holds of binary64 with its rounding
(streaming, checkpoints, keyed bookkeeping, heap ...).  Numeric theorems (means, PSD, shrinkage ...) are about
`NumX`, exact arithmetic on extended reals in which x/0, 0/0 and sqrt of a negative are visible as
inf/NaN; they say nothing about rounding error.  That is the largest simplification of the model.  It is lifted for
EmpiricalCovariance, EwaCovariance and DiagonalCovariance by the theorems about `NumB` (C75-C78), where every operation rounds.

**LAPACK.** `inv, pinv, eigh, svd, cholesky, eigvals, solve, slogdet, spacing, pow` are fields of a record
`LinAlg` the model is parameterised by.  Three kinds of hypothesis about it occur in theorems:
- `lawful L` (`Contracts.v`): on finite symmetric input the routine returns what its documentation says (eigh an orthonormal
  eigenbasis, inv the inverse or LinAlgError on singular input ...), in exact arithmetic.  `lawful_satisfiable` builds such
  routines (`Spectral.v` proves the real spectral theorem).
- `la_shapes L` (`Shapes.v`): results have the documented shapes.  Any scalar type.
- `la_quiet L` (`RegistryProofs.v`): the routines raise nothing but LinAlgError.  Any scalar type.

No theorem assumes `lawful` together with one of the other two; these two are also met by routines that always raise
LinAlgError, which is why no numeric conclusion is drawn from them.

**State and exceptions.** A mutating method returns the new instance *and* its outcome, so what survives an
exception is visible.  Loops with data-dependent trip count (`nearest_pos_def`'s `while`, the tree walk) use fuel and
return an error when it runs out; theorems prove that error does not happen.

**Object identity.** Python objects are values in the model, which is adequate because every update returns new arrays, except for
the four places where an array is shared with the caller (`as_rows` views, `_prev_x`, the array behind `location_`, Block's copy);
`HeapModel.v` has those, and C12 proves that on programs that do not write into shared arrays the value model and the heap model
agree.  It uses these numpy facts: `np.asarray` of a float ndarray and row indexing do not copy; arithmetic, `np.array`, slicing plus
arithmetic, `np.concatenate` produce new arrays.

**Not modelled.** float rounding, outside `NumB`; the order in which numpy's `sum`, `mean`, `@` and `einsum` add; the keyed `__repr__`; `to_frame` (pandas); `precise/skaters`
(a module that only raises ImportError); Python ints are `nat`/`Z`; JSON text (taken as the identity on JSON trees); dtype coercion of
non-float input; a 2-d array with no rows does not remember its number of columns;
threads (the code has none); of `research/`: the rest of `legacy_skatervaluation`, plotting and printing, scikit-learn's tree (an arbitrary function of its training set), the families of `randomcov`, and the distribution of the random draws (the modelled scripts take them as arguments or from an arbitrary generator); tests, docs.

## 2. Proof technique per property

Notation: *law-free* = for every `Num`; *real* = on `NumX` with finite input; *contract* = under `lawful`;
*rounded* = on `NumB`; *refuted* = the natural claim is false of the code, a witness theorem is proved, together
with the strongest true variant.

| id | plan |
|---|---|
| C01 | law-free; induction over rows of `fit_rows` (append law), outcome included |
| C02 | law-free; `fit` and `partial_fit` on a new instance differ only in `n_features_in_` before the first row |
| C03 | law-free; simulation between the diff=True run and the diff=False run on differences |
| C04 | law-free; shape invariant of every class's state, `np.array(tolist a) = a` on rectangular arrays, so `set_state(get_state)` is the identity (for BlockCovariance: equal up to sub-dict key order, then simulation) |
| C05 | refuted (witness), plus exact description: the resumed estimator misses one difference |
| C06 | law-free, as C04 with `prev_x` |
| C07 | law-free; counter invariant of every class |
| C08 | refuted by broadcasting (witnesses); exact rule for every class (Block separately, by its slices; one-variable estimators class by class in Props_OneVar.v) |
| C09 | refuted (witness); C10 law-free, induction over rows |
| C11 | law-free; updates and reads of those classes ignore the parameters once a state exists |
| C12 | heap model; forward simulation between heap runs and value runs for polite programs; exact description of the impolite buffer-reuse program |
| C13 | heap model; ownership invariant; location_ refuted with the exact effect of a write |
| C14, C15 | real; Welford invariant: mean/cov of the state are the prefix mean/population covariance; permutation of sums |
| C16 | real; induction, closed form of the EWMA recursion |
| C17 | real; lemmas on ceil/clamp, monotonicity |
| C18 | real, contract for the classes that call LAPACK; quadratic-form invariants, congruence and convexity lemmas |
| C19 | real; convexity invariant (rounded: C75) |
| C20, C21 | real; simulation relation between the two streams (linear map / sub-selection); C21 also law-free (Props_Marginal): related states, column selection commutes with every operation of the update |
| C22 | law-free up to commutativity of addition, which `NumX` and `NumB` have |
| C23 | real, contract where needed; finite-state invariants for each class (rounded: C77) |
| C24, C25 | real; Cauchy-Schwarz for PSD matrices; C25 refutes a unit diagonal, exact value |
| C26-C29 | real; algebra on the read function, clip lemmas |
| C30 | refuted with witness (zero-variance coordinate); proved when all variances exceed the floor |
| C31 | refuted (constant stream) with the exact shift; C32 real, comparison invariant |
| C33 | refuted: the quadrant sum is exactly the plain recency-weighted scatter |
| C34 | real, contract on inv; bounded influence by weight identity |
| C35 | real; clip lemmas, equality run with Ewa |
| C36 | real, contract; trace normalisation, homogeneity |
| C37 | refuted with witness run, NaN invariant |
| C38, C41, C42 | real, contract; spectral calculus from `Spectral.v`, Frobenius optimality |
| C39, C40 | real; algebra + PSD lemmas |
| C43-C46 | real, contract; Schur product with a PSD mask; uniqueness of spectral functions for C45 |
| C47 | real, contract; reliability formula, ridge-regularised conditioning |
| C48, C49, C71 | law-free model of conditional.py (composition theorem for any pair of classes), real instance for Ewa/Ewa; C49 and the PSD claim refuted by witness; C71 by running one rejected row |
| C50-C55, C57 | law-free; refinement of the adapter to the positional estimator, invariants over update histories; C55 refuted (eviction of the fresh universe) with the exact condition |
| C56 | law-free for the assembly (fold invariant), contract for the projection |
| C58, C59 | case analysis of the frozen tree for every feature vector (walk terminates; ranking is a permutation prefix); C59 refuted: the first answer is always one of two classes |
| C60, C61 | enumeration of the registries, law-free |
| C62, C63, C69, C70 | real, contract for the inverse and slogdet; sums of squares, Cauchy-Schwarz, Stein's inequality (`GaussReal.v`) |
| C64, C65 | law-free splitting of the block loop; contract and block determinants for the likelihood identities |
| C66, C67 | contract; Penrose equations, positivity of quadratic forms |
| C68 | contract; Gibbs' inequality over all instances of all classes |
| C72 | real; perturbation bound of the 1e-12 in the denominator; refuted as an exact statement |
| C73 | real, contract on eigh; power-mean and Cauchy-Schwarz inequalities, uniqueness of eigenvalue multisets |
@@NEW@@

## 3. Trusted base

- Coq 8.16.1's kernel (with `vm_compute` in a few examples).
- The axioms `Print Assumptions` lists for each theorem, below.  All are the standard library's:
  `ClassicalDedekindReals.sig_forall_dec`, `ClassicalDedekindReals.sig_not_dec` and
  `FunctionalExtensionality.functional_extensionality_dep` (the reals), `Classical_Prop.classic` and
  `ClassicalEpsilon.constructive_indefinite_description` (through `Contracts.v` and Flocq).
- The faithfulness of the reading of /repo documented in the comments of the model files.
- The contracts on LAPACK, as hypotheses, where a theorem mentions `lawful`, `la_shapes` or `la_quiet`.

No axiom of our own, no functor, no module type, no `Admitted`; `Assumptions.v` prints the assumptions of every theorem listed in
MANIFEST.json at each build.

<!-- ASSUMPTIONS -->
<!-- /ASSUMPTIONS -->

## 4. Testing the theorems

`tools/mutate.py` applies an edit to a model definition in a scratch copy, rebuilds, and records which theorems fail;
results are in `seeded/LOG.jsonl`.
'''
new=open('/verif/tools/design_new.txt').read() if __import__('os').path.exists('/verif/tools/design_new.txt') else ''
open('/verif/DESIGN.md','w').write(head.replace('@@NEW@@\n',new))

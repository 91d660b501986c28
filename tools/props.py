#!/usr/bin/env python3
"""Generates properties.jsonl from the table below (kept in one place so ids, text and anchors stay in step)."""
import json, os
P = []
def p(id, title, statement, quantifier, why, *anchors):
    P.append(dict(id=id, title=title, statement=statement, quantifier=quantifier,
                  why_tests_cant=why, anchors=list(anchors)))
INF = "The claim ranges over an unbounded set of streams, lengths and values; a test samples finitely many of them."
HIST = "The claim must hold at every point of every history of calls; tests exercise a few hand-picked points."

# --- streaming contract (base.py) -------------------------------------------------------------
p("C01","Batch and stream agree","partial_fit on a concatenated batch leaves an estimator in exactly the same state, with the same outcome, as partial_fit on the pieces one after the other; in particular a 2-d batch equals its rows fed one at a time.",
  "every estimator class, every parameters, every prior state, every split of every batch, including batches whose processing raises",HIST,
  "precise/base.py:partial_fit","precise/_conventions.py:as_rows")
p("C02","fit forgets","fit(X) on an instance with any history gives the same observable estimator (all fitted attributes, and all later behaviour) as partial_fit(X) on a freshly constructed instance with the same parameters.",
  "every estimator class, every history before fit, every 2-d X",HIST,"precise/base.py:fit")
p("C03","diff=True is differencing","With diff=True the estimator behaves exactly as the diff=False estimator fed the first differences of the stream; n rows yield max(n-1,0) absorbed differences.",
  "every class that takes diff, every stream, every way of cutting it into partial_fit calls",INF,"precise/base.py:partial_fit")
p("C04","Checkpoint and resume (get_state/set_state)","Taking get_state at any point of a stream, passing it through JSON and loading it with set_state into a fresh instance with the same parameters gives an estimator whose fitted attributes, and whose behaviour on every continuation, equal those of the uninterrupted one (diff=False).",
  "all seventeen registered classes, every stream, every checkpoint position, every continuation",HIST,
  "precise/base.py:get_state","precise/base.py:set_state","precise/block_covariance.py:get_state","precise/block_covariance.py:set_state")
p("C05","Checkpoint with diff=True loses the differencing baseline","For diff=True the guarantee of C04 fails: get_state does not carry the previous row, so the resumed estimator equals the uninterrupted one except that it misses exactly the one difference across the checkpoint. set_state leaves the previous row of its target alone: restoring into an instance that has consumed rows of its own (a rollback) makes the next row be differenced against the last row that instance saw.",
  "every stream and checkpoint position",HIST,"precise/base.py:get_state","precise/base.py:set_state")
p("C06","Pickle and resume","Pickling at any point and unpickling gives an instance indistinguishable from the original, now and after any continuation, with diff=True or False.",
  "all registered classes, every history",HIST,"precise/base.py:__getstate__","precise/base.py:__setstate__")
p("C07","Fitted attributes exist exactly after data","location_/covariance_ raise NotFittedError when no observation (no difference, for diff=True) has been absorbed, and after at least one absorbed observation they do not raise NotFittedError; n_samples_ equals the number of absorbed observations.",
  "every stream of well-shaped rows, every class",HIST,"precise/base.py:_fitted_state","precise/base.py:n_samples_")
p("C08","Observation shape is enforced only up to broadcasting","An observation whose length differs from the dimension p >= 2 and from 1 is rejected and leaves the instance unchanged, for every class with diff=True and for every class but BlockCovariance with diff=False. BlockCovariance with diff=False accepts an observation x of any length exactly when every block [a,b) of two or more coordinates finds in x[a:b] all of its coordinates or exactly one, rejects it and stays unchanged otherwise, and ignores coordinates beyond the p-th. Not rejected by the other classes, because of numpy broadcasting: (i) a length-1 observation [c], which acts exactly like the observation (c, ..., c) of length p; (ii) when all rows so far had one number, a longer row: it is accepted, counted and makes location_ as long as the row while n_features_in_ stays 1, in Empirical, Ewa, Diagonal, LedoitWolf, OAS, Shrunk, Schur, SchurConditional, DCC and Factor with k = 0; in AdaptiveEwa, Huber, GeodesicEwa and SchurLedoitWolf only before the burn-in ends, and rejected without change afterwards; PartialMoments, Tyler and Factor with k >= 1 always reject it without change.",
  "every class, every reachable estimator and every observation of another length","The lengths and states are unbounded.","precise/_state.py:emp_update","precise/base.py:partial_fit")
p("C09","A rejected fit discards the estimate","If fit raises because its input is not 2-d, the previous estimate is lost (the estimator is unfitted afterwards); a rejected partial_fit changes nothing.",
  "every fitted estimator and every non-2-d input",HIST,"precise/base.py:fit")
p("C10","An exception mid-batch keeps the good prefix","If processing row k of a batch raises, the estimate afterwards is exactly the one produced by the rows before k (once a state exists), and calling partial_fit again with good rows continues from there; with diff=True the failing row nevertheless becomes the baseline of the next difference.",
  "every class, every batch, every failing row",HIST,"precise/base.py:partial_fit")
p("C11","Hyper-parameters are frozen into the running state","For the classes that keep every value their updates need in the state (Empirical, Ewa, Diagonal, LedoitWolf, OAS, AdaptiveEwa, Tyler, Geodesic, PartialMoments, DCC, Factor, Block), set_params on a fitted instance (keeping diff) does not change any later covariance_/location_ until fit is called.",
  "every state, every parameter values, every continuation",HIST,"precise/base.py:set_params","precise/_state.py:ewa_update")
p("C12","When the caller's arrays are retained","For every registered class: with diff=False, overwriting in place any array passed to partial_fit or fit, at any time, changes nothing that the estimator reports, and data passed as lists are copied with either setting; with diff=True the estimator keeps a reference to the last row passed, so an array already passed must not be overwritten: a program that fills one buffer again and again and passes it each time leaves the estimator in the state it would have after a stream of zeros, whatever the data (EmpiricalCovariance then reports the zero matrix instead of the covariance of the differences).",
  "every dimension, every data and every program of allocations, in-place writes, fits, reads and set_state calls","Aliasing shows only under a particular interleaving of writes and calls.","precise/base.py:partial_fit","precise/_conventions.py:as_rows")
p("C13","Which returned arrays are the caller's","Arrays returned by covariance_, correlation_ and precision_ may be written into freely without changing anything the estimator or any other returned array shows later; the array returned by location_ is the estimator's own running mean for every class but BlockCovariance (which returns a new one), so that writing v into it replaces the mean in the state and the next update of EmpiricalCovariance gives n/(n+1) C + n/(n+1)^2 (x-v)(x-v)^T in place of the covariance of the n+1 rows.",
  "every dimension, every data and every program of allocations, in-place writes, fits, reads and set_state calls","Aliasing shows only under a particular interleaving of writes and calls.","precise/base.py:location_","precise/base.py:covariance_")
# --- empirical / ewa ---------------------------------------------------------------------------
p("C14","EmpiricalCovariance is the population covariance","After any non-empty stream, location_ is the arithmetic mean and covariance_ the divide-by-n covariance of the rows seen (np.cov(bias=True)).",
  "every dimension, every non-empty stream of real vectors",INF,"precise/_state.py:emp_update","precise/empirical.py")
p("C15","EmpiricalCovariance ignores order","Permuting the rows of the stream does not change location_ or covariance_.",
  "every stream and every permutation of it",INF,"precise/_state.py:emp_update")
p("C16","EwaCovariance closed form","After the burn-in of n_burn rows the mean and covariance are the exponentially weighted recursion started at the empirical values: covariance = (1-r)^k C_burn + sum_j r(1-r)^(k-1-j) d_j d_j^T, with d_j the innovation about the previous mean; during burn-in it equals EmpiricalCovariance.",
  "every r in (0,1], every dimension, every stream",INF,"precise/_state.py:ewa_update","precise/ewa.py")
p("C17","Burn-in length","ewa_burn_n(r) is ceil(1/r) clamped to [5,250]: always between 5 and 250, non-increasing in r; r = 0 raises ZeroDivisionError.",
  "every real r","r is continuous.","precise/_state.py:ewa_burn_n")
p("C18","Covariances are positive semidefinite","After every non-empty stream of finite rows covariance_ is symmetric positive semidefinite for Empirical, Ewa, Diagonal, AdaptiveEwa, LedoitWolf, OAS, Shrunk(identity), Huber, DCC, Factor, Geodesic, Schur, SchurLedoitWolf, Block and PartialMoments (SchurConditional: C47; Shrunk with another target: C30); for Tyler its smallest eigenvalue is at least -p 1e-12 / (smallest diagonal entry of the shape matrix).",
  "every dimension, stream and admissible parameters; every LAPACK meeting the stated contract for the classes that call it",INF,"precise/base.py:covariance_")
p("C19","Running mean stays in the data's range","Each coordinate of location_ of Empirical, Ewa and Diagonal lies between the smallest and largest value seen in that coordinate.",
  "every stream, r in (0,1]",INF,"precise/_state.py")
p("C20","Affine equivariance","For Empirical and Ewa, feeding A x + b instead of x turns location_ m into A m + b and covariance_ C into A C A^T; translations leave the covariance unchanged.",
  "every matrix A, vector b, stream",INF,"precise/_state.py:emp_update","precise/_state.py:ewa_update")
p("C21","Marginal consistency: choosing columns before or after fitting","Feeding an Empirical, Ewa, Diagonal or DCC estimator only some of the columns gives the same outcome and the same n_samples_, and location_, covariance_ and correlation_ equal to the chosen part of what it reports when fed all columns: bit for bit in any arithmetic, float64 with rounding, infinities and NaN included. For OAS, Shrunk, Schur and SchurConditional the same holds of n_samples_ and location_ (their covariance_ pools over the columns).",
  "every choice of columns in any order (for Empirical and Ewa also with repetitions, for Diagonal and DCC distinct ones), every number of rows, every row length, every parameter setting, every arithmetic",INF,"precise/_state.py:ewa_update","precise/block_covariance.py")
p("C22","covariance_ is exactly symmetric","covariance_[i][j] = covariance_[j][i] for every estimator whenever it is returned, bit for bit in float64 as well.",
  "every class, every state","Must hold for every reachable state.","precise/base.py:covariance_","precise/_linalg.py:to_symmetric")
p("C23","Finite in, finite out","Finite observations never produce NaN or infinite entries in location_, covariance_ or correlation_ of Empirical, Ewa, Diagonal, AdaptiveEwa, LedoitWolf, OAS, Shrunk, Huber, DCC, Factor, Geodesic, Schur, SchurLedoitWolf, Block, PartialMoments and (unless the first observation is zero, C37) Tyler; for SchurConditional see C47.",
  "every finite stream and admissible parameters, in exact arithmetic; every LAPACK meeting the stated contract for the classes that call it",INF,"precise/_state.py","precise/_linalg.py:cov_to_corrcoef")
p("C24","correlation_ entries are correlations","Every entry of correlation_ has absolute value at most 1 for a positive semidefinite covariance_, and the diagonal entry is v/(v+1e-12).",
  "every PSD covariance",INF,"precise/_linalg.py:cov_to_corrcoef")
p("C25","correlation_ has a diagonal just below one","The diagonal entry of correlation_ for a variable of variance v is v/(v+1e-12): never exactly 1, short of it by less than 1e-12/v, and 0 (not NaN) for a variable of zero variance.",
  "every fitted estimator with positive variances",INF,"precise/_linalg.py:cov_to_corrcoef","README.md")
# --- other estimators --------------------------------------------------------------------------
p("C26","Ledoit-Wolf is a convex shrinkage","covariance_ = (1-a) S + a (tr S/p) I with S the plain EWA covariance and a in [0,1]; the trace is preserved and during burn-in a = 0.",
  "every stream, r in (0,1]",INF,"precise/ledoitwolf.py")
p("C27","OAS is a convex shrinkage","covariance_ = (1-rho) S + rho (tr S/p) I with rho in [0,1]; the trace is preserved; p = 1 returns S.",
  "every stream, r in (0,1]",INF,"precise/oas.py")
p("C28","ShrunkCovariance(identity)","covariance_ = (1-delta) S + delta (tr S/p) I, delta=0 gives the EWA covariance, the trace is preserved.",
  "every stream, r, delta in [0,1]",INF,"precise/shrunk.py")
p("C29","ShrunkCovariance(constant_correlation) keeps variances","The diagonal equals that of the EWA covariance, whatever delta is, and every off-diagonal entry is the stated convex combination with the mean sample correlation.",
  "every stream, r, delta",INF,"precise/shrunk.py")
p("C30","ShrunkCovariance(constant_correlation) is PSD unless a variance vanishes","covariance_ is positive semidefinite for delta in [0,1] whenever every EWA variance is at least the 1e-12 floor; with a constant variable in the stream it can fail to be (a stream is exhibited).",
  "every stream, r in (0,1], delta in [0,1]",INF,"precise/shrunk.py")
p("C31","DiagonalCovariance's entries are not quite variances","covariance_ is diagonal, but its entries are not translation invariant although its docstring calls them marginal variances: the first innovation is measured about 0, so translating the stream by b changes entry i by exactly w*((x0_i+b_i)^2 - x0_i^2), w the weight of the first observation (1/n while in burn-in); a constant stream c reports w*c_i^2 where EwaCovariance reports 0.",
  "every stream, r in (0,1], translation b",INF,"precise/diagonal.py")
p("C32","DiagonalCovariance closed form","The diagonal is the running average (then EWMA) of squared innovations about the previous mean, and it is never below the corresponding EwaCovariance variance.",
  "every stream, r in (0,1]",INF,"precise/diagonal.py")
p("C33","PartialMomentsCovariance carries no quadrant information","Contrary to its docstring, the four quadrant scatters add up to the plain outer product, so covariance_ is the positive-definite projection of the plain recency-weighted average of innovation outer products, which differs from EwaCovariance's only by a burn-in term that decays like (1-r)^k.",
  "every stream, r in (0,1]",INF,"precise/partialmoments.py")
p("C34","Huber equals Ewa on inliers, has bounded influence","If no observation after the burn-in exceeds the cutoff, Huber's estimates equal Ewa's; when the current covariance is invertible a single observation, however large, moves the mean along any direction v by at most r c sqrt(p v'Sv) and multiplies the variance v'Sv by a factor between 1-r and 1-r+r c^2 p; when it is singular there is no bound (zeros followed by M give r M^2).",
  "every stream, every next observation",INF,"precise/huber.py")
p("C35","AdaptiveEwa's rate stays in range","The effective forgetting rate is always between r and max_r (r <= max_r), and max_r = r makes the estimator identical to EwaCovariance.",
  "every stream, every r <= max_r",INF,"precise/adaptive.py")
p("C36","Tyler's shape stays normalised","After every update the shape matrix has trace p and is positive semidefinite, and scaling the deviation of an observation leaves the updated shape and covariance_ unchanged as long as both quadratic forms reach the 1e-12 floor.",
  "every stream with a nonzero first observation, r in (0,1), every next observation and scale",INF,"precise/tyler.py")
p("C37","Tyler and a zero first observation","A finite stream with a nonzero first observation (r < 1) never makes TylerCovariance return NaN, but a first observation equal to zero makes covariance_ all NaN, and it stays NaN after every further accepted observation.",
  "every finite stream; every continuation of a zero first observation",INF,"precise/tyler.py")
p("C38","Geodesic step stays positive definite","geodesic_step returns a symmetric positive definite matrix Q diag(l^gamma) Q^T where start = Q Q^T and end = Q diag(l) Q^T after the eigenvalue floor; gamma=0 returns start, gamma=1 returns end (for inputs with eigenvalues >= 1e-8); GeodesicEwa is Ewa during burn-in and afterwards takes that step towards each scatter.",
  "every pair of matrices, every gamma; every stream",INF,"precise/_linalg.py:geodesic_step","precise/geodesic.py")
p("C39","DCC composes D R D","covariance_ = D R D with D the floored tracked volatilities and R a positive semidefinite matrix with entries of absolute value at most 1 whose diagonal is 1 when the quasi-correlation reaches the 1e-12 floor; the diagonal of covariance_ then equals the tracked variances whenever those reach the floor too.",
  "every stream, r and vol_r in (0,1]",INF,"precise/dcc.py")
p("C40","Factor covariance dominates the tracked variances","covariance_ is PSD, its diagonal is max(tracked variance, variance captured by the factors), and there are at most min(k, p) factors.",
  "every stream, k, r",INF,"precise/factor.py")
p("C41","make_pos_def is a projection","make_pos_def returns a symmetric matrix with all eigenvalues >= 1e-8, the Frobenius-nearest such matrix to the symmetrised input, returns the symmetrised input unchanged when its eigenvalues are already >= 1e-8, and is idempotent. It never magnifies a difference (the repaired versions of two matrices are at most as far apart, in Frobenius norm, as the matrices), so the result does not depend on which eigenvectors LAPACK happens to return.",
  "every real matrix",INF,"precise/_linalg.py:make_pos_def")
p("C42","nearest_pos_def terminates","nearest_pos_def returns a positive definite matrix after at most one pass of its repair loop, and returns a positive definite input unchanged. With a Cholesky test that also rejects matrices positive definite by less than some margin (as a rounded one does), the loop still ends, however large the margin, after a number of passes logarithmic in margin / float spacing, with a symmetric matrix that passes the test.",
  "every real matrix (exact arithmetic)",INF,"precise/_linalg.py:nearest_pos_def")
p("C43","Schur damping","SchurCovariance(linear) leaves within-block entries of the EWA covariance alone, multiplies cross-block entries by gamma and projects with eigenvalue floor 1e-8 (no change when all eigenvalues are at least that); gamma=1 is make_pos_def of the EWA covariance with either interpolation; for gamma in [0,1] the damped matrix is PSD before projection; geodesic interpolation gives a positive definite matrix that agrees with the linear one at gamma 0 and 1; n_blocks <= 0 makes every read of covariance_ raise ValueError.",
  "every stream, gamma, n_blocks; every LAPACK meeting the stated contract",INF,"precise/schurcov.py")
p("C44","Blocks partition the variables","The blocks are contiguous, cover every variable exactly once and differ in size by at most one.",
  "every p and n_blocks","p and n_blocks are unbounded.","precise/block_covariance.py:_slices","precise/schurcov.py")
p("C45","BlockCovariance is SchurCovariance(gamma=0)","The block estimator (O(p b) state) reports the same covariance_ as the dense SchurCovariance with gamma=0, zero across blocks; its precision_ is the inverse of its covariance_.",
  "every stream, n_blocks >= 1",INF,"precise/block_covariance.py","precise/schurcov.py")
p("C46","Schur-Ledoit-Wolf damping is a fraction","gamma_ is in [0,1] at every read and covariance_ is positive definite.",
  "every stream",INF,"precise/schur_ledoit_wolf.py")
p("C47","Schur-conditional damping is a fraction","SchurConditionalCovariance: gamma_ is the Gaussian reliability of the cross-block correlations and lies in [0,1] at every read; covariance_ is positive definite, or raises LinAlgError exactly when one of the ridge-regularised conditioning matrices is singular, which cannot happen when every variance is 0 or at least 1e-12 (1 + n_eff + p); gamma_ = 0 makes it block diagonal; with one block it is the EWA covariance up to the 1e-12 in the correlation denominator.",
  "every stream, n_blocks; every LAPACK meeting the stated contract",INF,"precise/schur_conditional.py")
p("C48","ConditionalCovariance is honest and one-step-ahead","partial_fit on a new ConditionalCovariance succeeds exactly when the composition below does, and then: row t is standardised coordinate by coordinate with the mean and variance (floored at 1e-12; 0 and 1 before any data) that series i's volatility model forecast from coordinate i of rows 0..t-1 only; the correlation model is a never-fitted clone of the corr template that saw exactly those residuals; location_ is the vector of current forecasts and covariance_ = D R D (so |H_ij| <= d_i d_j). Batches add up, fit forgets everything, the templates' own history never matters. covariance_ need not be positive semi-definite, because correlation_ need not be. A template estimator forecasts location_[0] and covariance_[0, 0] of its clone fitted on that coordinate alone; a skater forecasts the mean and squared std of the first distribution it last returned; before any data both forecast mean 0 and variance 1. location_ raises NotFittedError exactly while no row has been absorbed, covariance_ then too.",
  "every volatility model (estimator or skater), correlation estimator, stream and batching",HIST,"precise/conditional.py")
p("C49","DCC is not the Ewa/Ewa special case of ConditionalCovariance","DCCCovariance(r) and ConditionalCovariance(EwaCovariance(r), EwaCovariance(r)) always report the same location_, but not the same covariance_: after one observation x the composition reports the zero matrix and DCCCovariance reports variance x_i^2 wherever |x_i| >= 1e-6 (the documentation calls them essentially the same).",
  "every dimension, rate and stream","The claim is an equality over all streams.","precise/conditional.py","README.md")
# --- keyed -------------------------------------------------------------------------------------
p("C50","FixedUniverse refines the positional estimator","When every observation has all keys, FixedUniverse gives exactly the positional estimator's result on the vectors listed in key order, whatever the dict order and whatever extra keys are present.",
  "every estimator, every stream of dicts",HIST,"precise/keyed.py:FixedUniverse")
p("C51","Imputation","A missing key is replaced by its last seen value (0 if never seen) under ffill, by 0 under zero, and by the running mean under mean; other coordinates are unaffected.",
  "every stream of partial dicts",HIST,"precise/keyed.py:FixedUniverse.update")
p("C52","Keyed selection","cov_array(keys) is the sub-matrix of the full one in the requested order; a name outside the universe raises ValueError.",
  "every key list",HIST,"precise/keyed.py:FixedUniverse.cov_array")
p("C53","DynamicUniverse is bounded","At most max_universes universes are live after any history (max_universes >= 0), updates that raise included, and no two have the same key-set; after an update that did not raise none has been idle for more than max_staleness updates, and a universe disappears only if it was idle that long, or there was no room and it was the one idle longest (shortest-lived among those).",
  "every history of dict observations interleaved with calls on the prototype",HIST,"precise/keyed.py:DynamicUniverse.update")
p("C54","DynamicUniverse universes are faithful","In a history without exceptions each live universe's estimator equals the positional estimator run on exactly those observations since its creation that contain all its keys, projected on its keys; longevity counts them and staleness counts the updates since the last one.",
  "every history of dict observations",HIST,"precise/keyed.py:DynamicUniverse.update","precise/keyed.py:_Universe")
p("C55","When the current key-set is tracked","After an update(x) that did not raise there is a live universe with exactly the names of x, unless it was not live before, no room was left after the staleness check and every remaining universe was itself updated by x: then the fresh universe is dropped at once. In particular with max_universes=1 a stream {A},{A,B},{A,B},... never tracks {A,B}.",
  "every history of dict observations interleaved with calls on the prototype",HIST,"precise/keyed.py:DynamicUniverse.update")
p("C56","DynamicUniverse assembly","For a query of distinct names each entry of the assembled matrix is read from the longest-lived, least stale (then oldest) universe holding data on both names, symmetric in the pair; everything never observed together gets the mean of the known off-diagonal entries (0 if none); the reported matrix is nearest_pos_def of it, positive definite, and equal to it when it is positive definite. A name listed twice is filled only at its last position.",
  "every history, every key list",HIST,"precise/keyed.py:DynamicUniverse.cov_array")
p("C57","Adapters never touch the prototype","The estimator instance passed to keyed() is never fitted and its own history does not leak into the adapter (a later set_params on it does reach universes created afterwards, not one already started); estimator kwargs are refused together with an instance.",
  "every history of the prototype and the adapter",HIST,"precise/keyed.py:_clone","precise/keyed.py:_factory")
# --- recommend / registry / assessment ----------------------------------------------------------
p("C58","suggest returns a ranking of registered estimators","Whenever the features can be computed, suggest(X, top) returns the first top entries (min(top, 17); a negative top drops that many from the end) of one fixed ordering of the 17 registered classes, without repeats; the walk through the frozen decision tree ends at a leaf for every feature vector, NaN included; the ordering is by leaf count, then by heuristic score, ties in registry order, with or without the trained model.",
  "every X whose features are computed, every top, every feature vector including NaN",INF,"precise/recommend.py","precise/_recommender_model.py")
p("C59","suggest adapts to the data (refuted: two possible first answers)","With the shipped model the first recommendation is LedoitWolfCovariance or EmpiricalCovariance for every X: LedoitWolf exactly when the data are high-dimensional (p/n > 0.25 or sphericity < 0.6) or ill-conditioned (condition number > 50) or reach the single non-empty leaf of the tree (standardised sphericity > 0.625918 and standardised excess kurtosis > 0.803702). The top three form one of four fixed lists; none of the seven other trained classes can come first. Beyond the first three, the ranking is the leaders followed by all other registered estimators in registry order; data count as heavy-tailed exactly when the average excess kurtosis is above 1.",
  "every X whose features are computed",INF,"precise/recommend.py:suggest","precise/_recommender_model.py:VALUE")
p("C60","Registry lookup is total on its names","estimator_from_name(n) returns the class named n for each of the 17 registered names and raises KeyError for every other string; names are distinct; likewise assessor_from_name for the 7 assessors. The registered assessors carry block_size 10, gamma 1/2, four blocks, linear interpolation.",
  "every string","Every other string must be rejected.","precise/registry.py","precise/assessment/registry.py")
p("C61","Assessor applicability","usable(have_data, have_truth) is true exactly when have_truth (FrobeniusToTruth) or have_data (the others); the input an assessor does not need never changes its score; an assessor that is not usable raises, except FrobeniusToTruth without true_cov (nan) and BlockPseudoLikelihood with a negative block size or no variables (0.0).",
  "every assessor, parameters, covariance and inputs","finite, but stated for every score input","precise/assessment/base.py","precise/assessment/assessors.py")
p("C62","Distance assessors are maximal exactly at the target","FrobeniusToTruth is minus the relative Frobenius distance, never positive, 0 exactly when cov equals true_cov (nan or -inf for a zero true_cov). VariogramScore is never positive and maximal exactly when the variogram implied by the covariance equals the sample variogram; the shortfall is the squared distance between the two.",
  "every pair of matrices, every sample",INF,"precise/assessment/assessors.py")
p("C63","GMV score","GMVVariance is minus the mean squared return of the portfolio with weights cov^-1 1 normalised to sum 1: never positive, unchanged when the covariance is multiplied by a non-zero constant, and never above -1/(1'S^-1 1), attained at the second-moment matrix S of the held-out rows.",
  "every positive definite covariance, every held-out sample",INF,"precise/assessment/assessors.py:GMVVariance")
p("C64","Block pseudo-likelihood","BlockPseudoLikelihood is the sum of the mean log-likelihoods of consecutive blocks of block_size variables covering each variable exactly once; it equals LogLikelihood when block_size >= p or when the covariance has no entry across blocks; a zero block size raises ValueError and a negative one scores 0.0.",
  "every p, block_size, positive definite covariance and sample",INF,"precise/assessment/assessors.py:BlockPseudoLikelihood")
p("C65","Schur likelihood endpoints","With either interpolation, SchurLikelihood(gamma=1) is the likelihood of make_pos_def(cov) (of cov itself when its eigenvalues are >= 1e-8) and gamma=0 is the likelihood of make_pos_def of the block-diagonal part, which is the sum of the blocks' own likelihoods; n_blocks <= 0 raises ValueError.",
  "every cov, n_blocks, interpolation, sample",INF,"precise/assessment/assessors.py:SchurLikelihood")
# --- scoring -------------------------------------------------------------------------------------
p("C66","precision_ is the pseudo-inverse of covariance_","precision_ is the Moore-Penrose inverse of covariance_: its inverse whenever it is invertible, symmetric, positive semidefinite when the covariance is. Only LinAlgError of np.linalg.inv triggers the fallback to pinv; every other exception reaches the caller. If pinv fails too, the last resort is the inverse of a fixed ridged matrix (off-diagonal entries times 0.99, diagonal times 0.9999 plus 0.0101 times the average variance), positive definite whenever the covariance is positive semidefinite and not zero.",
  "every instance of every class without its own precision_ (all but BlockCovariance), ConditionalCovariance included, every lawful LAPACK",INF,"precise/base.py:precision_","precise/_linalg.py:try_invert")
p("C67","mahalanobis and score are the Gaussian ones","mahalanobis(X) returns (x - location_)' precision_ (x - location_) for every row in order, never negative, 0 at location_; score(X) is the mean log-density of the rows under N(location_, covariance_), minus infinity when the covariance is singular; a single row counts as a batch of one; score equals LogLikelihood of covariance_ on the centred rows.",
  "every instance with finite location_ and covariance_, every batch of finite rows; for ConditionalCovariance wherever its covariance_ is positive definite",INF,"precise/base.py:mahalanobis","precise/base.py:score","precise/assessment/assessors.py:_gaussian_loglik")
p("C68","EmpiricalCovariance has the highest score on its own training rows","When the population covariance of the rows is invertible, no instance of any class (any parameters, any history) with a positive semidefinite covariance_ scores higher on those rows than EmpiricalCovariance fitted on them, and a tie means equal location_ and covariance_.",
  "every batch of rows, every other instance",INF,"precise/base.py:score","precise/empirical.py")
p("C69","LogLikelihood is a strictly proper judge","LogLikelihood never scores a positive semidefinite covariance above the second-moment matrix of the held-out rows, reaches that score only there, and gives -inf to every singular covariance.",
  "every sample with invertible second moment, every covariance",INF,"precise/assessment/assessors.py:LogLikelihood")
p("C70","SteinLoss is maximal exactly at the sample covariance","SteinLoss is never positive, is 0 exactly when the estimate equals the population covariance of the held-out rows, and is -inf for every estimate when that covariance is singular - in particular whenever there are no more held-out rows than variables.",
  "every sample of at least two rows, every positive definite covariance",INF,"precise/assessment/assessors.py:SteinLoss")
p("C71","A row ConditionalCovariance rejects is half absorbed","partial_fit with a row of length 1 on an instance fitted in p >= 2 dimensions raises IndexError and leaves n_samples_ and location_ as they were, but the correlation model has absorbed a residual (covariance_ changes) and the first series' volatility model has absorbed the value (the next accepted row yields a location_ that counts it).",
  "every volatility and correlation class, stream, rejected value and later row",HIST,"precise/conditional.py:partial_fit")
p("C72","correlation_ is only almost positive semi-definite","When covariance_ is positive semidefinite with all variances at least m > 0, correlation_ is symmetric, within 1e-12/m of the textbook correlation entry by entry, and its smallest eigenvalue is at least -p 1e-12/m; it is not always positive semidefinite: two perfectly correlated variables of different variance give a matrix with a negative eigenvalue.",
  "every class, dimension and covariance; every pair of distinct positive scales for the counterexample",INF,"precise/base.py:correlation_","precise/_linalg.py:cov_to_corrcoef")
p("C73","Feature ranges and invariances","covariance_features(X) returns the sample features their names say (participation ratio of the floored eigenvalues of the population covariance, ratio of the largest to the smallest, mean absolute off-diagonal correlation, mean excess kurtosis) and each lies in its range: 1 <= effective_rank <= p, 0 < sphericity <= 1, condition_number >= 1, sphericity 1 exactly when condition_number is 1, mean_abs_offdiag_corr in [0,1], excess kurtosis in [-3, n-3] and at least -2 unless a variance is below 1e-12. Permuting the rows or adding a constant vector to every row changes neither the features nor the recommendation.",
  "every non-empty finite sample with p >= 1",INF,"precise/recommend.py:covariance_features","precise/recommend.py:suggest")
p("C74","No stored window","Every estimator is truly online: after any history of calls on rows of length p, accepted or rejected, the checkpoint holds at most 4p^2+2p+6 numbers however long the stream was (a pickle adds at most one row); DiagonalCovariance holds exactly 2p+4, FactorCovariance(k) exactly p(min(k,p)+2)+5, BlockCovariance with k blocks at most p(p/k+4)+4.",
  "every registered class, parameters, dimension and call history, every scalar type",HIST,"precise/base.py:get_state","precise/block_covariance.py:BlockCovariance","precise/factor.py:FactorCovariance","precise/diagonal.py:DiagonalCovariance","README.md")
p("C75","Under float64 rounding the running mean stays inside the data range","With every operation rounded to float64, location_ of EmpiricalCovariance (and of Ewa/Diagonal during their burn-in) lies, coordinate by coordinate, between the smallest and the largest value observed; so a constant column is reported exactly. Once the exponential weighting starts this is false: 21 rows equal to 3.0 with r=0.05 give an EWA mean below 3.",
  "every stream of finite rows up to magnitude 2^1022 (at most 2^53 rows), every dimension and use_diff",INF,"precise/_state.py:emp_update","precise/_state.py:ewa_update","precise/base.py:location_")
p("C76","Under float64 rounding a reported variance is never negative","With every operation rounded to float64 the diagonal of covariance_ of Empirical, Ewa and Diagonal is finite and nonnegative, and so is that of LedoitWolf, OAS and Shrunk (either target, 0 <= delta <= 1) for data up to 2^230 and 2^20 variables. Positive semidefiniteness, which holds in exact arithmetic (C18), does not survive rounding: a concrete float64 stream gives a 2x2 covariance_ with a negative determinant.",
  "every stream of finite rows of magnitude up to 2^480 and every rate r in [2^-30,1]",INF,"precise/_state.py:emp_update","precise/_state.py:ewa_update","precise/diagonal.py:DiagonalCovariance")
p("C77","No overflow and no NaN under float64 rounding","With every operation rounded, rows of magnitude up to 2^480 never make location_ or covariance_ of Empirical, Ewa or Diagonal infinite or NaN, however long Ewa/Diagonal run. The same holds of LedoitWolf, OAS and Shrunk for rows up to 2^230 (and up to 2^20 variables); they square variances, so OAS reports NaN for two rows of magnitude 2^300 on which Ewa is fine. Above that the overflow is silent: two finite rows of magnitude 2^600 are accepted and give an infinite variance.",
  "every stream of finite rows of moderate magnitude and every rate r in [2^-30,1]",INF,"precise/_state.py:emp_update","precise/_state.py:ewa_update","precise/diagonal.py:DiagonalCovariance","precise/base.py:partial_fit")
p("C78","Forward error of the float64 estimators","With every operation rounded, after n rows of magnitude at most M the Empirical mean is within n*2^-51*M and the covariance within n*2^-46*M^2 of the exact ones; for Ewa and Diagonal the errors are at most 2^-43*M/r and 2^-37*M^2/r whatever the number of rows: they do not drift. The location_ of Shrunk (either target), OAS and LedoitWolf obeys the same bound as Ewa's, and for the identity target, 0 <= delta <= 1 and p <= 2^20 variables, Shrunk's covariance_ is within 2^-38*M^2/r + p*2^-46*M^2 of the exact shrunk matrix.",
  "every stream of finite rows of magnitude between 2^-400 and 2^480, every rate r in [2^-30,1]",INF,"precise/_state.py:emp_update","precise/_state.py:ewa_update","precise/diagonal.py:DiagonalCovariance")
p("C79","The order of the variables does not matter, except across blocks","Feeding the variables in another order permutes location_ and covariance_ accordingly and changes nothing else, for thirteen of the classes with any reordering. For Block, Schur and SchurLedoitWolf it holds for the reorderings that keep together the variables that were in one block, and for SchurConditional (which conditions each block on the ones before it) for those that leave every variable in its block, gamma_ unchanged and a LinAlgError on one side meaning one on the other; a reordering that moves a variable to another block gives another covariance for the same pair of variables.",
  "every permutation of the variables, dimension, stream, rate and use_diff, every lawful LAPACK; block estimators: every block-preserving permutation",INF,"precise/base.py:partial_fit","precise/block_covariance.py:BlockCovariance","precise/schurcov.py:SchurCovariance","precise/tyler.py:TylerCovariance","precise/factor.py:FactorCovariance")
p("C80","Rotations and changes of units","Feeding A x + b, where A is a rotation, reflection or relabelling times a common change of units, turns location_ m into A m + b and covariance_ S into A S A^T for the shrinkage estimators (LedoitWolf, OAS, Shrunk with identity target) and the outlier-robust ones (Huber, Adaptive), as it does for Empirical and Ewa: shrinkage intensities and outlier decisions depend neither on the axes nor on the units. Geodesic, which has absolute floors, follows every change that keeps lengths, and PartialMoments follows those that also keep the origin (on levels; on differences the origin does not matter).",
  "every similarity A, shift b, dimension, stream and parameter in range, every lawful LAPACK",INF,"precise/ledoitwolf.py:LedoitWolfCovariance","precise/oas.py:OASCovariance","precise/huber.py:HuberCovariance","precise/geodesic.py:GeodesicEwaCovariance","precise/partialmoments.py:PartialMomentsCovariance")
p("C81","Where the origin is","On differences (use_diff=True) adding a constant vector to the whole stream changes nothing that any class reports. On levels it shifts location_ and leaves covariance_ alone for Empirical, Ewa, the shrinkage, block and Schur estimators, Huber, Adaptive and Geodesic. Diagonal, PartialMoments, DCC, Factor and Tyler take their first innovation about 0 and are not shift invariant; for Diagonal the variances differ by exactly ((x1+b)^2 - x1^2) (1-r)^(n-m)/m after n rows, m = min(n, burn-in).",
  "every class, shift, dimension and stream; the failures for every rate, LAPACK and number of factors",INF,"precise/base.py:partial_fit","precise/diagonal.py:DiagonalCovariance","precise/dcc.py:DCCCovariance","precise/factor.py:FactorCovariance","precise/tyler.py:TylerCovariance","precise/partialmoments.py:PartialMomentsCovariance")
p("C82","Parameters by name","A constructor takes exactly the keywords of its class (any other name is a TypeError), validates and converts nothing, and get_params returns, in the constructor's order, what was given or the default; it never fails, whatever set_params calls and fits came in between. set_params changes the named values and no data; a name the class does not know is accepted and has no effect; a read-only fitted attribute raises AttributeError, with the keywords before it already assigned. set_params(**get_params()) changes nothing. Cloning (as the keyed trackers and the conditional model do) never fails and gives the same parameters and no data, and repr shows the class and parameters only. An instance differences exactly when bool() of the stored diff value is True (None, 0, 0.0 and the empty string are off; NaN and any other string are on). The defaults of the seventeen constructors are the documented ones.",
  "every registered class, every history of set_params calls, fits and clones, every keyword dictionary",HIST,"precise/base.py:get_params","precise/base.py:set_params","precise/base.py:_param_names","precise/base.py:__repr__","precise/keyed.py:_clone","precise/shrunk.py:ShrunkCovariance")
p("C83","Works with the defaults","Every registered class constructed with its default parameters (diff on or off) accepts every stream of finite rows with at least one observation and then has finite location_, covariance_ and correlation_; the covariance is symmetric positive semidefinite except possibly for ShrunkCovariance (constant-correlation target) and TylerCovariance. TylerCovariance needs a non-zero first observation and SchurConditionalCovariance needs every variance to be zero or not tiny (1e-12 times the effective sample size).",
  "every registered class, dimension and stream (exact arithmetic), every lawful LAPACK",INF,"precise/registry.py:_REGISTRY","precise/base.py:partial_fit","precise/tyler.py:TylerCovariance","precise/schur_conditional.py:SchurConditionalCovariance")
p("C84","What the likelihood scores reward","SchurLikelihood with 0 < gamma < 1 and linear interpolation is not a proper score: against zero-mean data it is maximised, among all symmetric candidates, exactly by the data's second moment with its between-block entries divided by gamma (not by the second moment itself), so some positive definite matrix strictly beats the truth unless that is block diagonal; at the data's own second moment the score increases with gamma, strictly unless it is block diagonal. BlockPseudoLikelihood is maximised by the data's second moment, and exactly the positive definite candidates with the same diagonal blocks tie with it.",
  "every dimension, number of blocks, gamma in range, sample and candidate (exact arithmetic), every lawful LAPACK",INF,"precise/assessment/assessors.py:SchurLikelihood","precise/assessment/assessors.py:BlockPseudoLikelihood","precise/assessment/assessors.py:LogLikelihood")
p("C85","How fast the past is forgotten","Two Ewa estimators (or two Diagonal ones) with different histories past the burn-in that then see the same k rows differ in location_ by exactly (1-r)^k times the earlier difference, and in covariance_ by an explicit amount at most 20 B^2 (1-r)^(k-1) when all values are at most B: the past is forgotten geometrically. Shrunk with identity target and intensity in [0,1] obeys the same bound; Schur (linear, |gamma| <= 1) and Block obey p times it, the positive-definite repair included. Empirical never forgets: the difference in means after n and k rows is exactly n/(n+k) of the earlier one.",
  "every pair of histories, rate in (0,1], dimension, number of later rows",HIST,"precise/_state.py:ewa_update","precise/_state.py:emp_update","precise/ewa.py:EwaCovariance","precise/diagonal.py:DiagonalCovariance")
p("C86","Unchecked parameters: which values are safe","No parameter is validated, so the safe range is the user's business: for Ewa and Diagonal, among non-zero rates r, every covariance_ is positive semidefinite on every stream if and only if 0 < r <= 1; for Shrunk with identity target and p >= 2 variables if and only if 0 <= delta <= p/(p-1). Outside, no error is raised and some finite stream gives a negative variance. SchurCovariance with linear interpolation, a rate in (0,1] and m >= 2 blocks reports the gamma-damped matrix, up to sqrt(p) 1e-8 in Frobenius norm, on every stream if and only if -1/(m-1) <= gamma <= 1; for any other gamma the repair moves it arbitrarily far on some two-row stream.",
  "every real rate, intensity and gamma, every dimension and number of blocks, every stream (exact arithmetic)",INF,"precise/ewa.py:EwaCovariance","precise/diagonal.py:DiagonalCovariance","precise/shrunk.py:ShrunkCovariance","precise/_state.py:ewa_update")
p("C87","The gamma-Schur likelihood of two scalar blocks: maximiser and its limits","For a true 2x2 covariance with coupling b and 0 < gamma <= 1, the population gamma-Schur log-likelihood has exactly one maximiser, the one returned by closed_form_maximizer (covariance b a / gamma, second variance s + b^2 a / gamma), and its value is the same for every gamma. That maximiser is positive definite exactly when gamma exceeds the threshold of the squared correlation, which spd_threshold_holds and _solve_spd_threshold compute; the threshold rises strictly from 0 to 1 with the correlation and is NaN at correlation 1.",
  "every real a, s > 0, coupling, gamma and candidate (exact arithmetic)",INF,"research/schur_likelihood_theory.py:schur_loglik_population","research/schur_likelihood_theory.py:closed_form_maximizer","research/schur_likelihood_theory.py:spd_threshold_holds","research/schur_likelihood_theory.py:_solve_spd_threshold")
p("C88","The gamma-Schur likelihood of any number of vector blocks","For any positive definite truth, any block sizes and any non-zero gamma, closed_form_general returns a symmetric matrix whose damped conditional law in every block is the true one; expected_schur_loglik of every symmetric candidate is a singularity error, minus infinity, or at most -1/2 (log det T + p), with equality only at that matrix; the value is reached whenever none of its leading blocks is singular (always with two blocks), and otherwise scoring it raises LinAlgError (a three-block example exists). At gamma = 1 the matrix is the truth itself. Which of the three a candidate gets is decided by the first block whose earlier coordinates are singular (LinAlgError) or whose damped conditional covariance is not positive definite (minus infinity); at gamma = 1 every positive definite candidate is scored.",
  "every dimension, list of block sizes, non-zero gamma, positive definite truth, symmetric candidate; every lawful LAPACK",INF,"research/schur_likelihood_theory.py:expected_schur_loglik","research/schur_likelihood_theory.py:closed_form_general")
p("C89","The optimal trust gamma_star","For three or more samples gamma_star is the unique minimiser of the expected test residual, strictly between 0 and 1, increasing in the sample size and in the coupling, with limits 0, 1 and 1; below three samples it is meaningless (0, an error, or outside [0,1]). residual_R over any draws is a quadratic in gamma that depends on the draws only through the mean and mean square of their slopes, and its minimiser is explicit.",
  "every sample size, coupling, parameter triple and set of draws (exact arithmetic)",INF,"research/schur_gamma_star.py:gamma_star","research/schur_gamma_star.py:residual_R","research/schur_gamma_star.py:_ab_s_from")
p("C90","Where the two-block maximiser leaves the positive definite cone, and the script's prediction of it","With two vector blocks the closed form is positive definite exactly when (1 - gamma) rho^2 < gamma^2 (1 - rho^2), rho^2 the largest squared canonical correlation of the truth, i.e. above _solve_spd_threshold(rho^2). canonical_corr2 does not compute rho^2: its first value is never smaller (so its prediction is safe), is exact when the first block is a single coordinate, and can be strictly larger: there are truths for which the script declares a positive definite maximiser indefinite, and truths for which it reports correlation 1 and threshold NaN. _is_spd(M, tol) holds exactly when every direction has variance above tol.",
  "every pair of block sizes, positive definite truth, gamma; every lawful LAPACK (exact arithmetic)",INF,"research/schur_likelihood_theory.py:canonical_corr2","research/schur_likelihood_theory.py:_is_spd","research/schur_likelihood_theory.py:_solve_spd_threshold","research/schur_likelihood_theory.py:closed_form_general")
p("C91","The gamma-Schur score is the quadratic form schur_operator returns, and snr ranks by it","Whenever expected_schur_loglik of a symmetric candidate is finite, schur_operator returns a positive semidefinite W and a number Ld, both independent of the truth T, with score -1/2 (Ld + tr(W T)); over any sample that is the average of -1/2 (Ld + x^T W x). At gamma = 1 and a positive definite candidate, W is its inverse and Ld its log determinant, for every block partition. _kl is non-negative and zero exactly at the truth. snr(A, B, T) is the score difference over a strictly positive spread, or +inf exactly when the two operators coincide (so snr(A, A) = +inf in both directions); otherwise snr(B, A) = -snr(A, B); at gamma = 1 it is positive exactly when A has the smaller divergence.",
  "every block partition, gamma, truth, candidate and sample; every lawful LAPACK (exact arithmetic)",INF,"research/schur_godambe.py:schur_operator","research/schur_godambe.py:snr","research/schur_godambe.py:_kl","research/schur_likelihood_theory.py:expected_schur_loglik")
p("C92","gamma_ is a snapshot of the last covariance read, and reading disturbs nothing","SchurLedoitWolfCovariance and SchurConditionalCovariance assign gamma_ while a covariance is computed. In every program of fitting, parameter, state and read calls: gamma_ is None until something that needs the covariance (covariance_, correlation_, precision_, mahalanobis, score) is read from a fitted estimator - fitting does not set it, contrary to the class documentation; afterwards it is the damping belonging to the data and parameters at the most recent such read, in [0, 1], and no later partial_fit, fit, set_params or set_state changes it, so it can be stale (witness: it stays 0 although the next read gives a positive value). It is never read back: all answers and all that is learned are the same whatever its value, and the same as in the program without the reads. A pickled copy or clone starts with None again; asking an unfitted estimator raises NotFittedError and leaves it alone.",
  "every program of public calls, every parameters and inputs, any arithmetic and linear algebra; values and staleness in exact arithmetic",HIST,"precise/schur_ledoit_wolf.py:SchurLedoitWolfCovariance","precise/schur_conditional.py:SchurConditionalCovariance","precise/base.py:BaseCovariance")
p("C93","A checkpoint with missing entries","get_state's dictionary with any entries removed: set_state of the 16 dict-state classes accepts it silently; the next partial_fit (any row) raises KeyError and changes nothing, so a fitted history is never silently mixed with a damaged one; without n_samples the estimator counts as unfitted (location_ and covariance_ raise NotFittedError, n_samples_ raises KeyError). BlockCovariance.set_state raises KeyError at once. (SchurLedoitWolf with at least one block and Factor with at least one component; both estimators without differencing.) A checkpoint with n_samples = 0, whatever else it holds, loads as an unfitted estimator in every class: every read raises NotFittedError.",
  "every registered class, parameters, training rows, non-empty set of removed entries, loading estimator and next row",INF,"precise/base.py:set_state","precise/base.py:_fitted_state","precise/_state.py","precise/block_covariance.py:set_state")
p("C94","Block and factor counts out of range","With rows of p variables: n_blocks <= 1 is the same as 1 and n_blocks >= p the same as p for BlockCovariance and SchurConditionalCovariance (same outcomes, fitted attributes and checkpoints after every history of fits); SchurCovariance and SchurLedoitWolfCovariance clamp only from above, FactorCovariance clamps k at p. n_blocks <= 0 is found out late: SchurCovariance absorbs every row and raises ValueError at every covariance read; SchurLedoitWolfCovariance likewise, and refuses (ValueError, nothing changed) every row after the burn-in. FactorCovariance with k < 0 raises ValueError at its first row and stays unfitted.",
  "every history of fits, every dimension, rate and count, any arithmetic and linear algebra",HIST,"precise/block_covariance.py:_slices","precise/schur_conditional.py:_slices","precise/schurcov.py:_block_id","precise/schur_ledoit_wolf.py:_block_id","precise/factor.py:FactorCovariance")
p("C95","The research judges and the assessors they became","The scoring functions of research/metric_power.py, on positive definite estimates: _kl is the Kullback-Leibler divergence (non-negative, 0 exactly at the truth) and a trial's pair is ordered by it; _loglik is LogLikelihood plus p/2 log(2 pi) and prefers, strictly, the estimate with the smaller divergence from the second moment of the data; _stein is SteinLoss bit for bit with two or more variables (ValueError with one), minus twice the divergence from the sample covariance, and never prefers anything when there are no more rows than variables; _min_variance is GMVVariance; _frobenius is minus the distance to the sample covariance; _mahalanobis_cal is at its maximum 0 at a rescaled copy of every estimate; k-dimensional projections average the log-densities of the projected data, one-dimensional ones are _random_projection and full-dimensional orthonormal ones are the full likelihood (ZeroDivisionError without subspaces). _project_pd raises eigenvalues to 1/1000 of the largest and changes nothing else; with no positive eigenvalue it returns a non-positive multiple of the identity. block_pseudo_loglik and _schur_loglik are the shipped assessors (the latter plus p/2 log(2 pi)) on estimates with condition number at most 1000; beyond, 'block_size == p recovers the full likelihood' is false. A block size of 0 makes block_pseudo_loglik raise ValueError, a negative one makes it 0 whatever the data.",
  "every dimension, sample, estimate, direction set and subspace list, every lawful linear algebra",INF,"research/metric_power.py:_loglik","research/metric_power.py:_stein","research/metric_power.py:_kproj_loglik","research/metric_power.py:_project_pd","research/metric_power.py:block_pseudo_loglik","research/metric_power.py:_schur_loglik","precise/assessment/assessors.py")
p("C96","A rolling out-of-sample evaluation looks only at the past and reports what it says","rolling_oos(R, train_len, test_len, step): the windows are exactly those that fit (j*step + train_len + test_len <= T), none is skipped: an estimator that raises, or whose covariance cannot be scored, in any of them makes the whole evaluation raise (ValueError for step 0). Each estimator's volatility is the square root of 252 times the mean over windows of minus its GMVVariance score on the window's test rows, for the covariance fitted to the window's training rows; with positive definite fits that is the realised variance of the minimum-variance portfolio. The recommender's picks are suggest(training rows, 1), one per window, a function of the training rows only; the counts add up to the number of windows under distinct registered names; a recommender that never changes its mind has the volatility of the estimator it picks. Rows in no window have no effect. The oracle's volatility is at most every fixed one and the recommender's. With fewer rows than one window everything is NaN and nothing is counted. The report lists every estimator once, in order of volatility; the recommender's rank is one plus the number of estimators strictly less volatile: 1 exactly if none beats it, more than the number of estimators only if all do, which cannot happen to a recommender that never changes its mind; with fewer rows than one window it is reported as first.",
  "every return series, window length, step and number of windows, every recommender model and, for the bookkeeping, every number system",INF,"research/oos_equity.py:rolling_oos","research/oos_equity.py:_gmv_weights","precise/recommend/recommend.py:suggest")
p("C97","Rankings, trials and the bake-off","The ranks of _ranks are 1..n, each given once; an entry's rank is one plus the number of strictly better scores and of equal scores listed earlier, so one that failed (-inf) ranks below all that did not, and the winner of a scenario is the entry ranked first. _best_fixed returns an estimator with the least total rank over the trials. A trial scores every registered estimator on its fit to the training rows, -inf for one that raises in fit or score, and itself raises only if the recommender does. The bake-off has one entry per estimator, scenario and usable assessor: the assessor's score, or -inf when it raised; an estimator that raises in fit stops the whole run (it does not in a trial), and positive definite fits never do. The mean score on the leaderboard is over the finite scores only (-inf if there are none): a failed scenario is left out, not penalised; average ranks always add up to n(n+1)/2. With no trials, or no estimators, to choose from both raise ValueError.",
  "every list of scores (infinite ones included), every list of trials and scenarios, every assessor and number system for the bookkeeping",INF,"research/oos.py:_ranks","research/oos.py:_trial","research/oos.py:_best_fixed","research/bakeoff.py:run","research/bakeoff.py:leaderboard","research/bakeoff.py:per_scenario_winners")
p("C98","The spiked-model script","The two estimates of _estimates are (1 - alpha) S + alpha (tr S / p) I: the trace is kept, the least eigenvalue never falls for alpha in [0, 1], and the estimate is positive definite for alpha > 0 and S semidefinite and not zero. The score gap is NaN when an estimate has an eigenvalue of at most 1e-9, and otherwise the difference of the two expected scores; at gamma = 1 it is how much nearer the truth (in divergence) the first estimate is, so the first-order mean used by snr_delta (the gap at S = truth) is never positive when the first estimate is the more shrunk one, and negative unless the truth is a multiple of the identity. _cov_quadform is the variance of <G, S> under the stated sampling covariance. The numerical gradient counts every off-diagonal entry twice, although it is documented as the gradient with respect to the symmetric S, so the variance is overstated up to four times. snr_delta never fails at gamma = 1 for a truth with eigenvalues of at least 2e-5. _spiked returns a truth with exactly the eigenvalues it also returns; of the two candidates of _noise_subspace_pair within 0.4 of the truth, both are positive definite and the nearer has the smaller divergence.",
  "every symmetric sample covariance, positive definite truth, block sizes and shrinkage intensities; every differentiable gap for the gradient; every orthogonal Q and noise matrix",INF,"research/schur_spiked.py:_estimates","research/schur_spiked.py:_score_gap","research/schur_spiked.py:_grad_score_gap","research/schur_spiked.py:_cov_quadform","research/schur_spiked.py:snr_delta","research/schur_godambe.py:_spiked","research/schur_godambe.py:_noise_subspace_pair","research/schur_godambe.py:_kl")
p("C99","Keyed read-outs and bulk learning","covariance_ and correlation_ of the keyed adapters are dictionaries of dictionaries that list the names in order, each with all names in order, and hold the matrix entry of cov_array (get_corr) at the positions of the two names; unknown names are missing; for a FixedUniverse that entry is the wrapped estimator's. get_corr and correlation_ have diagonal exactly 1, also for zero variance (the positional correlation_ has less than 1, and 0 for zero variance), are symmetric with entries in [-1, 1], and have no eigenvalue below -p 1e-12 / (least variance); they are positive semidefinite for at most two names but not in general. learn_many is learning one by one: X then Y is X + Y, and it stops at the first observation that raises, with those before it kept and none after it.",
  "every adapter, wrapped class, history, list of names and of observations; real arithmetic for the correlation bounds",INF,"precise/keyed.py:_KeyedAdapter.get_corr","precise/keyed.py:_KeyedAdapter.get_cov","precise/keyed.py:_as_dict_of_dicts","precise/keyed.py:_KeyedAdapter.covariance_","precise/keyed.py:_KeyedAdapter.correlation_","precise/keyed.py:_KeyedAdapter.learn_many")
p("C100","ConditionalCovariance pickles and resumes; its templates are only parameters","Pickling a ConditionalCovariance (with any registered estimators as vol and corr templates, or a skater whose state survives pickling) never fails, whatever history of partial_fit, fit and set_params calls, some of which may have raised, the instance and its two templates went through; the copy reports the same n_samples_, n_features_in_, location_, covariance_, correlation_, precision_, mahalanobis and score and accepts, rejects and reports the same for ever after. A clone carries neither its own data nor that of the templates: it is indistinguishable from an instance built from never-fitted templates with the same parameters. set_params(vol=..., corr=...) on an instance with data changes no answer and no outcome of any number of partial_fit calls; the next successful fit is that of a new instance with the new templates. Its correlation_ has diagonal in [0, 1) and entries of at most sqrt(1 + 1e-12/m) in absolute value, m the least variance its correlation model reports; that entries stay within [-1, 1] is false (the default composition exceeds 1 after two rows). Where its covariance_ is invertible but not positive semidefinite (which the default composition reaches after two rows, C48) some rows have a negative mahalanobis value and score has no upper bound.",
  "every pair of registered classes (or skater), parameters, dimension, history of calls before and after pickling, any arithmetic and linear algebra; the bound on correlation_ in exact arithmetic",HIST,"precise/conditional.py:ConditionalCovariance.__getstate__","precise/conditional.py:ConditionalCovariance.__setstate__","precise/conditional.py:ConditionalCovariance.partial_fit","precise/conditional.py:_clone","precise/base.py:set_params","precise/base.py:correlation_")
p("C101","Training the recommender and judging it on families it never saw","leave_one_family_out_trained: training for a held-out family and choosing its best fixed estimator do not depend on that family (another generator in its place gives the same recommender, choice, exception and generator state); the entry for it is the evaluation on that family alone. A trained recommender is a tree fitted to n_problems examples drawn from the other families (15, 25, 40 or 60 variables; at least 10 training rows and 400 test rows from one covariance), labelled with the first registered estimator of greatest score (the first registered if all raise; but the first with a NaN score if any is NaN); the tree sees the standard scores of the features (mean 0, spread at most 1), and answers about a window from its features scored with the same constants, with registered names if the classifier answers with its labels. generate makes the same training set from all families, but raises when an estimator does. Finished results have one entry per family, in order, with a registered fixed estimator and mean ranks in [1, 17]; the protocols complete when draws, scores and features do; no trials, no problems or a single family raise ValueError, an unknown pick KeyError. The report lets the recommender win ties, and its means follow; an empty one raises ZeroDivisionError. The export truncates class fractions, so only pure nodes of the tree keep a count, and writes the 1e-9 floor of a constant feature's deviation as 0. build_scenarios gives seven distinctly named scenarios, each with test rows drawn from the covariance it calls the truth; the contaminated one replaces exactly the rows whose uniform draw is below 0.05, in order, by 8 times standard normal rows.",
  "every registry of families, random number generator, classifier, assessor, sizes and seeds; any arithmetic for the bookkeeping, exact arithmetic for ranks, labels and the export",INF,"research/oos.py:_train_recommender","research/oos.py:leave_one_family_out_trained","research/oos.py:leave_one_ensemble_out","research/oos.py:_best_fixed","research/oos.py:report","research/train_recommender.py:generate","research/train_recommender.py:export","research/bakeoff.py:build_scenarios")
p("C102","The synthetic truths are covariance matrices","Every family of ENSEMBLES returns, for every draw, a symmetric p x p matrix with all eigenvalues at least a positive constant of the family (0.4 equicorrelated and spiked, 0.2 factor models, 0.1 diagonal, 3/17 autoregressive), hence positive definite; the spiked family raises ValueError for fewer than three variables and no other ever raises. Exactly the two families called heavy have heavy-tailed samples: normal rows for 3/5 of the truth, each scaled by its own chi-square draw. The truths of the bake-off's scenarios are positive definite with eigenvalues at least 0.15.",
  "every dimension, every draw of a random number generator whose uniform draws stay in their interval and whose normal draws are finite, every QR factorisation with orthogonal Q (exact arithmetic)",INF,"research/oos.py:ENSEMBLES","research/oos.py:_sample","research/bakeoff.py:build_scenarios","research/bakeoff.py:_ar1_toeplitz")
p("C103","The power experiments report the share of trials in which the judge is right","run, projection_power, proof_high_dim, schur_power and pseudo_likelihood_power of research/metric_power.py. With distinct keys every reported power is the share of the counted trials in which the judge scores the better estimate strictly higher on that trial's test rows, a number in [0, 1]; a block size listed m times is reported with m times its share. A trial draws a true covariance, two estimates and test rows from the truth; the better estimate is the one of smaller divergence (run, projection_power, the clean regime) or of smaller error in the bulk spectrum or within the groups. A perturbed estimate is positive definite with condition number at most 1000 whenever |eps| < 1, and can be the zero matrix at eps = 1. The experiments complete on valid sizes; a number of groups that does not divide p raises IndexError (0: ZeroDivisionError), a bulk larger than min(p, 20) in the clean regime ValueError, no counted trial ZeroDivisionError. The claimed recoveries hold trial by trial, so the reported powers are equal: gamma = 1 is the full likelihood, a single block is the full likelihood in the clean regime, a projection to all dimensions is the full likelihood.",
  "every random number generator with the stated range of draws, QR factorisation, sizes, rates, grids, numbers of trials and seeds; any arithmetic for the counting, exact arithmetic otherwise",INF,"research/metric_power.py:run","research/metric_power.py:projection_power","research/metric_power.py:proof_high_dim","research/metric_power.py:schur_power","research/metric_power.py:pseudo_likelihood_power","research/metric_power.py:_perturb","research/metric_power.py:_spd_factor")
p("C104","The sampling experiments of the Godambe study report what they sample","snr_montecarlo, _finite_sample_pair, discrimination_power_over_draws and structured_power_over_draws of research/schur_godambe.py. The expected score gap E[D] is the difference of the two expected gamma-scores, exists for positive definite candidates and gamma in [0, 1], and at gamma = 1 is how much nearer the truth the first candidate is in divergence. The Monte-Carlo ratio is the mean over the standard deviation of the gaps of the rows drawn, that mean being the expected gap at the second moment of the rows; exchanging the candidates flips its sign; equal candidates give NaN (the closed form reports +inf). discrimination_power_over_draws completes when 4 divides p and reports mean, standard deviation, ratio and share of positive gaps over exactly the draws whose two estimates are numerically positive definite; at gamma = 1 the mean gap is the difference of the reported mean divergences and the power is the share of draws in which A is nearer the truth; a single usable draw reports an infinite ratio whatever its sign; p >= 4 not a multiple of 4 raises ValueError at the first usable draw. _finite_sample_pair returns two shrinkages of the sample covariance with its trace, and its intended order (A nearer the truth than B) is reversed when the sample covariance is the truth. structured_power_over_draws reports the share of trials in which the gamma-score of the estimate drawn with err_good is strictly higher, in this order whichever error is larger; it completes when g divides p and gamma and rho are in [0, 1]; gamma = 1 is the full likelihood.",
  "every random number generator with the stated range of draws, truth, candidates, sizes, trusts, numbers of draws and seeds; exact arithmetic",INF,"research/schur_godambe.py:snr_montecarlo","research/schur_godambe.py:_finite_sample_pair","research/schur_godambe.py:discrimination_power_over_draws","research/schur_godambe.py:structured_power_over_draws","research/schur_godambe.py:schur_operator")
p("C105","Which parameters act when","On an instance in use, set_params of a parameter that only covariance_ reads (delta and target of Shrunk; n_blocks, gamma and interp of Schur; n_blocks of SchurConditional) acts at once and as if it had been given to the constructor: after any history of fit, partial_fit and set_params calls the instance is the one that a fresh estimator with the new values would be after the same data calls, with the same outcomes. The rate is fixed by the first row: changing r (alone) on an instance that has data changes no outcome and nothing reported until fit, for Shrunk, Schur, SchurConditional, SchurLedoitWolf and Huber too. Huber's cutoff c and SchurLedoitWolf's n_blocks are read by the updates that follow the burn-in: set during the burn-in they act as if given to the constructor; set later, SchurLedoitWolf compares the noise measured between the old blocks with the signal between the new ones, so that going from one block to several gives gamma_ = 1 whatever the data.",
  "every history of fit, partial_fit and set_params calls, every parameter values (law-free); every stream and LAPACK meeting the contract for the late switch",HIST,"precise/base.py:set_params","precise/shrunk.py","precise/schurcov.py","precise/schur_conditional.py","precise/schur_ledoit_wolf.py","precise/huber.py")
p("C106","Missing values and infinities","No positional estimator screens its data: a NaN or an infinity in a row of the right length is absorbed without an error (Empirical, Ewa, Diagonal, LedoitWolf, OAS, Shrunk, DCC), and it never leaves. Wherever column i of the absorbed rows held such a value once, location_ of every registered estimator holds one at i from then on, whatever follows and whatever the learning rate; covariance_ holds nothing else in row and column i (Empirical, Ewa, LedoitWolf, OAS, Shrunk, Adaptive, Huber, DCC), or at (i, i) for Diagonal, whose other entries are untouched. A NaN also spreads to the other variables: every entry of covariance_ is NaN at once for OAS, identity-target Shrunk and Tyler, and after the burn-in for LedoitWolf, Huber and Adaptive, the last two losing all of location_ as well. With diff=True a spoiled row spoils the one or two differences it takes part in.",
  "every stream of rows of equal length with such a value anywhere, every parameters, every LAPACK result; law-free for any class of values closed under arithmetic, with NaN and the non-finite values of exact and of binary64 arithmetic as instances",HIST,"precise/base.py:partial_fit","precise/_state.py","precise/registry.py","precise/oas.py","precise/tyler.py","precise/huber.py","precise/adaptive.py","precise/ledoitwolf.py")
p("C107","correlation_ under float64 rounding","With every operation rounded to float64, and a finite covariance_ with variances between 0 and 2^500 and entries up to 2^980, correlation_ is finite and every entry is covariance_ij / (sqrt(var_i var_j) + 1e-12) up to a relative error of 2^-50 (plus 2^-1074), tiny and zero variances included; the diagonal lies in [0, 1 + 2^-50]. Where the product of two variances reaches 2^1024 the entry is reported as 0 without an error, the diagonal too from variance 2^512 on (rows of size 2^300 get there with a finite covariance_). Where the product is negative (at most -2^-1074) the entry is NaN.",
  "every estimator class and dimension; from the data for Ewa, Empirical, LedoitWolf, OAS and identity-target Shrunk (the last three up to 2^20 variables), every stream of finite rows of magnitude up to 2^230",INF,"precise/_linalg.py:cov_to_corrcoef","precise/base.py:correlation_")
p("C108","When the estimate is singular, and what shrinkage guarantees","With a rate in (0,1), a linear combination of the variables has zero variance under EwaCovariance's (or EmpiricalCovariance's) covariance_ exactly when it took the same value in every observation so far; so the estimate is positive definite exactly when no non-trivial combination has been constant, and never with at most p observations (LedoitWolf inside its burn-in included). LedoitWolf, OAS and Shrunk (identity target) are never worse conditioned than the Ewa estimate they shrink. As soon as two observations differ, OAS and Shrunk with intensity delta > 0 are positive definite whatever the data, with condition number at most 1 + p (max(1/r,2) - 1)/2 and 1 + p (1-delta)/delta respectively, and precision_ is the true inverse.",
  "every stream, dimension, rate in (0,1), intensity, lawful LAPACK (exact arithmetic)",INF,"precise/ewa.py:EwaCovariance","precise/oas.py:OASCovariance","precise/shrunk.py:ShrunkCovariance","precise/ledoitwolf.py:LedoitWolfCovariance","precise/base.py:precision_")
p("C109","An observation already absorbed cannot look extreme","mahalanobis on data the estimator has just absorbed is capped whatever the data. For EmpiricalCovariance the squared distance of every absorbed observation is at most n - 1, and when the covariance is positive definite the n distances add up to exactly n p. For EwaCovariance past its burn-in the squared distance of the observation just absorbed is at most (1-r)^2/r (18.05 for the default rate). Scored before being absorbed, the same observation can be at any distance: test first, then fit.",
  "every stream, dimension, rate in (0,1], lawful LAPACK (exact arithmetic)",INF,"precise/base.py:mahalanobis","precise/empirical.py:EmpiricalCovariance","precise/ewa.py:EwaCovariance")
p("C110","Distances and scores do not depend on the units","If every observation y is replaced by A y + b with A invertible, then for any estimator whose covariance_ follows the change of variables (Empirical and Ewa always do) and is positive definite, mahalanobis of corresponding rows is unchanged and score drops by exactly ln|det A|; so comparing models or rows is not affected by units or by the basis. When A is a similarity (s times an orthogonal matrix) the same holds for Empirical, Ewa, LedoitWolf, OAS, Shrunk (identity target), Huber and Adaptive even when the covariance is singular: mahalanobis uses the pseudo-inverse and score is -inf before and after.",
  "every stream, dimension, invertible or similarity matrix, shift, lawful LAPACK (exact arithmetic)",INF,"precise/base.py:mahalanobis","precise/base.py:score","precise/ewa.py:EwaCovariance","precise/empirical.py:EmpiricalCovariance")
p("C111","What the estimates estimate","Fed white noise (rows with a common mean and covariance Sig, uncorrelated across time), location_ of Empirical and Ewa is unbiased and covariance_ is proportional to Sig on average. Empirical: location_ has covariance Sig/n and E[covariance_] = (n-1)/n Sig. Ewa: the same during its burn-in; afterwards the covariance of location_ and E[covariance_] are explicit multiples of Sig that tend to r/(2-r) and 2/(2-r), so the running mean never settles and, unlike the empirical estimate, the exponentially weighted covariance overstates the truth (by 2.6% at the default rate). Shrunk with identity target: E[covariance_] is the same multiple of Sig shrunk by the same intensity. SchurCovariance with linear interpolation and BlockCovariance, while no eigenvalue is floored: the same multiple of Sig with its cross-block entries multiplied by gamma. DiagonalCovariance: location_ is unbiased and covariance_ is diagonal; its first innovation is taken about 0, so the mean leaks into the variances with a weight (1/n in the burn-in) that dies out, and centred data are overstated throughout, by a factor 1 + (1 + ... + 1/(n-1))/n in the burn-in that tends to 2/(2-r). DCCCovariance's variances are those of DiagonalCovariance at the volatility rate while its 1e-12 floors are inactive. SchurConditional's effective sample size is the one at which a plain mean is as noisy as the running mean, in the limit and up to that size during the burn-in (rates up to 2/3).",
  "every finite distribution over streams, dimension, number of rows, rate in (0,1], intensity (exact arithmetic)",INF,"precise/empirical.py:EmpiricalCovariance","precise/ewa.py:EwaCovariance","precise/shrunk.py:ShrunkCovariance")
p("C112","More data helps the empirical estimate; the exponentially weighted one has a floor","Fed white noise whose products are white noise too (e.g. independent rows), EmpiricalCovariance is consistent: after n rows the probability that an entry of location_ is off by eps or more is at most Sig_ii/(n eps^2), and that an entry of covariance_ is off by eps or more at most (4 k/eps^2 + (Sig_ii + Sig_jj)/eps)/n, where k bounds the variances of the products. EwaCovariance is not: the mean squared error of location_ is at least min(1/burn-in, r/(2-r)) times the variance after any number of rows, and if observations stay within B of their mean the probability of an error of eps or more is at least (min(1/burn-in, r/(2-r)) Sig_ii - eps^2)/B^2 for every n.",
  "every finite distribution over streams, dimension, number of rows, rate in (0,1], tolerance (exact arithmetic)",INF,"precise/empirical.py:EmpiricalCovariance","precise/ewa.py:EwaCovariance")
p("C113","A moving mean is reported as covariance","If row t has mean m_t and white noise with covariance Sig around it, then on average location_ of Empirical and Ewa is what the same estimator reports on the means alone, and covariance_ is what it reports on the means alone plus C111's multiple of Sig. So after a change of level past the burn-in, k rows later Ewa's location_ has closed all but (1-r)^k of the gap and covariance_ contains (1-r)^(k-1) (1-(1-r)^k) times the outer product of the jump (at most a quarter, over 1-r), which dies out; Empirical keeps T k/n^2 of it. On a steady trend Ewa stays behind by a number of rows that tends to (1-r)/r and its covariance_ contains a multiple of the slope's outer product that tends to 1/r^2; Empirical falls (n-1)/2 rows behind and reports (n^2-1)/12 of it, without limit.",
  "every finite distribution over streams, path of means, dimension, number of rows, rate in (0,1] (exact arithmetic)",INF,"precise/empirical.py:EmpiricalCovariance","precise/ewa.py:EwaCovariance")
p("C114","On fresh data the truth scores best","For a random row with mean mu and covariance Sig and any fitted estimator with default precision_, whatever its class and history: the expected squared Mahalanobis distance is tr(P Sig) + (mu - m)^T P (mu - m) with P its precision_ and m its location_ (the number of variables p when the estimator reports the truth), and when its covariance_ is positive definite the expected score is -(p ln 2 pi + ln det covariance_ + that)/2. No estimator's expected score exceeds -(p ln 2 pi + ln det Sig + p)/2, and it is attained exactly by the estimators that report location_ = mu and covariance_ = Sig.",
  "every finite distribution of a row, class with default precision_, fitted state, dimension, lawful LAPACK (exact arithmetic)",INF,"precise/base.py:score","precise/base.py:mahalanobis","precise/base.py:precision_")
p("C115","Levels or differences of a random walk","On levels whose increments are driftless white noise with covariance Sig (uncorrelated across time, any distribution): after n levels the expected covariance_ of Empirical is (n^2-1)/(6n) Sig, growing without bound, and that of Ewa is an explicit multiple of Sig that tends to 1/(r(2-r)), never below 1; location_ is unbiased for the starting level and trails the last level with covariance (n-1)(2n-1)/(6n) Sig for Empirical and, for Ewa, a multiple of Sig tending to 1/(r(2-r)) - 1. With diff=True the same n+1 levels estimate Sig itself, up to the factors (n-1)/n and bias(n) of white noise (C111).",
  "every finite distribution of the levels, dimension, length, rate r in (0,1] (exact arithmetic)",INF,"precise/ewa.py:EwaCovariance","precise/empirical.py:EmpiricalCovariance","precise/base.py:partial_fit")
p("C116","Elo ratings of the battles","elo_expected is the logistic chance to within 1e-8, complementary for the two sides, never increasing in the disadvantage; elo_change takes from one side what it gives the other. elo_from_win_counts, in whatever random order it draws the battles, returns the ratings of playing some sequence of recorded battles from 1500 each: no battle more often than recorded, all of them when at most 50000 are on record. So ratings average 1500, a contestant with no recorded loss (win) ends at 1500 or above (below), and nobody moves further than k points a battle. A key without '>' raises IndexError, keys with two or more raise ValueError. A round of generic_battle records a win exactly for the pairs whose assessments differ by more than atol, once. Whatever rounds were played, the counters they leave behind, pooled from any files (counts add up, unreadable files are skipped, order does not matter), can be rated. A contestant that is never behind (ahead) by more than the tolerance in any round is rated 1500 or more (or less). Within a round with distinct names, wins are transitive and never go both ways. The order of play does matter: after one win each, whoever won last is ahead.",
  "every counter of wins between names without '>', order of play, k, limit, number of contestants (exact arithmetic)",INF,"research/legacy_skatervaluation/battleutil/eloformulas.py:elo_change","research/legacy_skatervaluation/battleutil/compilingeloratings.py:elo_from_win_counts","research/legacy_skatervaluation/battleutil/arrangingbattles.py:generic_battle")
here = os.path.dirname(os.path.abspath(__file__))
with open(os.path.join(here,"..","properties.jsonl"),"w") as f:
    for r in P: f.write(json.dumps(r, ensure_ascii=False)+"\n")
print(len(P), "properties")

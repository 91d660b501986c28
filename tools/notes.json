{
 "C05": {
  "note": "C04's guarantee is refuted for diff=True; exact behaviour proved"
 },
 "C08": {
  "note": "three refutations of full shape checking, and the exact rule for every class"
 },
 "C09": {
  "note": "the expectation 'a failed call changes nothing' is refuted for fit"
 },
 "C11": {
  "note": "also Empirical, Block, Adaptive; params_frozen lists the classes"
 },
 "C12": {
  "note": "sharing refuted for diff=True (C12_reused_buffer); heap model of ndarrays in HeapModel.v"
 },
 "C13": {
  "note": "location_ sharing proved (C13_location_is_shared), so the naive guarantee is refuted for it"
 },
 "C72": {
  "note": "the naive claim is refuted by C72_correlation_not_psd; the exact bound is proved"
 },
 "C90": {
  "note": "the script's canonical_corr2 is refuted as an estimate of rho^2 (C90_prediction_wrong, C90_no_threshold)"
 },
 "C88": {
  "note": "'the closed form attains the maximum' is refuted when a leading block is singular (C88_singular_witness)"
 },
 "C95": {
  "note": "docstring claims 'block_size == p recovers the full likelihood' and 'gamma=1 is the full likelihood' hold only for condition number <= 1000: C95_one_block_is_not_the_likelihood refutes the first beyond it"
 },
 "C98": {
  "note": "the docstring's 'gradient of D w.r.t. the symmetric S' is refuted: off-diagonal entries are doubled (C98_gradient_counts_pairs_twice), so the variance is between 1 and 4 times the true one (C98_variance_overstated)"
 },
 "C99": {
  "note": "'a correlation matrix is positive semidefinite' is refuted for three names by C99_correlation_not_psd (the added 1e-12 with a forced unit diagonal)"
 },
 "C100": {
  "note": "'correlation_ stays within [-1, 1]' is refuted by C100_correlation_exceeds_one; which template objects were shared before pickling is not modelled"
 }
}
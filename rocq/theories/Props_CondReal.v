(** * C48, C49, C71, C72: ConditionalCovariance over finite data; correlation_ and positive semi-definiteness *)
From Coq Require Import Reals ZArith String List Lia Lra Psatz Arith Bool.
From Verif Require Import Num Numpy PyVal LinalgModel StateModel BaseModel Estimators
  Spec ListLemmas BaseProofs RMat Fin RealSpec RunFin EwaReal RunAvg EmpFacts Props_Emp MomentReal Props_Moment
  ConditionalModel ConditionalSpec ConditionalProofs Props_Cond CondRealSpec CondReal.
Import ListNotations.
Local Open Scope R_scope.

(** Whatever one-dimensional statistics (mu, va) the volatility class computes and whatever covariance F the correlation
    class computes, the composition has the documented closed form. *)
Theorem C48_closed_form {Cv C : EstClass NumX} (vol : inst Cv) (corr : inst C) mu va p F xs :
  tracks vol mu va -> models p corr F -> xs <> [] ->
  let V := vol_of_estimator vol in
  exists c, cond_partial_fit V corr (cond_new V) (In2 (map (fv p) xs)) = (c, Ok tt) /\
    cond_n_samples V c = length xs /\
    cond_location V c = Ok (fv p (fun i => mu (col i xs))) /\
    cond_covariance V c = Ok (fm p p (drd (fun i => va (col i xs)) (F (std_residuals mu va xs)))).
Proof. intros H1 H2 H3. exact (cond_run vol corr mu va p F H1 H2 xs H3). Qed.

(** Hence its entries are bounded by the tracked volatilities. *)
Theorem C48_entries_bounded {Cv C : EstClass NumX} (vol : inst Cv) (corr : inst C) mu va p F xs :
  tracks vol mu va -> models p corr F -> xs <> [] -> psd p (F (std_residuals mu va xs)) ->
  let V := vol_of_estimator vol in
  exists c H, cond_partial_fit V corr (cond_new V) (In2 (map (fv p) xs)) = (c, Ok tt) /\ cond_covariance V c = Ok (fm p p H) /\
    sym p H /\
    (forall i j, (i < p)%nat -> (j < p)%nat ->
       Rabs (H i j) <= sqrt (Rmax (va (col i xs)) (1 / 10 ^ 12)) * sqrt (Rmax (va (col j xs)) (1 / 10 ^ 12))) /\
    (forall i, (i < p)%nat -> 0 <= H i i <= Rmax (va (col i xs)) (1 / 10 ^ 12)).
Proof.
  intros H1 H2 H3 HF V. destruct (C48_closed_form vol corr mu va p F xs H1 H2 H3) as (c & E1 & _ & _ & E2).
  exists c. eexists. split; [exact E1|]. split; [exact E2|]. set (G := F (std_residuals mu va xs)) in *.
  assert (B : forall i j, (i < p)%nat -> (j < p)%nat ->
    Rabs (drd (fun i => va (col i xs)) G i j) <= sqrt (Rmax (va (col i xs)) (1 / 10 ^ 12)) * sqrt (Rmax (va (col j xs)) (1 / 10 ^ 12))).
  { intros i j Hi Hj. unfold drd. rewrite Rabs_mult.
    pose proof (sqrt_pos (Rmax (va (col i xs)) (1 / 10 ^ 12))). pose proof (sqrt_pos (Rmax (va (col j xs)) (1 / 10 ^ 12))).
    rewrite (Rabs_right (sqrt _ * _)) by (apply Rle_ge; now apply Rmult_le_pos).
    apply Rle_trans with (1 * (sqrt (Rmax (va (col i xs)) (1 / 10 ^ 12)) * sqrt (Rmax (va (col j xs)) (1 / 10 ^ 12)))); [|lra].
    apply Rmult_le_compat_r; [now apply Rmult_le_pos|]. now apply (corr_bound p). }
  split.
  { intros i j Hi Hj. unfold drd. destruct HF as [S _]. rewrite (S i j Hi Hj), (Rmult_comm (G i i)).
    rewrite (Rmult_comm (sqrt (Rmax (va (col i xs)) _))). reflexivity. }
  split; [exact B|]. intros i Hi. specialize (B i i Hi Hi).
  assert (N : 0 <= drd (fun i => va (col i xs)) G i i).
  { unfold drd. apply Rmult_le_pos; [|apply Rmult_le_pos; apply sqrt_pos].
    apply Rmult_le_pos; [now apply (psd_diag_nonneg p)|]. left. apply Rinv_0_lt_compat. pose proof (sqrt_pos (G i i * G i i)). lra. }
  split; [exact N|]. rewrite Rabs_right in B by lra. rewrite sqrt_sqrt in B; [exact B|].
  pose proof (Rmax_r (va (col i xs)) (1 / 10 ^ 12)). lra.
Qed.

(** ** The documented default composition: EwaCovariance for both roles *)
Definition ewa_pair_fit (p : nat) (rv rc : R) (xs : list obs) (c : cond (vol_of_estimator (new (C := Ewa) (EWA rv false))) Ewa) : Prop :=
  cond_partial_fit (vol_of_estimator (new (C := Ewa) (EWA rv false))) (new (C := Ewa) (EWA rc false))
    (cond_new _) (In2 (map (fv p) xs)) = (c, Ok tt).
Theorem C48_ewa_ewa p rv rc xs : 0 < rv <= 1 -> 0 < rc <= 1 -> xs <> [] ->
  exists c, ewa_pair_fit p rv rc xs c /\ cond_n_samples _ c = length xs /\
    cond_location _ c = Ok (fv p (ewa_mean rv (burn_len rv) xs)) /\
    cond_covariance _ c = Ok (fm p p (drd (fun i => ewa_cov rv (burn_len rv) xs i i)
       (ewa_cov rc (burn_len rc) (std_residuals (ewa_mu rv) (ewa_va rv) xs)))).
Proof.
  intros Hv Hc Hx.
  destruct (C48_closed_form (new (C := Ewa) (EWA rv false)) (new (C := Ewa) (EWA rc false)) (ewa_mu rv) (ewa_va rv) p (ewa_cov rc (burn_len rc)) xs)
    as (c & E1 & E2 & E3 & E4); auto.
  - apply ewa_tracks; [lra|reflexivity].
  - apply ewa_models; [lra|reflexivity].
  - exists c. split; [exact E1|]. split; [exact E2|]. split.
    + rewrite E3. f_equal. apply fv_ext. intros. apply ewa_mu_col.
    + rewrite E4. f_equal. apply fm_ext. intros. unfold drd. now rewrite !ewa_va_col.
Qed.
(** The residual of row t in terms of the data: the first row is passed through unchanged, later rows are centred and
    scaled by the EWMA of the rows before. *)
Theorem C48_ewa_residuals rv xs x i :
  std_residual (ewa_mu rv) (ewa_va rv) [] x i = x i /\
  (xs <> [] -> std_residual (ewa_mu rv) (ewa_va rv) xs x i =
     (x i - ewa_mean rv (burn_len rv) xs i) / sqrt (Rmax (ewa_cov rv (burn_len rv) xs i i) (1 / 10 ^ 12))).
Proof.
  split.
  - unfold std_residual. cbn [col map mean_before var_before]. rewrite Rmax_left by lra. rewrite sqrt_1. field.
  - intros H. unfold std_residual. destruct xs as [|y xs]; [contradiction|].
    change (mean_before (ewa_mu rv) (col i (y :: xs))) with (ewa_mu rv (col i (y :: xs))).
    change (var_before (ewa_va rv) (col i (y :: xs))) with (ewa_va rv (col i (y :: xs))). now rewrite ewa_mu_col, ewa_va_col.
Qed.

(** ** C49 *)
Lemma burn_pos r : Nat.ltb 0 (burn_len r) = true.
Proof. apply Nat.ltb_lt. pose proof (burn_len_bounds r). lia. Qed.
Lemma burn_pos1 r : Nat.ltb 1 (burn_len r) = true.
Proof. apply Nat.ltb_lt. pose proof (burn_len_bounds r). lia. Qed.
Lemma ewa_mean_one r x i : ewa_mean r (burn_len r) [x] i = x i.
Proof.
  change [x] with ([] ++ [x])%list. rewrite ewa_step_eq. cbn [length]. rewrite burn_pos, ewa_mean_nil. simpl INR. field.
Qed.
Lemma ewa_cov_one r x i j : ewa_cov r (burn_len r) [x] i j = 0.
Proof.
  change [x] with ([] ++ [x])%list. rewrite ewa_cov_step. cbv zeta. cbn [length]. rewrite burn_pos, ewa_mean_nil. simpl INR. field.
Qed.
Lemma ewa_cov_two r x y i j : ewa_cov r (burn_len r) [x; y] i j = (y i - x i) * (y j - x j) / 4.
Proof.
  change [x; y] with ([x] ++ [y])%list. rewrite ewa_cov_step. cbv zeta. cbn [length]. rewrite burn_pos1, ewa_mean_one, ewa_cov_one.
  rewrite (ewa_mean_one r x j). simpl INR. field.
Qed.
(** The means always agree ... *)
Theorem C49_same_location p r xs : 0 < r <= 1 -> xs <> [] ->
  exists c o, ewa_pair_fit p r r xs c /\ fitted_on (C := DCC) (DCCP r None false) (map (fv p) xs) o /\
    cond_location _ c = location_ o.
Proof.
  intros Hr Hx. destruct (C48_ewa_ewa p r r xs Hr Hr Hx) as (c & E1 & _ & E2 & _).
  assert (Hm : Rmin r r <> 0) by (rewrite Rmin_left by lra; lra).
  destruct (DCC_run p r None false (map (fv p) xs) xs) as (o & F1 & _ & F2 & _); auto; [apply observes_plain|].
  exists c, o. split; [exact E1|]. split; [exact F1|]. rewrite E2, F2. cbn [vol_rate]. rewrite Rmin_left by lra. reflexivity.
Qed.
(** ... but the covariances do not: after one observation the composition reports no variance at all, while
    DCCCovariance reports the squared observation. *)
Theorem C49_not_a_special_case p r x : 0 < r <= 1 ->
  exists c o, ewa_pair_fit p r r [x] c /\ fitted_on (C := DCC) (DCCP r None false) [fv p x] o /\
    cond_covariance _ c = Ok (fm p p (fun _ _ => 0)) /\
    exists H, covariance_ o = Ok (fm p p H) /\
      (forall i, (i < p)%nat -> / 10 ^ 6 <= Rabs (x i) -> H i i = (x i) ^ 2) /\
      ((exists i, (i < p)%nat /\ / 10 ^ 6 <= Rabs (x i)) -> covariance_ o <> cond_covariance _ c).
Proof.
  intros Hr. assert (Hx : [x] <> []) by discriminate. destruct (C48_ewa_ewa p r r [x] Hr Hr Hx) as (c & E1 & _ & _ & E2).
  destruct (C39_dcc_composition p r None false (map (fv p) [x]) [x] Hr Hr (observes_plain p [x]) Hx) as (o & Rm & F1 & _ & F3 & _ & _ & _ & _ & F8).
  cbv zeta in F3. cbn [vol_rate] in *. rewrite (Rmin_left r r) in * by lra. set (nb := burn_len r) in *.
  assert (Z : cond_covariance _ c = Ok (fm p p (fun _ _ => 0))).
  { rewrite E2. f_equal. apply fm_ext. intros i j _ _. unfold drd. change (std_residuals (ewa_mu r) (ewa_va r) [x]) with [std_residual (ewa_mu r) (ewa_va r) [] x].
    rewrite !ewa_cov_one. unfold Rdiv. ring. }
  exists c, o. split; [exact E1|]. split; [exact F1|]. split; [exact Z|]. eexists. split; [exact F3|].
  assert (DV : forall i, dcc_variance r nb [x] i = x i * x i).
  { intros i. unfold dcc_variance, innov_var. change [x] with ([] ++ [x])%list. rewrite rw_avg_snoc, rw_avg_nil. cbn [length]. unfold nb. rewrite burn_pos.
    unfold dev. rewrite ewa_mean_nil. simpl INR. field. }
  assert (K : forall i, / 10 ^ 6 <= Rabs (x i) -> 1 / 10 ^ 12 <= x i * x i).
  { intros i H. replace (x i * x i) with (Rabs (x i) * Rabs (x i)) by (rewrite <- Rabs_mult; apply Rabs_right; apply Rle_ge; apply Rle_0_sqr).
    replace (1 / 10 ^ 12) with (/ 10 ^ 6 * / 10 ^ 6) by lra. apply Rmult_le_compat; lra. }
  assert (Q1 : forall i, / 10 ^ 6 <= Rabs (x i) -> dcc_quasi r r nb [x] i i = 1).
  { intros i H. unfold dcc_quasi. change [x] with ([] ++ [x])%list. rewrite rw_avg_snoc, rw_avg_nil. cbn [length]. unfold nb. rewrite burn_pos. fold nb.
    unfold dcc_residual. cbn [app]. rewrite DV. unfold dev, floored_vol. rewrite ewa_mean_nil, Rminus_0_r.
    rewrite Rmax_left by (apply K; auto). specialize (K i H). assert (S : sqrt (x i * x i) * sqrt (x i * x i) = x i * x i) by (apply sqrt_sqrt; lra).
    assert (S0 : sqrt (x i * x i) <> 0) by (intros E; rewrite E in S; lra).
    set (s := sqrt (x i * x i)) in *. assert (X0 : x i <> 0) by (intros E; rewrite E in K; lra).
    assert (U : x i / s * (x i / s) = 1).
    { transitivity (x i * x i / (s * s)); [field; auto|]. rewrite S. field. auto. }
    replace (x i - 0) with (x i) by ring. rewrite U. simpl INR. field. }
  assert (HH : forall i, (i < p)%nat -> / 10 ^ 6 <= Rabs (x i) ->
    Rm i i * (floored_vol (dcc_variance r nb [x] i) * floored_vol (dcc_variance r nb [x] i)) = x i ^ 2).
  { intros i Hi H. rewrite F8; [rewrite DV; ring| |].
    - rewrite Q1 by auto. unfold e12. lra.
    - rewrite DV. now apply K. }
  split; [exact HH|]. intros (i & Hi & H) E. rewrite Z, F3 in E.
  assert (E' : fm p p (fun i j => Rm i j * (floored_vol (dcc_variance r nb [x] i) * floored_vol (dcc_variance r nb [x] j))) = fm p p (fun _ _ => 0)) by congruence.
  pose proof (fm_inj p p _ _ i i E' Hi Hi) as E3. cbv beta in E3. rewrite (HH i Hi H) in E3. specialize (K i H). simpl in E3. lra.
Qed.

(** ** C71: a rejected row is half absorbed *)
(** A row of length 1 given to an instance fitted in p >= 2 dimensions raises IndexError; n_samples_ and location_ stay as
    they were, but the correlation model has absorbed a residual (so covariance_ changes) and the first series' volatility
    model has absorbed the value (so the next accepted row yields a location_ that counts it). *)
Theorem C71_rejected_row_half_absorbed {Cv C : EstClass NumX} (vol : inst Cv) (corr : inst C) mu va p F xs y x :
  tracks vol mu va -> models p corr F -> xs <> [] -> (2 <= p)%nat ->
  let V := vol_of_estimator vol in
  exists c c1 c2, cond_partial_fit V corr (cond_new V) (In2 (map (fv p) xs)) = (c, Ok tt) /\
    cond_partial_fit V corr c (In1 [Fin y : NumX]) = (c1, Err IndexError) /\
    cond_n_samples V c1 = cond_n_samples V c /\ cond_location V c1 = cond_location V c /\
    cond_covariance V c1 = Ok (fm p p (drd (fun i => va (col i xs)) (F (std_residuals mu va xs ++ [std_residual mu va xs (fun _ => y)])))) /\
    cond_partial_fit V corr c1 (In1 (fv p x)) = (c2, Ok tt) /\
    cond_n_samples V c2 = S (length xs) /\
    cond_location V c2 = Ok (fv p (fun i => mu (if Nat.eqb i 0 then col i xs ++ [y; x i] else col i (xs ++ [x]))%list)).
Proof.
  intros H1 H2 Hx Hp V. subst V. destruct (cond_run_hist vol corr mu va p F H1 H2 xs Hx) as (vs & cm & E & Hh & Hc).
  destruct (length xs) as [|n] eqn:En; [destruct xs; [contradiction|discriminate]|].
  destruct (cond_step_short vol corr mu va p F H1 H2 (S n) (fun i => mu (col i xs)) (fun i => Rmax (va (col i xs)) e12) (fun i => col i xs) vs (std_residuals mu va xs) cm y Hp Hh Hc)
    as (vs1 & cm1 & E1 & Hh1 & Hc1).
  destruct (cond_step_hist vol corr mu va p F H1 H2 (S n) (fun i => mu (col i xs)) (fun i => Rmax (va (col i xs)) e12) _ vs1 _ cm1 x Hh1 Hc1)
    as (vs2 & cm2 & E2 & Hh2 & Hc2).
  do 3 eexists. split; [exact E|]. split.
  { rewrite st_partial_fit. exact E1. }
  split; [reflexivity|]. split; [reflexivity|]. split.
  { destruct (st_reads vol corr p F H2 n (fun i => mu (col i xs)) (fun i => Rmax (va (col i xs)) e12) vs1 _ cm1 Hc1) as (_ & _ & R3).
    - destruct (std_residuals mu va xs); discriminate.
    - intros. apply Rmax_r.
    - rewrite R3. f_equal. apply fm_ext. intros i j _ _. unfold drd, hist_residual. cbv beta. fold e12.
      rewrite !(Rmax_left (Rmax _ e12) e12) by apply Rmax_r. reflexivity. }
  split.
  { rewrite st_partial_fit. exact E2. }
  split; [reflexivity|]. unfold cond_location, cond_fitted. cbn [cd_state st_of cs_n Nat.ltb Nat.leb bind cs_mean]. f_equal. apply fv_ext. intros i Hi.
  destruct (Nat.eqb_spec i 0) as [->|Hi0].
  - unfold mean_before. rewrite <- app_assoc. cbn [app]. destruct (col 0 xs); reflexivity.
  - rewrite col_app. unfold mean_before. cbn [col map]. destruct xs; [contradiction|reflexivity].
Qed.

(** ** C72: correlation_ and positive semi-definiteness (any estimator class) *)
Lemma qf2 A v : qf 2 A v = v 0%nat * A 0%nat 0%nat * v 0%nat + v 0%nat * A 0%nat 1%nat * v 1%nat + (v 1%nat * A 1%nat 0%nat * v 0%nat + v 1%nat * A 1%nat 1%nat * v 1%nat).
Proof. unfold qf. simpl. ring. Qed.
Lemma not_psd2 A : sym 2 A -> 0 < A 1%nat 1%nat -> A 0%nat 0%nat * A 1%nat 1%nat < A 0%nat 1%nat ^ 2 -> ~ psd 2 A.
Proof.
  intros S P D [_ H]. specialize (H (fun i => if Nat.eqb i 0 then A 1%nat 1%nat else - A 0%nat 1%nat)). rewrite qf2 in H. cbn [Nat.eqb] in H.
  rewrite <- (S 0%nat 1%nat) in H by lia. nra.
Qed.
Lemma reg_corr_not_psd a b F : 0 < a -> 0 < b -> a <> b -> F 0%nat 0%nat = a * a -> F 1%nat 1%nat = b * b -> F 0%nat 1%nat = a * b -> F 1%nat 0%nat = a * b ->
  ~ psd 2 (fun i j => F i j / (sqrt (F i i * F j j) + 1 / 10 ^ 12)).
Proof.
  intros Ha Hb Hab F0 F1 F01 F10. fold e12. pose proof e12_pos as E. set (e := e12) in *.
  assert (AB : 0 < a * b) by nra. assert (AA : 0 < a * a) by nra. assert (BB : 0 < b * b) by nra.
  assert (S0 : sqrt (a * a * (a * a)) = a * a) by (apply sqrt_square; lra).
  assert (S1 : sqrt (b * b * (b * b)) = b * b) by (apply sqrt_square; lra).
  assert (S2 : sqrt (a * a * (b * b)) = a * b) by (replace (a * a * (b * b)) with (a * b * (a * b)) by ring; apply sqrt_square; lra).
  assert (S3 : sqrt (b * b * (a * a)) = a * b) by (replace (b * b * (a * a)) with (a * b * (a * b)) by ring; apply sqrt_square; lra).
  apply not_psd2.
  - intros i j Hi Hj. destruct i as [|[|i]], j as [|[|j]]; try lia; try reflexivity; rewrite ?F0, ?F1, ?F01, ?F10, ?S2, ?S3; reflexivity.
  - rewrite F1, S1. apply Rdiv_lt_0_compat; lra.
  - rewrite F0, F1, F01, S0, S1, S2.
    assert (Q : (a * b + e) * (a * b + e) < (a * a + e) * (b * b + e)).
    { assert (0 < (a - b) * (a - b)) by (apply Rsqr_pos_lt; lra). assert (0 < e * ((a - b) * (a - b))) by (apply Rmult_lt_0_compat; lra). nra. }
    replace (a * a / (a * a + e) * (b * b / (b * b + e))) with (a * b * (a * b) * / ((a * a + e) * (b * b + e))) by (field; lra).
    replace ((a * b / (a * b + e)) ^ 2) with (a * b * (a * b) * / ((a * b + e) * (a * b + e))) by (field; lra).
    apply Rmult_lt_compat_l; [nra|]. apply Rinv_lt_contravar; [|exact Q]. apply Rmult_lt_0_compat; nra.
Qed.
(** Two perfectly correlated variables with different variances: covariance_ is PSD, correlation_ is not. *)
Theorem C72_correlation_not_psd {C : EstClass NumX} (o : inst C) a b : 0 < a -> 0 < b -> a <> b ->
  let v i := if Nat.eqb i 0 then a else b in
  covariance_ o = Ok (fm 2 2 (fun i j => v i * v j)) ->
  psd 2 (fun i j => v i * v j) /\ exists R, correlation_ o = Ok (fm 2 2 R) /\ ~ psd 2 R.
Proof.
  intros Ha Hb Hab v Hc. split; [apply psd_outer|]. eexists. split.
  - unfold correlation_. rewrite Hc. cbn [bind]. apply cov_to_corrcoef_fin. intros i _. apply Rle_0_sqr.
  - apply (reg_corr_not_psd a b (fun i j => v i * v j)); auto. cbn. ring.
Qed.
(** Such instances exist: EmpiricalCovariance after the two rows 0 and (2a, 2b). *)
Example C72_reached a b : exists o,
  fitted_on (C := Empirical) (mkEmpP false) [fv 2 (fun _ => 0); fv 2 (fun i => 2 * (if Nat.eqb i 0 then a else b))] o /\
  covariance_ o = Ok (fm 2 2 (fun i j => (if Nat.eqb i 0 then a else b) * (if Nat.eqb j 0 then a else b))).
Proof.
  set (z := (fun _ : nat => 0) : obs). set (w := (fun i : nat => 2 * (if Nat.eqb i 0 then a else b)) : obs).
  destruct (Empirical_run 2 false (map (fv 2) [z; w]) [z; w] (observes_plain 2 [z; w])) as (o & H1 & _ & _ & H4 & _); [discriminate|].
  exists o. split; [exact H1|]. rewrite H4. f_equal. apply fm_ext. intros i j _ _. unfold pcov_of, mean_of. cbn [map lsum length]. unfold z, w. simpl INR. field.
Qed.
(** It is PSD up to p * 1e-12 / (smallest variance): C72_correlation_nearly_psd in Props_Corr.v. *)

(** ** C48: the composed covariance_ inherits this: it need not be PSD *)
Theorem C48_not_psd r a b : 0 < r <= 1 -> 0 < a -> 0 < b -> a <> b ->
  exists c H, ewa_pair_fit 2 r r [fun _ => 0; fun i => if Nat.eqb i 0 then a else b] c /\
    cond_covariance _ c = Ok (fm 2 2 H) /\ ~ psd 2 H.
Proof.
  intros Hr Ha Hb Hab. set (z := (fun _ : nat => 0) : obs). set (w := (fun i : nat => if Nat.eqb i 0 then a else b) : obs).
  destruct (C48_ewa_ewa 2 r r [z; w] Hr Hr) as (c & E1 & _ & _ & E2); [discriminate|].
  exists c. eexists. split; [exact E1|]. split; [exact E2|].
  set (es := std_residuals (ewa_mu r) (ewa_va r) [z; w]). set (sd := sqrt (1 / 10 ^ 12)).
  assert (Sd : 0 < sd) by (apply sqrt_lt_R0; lra).
  assert (Es : es = [std_residual (ewa_mu r) (ewa_va r) [] z; std_residual (ewa_mu r) (ewa_va r) [z] w]) by reflexivity.
  set (k := / (2 * sd)). assert (Kp : 0 < k) by (apply Rinv_0_lt_compat; lra).
  assert (EF : forall i j, ewa_cov r (burn_len r) es i j = (k * w i) * (k * w j)).
  { intros i j. rewrite Es, ewa_cov_two. rewrite !(proj1 (C48_ewa_residuals r [] z _)), !(proj2 (C48_ewa_residuals r [z] w _)) by discriminate.
    rewrite !ewa_mean_one, !ewa_cov_one. rewrite Rmax_right by lra. fold sd. unfold z, k. field. lra. }
  intros P.
  assert (Vp : forall i, 0 < sqrt (Rmax (ewa_cov r (burn_len r) [z; w] i i) (1 / 10 ^ 12))).
  { intros i. apply sqrt_lt_R0. pose proof (Rmax_r (ewa_cov r (burn_len r) [z; w] i i) (1 / 10 ^ 12)). lra. }
  set (d := fun i => sqrt (Rmax (ewa_cov r (burn_len r) [z; w] i i) (1 / 10 ^ 12))) in *.
  apply (reg_corr_not_psd (k * a) (k * b) (ewa_cov r (burn_len r) es)); try (rewrite EF; unfold w; cbn [Nat.eqb]; ring).
  - nra.
  - nra.
  - intros E. apply Hab. apply Rmult_eq_reg_l with k; [exact E|lra].
  - destruct P as [PS P]. split.
    + intros i j Hi Hj. rewrite !EF. rewrite (Rmult_comm (k * w i * (k * w i))). f_equal. ring.
    + intros v. specialize (P (fun i => v i / d i)).
      replace (qf 2 (fun i j => ewa_cov r (burn_len r) es i j / (sqrt (ewa_cov r (burn_len r) es i i * ewa_cov r (burn_len r) es j j) + 1 / 10 ^ 12)) v)
        with (qf 2 (drd (fun i => ewa_cov r (burn_len r) [z; w] i i) (ewa_cov r (burn_len r) es)) (fun i => v i / d i)); [exact P|].
      unfold qf. apply rsum_ext. intros i _. apply rsum_ext. intros j _. unfold drd.
      change (sqrt (Rmax (ewa_cov r (burn_len r) [z; w] i i) (1 / 10 ^ 12))) with (d i).
      change (sqrt (Rmax (ewa_cov r (burn_len r) [z; w] j j) (1 / 10 ^ 12))) with (d j).
      set (q := ewa_cov r (burn_len r) es i j / _). assert (0 < d i) by apply Vp. assert (0 < d j) by apply Vp. field. lra.
Qed.

(** The hypotheses are met by the documented default, and the half-absorbed row of C71 is visible. *)
Example cond_hypotheses_met p : tracks (new (C := Ewa) (EWA (1 / 10) false)) (ewa_mu (1 / 10)) (ewa_va (1 / 10)) /\
  models p (new (C := Ewa) (EWA (1 / 10) false)) (ewa_cov (1 / 10) (burn_len (1 / 10))).
Proof. split; [apply ewa_tracks; [lra|reflexivity]|apply ewa_models; [lra|reflexivity]]. Qed.
Example C71_visible : let V := vol_of_estimator (new (C := Ewa) (EWA (1 / 10) false)) in
  exists (c c1 : cond V Ewa), ewa_pair_fit 2 (1 / 10) (1 / 10) [fun _ => 0] c /\
    cond_partial_fit V (new (C := Ewa) (EWA (1 / 10) false)) c (In1 [Fin 1 : NumX]) = (c1, Err IndexError) /\
    cond_covariance V c1 <> cond_covariance V c.
Proof.
  intros V. set (r := 1 / 10) in *. set (z := (fun _ : nat => 0) : obs). destruct (cond_hypotheses_met 2) as [H1 H2].
  destruct (C71_rejected_row_half_absorbed _ _ _ _ 2 _ [z] 1 z H1 H2 ltac:(discriminate) ltac:(lia)) as (c & c1 & c2 & E1 & E2 & _ & _ & E3 & _).
  exists c, c1. split; [exact E1|]. split; [exact E2|]. fold r in E3 |- *. unfold V. rewrite E3.
  destruct (C48_ewa_ewa 2 r r [z]) as (c' & F1 & _ & _ & F4); [unfold r; lra|unfold r; lra|discriminate|].
  assert (c' = c). { unfold ewa_pair_fit in F1. fold r in E1. cbv zeta in E1. rewrite E1 in F1. congruence. } subst c'. rewrite F4. intros E.
  assert (E' : fm 2 2 (drd (fun i : nat => ewa_va r (col i [z])) (ewa_cov r (burn_len r) (std_residuals (ewa_mu r) (ewa_va r) [z] ++ [std_residual (ewa_mu r) (ewa_va r) [z] (fun _ => 1)]))) =
    fm 2 2 (drd (fun i : nat => ewa_cov r (burn_len r) [z] i i) (ewa_cov r (burn_len r) (std_residuals (ewa_mu r) (ewa_va r) [z])))) by congruence.
  pose proof (fm_inj 2 2 _ _ 0 0 E' ltac:(lia) ltac:(lia)) as K. unfold drd in K.
  change (std_residuals (ewa_mu r) (ewa_va r) [z]) with [std_residual (ewa_mu r) (ewa_va r) [] z] in K. cbn [app] in K. rewrite !ewa_cov_one, !ewa_va_col, !ewa_cov_one, !ewa_cov_two in K.
  rewrite !(proj1 (C48_ewa_residuals r [] z _)), !(proj2 (C48_ewa_residuals r [z] (fun _ => 1) _)) in K by discriminate.
  rewrite !ewa_mean_one, !ewa_cov_one in K. rewrite !(Rmax_right 0 (1 / 10 ^ 12)) in K by lra. unfold z in K.
  assert (S : sqrt (1 / 10 ^ 12) = 1 / 10 ^ 6) by (replace (1 / 10 ^ 12) with (1 / 10 ^ 6 * (1 / 10 ^ 6)) by lra; apply sqrt_square; lra). rewrite !S in K.
  set (q := _ * _ / 4) in K at 1 2 3. assert (Q : q = 10 ^ 12 / 4) by (unfold q; lra). rewrite sqrt_square in K by lra. rewrite Q in K. lra.
Qed.

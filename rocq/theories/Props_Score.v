(** * C66, C67, C68: precision_, mahalanobis, score

    Law-free parts hold for every number type and every LAPACK; the rest is exact arithmetic for lawful
    LAPACK ([lawful], Contracts.v). *)
From Coq Require Import Reals ZArith List Lia Lra Arith Bool.
From Verif Require Import Num Numpy LinalgModel BaseModel Estimators ListLemmas RMat LinSpec Fin RealSpec EwaReal EmpFacts Spectral MatAlg Det
  Contracts LinalgReal GaussSpec GaussReal AssessModel ScoreReal Props_Emp.
Import ListNotations.
Local Open Scope R_scope.

(** ** C66 *)
(** precision_ is the Moore-Penrose inverse of covariance_: the inverse whenever there is one; no other
    exception is possible. *)
Theorem C66_precision_is_pseudo_inverse L (C : EstClass NumX) (o : inst C) p A :
  lawful L -> (1 <= p)%nat -> c_prec C = None -> covariance_ o = Ok (fm p p A) -> sym p A ->
  exists B, precision_ L o = Ok (fm p p B) /\ penrose p A B /\ sym p B /\
    (invertible p A -> inverse p A B) /\ (psd p A -> psd p B).
Proof.
  intros HL Hp Hc Ho HS. exists (tinv L p A). destruct (tinv_ok L HL p A Hp HS) as [E1 E2].
  split; [unfold precision_; rewrite Hc, Ho; exact E1|]. split; auto. split; [now apply (penrose_sym p A)|].
  split; [now apply tinv_inverse|now apply tinv_psd].
Qed.
(** The fallback to the pseudo-inverse is taken on LinAlgError only; any other exception of np.linalg.inv,
    of np.linalg.pinv or of the covariance itself reaches the caller. *)
Theorem C66_only_LinAlgError_is_caught (N : Num) (L : LinAlg N) (C : EstClass N) (o : inst C) c :
  c_prec C = None -> covariance_ o = Ok c ->
  (forall B, la_inv L c = Ok B -> precision_ L o = Ok B) /\
  (forall e, la_inv L c = Err e -> e <> LinAlgError -> precision_ L o = Err e) /\
  (la_inv L c = Err LinAlgError ->
     (forall B, la_pinv L c = Ok B -> precision_ L o = Ok B) /\
     (forall e, la_pinv L c = Err e -> e <> LinAlgError -> precision_ L o = Err e)).
Proof.
  intros Hc Ho. unfold precision_. rewrite Hc, Ho. cbn [bind]. unfold try_invert. repeat split.
  - now intros B ->.
  - intros e -> He. destruct e; congruence.
  - intros B E. rewrite H, E. reflexivity.
  - intros e E He. rewrite H, E. destruct e; congruence.
Qed.
(** The last resort, when np.linalg.pinv fails too: the inverse of a ridged matrix (off-diagonal entries times 0.99, diagonal
    entries times 0.9999, plus 0.0101 times the average variance).  It is positive definite, so that it can be inverted,
    whenever the covariance is positive semidefinite and not zero. *)
Definition ridged (p : nat) (A : rmat) : rmat := fun i j =>
  if Nat.eqb i j then 0.9999 * A i i + 0.0101 * (rtrace p A / INR p) else 0.99 * A i j.
Lemma affine_shrink_fin p A : (1 <= p)%nat -> @affine_shrink NumX (fm p p A) (nlit 101 2) (nlit 1 2) = Ok (fm p p (ridged p A)).
Proof.
  intros Hp. unfold affine_shrink. rewrite fm_nrows, fm_ncols by auto.
  assert (E1 : @nlit NumX 101 2 = Fin 1.01) by (rewrite nlit_fin; f_equal; cbn; lra).
  assert (E2 : @nlit NumX 1 2 = Fin 0.01) by (rewrite nlit_fin; f_equal; cbn; lra).
  assert (EB : @tab2 NumX p p (fun i j => if Nat.eqb i j then nmul (mget (fm p p A) i j) (nlit 101 2) else mget (fm p p A) i j) =
               fm p p (fun i j => if Nat.eqb i j then A i j * 1.01 else A i j)).
  { unfold fm. apply tab2_ext. intros i j Hi Hj. pose proof (fm_get p p A i j Hi Hj) as G. unfold fm in G. rewrite G. destruct (Nat.eqb i j); [rewrite E1; reflexivity|reflexivity]. }
  cbv zeta. replace (@tab2 NumX p p _) with (fm p p (fun i j => if Nat.eqb i j then A i j * 1.01 else A i j)) by (symmetry; exact EB).
  rewrite diagonal_fin, vmean_fin, E2, n1_fin, sub_fin, mul_fin, meye_fin, !mscale_fin, madd_fin by auto.
  apply f_equal. apply fm_ext. intros i j Hi Hj. unfold ridged, rI, rtrace. destruct (Nat.eqb_spec i j) as [<-|]; [|lra].
  rewrite (rsum_ext p (fun k => if Nat.eqb k k then A k k * 1.01 else A k k) (fun k => A k k * 1.01)) by (intros k _; now rewrite Nat.eqb_refl).
  rewrite rsum_scal_r. unfold Rdiv. lra.
Qed.
Theorem C66_last_resort L (C : EstClass NumX) (o : inst C) p A :
  (1 <= p)%nat -> c_prec C = None -> covariance_ o = Ok (fm p p A) -> la_inv L (fm p p A) = Err LinAlgError -> la_pinv L (fm p p A) = Err LinAlgError ->
  precision_ L o = la_inv L (fm p p (ridged p A)) /\ (psd p A -> 0 < rtrace p A -> pd p (ridged p A)).
Proof.
  intros Hp Hc Ho H1 H2. split.
  { unfold precision_. rewrite Hc, Ho. cbn [bind]. unfold try_invert. rewrite H1, H2, affine_shrink_fin by auto. reflexivity. }
  intros HA Ht. assert (Hn : 0 < INR p) by (apply lt_0_INR; lia). pose proof (Rdiv_lt_0_compat _ _ Ht Hn) as Hq. set (q := rtrace p A / INR p) in *.
  assert (M : meq p p (ridged p A) (fun i j => (0.99 * A i j + rdiag (fun k => 0.0099 * A k k) i j) + rdiag (fun _ => 0.0101 * q) i j)).
  { intros i j _ _. unfold ridged, rdiag. fold q. destruct (Nat.eqb_spec i j) as [<-|]; lra. }
  apply (pd_ext p _ _ (meq_sym _ _ _ _ M)).
  assert (S1 : psd p (fun i j => 0.99 * A i j)) by (apply psd_scal; [lra|exact HA]).
  assert (S2 : psd p (rdiag (fun k => 0.0099 * A k k))) by (apply psd_diag; intros k Hk; pose proof (psd_diag_nonneg p A k HA Hk); nra).
  split.
  - intros i j Hi Hj. pose proof (proj1 HA i j Hi Hj) as HS. unfold rdiag. destruct (Nat.eqb_spec i j) as [Eij|Hn1]; [subst j; now rewrite Nat.eqb_refl|]. destruct (Nat.eqb_spec j i); [congruence|lra].
  - intros v Hv. rewrite (qf_plus p (fun i j => 0.99 * A i j + rdiag (fun k => 0.0099 * A k k) i j) (rdiag (fun _ => 0.0101 * q)) v).
    pose proof (proj2 (psd_plus p _ _ S1 S2) v) as H. cbv beta in H.
    assert (D : 0 < qf p (rdiag (fun _ => 0.0101 * q)) v).
    { rewrite qf_diag. destruct Hv as (k & Hk & Hv). apply (rsum_pos p _ k); [|exact Hk|].
      - intros i _. pose proof (pow2_ge_0 (v i)). nra.
      - assert (0 < v k ^ 2) by (pose proof (Rsqr_pos_lt (v k) Hv) as Q; unfold Rsqr in Q; nra). nra. }
    lra.
Qed.
Theorem C66_unfitted_precision (N : Num) (L : LinAlg N) (C : EstClass N) (o : inst C) e :
  c_prec C = None -> covariance_ o = Err e -> precision_ L o = Err e.
Proof. intros Hc Ho. unfold precision_. now rewrite Hc, Ho. Qed.

(** ** C67 *)
(** mahalanobis(X): the squared distance (x - location_)^T precision_ (x - location_) of every row, in order;
    non-negative, and 0 at location_, whenever the precision is positive semidefinite (C66). *)
Theorem C67_mahalanobis L (C : EstClass NumX) (o : inst C) p m B xs :
  (1 <= p)%nat -> location_ o = Ok (fv p m) -> precision_ L o = Ok (fm p p B) ->
  mahalanobis L o (In2 (map (fv p) xs)) = Ok (map (fun x => Fin (qf p B (fun i => x i - m i))) xs) /\
  (psd p B -> Forall (fun x => 0 <= qf p B (fun i => x i - m i)) xs) /\
  mahalanobis L o (In1 (fv p m)) = Ok [Fin 0].
Proof.
  intros Hp Hm HB.
  assert (K : forall ys, mahalanobis L o (In2 (map (fv p) ys)) = Ok (map (fun x => Fin (qf p B (fun i => x i - m i))) ys)).
  { intros ys. unfold mahalanobis. cbn [as_rows bind]. rewrite HB, Hm. cbn [bind].
    apply (mapM_map_ok _ (fv p)). intros x _. rewrite vsub_fin. cbn [bind]. now apply einsum_quad_fin. }
  split; [apply K|]. split; [intros HP; apply Forall_forall; intros; apply HP|].
  replace (mahalanobis L o (In1 (fv p m))) with (mahalanobis L o (In2 (map (fv p) [m]))) by reflexivity.
  rewrite K. cbn [map]. do 3 f_equal. apply qf_zero. intros. ring.
Qed.
(** A single row is a batch of one. *)
Theorem C67_single_row (N : Num) (L : LinAlg N) (C : EstClass N) (o : inst C) x :
  mahalanobis L o (In1 x) = mahalanobis L o (In2 [x]) /\ score L o (In1 x) = score L o (In2 [x]).
Proof. split; reflexivity. Qed.
(** score(X): the mean Gaussian log-density of the rows under N(location_, covariance_), and -inf for every
    batch once the covariance is singular. *)
Theorem C67_score L (C : EstClass NumX) (o : inst C) p m A B xs :
  lawful L -> (1 <= p)%nat -> xs <> [] -> location_ o = Ok (fv p m) ->
  precision_ L o = Ok (fm p p B) -> sym p A -> penrose p A B ->
  (pd p A -> score L o (In2 (map (fv p) xs)) = Ok (Fin (lmean (map (gauss_logpdf p A B m) xs)))) /\
  (~ invertible p A -> score L o (In2 (map (fv p) xs)) = Ok NInf).
Proof.
  intros HL Hp Hx Hm HB HS HP. destruct (C67_mahalanobis L C o p m B xs Hp Hm HB) as [M _].
  assert (NC : @ncols NumX (map (fv p) xs) = p) by (destruct xs; [congruence|apply fv_length]).
  split; intros HA; unfold score; cbn [as_rows bind]; rewrite HB; cbn [bind].
  - assert (HI : inverse p A B).
    { destruct (pd_invertible p A HA) as (X & HX). apply (inverse_ext p A A X B); auto using meq_refl.
      apply (penrose_unique p A); auto. now apply inverse_penrose. }
    rewrite (slogdet_inverse L HL p A B Hp HA HI). cbn [bind]. rewrite M. cbn [bind]. f_equal.
    rewrite NC, nofn_fin, (law_log2pi L HL), lit5, map_map, <- vmean_map by auto. f_equal. apply map_ext_in. intros x _.
    rewrite !mul_fin, !sub_fin. f_equal. unfold gauss_logpdf. lra.
  - rewrite (slogdet_singular L HL p A B Hp HP HA). cbn [bind]. rewrite M. cbn [bind]. f_equal.
    rewrite NC, nofn_fin, (law_log2pi L HL), lit5, half_ninf, map_map.
    rewrite (map_ext_in _ (fun _ => NInf)) by (intros; reflexivity).
    replace (map (fun _ : nat -> R => NInf) xs) with (repeat NInf (length xs)); [|clear; induction xs; cbn; congruence].
    apply vmean_ninf. destruct xs; cbn; [congruence|lia].
Qed.
(** est.score(X) is the LogLikelihood assessor's score of covariance_ on the centred rows, for any number type. *)
Theorem C67_score_is_assessor_score (N : Num) (L : LinAlg N) (C : EstClass N) (o : inst C) cov loc rows centred :
  c_prec C = None -> covariance_ o = Ok cov -> location_ o = Ok loc -> ncols rows = nrows cov ->
  mapM (fun row => vsub row loc) rows = Ok centred ->
  score L o (In2 rows) = assess L LogLikelihood cov (Some centred) None.
Proof.
  intros Hc Ho Hl Hn Hv. unfold score. cbn [as_rows bind].
  assert (HP : precision_ L o = try_invert L cov) by (unfold precision_; now rewrite Hc, Ho).
  rewrite HP. cbn [assess]. unfold gaussian_loglik. destruct (try_invert L cov) as [prec|] eqn:Et; cbn [bind]; [|reflexivity].
  destruct (la_slogdet L prec) as [[sg ld]|]; cbn [bind]; [|reflexivity].
  unfold mahalanobis. cbn [as_rows bind]. rewrite HP. cbn [bind]. rewrite Hl. cbn [bind].
  assert (Q : mapM (fun row => c <- vsub row loc ;; einsum_quad c prec) rows = mapM (fun row => einsum_quad row prec) centred).
  { clear -Hv. revert centred Hv. induction rows as [|x rows IH]; intros centred; cbn [mapM].
    - intros [= <-]. reflexivity.
    - destruct (vsub x loc) as [c|] eqn:E; cbn [bind]; [|discriminate].
      destruct (mapM (fun row => vsub row loc) rows) as [cs|] eqn:E2; cbn [bind]; [|discriminate]. intros [= <-].
      cbn [mapM]. now rewrite (IH cs eq_refl). }
  rewrite Q. destruct (mapM _ centred); cbn [bind]; [|reflexivity]. now rewrite Hn.
Qed.

(** ** C68 *)
(** No estimate scores higher on the training rows than EmpiricalCovariance does (when the sample covariance is
    invertible): whatever the class, its parameters and its history, and a tie means the same mean and covariance. *)
Theorem C68_empirical_has_the_highest_training_score L p xs :
  lawful L -> (1 <= p)%nat -> xs <> [] -> pd p (pcov_of xs) ->
  exists best s, fitted_on (C := Empirical) (mkEmpP false) (map (fv p) xs) best /\
    score L best (In2 (map (fv p) xs)) = Ok (Fin s) /\
    forall (C : EstClass NumX) (o : inst C) m A B,
      location_ o = Ok (fv p m) -> covariance_ o = Ok (fm p p A) -> psd p A ->
      precision_ L o = Ok (fm p p B) -> penrose p A B ->
      exists s', score L o (In2 (map (fv p) xs)) = Ok s' /\ @nleb NumX s' (Fin s) = true /\
        (s' = Fin s -> location_ o = location_ best /\ covariance_ o = covariance_ best).
Proof.
  intros HL Hp Hx HS. destruct (Empirical_run p false (map (fv p) xs) xs (observes_plain p xs) Hx) as (best & E1 & E2 & E3 & E4 & _ & E5).
  pose proof (sym_pcov xs p) as SS. destruct (tinv_ok L HL p (pcov_of xs) Hp SS) as [T1 T2].
  pose proof (tinv_inverse L HL p (pcov_of xs) Hp SS (pd_invertible p _ HS)) as TI.
  assert (EP : precision_ L best = Ok (fm p p (tinv L p (pcov_of xs)))) by (rewrite E5; exact T1).
  destruct (C67_score L Empirical best p (mean_of xs) (pcov_of xs) _ xs HL Hp Hx E3 EP SS T2) as [SB _]. specialize (SB HS).
  exists best. eexists. split; [exact E1|]. split; [exact SB|].
  intros C o m A B Hm HA PA HB HP. destruct (C67_score L C o p m A B xs HL Hp Hx Hm HB (proj1 PA) HP) as [S1 S2].
  destruct (Req_dec (rdet p A) 0) as [Z|NZ].
  - exists NInf. split; [apply S2; intros I; now apply rdet_invertible in I|]. split; [reflexivity|discriminate].
  - assert (PDA : pd p A) by (apply psd_invertible_pd; auto; now apply rdet_invertible).
    assert (HI : inverse p A B).
    { destruct (pd_invertible p A PDA) as (X & HX). apply (inverse_ext p A A X B); auto using meq_refl.
      apply (penrose_unique p A); auto. now apply inverse_penrose. }
    destruct (gauss_mle p A B (tinv L p (pcov_of xs)) m xs Hx HS TI PDA HI) as [M1 M2].
    eexists. split; [exact (S1 PDA)|]. split; [cbn; now apply Rleb_true|].
    intros [= Eq]. destruct (M2 Eq) as [M3 M4]. split.
    + rewrite Hm, E3. f_equal. now apply fv_ext.
    + rewrite HA, E4. f_equal. now apply fm_meq.
Qed.

(** ** Non-vacuity: one variable, observations 0 and 2: mean 1, variance 1, score of the training rows -(ln 2pi + 1)/2. *)
Definition two_obs : list obs := [fun _ => 0; fun _ => 2].
Lemma two_obs_pcov : meq 1 1 (pcov_of two_obs) rI.
Proof. intros [|] [|] Hi Hj; try lia. unfold pcov_of, mean_of, two_obs. cbn. lra. Qed.
Example C68_two_obs_pd : pd 1 (pcov_of two_obs).
Proof.
  apply (pd_ext 1 rI); [apply meq_sym, two_obs_pcov|]. split; [intros i j _ _; unfold rI; now rewrite Nat.eqb_sym|].
  intros v (i & Hi & Hv). assert (i = O) by lia. subst. unfold qf, rI. cbn. assert (0 < v O * v O) by nra. lra.
Qed.
Example C67_two_obs L : lawful L ->
  exists o B, fitted_on (C := Empirical) (mkEmpP false) (map (fv 1) two_obs) o /\
    location_ o = Ok (fv 1 (mean_of two_obs)) /\ precision_ L o = Ok (fm 1 1 B) /\ penrose 1 (pcov_of two_obs) B /\
    score L o (In2 (map (fv 1) two_obs)) = Ok (Fin (- (ln (2 * PI) + 1) / 2)).
Proof.
  intros HL. destruct (Empirical_run 1 false _ two_obs (observes_plain 1 two_obs)) as (o & E1 & E2 & E3 & E4 & _); [discriminate|].
  destruct (C66_precision_is_pseudo_inverse L Empirical o 1 (pcov_of two_obs) HL (le_n 1) eq_refl E4 (sym_pcov _ 1)) as (B & HB & HP & _ & HI & _).
  specialize (HI (pd_invertible 1 _ C68_two_obs_pd)).
  exists o, B. split; [exact E1|]. split; [exact E3|]. split; [exact HB|]. split; [exact HP|].
  destruct (C67_score L Empirical o 1 (mean_of two_obs) (pcov_of two_obs) B two_obs HL (le_n 1) ltac:(discriminate) E3 HB (sym_pcov _ 1) HP) as [S _].
  rewrite (S C68_two_obs_pd). do 2 f_equal. rewrite lmean_gauss by discriminate.
  rewrite (rdet_ext two_obs_pcov), rdet_I, ln_1.
  replace (rtrace 1 (rmul 1 B (second_moment (mean_of two_obs) two_obs))) with 1; [cbn; lra|].
  rewrite <- (rtrace_I 1 : rtrace 1 rI = 1) at 1. apply rtrace_ext. apply meq_sym. eapply meq_trans; [|apply (proj2 HI)].
  apply rmul_ext; [apply meq_refl|]. intros i j _ _. apply second_moment_mean.
Qed.

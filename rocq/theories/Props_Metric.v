(** * C95: the judges of research/metric_power.py and the assessors they became; C70: too few held-out rows *)
From Coq Require Import Reals ZArith List Lia Lra Arith Bool.
From Verif Require Import Num Numpy LinalgModel ListLemmas RMat LinSpec Fin RealSpec EmpFacts Spectral MatAlg Det Contracts LinalgReal GaussSpec GaussReal ScoreReal
  AssessModel AssessSpec AssessReal Props_Emp Props_Assess Props_Improper Props_Godambe ResearchModel ResearchRun MetricModel MetricReal.
Import ListNotations.
Local Open Scope R_scope.

Lemma pd_scal' p c A : 0 < c -> pd p A -> pd p (fun i j => c * A i j).
Proof.
  intros Hc [S Q]. split; [intros i j Hi Hj; now rewrite (S i j)|]. intros v Hv. rewrite qf_scal. apply Rmult_lt_0_compat; auto.
Qed.
(** ** C70: no more held-out rows than variables *)
Lemma few_rows_singular p xs : xs <> [] -> (length xs <= p)%nat -> ~ pd p (pcov_of xs).
Proof.
  intros Hx Hn HP. set (n := length xs) in *. assert (Hn1 : (1 <= n)%nat) by (unfold n; destruct xs; cbn; [congruence|lia]).
  assert (NZ : INR n <> 0) by (apply not_0_INR; lia).
  set (F := fun t j => if Nat.ltb t n then at_ xs t j - mean_of xs j else 0 : R).
  assert (S : forall j, rsum p (fun t => F t j) = 0).
  { intros j. assert (E : rsum p (fun t => F t j) = rsum n (fun t => at_ xs t j - mean_of xs j)).
    { replace p with (n + (p - n))%nat by lia. rewrite rsum_split. rewrite (rsum_zero (p - n)).
      - rewrite Rplus_0_r. apply rsum_ext. intros t Ht. unfold F. destruct (Nat.ltb_spec t n); [reflexivity|lia].
      - intros t Ht. unfold F. destruct (Nat.ltb_spec (n + t) n); [lia|reflexivity]. }
    rewrite E, rsum_minus, rsum_const. unfold mean_of at 1. fold n. rewrite (lsum_at _ xs (fun _ => 0)). fold n. unfold at_. field. auto. }
  assert (NI : ~ invertible p F).
  { intros (B & HB & _). assert (rsum p (fun t => rmul p F B t O) = 1).
    { rewrite (rsum_ext p _ (fun t => rI t O)) by (intros t Ht; apply HB; lia). unfold rI. rewrite rsum_delta by lia. reflexivity. }
    assert (rsum p (fun t => rmul p F B t O) = 0); [|lra].
    unfold rmul. rewrite rsum_swap. apply rsum_zero. intros k Hk. rewrite rsum_scal_r, S. ring. }
  assert (D0 : rdet p F = 0) by (destruct (Req_dec (rdet p F) 0); auto; exfalso; apply NI; now apply rdet_invertible).
  assert (M : meq p p (pcov_of xs) (rmul p (fun i t => / INR n * F t i) F)).
  { intros i j Hi Hj. unfold rmul, pcov_of. fold n. rewrite (lsum_at _ xs (fun _ => 0)). fold n. unfold Rdiv. rewrite Rmult_comm, <- rsum_scal.
    replace p with (n + (p - n))%nat by lia. rewrite rsum_split, (rsum_zero (p - n)).
    - rewrite Rplus_0_r. apply rsum_ext. intros t Ht. unfold F. destruct (Nat.ltb_spec t n); [unfold at_; ring|lia].
    - intros t Ht. unfold F. destruct (Nat.ltb_spec (n + t) n); [lia|ring]. }
  pose proof (pd_det_pos p _ HP) as DP. rewrite (rdet_ext M), rdet_mul, D0 in DP. lra.
Qed.
(** With no more held-out rows than variables SteinLoss is -inf for every estimate: it cannot tell any two apart. *)
Theorem C70_few_rows L p A xs T : lawful L -> (1 <= p)%nat -> xs <> [] -> (length xs <= p)%nat -> pd p A ->
  assess L SteinLoss (fm p p A) (Some (map (fv p) xs)) T = Ok NInf.
Proof.
  intros HL Hp Hx Hn HA. apply (C70_stein L p A xs T); auto. now apply few_rows_singular.
Qed.

(** ** The divergence of two covariances *)
(** [_kl(true_cov, est_cov)] is the Kullback-Leibler divergence from N(0, est) to N(0, true): never negative, 0 exactly at the truth. *)
Theorem C95_divergence (L : LinAlg NumX) p T A : lawful L -> (1 <= p)%nat -> pd p A -> pd p T ->
  exists Ai, inverse p A Ai /\ mp_kl L (fm p p T) (fm p p A) = Ok (Fin (kl_of p Ai A T)) /\ 0 <= kl_of p Ai A T /\ (kl_of p Ai A T = 0 <-> meq p p A T).
Proof.
  intros HL Hp HA HT. destruct (C91_divergence L A T p HL Hp HA HT) as (Ai & HI & E & H1 & H2). exists Ai. split; [exact HI|]. split; [|auto]. rewrite <- E.
  unfold mp_kl, kl. destruct (inv_ok L HL p A Hp HA) as (B & -> & _). cbn [bind]. rewrite !slogdet_pd by auto. cbn [bind].
  rewrite matmul_fin by auto. cbn [bind]. rewrite fm_nrows. reflexivity.
Qed.
(** The trial's pair: the two estimates given, the one with the smaller divergence first. *)
Theorem C95_better_first (L : LinAlg NumX) p T G B : lawful L -> (1 <= p)%nat -> pd p G -> pd p B -> pd p T ->
  exists Gi Bi, inverse p G Gi /\ inverse p B Bi /\
   ((kl_of p Gi G T <= kl_of p Bi B T /\ by_kl L (fm p p T) (fm p p G) (fm p p B) = Ok (fm p p G, fm p p B)) \/
    (kl_of p Bi B T < kl_of p Gi G T /\ by_kl L (fm p p T) (fm p p G) (fm p p B) = Ok (fm p p B, fm p p G))).
Proof.
  intros HL Hp HG HB HT. destruct (C95_divergence L p T G HL Hp HG HT) as (Gi & IG & EG & _). destruct (C95_divergence L p T B HL Hp HB HT) as (Bi & IB & EB & _).
  exists Gi, Bi. split; [exact IG|]. split; [exact IB|]. unfold by_kl. rewrite EG. cbn [bind]. rewrite EB. cbn [bind]. rewrite leb_fin. unfold Rleb.
  destruct (Rle_dec (kl_of p Gi G T) (kl_of p Bi B T)); [left|right]; split; auto; lra.
Qed.

(** ** Log-likelihood *)
(** the research judge and the shipped assessor differ by p/2 log(2 pi): the same comparison of any two estimates *)
Theorem C95_loglik_is_the_assessor (L : LinAlg NumX) p A xs T : lawful L -> (1 <= p)%nat -> xs <> [] -> pd p A ->
  exists s, assess L LogLikelihood (fm p p A) (Some (map (fv p) xs)) T = Ok (Fin s) /\
    mp_loglik L (fm p p A) (map (fv p) xs) = Ok (Fin (s + INR p / 2 * ln (2 * PI))).
Proof.
  intros HL Hp Hx HA. pose proof (tinv_inverse L HL p A Hp (proj1 HA) (pd_invertible p A HA)) as HI.
  exists (mean_loglik p A (tinv L p A) xs). split; [apply (loglik_fin L HL p A xs Hp HA Hx)|]. now apply mp_loglik_fin.
Qed.
(** up to a constant of the data, it is minus the divergence from the second moment of the data *)
Theorem C95_loglik_is_divergence (L : LinAlg NumX) p xs S : lawful L -> (1 <= p)%nat -> xs <> [] -> pd p S -> meq p p S (second_moment zero_mean xs) ->
  exists c, forall A, pd p A -> exists Ai, inverse p A Ai /\ mp_loglik L (fm p p A) (map (fv p) xs) = Ok (Fin (c - kl_of p Ai A S)).
Proof.
  intros HL Hp Hx HS ES. exists (- INR p / 2 - ln (rdet p S) / 2). intros A HA. destruct (pd_invertible p A HA) as (Ai & HI). exists Ai. split; [exact HI|].
  rewrite (mp_loglik_fin L HL p A Ai xs Hp HA HI Hx). apply (f_equal (fun z => Ok (Fin z))). unfold mean_loglik. rewrite lmean_gauss by auto.
  assert (E : rtrace p (rmul p Ai (second_moment zero_mean xs)) = rtrace p (rmul p Ai S)) by (apply rtrace_ext, rmul_ext; [apply meq_refl|apply meq_sym, ES]).
  unfold kl_of. rewrite E. lra.
Qed.
(** so the judge prefers the estimate with the smaller divergence, strictly *)
Theorem C95_loglik_verdict (L : LinAlg NumX) p xs S G B Gi Bi : lawful L -> (1 <= p)%nat -> xs <> [] -> pd p S -> meq p p S (second_moment zero_mean xs) ->
  pd p G -> pd p B -> inverse p G Gi -> inverse p B Bi ->
  exists v, agrees (fun c => mp_loglik L c (map (fv p) xs)) (fm p p G) (fm p p B) = Ok v /\ (v = true <-> kl_of p Gi G S < kl_of p Bi B S).
Proof.
  intros HL Hp Hx HS ES HG HB IG IB. destruct (C95_loglik_is_divergence L p xs S HL Hp Hx HS ES) as (c & H).
  destruct (H G HG) as (Gi' & IG' & EG). destruct (H B HB) as (Bi' & IB' & EB).
  assert (K : forall A Ai Ai', inverse p A Ai -> inverse p A Ai' -> kl_of p Ai A S = kl_of p Ai' A S).
  { intros A Ai Ai' I1 I2. unfold kl_of. rewrite (rtrace_ext p (rmul p Ai S) (rmul p Ai' S)); auto. apply rmul_ext; [exact (inverse_unique p A _ _ I1 I2)|apply meq_refl]. }
  rewrite (K G Gi Gi'), (K B Bi Bi') by auto.
  unfold agrees. rewrite EG. cbn [bind]. rewrite EB. cbn [bind]. rewrite ltb_fin. eexists. split; [reflexivity|]. unfold Rltb.
  destruct (Rlt_dec (c - kl_of p Bi' B S) (c - kl_of p Gi' G S)); split; intros; try congruence; lra.
Qed.

(** ** Stein loss *)
(** bit for bit the shipped SteinLoss (any arithmetic), as long as np.linalg.inv answers and there are two variables or more *)
Theorem C95_stein_is_the_assessor (N : Num) (L : LinAlg N) cov X P T : la_inv L cov = Ok P -> ncols X <> 1%nat ->
  mp_stein L cov X = assess L SteinLoss cov (Some X) T.
Proof.
  intros E H. cbn [assess]. unfold mp_stein, stein, try_invert. rewrite E. destruct (np_cov X); cbn [bind]; [|reflexivity].
  destruct (Nat.eqb_spec (ncols X) 1); [contradiction|reflexivity].
Qed.
(** with one variable [np.cov] is a scalar and the research judge raises; the shipped one does not (C70) *)
Theorem C95_stein_one_variable (L : LinAlg NumX) A xs : lawful L -> xs <> [] -> pd 1 A -> mp_stein L (fm 1 1 A) (map (fv 1) xs) = Err ValueError.
Proof.
  intros HL Hx HA. unfold mp_stein. rewrite np_cov_fin by auto. cbn [bind]. destruct (inv_ok L HL 1 A (le_n 1) HA) as (B & -> & _). cbn [bind].
  replace (ncols (map (fv 1) xs)) with 1%nat by (destruct xs; [congruence|reflexivity]). reflexivity.
Qed.
(** it is minus twice the divergence from the sample covariance (about the sample mean, unlike the log-likelihood) *)
Theorem C95_stein_is_divergence (L : LinAlg NumX) p A Ai xs : lawful L -> (2 <= p)%nat -> xs <> [] -> pd p A -> pd p (pcov_of xs) -> inverse p A Ai ->
  mp_stein L (fm p p A) (map (fv p) xs) = Ok (Fin (- 2 * kl_of p Ai A (pcov_of xs))).
Proof.
  intros HL Hp Hx HA HS HI. destruct (inv_ok L HL p A ltac:(lia) HA) as (P & EP & _).
  rewrite (C95_stein_is_the_assessor NumX L _ _ (fm p p P) None EP).
  - cbn [assess]. rewrite (stein_fin L HL p A xs) by (auto; lia). pose proof (tinv_inverse L HL p A ltac:(lia) (proj1 HA) (pd_invertible p A HA)) as HT.
    assert (U : meq p p (tinv L p A) Ai) by exact (inverse_unique p A _ _ HT HI).
    apply (f_equal (fun z => Ok (Fin z))). rewrite (rdet_ext U), (rtrace_ext p _ (rmul p Ai (pcov_of xs))) by (apply rmul_ext; [exact U|apply meq_refl]).
    pose proof (pd_det_pos p _ (inverse_pd p A Ai HA HI)). pose proof (pd_det_pos p _ HS). rewrite ln_mult by auto. rewrite (ln_inverse p A Ai HA HI). unfold kl_of. lra.
  - replace (ncols (map (fv p) xs)) with p; [lia|]. destruct xs; [congruence|]. symmetry. apply fv_length.
Qed.
(** and with no more rows than variables the judge never agrees with anything: its power is 0 *)
Theorem C95_stein_powerless (L : LinAlg NumX) p G B xs : lawful L -> (2 <= p)%nat -> xs <> [] -> (length xs <= p)%nat -> pd p G -> pd p B ->
  agrees (fun c => mp_stein L c (map (fv p) xs)) (fm p p G) (fm p p B) = Ok false.
Proof.
  intros HL Hp Hx Hn HG HB. assert (E : forall A, pd p A -> mp_stein L (fm p p A) (map (fv p) xs) = Ok NInf).
  { intros A HA. destruct (inv_ok L HL p A ltac:(lia) HA) as (P & EP & _). rewrite (C95_stein_is_the_assessor NumX L _ _ (fm p p P) None EP).
    - apply (C70_few_rows L p A xs None); auto. lia.
    - replace (ncols (map (fv p) xs)) with p; [lia|]. destruct xs; [congruence|]. symmetry. apply fv_length. }
  unfold agrees. rewrite (E G HG). cbn [bind]. rewrite (E B HB). reflexivity.
Qed.

(** ** Frobenius *)
(** minus the Euclidean distance to the sample covariance *)
Theorem C95_frobenius p A xs : (1 <= p)%nat -> xs <> [] ->
  exists s, @mp_frobenius NumX (fm p p A) (map (fv p) xs) = Ok (Fin s) /\ s <= 0 /\
    s * s = rsum p (fun i => rsum p (fun j => (A i j - pcov_of xs i j) * (A i j - pcov_of xs i j))) /\
    (s = 0 <-> meq p p A (pcov_of xs)).
Proof.
  intros Hp Hx. unfold mp_frobenius. rewrite np_cov_fin by auto. cbn [bind]. rewrite msub_fin. cbn [bind]. rewrite mnorm_fin, opp_fin.
  set (q := rsum p _). assert (Q0 : 0 <= q) by (apply rsum_nonneg; intros; apply rsum_nonneg; intros; apply Rle_0_sqr).
  exists (- sqrt q). split; [reflexivity|]. pose proof (sqrt_pos q). pose proof (sqrt_sqrt q Q0). split; [lra|]. split; [lra|]. split.
  - intros Z i j Hi Hj. assert (Z2 : q = 0) by nra. 
    assert (Zi : rsum p (fun j => (A i j - pcov_of xs i j) * (A i j - pcov_of xs i j)) = 0).
    { apply (rsum_pos_zero p (fun i => rsum p (fun j => (A i j - pcov_of xs i j) * (A i j - pcov_of xs i j)))); auto. intros; apply rsum_nonneg; intros; apply Rle_0_sqr. }
    assert (Zj : (A i j - pcov_of xs i j) * (A i j - pcov_of xs i j) = 0).
    { apply (rsum_pos_zero p (fun j => (A i j - pcov_of xs i j) * (A i j - pcov_of xs i j))); auto. intros; apply Rle_0_sqr. }
    apply Rmult_integral in Zj. lra.
  - intros M. assert (Z2 : q = 0) by (unfold q; apply rsum_zero; intros i Hi; apply rsum_zero; intros j Hj; rewrite M by auto; ring). rewrite Z2, sqrt_0. lra.
Qed.

(** ** Mahalanobis calibration *)
(** never positive; the second moment of the data reaches 0, but so does a rescaled copy of every estimate whatsoever *)
Theorem C95_calibration (L : LinAlg NumX) p A Ai xs : lawful L -> (1 <= p)%nat -> xs <> [] -> pd p A -> inverse p A Ai ->
  mp_maha_calib L (fm p p A) (map (fv p) xs) = Ok (Fin (- Rabs (lmean (map (qf p Ai) xs) - INR p))).
Proof.
  intros HL Hp Hx HA HI. unfold mp_maha_calib. destruct (inv_ok L HL p A Hp HA) as (B & -> & HB). cbn [bind].
  rewrite (mapM_map_ok _ (fv p) (fun x => Fin (qf p B x))) by (intros; now apply einsum_quad_fin). cbn [bind].
  rewrite vmean_map, fm_nrows, nofn_fin, sub_fin, nabs_fin, opp_fin by auto.
  rewrite (lmean_ext (fun x => qf p B x) (qf p Ai)) by (intros x _; apply qf_meq; exact (inverse_unique p A B Ai HB HI)). reflexivity.
Qed.
Theorem C95_calibration_is_improper (L : LinAlg NumX) p A xs : lawful L -> (1 <= p)%nat -> pd p A -> (exists x i, In x xs /\ (i < p)%nat /\ x i <> 0) ->
  exists c, 0 < c /\ mp_maha_calib L (fm p p (fun i j => c * A i j)) (map (fv p) xs) = Ok (Fin 0).
Proof.
  intros HL Hp HA (x & i & Hx & Hi & Hxi). destruct (pd_invertible p A HA) as (Ai & HI). pose proof (inverse_pd p A Ai HA HI) as PI.
  assert (Hn : xs <> []) by (intros ->; destruct Hx). assert (P0 : 0 < INR p) by (apply lt_0_INR; lia).
  assert (M : 0 < lmean (map (qf p Ai) xs)).
  { unfold lmean. rewrite map_length. apply Rdiv_lt_0_compat; [|apply lt_0_INR; destruct xs; cbn; [congruence|lia]].
    assert (NN : forall y, 0 <= qf p Ai y) by (intros y; apply (pd_psd p Ai PI)).
    assert (PX : 0 < qf p Ai x) by (apply PI; eauto). clear - Hx NN PX. induction xs as [|y l IH]; [destruct Hx|]. cbn [map lsum fold_right].
    assert (G : forall l, 0 <= lsum (map (qf p Ai) l)) by (induction l0 as [|z l0 IH0]; unfold lsum in *; cbn; [lra|pose proof (NN z); lra]).
    change (0 < qf p Ai y + lsum (map (qf p Ai) l)). destruct Hx as [->|Hx]; [pose proof (G l); lra|pose proof (NN y); specialize (IH Hx); lra]. }
  set (c := lmean (map (qf p Ai) xs) / INR p). assert (C0 : 0 < c) by (apply Rdiv_lt_0_compat; auto). exists c. split; [exact C0|].
  assert (IC : inverse p (fun i j => c * A i j) (fun i j => / c * Ai i j)).
  { split; intros a b Ha Hb; unfold rmul.
    - rewrite (rsum_ext p _ (fun k => A a k * Ai k b)) by (intros; field; lra). apply HI; auto.
    - rewrite (rsum_ext p _ (fun k => Ai a k * A k b)) by (intros; field; lra). apply HI; auto. }
  rewrite (C95_calibration L p (fun i j => c * A i j) (fun i j => / c * Ai i j) xs HL Hp Hn (pd_scal' p c A C0 HA) IC).
  rewrite (lmean_ext (qf p (fun i j => / c * Ai i j)) (fun y => / c * qf p Ai y)) by (intros; apply qf_scal).
  rewrite lmean_scal. change (map (fun a => qf p Ai a) xs) with (map (qf p Ai) xs). apply (f_equal (fun z => Ok (Fin z))).
  replace (/ c * lmean (map (qf p Ai) xs)) with (INR p); [rewrite Rminus_diag_eq, Rabs_R0 by auto; lra|]. unfold c. field. lra.
Qed.

(** ** Minimum-variance portfolio *)
(** [solve] in the research judge, [inv] in the shipped one: the same score *)
Theorem C95_min_variance_is_the_assessor (L : LinAlg NumX) p A xs T : lawful L -> (1 <= p)%nat -> xs <> [] -> pd p A ->
  mp_min_variance L (fm p p A) (map (fv p) xs) = assess L GMVVariance (fm p p A) (Some (map (fv p) xs)) T.
Proof.
  intros HL Hp Hx HA. pose proof (tinv_inverse L HL p A Hp (proj1 HA) (pd_invertible p A HA)) as HI. pose proof (inverse_pd p A _ HA HI) as PI.
  cbn [assess]. rewrite (gmv_fin L HL p A xs Hp (proj1 HA) Hx) by (pose proof (sum_pd p _ Hp PI); lra).
  unfold mp_min_variance. rewrite fm_nrows, vones_fin.
  assert (E1 : map (fun x : NumX => [x]) (fv p (fun _ => 1)) = fm p 1 (fun _ _ => 1)).
  { unfold fm, fv, tab2, tab. rewrite map_map. reflexivity. }
  replace (map (fun x => [x]) (fv p (fun _ : nat => 1))) with (fm p 1 (fun _ _ => 1)) by (symmetry; exact E1).
  destruct (law_solve L HL p 1 A (fun _ _ => 1) Hp (proj1 HA)) as [(X & EX & _ & HX)|(_ & HN)]; [|exfalso; now apply HN, pd_invertible].
  rewrite EX. cbn [bind]. rewrite mcol_fin by lia.
  assert (EW : forall i, (i < p)%nat -> X i O = rsum p (fun j => tinv L p A i j)).
  { intros i Hi. transitivity (rmul p (rmul p (tinv L p A) A) X i O).
    - symmetry. rewrite (rmul_ext p p 1 _ rI _ X (proj2 HI) (meq_refl _ _ _) i O Hi ltac:(lia)). apply rmul_I_l; auto.
    - rewrite rmul_assoc. unfold rmul at 1. apply rsum_ext. intros j Hj. rewrite (HX j O Hj ltac:(lia)). ring. }
  rewrite vsum_fin. rewrite (rsum_ext p _ _ EW), (fv_ext p _ _ EW), vdivs_fin by (pose proof (sum_pd p _ Hp PI); lra).
  fold (gmv_weights p (tinv L p A)). rewrite matvec_rows. cbn [bind]. f_equal. rewrite map_map.
  rewrite (map_ext_in _ (fun x => Fin (rdot p x (gmv_weights p (tinv L p A)) * rdot p x (gmv_weights p (tinv L p A))))) by (intros; reflexivity).
  rewrite vmean_map by auto. reflexivity.
Qed.

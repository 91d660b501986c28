(** * C103: the power experiments of research/metric_power.py over the reals: the contests they stage, when they complete, and powers that must coincide *)
From Coq Require Import Reals ZArith Bool String List Lia Lra Arith Permutation Classical_Prop.
From Verif Require Import Num Numpy PyVal ListLemmas LinalgModel BaseModel Estimators AssessModel ResearchModel MetricModel SpikedModel TrainModel PowerModel
  RMat LinSpec Fin RealSpec EwaReal EmpFacts ShrinkReal Spectral MatAlg Det Contracts LinalgReal AssessReal MetricReal GaussReal ResearchSpec ResearchReal
  Props_Assess Props_Godambe Props_Metric Props_Judges Props_Spiked Props_SpikedTruth Props_Train Props_TrainRun Props_Families SymSpec SymReal SymPerm Props_Power.
Import ListNotations.
Local Open Scope string_scope.
Local Open Scope list_scope.
Local Open Scope R_scope.

(** ** Positive top eigenvalue *)
Lemma abs_fin x : @nabs NumX (Fin x) = Fin (Rabs x).
Proof. unfold nabs. rewrite n0_fin, ltb_fin. destruct (Rltb_spec x 0); [rewrite opp_fin, Rabs_left by lra|rewrite Rabs_right by lra]; reflexivity. Qed.
Lemma project_pos L p A : lawful L -> (1 <= p)%nat -> (exists v, 0 < qf p A v) -> exists t M, project_pd L (fm p p A) = Ok (fm p p M) /\ well_conditioned p M t.
Proof.
  intros HL Hp (v & Hv). destruct (C95_project_pd L p A HL Hp) as (t & M & E & S & (T1 & w & W1 & W2) & F & _). exists t, M. split; [exact E|].
  assert (Ht : 0 < t).
  { specialize (T1 v). assert (Q : qf p (symm A) v = qf p A v).
    { unfold qf, symm. rewrite (rsum_ext p _ (fun i => rsum p (fun j => 1/2 * (v i * A i j * v j)) + rsum p (fun j => 1/2 * (v j * A j i * v i)))) by (intros i Hi; rewrite <- rsum_plus; apply rsum_ext; intros; field).
      rewrite rsum_plus, (rsum_swap p p (fun i j => 1/2 * (v j * A j i * v i))). rewrite <- rsum_plus. apply rsum_ext. intros i Hi. rewrite !rsum_scal. lra. }
    rewrite Q in T1. assert (0 <= rdot p v v) by (unfold rdot; apply rsum_nonneg; intros; apply Rle_0_sqr).
    assert (0 < t * rdot p v v) by lra. destruct (Rle_lt_dec t 0) as [C|C]; [|exact C]. exfalso. nra. }
  destruct (F Ht) as [P1 P2]. split; [exact Ht|]. split; [split; [exact S|intros u; apply P2]|]. intros u. apply P2.
Qed.
Lemma qf_unit p A k : (k < p)%nat -> qf p A (fun i => if Nat.eqb i k then 1 else 0) = A k k.
Proof.
  intros Hk. unfold qf. rewrite (rsum_ext p _ (fun i => if Nat.eqb i k then A k k else 0)).
  - apply (rsum_delta p k (fun _ => A k k)). exact Hk.
  - intros i Hi. destruct (Nat.eqb_spec i k) as [->|Hn].
    + rewrite (rsum_ext p _ (fun j => if Nat.eqb j k then A k k else 0)); [apply (rsum_delta p k (fun _ => A k k)); exact Hk|]. intros j Hj. destruct (Nat.eqb_spec j k) as [->|]; ring.
    + apply rsum_zero. intros j Hj. ring.
Qed.
Lemma pd_diag p A k : pd p A -> (k < p)%nat -> 0 < A k k.
Proof. intros [_ H] Hk. rewrite <- (qf_unit p A k Hk). apply H. exists k. rewrite Nat.eqb_refl. split; [exact Hk|lra]. Qed.

(** ** _perturb *)
(** the symmetric part of the noise, rescaled to the Frobenius norm of the covariance *)
Definition scaled_noise (p : nat) (C a : rmat) : rmat := fun i j => symm a i j * (sqrt (fro2 p C) / sqrt (fro2 p (symm a))).
Lemma fro2_pos p A : (exists i j, (i < p)%nat /\ (j < p)%nat /\ A i j <> 0) -> 0 < fro2 p A.
Proof.
  intros (i & j & Hi & Hj & H). assert (0 <= fro2 p A) by (unfold fro2; apply rsum_nonneg; intros; apply rsum_nonneg; intros; apply Rle_0_sqr).
  destruct (Req_dec (fro2 p A) 0) as [Z|]; [|lra]. exfalso. apply H.
  assert (Zi : rsum p (fun j => A i j * A i j) = 0) by (apply (rsum_pos_zero p (fun i => rsum p (fun j => A i j * A i j))); auto; intros; apply rsum_nonneg; intros; apply Rle_0_sqr).
  assert (Zj : A i j * A i j = 0) by (apply (rsum_pos_zero p (fun j => A i j * A i j)); auto; intros; apply Rle_0_sqr). apply Rmult_integral in Zj. tauto.
Qed.
Lemma fro2_scal p c A : fro2 p (fun i j => A i j * c) = c * c * fro2 p A.
Proof. unfold fro2. rewrite <- rsum_scal. apply rsum_ext. intros i Hi. rewrite <- rsum_scal. apply rsum_ext. intros. ring. Qed.
Lemma scaled_noise_norm p C a : 0 < fro2 p (symm a) -> 0 <= fro2 p C -> fro2 p (scaled_noise p C a) = fro2 p C.
Proof.
  intros H H0. unfold scaled_noise. rewrite fro2_scal. set (s := sqrt (fro2 p (symm a))). set (c := sqrt (fro2 p C)). assert (Es : s * s = fro2 p (symm a)) by (apply sqrt_sqrt; lra). assert (Ec : c * c = fro2 p C) by (apply sqrt_sqrt; lra).
  assert (Hs : 0 < s) by (apply sqrt_lt_R0; exact H). rewrite <- Es, <- Ec. field. lra.
Qed.
Definition inner2 (p : nat) (A B : rmat) : R := rsum p (fun i => rsum p (fun j => A i j * B i j)).
Lemma inner_trace p A B : sym p B -> rtrace p (rmul p A B) = inner2 p A B.
Proof. intros H. unfold rtrace, rmul, inner2. apply rsum_ext. intros i Hi. apply rsum_ext. intros j Hj. now rewrite (H j i). Qed.
Lemma inner_bound p A B e : Rabs e < 1 -> 0 < fro2 p A -> fro2 p B = fro2 p A -> 0 < fro2 p A + e * inner2 p A B.
Proof.
  intros He HA HB. assert (CS : forall s, (s = 1 \/ s = -1) -> 0 <= fro2 p A + s * inner2 p A B).
  { intros s Hs. assert (P : 0 <= rsum p (fun i => rsum p (fun j => (A i j + s * B i j) * (A i j + s * B i j)))) by (apply rsum_nonneg; intros; apply rsum_nonneg; intros; apply Rle_0_sqr).
    assert (E : rsum p (fun i => rsum p (fun j => (A i j + s * B i j) * (A i j + s * B i j))) = fro2 p A + 2 * s * inner2 p A B + s * s * fro2 p B).
    { unfold fro2, inner2. rewrite <- !rsum_scal, <- !rsum_plus. apply rsum_ext. intros i Hi. rewrite <- !rsum_scal, <- !rsum_plus. apply rsum_ext. intros; ring. }
    rewrite E, HB in P. destruct Hs as [-> | ->]; lra. }
  pose proof (CS 1 (or_introl eq_refl)) as C1. pose proof (CS (-1) (or_intror eq_refl)) as C2. apply Rabs_def2 in He. destruct He as [H1 H2].
  destruct (Rle_dec 0 (inner2 p A B)); nra.
Qed.
(** For any amount of noise under 100% the perturbed matrix is positive definite with condition number at most 1000, whatever the noise. *)
Theorem C103_perturb (L : LinAlg NumX) p C a e : lawful L -> (1 <= p)%nat -> pd p C -> (exists i j, (i < p)%nat /\ (j < p)%nat /\ symm a i j <> 0) -> Rabs e < 1 ->
  exists M t, perturb_by L (fm p p C) (fm p p a) (Fin e) = Ok (fm p p M) /\ well_conditioned p M t.
Proof.
  intros HL Hp HC Ha He. assert (FA : 0 < fro2 p (symm a)) by (apply fro2_pos, Ha).
  assert (FC : 0 < fro2 p C) by (apply fro2_pos; exists 0%nat, 0%nat; split; [lia|]; split; [lia|]; pose proof (pd_diag p C 0 HC ltac:(lia)); lra).
  set (E := scaled_noise p C a). assert (NE : fro2 p E = fro2 p C) by (apply scaled_noise_norm; lra).
  assert (SE : sym p E) by (intros i j Hi Hj; unfold E, scaled_noise, symm; ring_simplify; field; assert (0 < sqrt (fro2 p (symm a))) by (apply sqrt_lt_R0; exact FA); unfold symm in *; lra).
  destruct (project_pos L p (fun i j => C i j + e * E i j) HL Hp) as (t & M & E1 & W).
  - destruct (classic (exists v, 0 < qf p (fun i j => C i j + e * E i j) v)) as [Y|Nx]; [exact Y|exfalso].
    assert (PS : psd p (fun i j => - (C i j + e * E i j))).
    { split; [intros i j Hi Hj; rewrite (proj1 HC i j), (SE i j) by auto; reflexivity|]. intros v. rewrite (qf_ext p _ (fun i j => -1 * (C i j + e * E i j)) v v) by (try intros ? ? _ _; try intros; ring). rewrite (qf_scal p (-1) (fun i j => C i j + e * E i j) v).
      destruct (Rle_lt_dec (qf p (fun i j => C i j + e * E i j) v) 0); [lra|exfalso; apply Nx; eauto]. }
    pose proof (trace_pd_psd p C _ HC PS) as TR. rewrite inner_trace in TR by apply PS.
    assert (EQ : inner2 p C (fun i j => - (C i j + e * E i j)) = - (fro2 p C + e * inner2 p C E)).
    { unfold inner2, fro2. rewrite <- rsum_scal, <- rsum_plus. replace (- rsum p _) with (-1 * rsum p (fun i => rsum p (fun j => C i j * C i j) + e * rsum p (fun j => C i j * E i j))) by ring. rewrite <- rsum_scal. apply rsum_ext. intros i Hi.
      rewrite <- rsum_scal, <- rsum_plus, <- rsum_scal. apply rsum_ext. intros; ring. }
    pose proof (inner_bound p C E e He FC NE). lra.
  - exists M, t. split; [|exact W]. unfold perturb_by. rewrite to_symmetric_fin. cbn [bind]. rewrite !AssessReal.mnorm_fin. fold (fro2 p C). change (rsum p (fun i => rsum p (fun j => (a i j + a j i) / 2 * ((a i j + a j i) / 2)))) with (fro2 p (symm a)).
    assert (0 < sqrt (fro2 p (symm a))) by (apply sqrt_lt_R0; exact FA). rewrite div_fin by lra. rewrite (mmap_fin p p _ _ E) by (intros; reflexivity). rewrite mscale_fin, madd_fin. cbn [bind]. exact E1.
Qed.
(** At 100% it is not: noise opposite to the covariance gives the zero matrix, for which there is no inverse. *)
Theorem C103_perturb_at_one (L : LinAlg NumX) p C : lawful L -> (1 <= p)%nat -> pd p C ->
  perturb_by L (fm p p C) (fm p p (fun i j => - C i j)) (Fin 1) = Ok (fm p p (fun _ _ => 0)).
Proof.
  intros HL Hp HC. assert (FC : 0 < fro2 p C) by (apply fro2_pos; exists 0%nat, 0%nat; split; [lia|]; split; [lia|]; pose proof (pd_diag p C 0 HC ltac:(lia)); lra).
  assert (FA : fro2 p (symm (fun i j => - C i j)) = fro2 p C) by (unfold fro2; apply rsum_ext; intros i Hi; apply rsum_ext; intros j Hj; unfold symm; rewrite (proj1 HC j i) by auto; field).
  assert (Hs : 0 < sqrt (fro2 p C)) by (apply sqrt_lt_R0; exact FC).
  unfold perturb_by. rewrite to_symmetric_fin. cbn [bind]. rewrite !AssessReal.mnorm_fin. fold (fro2 p C). change (rsum p (fun i => rsum p (fun j => (- C i j + - C j i) / 2 * ((- C i j + - C j i) / 2)))) with (fro2 p (symm (fun i j => - C i j))).
  rewrite FA, div_fin by lra. rewrite (mmap_fin p p _ _ (fun i j => - C i j)).
  - rewrite mscale_fin, madd_fin. cbn [bind]. destruct (C95_project_pd L p (fun i j => C i j + 1 * - C i j) HL Hp) as (t & M & -> & _ & (_ & w & W1 & W2) & _ & _ & _ & H). f_equal. apply fm_ext.
    assert (T0 : t = 0). { rewrite <- W2. unfold qf, symm. apply rsum_zero. intros i Hi. apply rsum_zero. intros j Hj. field. }
    rewrite T0 in H. intros i j Hi Hj. rewrite (H (Rle_refl 0) i j Hi Hj). unfold Rdiv. ring.
  - intros i j Hi Hj. rewrite mul_fin. apply (f_equal Fin). rewrite (proj1 HC j i) by auto. field. lra.
Qed.

(** ** What is asked of the generator and of np.linalg.qr *)
(** Draws have the documented shapes; the normal draws are not degenerate (which has probability one): square noise is not antisymmetric and no direction
    is zero; [multivariate_normal] accepts every positive semidefinite covariance. *)
Record fair_power (P : PowerRand NumX) : Prop := mkFairPower {
  fp_fair : fair (pr_rand P);
  fp_noise : forall p s, (1 <= p)%nat -> exists A i j, fst (r_normal (pr_rand P) p p s) = fm p p A /\ (i < p)%nat /\ (j < p)%nat /\ symm A i j <> 0;
  fp_rows : forall n p s, (1 <= p)%nat -> exists B, fst (r_normal (pr_rand P) n p s) = fm n p B /\ forall i, (i < n)%nat -> exists j, (j < p)%nat /\ B i j <> 0;
  fp_mvn : forall p T n s, (1 <= p)%nat -> psd p T -> exists xs s', r_mvn (pr_rand P) (fm p p T) n s = Ok (map (fv p) xs, s') /\ length xs = n;
  fp_gauss : forall sd n s, exists z, fst (pr_gauss P (Fin sd) n s) = fv n z;
  fp_perm : forall p s, Permutation (fst (pr_permutation P p s)) (seq 0 p);
  fp_choice : forall n s, (1 <= n)%nat -> (fst (r_choice (pr_rand P) n s) < n)%nat }.
(** the columns of [Q] (p x k) are orthonormal *)
Definition orthonormal (p k : nat) (Q : rmat) : Prop := meq k k (rmul p (rT Q) Q) rI.
(** The thin QR factorisation: min(p, k) orthonormal columns; when there are p of them the matrix is orthogonal *)
Definition qr_thin (np_qr : mat NumX -> res (mat NumX)) : Prop :=
  forall p k A, (1 <= p)%nat -> (1 <= k)%nat -> exists Q, np_qr (fm p k A) = Ok (fm p (Nat.min p k) Q) /\ orthonormal p (Nat.min p k) Q /\ ((p <= k)%nat -> orth p Q).

Section Contests.
Context (L : LinAlg NumX) (HL : lawful L) (P : PowerRand NumX) (HP : fair_power P).
Notation G := (pr_rand P).

Lemma spd_factor_gen p : (1 <= p)%nat -> generates (spd_factor P p) p (3 / 10).
Proof.
  intros Hp. unfold generates, spd_factor. pose proof (fp_fair P HP) as HR.
  apply (total_bind (fun M => exists B, M = fm p 3 B)); [apply total_draw; intros g; apply (fair_normal G HR)|]. intros B0 (B & ->).
  refine (total_bind _ _ _ _ (uniform_total G HR (3/10) (12/10) p _ _ _ _ _) _); [rewrite nlit_fin; f_equal; cbn; lra|rewrite nlit_fin; f_equal; cbn; lra|lra|]. intros d0 (d & -> & Hd).
  apply total_lift. eexists. split; [apply three_factor_fin; lia|]. eexists. split; [reflexivity|]. apply psd_plus_floor; [apply psd_gram|]. apply diag_floor. intros i Hi. apply Hd, Hi.
Qed.
Lemma perturb_total p C e : (1 <= p)%nat -> pd p C -> Rabs e < 1 -> total (fun M => exists A t, M = fm p p A /\ well_conditioned p A t) (perturb L P (fm p p C) (Fin e)).
Proof.
  intros Hp HC He. unfold perturb. apply (total_bind (fun M => exists A i j, M = fm p p A /\ (i < p)%nat /\ (j < p)%nat /\ symm A i j <> 0)).
  - apply total_draw. intros g. rewrite fm_nrows. replace (ncols (fm p p C)) with p by (symmetry; apply fm_ncols; lia). now apply (fp_noise P HP).
  - intros a0 (a & i & j & -> & Hi & Hj & Ha). apply total_lift. destruct (C103_perturb L p C a e HL Hp HC) as (M & t & E & W); [eauto|exact He|]. exists (fm p p M). split; [exact E|]. eauto.
Qed.
(** The truth is positive definite, the two estimates have condition numbers of at most 1000, the first one is at least as close to the truth in
    Kullback-Leibler divergence, and the gap is the difference. *)
Definition fair_contest (p : nat) (c : contest (N := NumX)) : Prop := exists T A B Ai Bi ta tb,
  c = mkContest (fm p p T) (fm p p A) (fm p p B) (Fin (kl_of p Bi B T - kl_of p Ai A T)) /\ bounded_below p (3 / 10) T /\ well_conditioned p A ta /\ well_conditioned p B tb /\
  inverse p A Ai /\ inverse p B Bi /\ kl_of p Ai A T <= kl_of p Bi B T.
Theorem C103_perturbed_contest p eg eb : (1 <= p)%nat -> Rabs eg < 1 -> Rabs eb < 1 -> total (fair_contest p) (perturbed_contest L P p (Fin eg) (Fin eb)).
Proof.
  intros Hp He1 He2. unfold perturbed_contest. refine (total_bind _ _ _ _ (spd_factor_gen p Hp) _). intros T0 (T & -> & HT). assert (PT : pd p T) by (apply (bb_pd p (3/10)); [lra|exact HT]).
  refine (total_bind _ _ _ _ (perturb_total p T eg Hp PT He1) _). intros A0 (A & ta & -> & WA).
  refine (total_bind _ _ _ _ (perturb_total p T eb Hp PT He2) _). intros B0 (B & tb & -> & WB).
  apply total_lift. pose proof (wc_pd p A ta WA) as PA. pose proof (wc_pd p B tb WB) as PB.
  destruct (C95_divergence L p T A HL Hp PA PT) as (Ai & IA & EA & _). destruct (C95_divergence L p T B HL Hp PB PT) as (Bi & IB & EB & _).
  unfold kl_contest. rewrite EA. cbn [bind]. rewrite EB. cbn [bind]. rewrite leb_fin, sub_fin, abs_fin. unfold Rleb. destruct (Rle_dec (kl_of p Ai A T) (kl_of p Bi B T)) as [Le|Gt].
  - eexists. split; [reflexivity|]. exists T, A, B, Ai, Bi, ta, tb. split; [|tauto]. do 2 f_equal. rewrite Rabs_left1; lra.
  - eexists. split; [reflexivity|]. exists T, B, A, Bi, Ai, tb, ta. split; [|split; [exact HT|]; split; [exact WB|]; split; [exact WA|]; split; [exact IB|]; split; [exact IA|lra]]. do 2 f_equal. rewrite Rabs_right; lra.
Qed.

(** *** Noisy tails *)
Lemma from_spectrum_fin p Q l : (1 <= p)%nat -> from_spectrum (N := NumX) (fm p p Q) (fv p l) = Ok (fm p p (spec p Q l)).
Proof. intros H. unfold from_spectrum. rewrite rows_vmul_fin. cbn [bind]. rewrite transpose_sq_fin, matmul_fin by lia. reflexivity. Qed.
Definition glue (n : nat) (f g : nat -> R) : nat -> R := fun i => if Nat.ltb i n then f i else g (i - n)%nat.
Lemma fv_glue n m f g : fv n f ++ fv m g = fv (n + m) (glue n f g).
Proof.
  unfold fv. rewrite tab_app. f_equal; apply tab_ext; intros i Hi; unfold glue.
  - destruct (Nat.ltb_spec i n); [reflexivity|lia].
  - destruct (Nat.ltb_spec (n + i) n); [lia|]. do 2 f_equal. lia.
Qed.
(** The estimates have the eigenvectors of the truth; no eigenvalue is under 1/10000; the first one has the smaller error over the leading eigenvalues. *)
Definition bulk_error (bulk : nat) (lam l : nat -> R) : R := sqrt (rsum bulk (fun i => (l i - lam i) * (l i - lam i))).
Definition fair_tail (p bulk : nat) (lam : nat -> R) (tl : R) (c : contest (N := NumX)) : Prop := exists Q la lb,
  orth p Q /\ c = mkContest (fm p p (spec p Q (glue bulk lam (fun _ => tl)))) (fm p p (spec p Q la)) (fm p p (spec p Q lb)) (Fin (bulk_error bulk lam lb - bulk_error bulk lam la)) /\
  (forall i, (i < p)%nat -> 1 / 10000 <= la i /\ 1 / 10000 <= lb i) /\ (forall i, (i < bulk)%nat -> 1 / 20 <= la i /\ 1 / 20 <= lb i) /\ bulk_error bulk lam la <= bulk_error bulk lam lb.
Definition finite_exp (exp : NumX -> NumX) : Prop := forall x, exists y, exp (Fin x) = Fin y.
Lemma noisy_estimate_total exp p Q bulk lam tl sig sigt : finite_exp exp -> (1 <= p)%nat -> (bulk <= p)%nat ->
  total (fun r => exists l, r = (fm p p (spec p Q l), Fin (bulk_error bulk lam l)) /\ (forall i, (i < p)%nat -> 1 / 10000 <= l i) /\ forall i, (i < bulk)%nat -> 1 / 20 <= l i)
    (noisy_estimate exp P (fm p p Q) (fv bulk lam) (p - bulk) (Fin tl) (Fin sig) (Fin sigt)).
Proof.
  intros HX Hp Hb. unfold noisy_estimate. rewrite fv_length.
  apply (total_bind (fun v => exists z, v = fv bulk z)); [apply total_draw; intros g; apply (fp_gauss P HP)|]. intros z0 (z & ->).
  assert (E5 : @nlit NumX 5 2 = Fin (1 / 20)) by (rewrite nlit_fin; apply (f_equal Fin); cbn; lra). assert (E4 : @nlit NumX 1 4 = Fin (1 / 10000)) by (rewrite nlit_fin; apply (f_equal Fin); cbn; lra).
  set (b := fun i => Rmax (lam i * (1 + z i)) (1 / 20)).
  assert (EB : noisy_bulk (N := NumX) (fv bulk lam) (fv bulk z) = Ok (fv bulk b)).
  { unfold noisy_bulk. rewrite (map_fin bulk (nadd n1) (fun i => 1 + z i)) by (intros; reflexivity). rewrite vmul_fin. cbn [bind]. f_equal. apply map_fin. intros i Hi. rewrite E5. apply np_clip_lo_fin. }
  rewrite EB. apply (total_bind (fun v => v = fv bulk b)); [apply total_lift; eauto|]. intros ? ->.
  apply (total_bind (fun v => exists z, v = fv (p - bulk) z)); [apply total_draw; intros g; apply (fp_gauss P HP)|]. intros zt0 (zt & ->).
  assert (ET : exists t, noisy_tail (N := NumX) exp (Fin tl) (fv (p - bulk) zt) = fv (p - bulk) t /\ forall i, 1 / 10000 <= t i).
  { exists (fun i => Rmax (tl * (match exp (Fin (zt i)) with Fin y => y | _ => 0 end)) (1 / 10000)). split; [|intros; apply Rmax_r]. unfold noisy_tail. apply map_fin. intros i Hi. destruct (HX (zt i)) as (y & ->). rewrite E4, mul_fin. apply np_max_fin. }
  destruct ET as (t & -> & Ht). set (l := glue bulk b t). rewrite fv_glue. replace (bulk + (p - bulk))%nat with p by lia. fold l. rewrite from_spectrum_fin by auto.
  apply (total_bind (fun v => v = fm p p (spec p Q l))); [apply total_lift; eauto|]. intros ? ->. rewrite vsub_fin. apply (total_bind (fun v => v = fv bulk (fun i => b i - lam i))); [apply total_lift; eauto|]. intros ? ->.
  assert (LB : forall i, (i < bulk)%nat -> l i = b i) by (intros i Hi; unfold l, glue; destruct (Nat.ltb_spec i bulk); [reflexivity|lia]).
  apply total_ret. exists l. split.
  - f_equal. rewrite vnorm_fin. apply (f_equal Fin). unfold bulk_error, rdot. f_equal. apply rsum_ext. intros i Hi. now rewrite LB.
  - assert (LB2 : forall i, (i < bulk)%nat -> 1 / 20 <= l i) by (intros i Hi; rewrite LB by auto; apply Rmax_r). split; [|exact LB2]. intros i Hi.
    destruct (Nat.lt_ge_cases i bulk) as [H|H]; [specialize (LB2 i H); lra|]. unfold l, glue. destruct (Nat.ltb_spec i bulk); [lia|]. apply Ht.
Qed.
Theorem C103_tail_contest exp np_qr p bulk lam tl sg sb st : finite_exp exp -> qr_lawful np_qr -> (1 <= p)%nat -> (bulk <= p)%nat ->
  total (fair_tail p bulk lam tl) (tail_contest exp np_qr P p (fv bulk lam) (p - bulk) (Fin tl) (Fin sg) (Fin sb) (Fin st)).
Proof.
  intros HX HQ Hp Hb. unfold tail_contest. apply (total_bind (fun M => exists A, M = fm p p A)); [apply total_draw; intros g; apply (fair_normal G (fp_fair P HP))|]. intros A0 (A & ->).
  apply (total_bind (fun M => exists Q, M = fm p p Q /\ orth p Q)); [apply total_lift; destruct (HQ p A Hp) as (Q & E & HO); eauto|]. intros Q0 (Q & -> & HO).
  refine (total_bind _ _ _ _ (noisy_estimate_total exp p Q bulk lam tl sg st HX Hp Hb) _). intros ra (la & -> & A1 & A2). cbv beta iota.
  refine (total_bind _ _ _ _ (noisy_estimate_total exp p Q bulk lam tl sb st HX Hp Hb) _). intros rb (lb & -> & B1 & B2). cbv beta iota.
  replace (repeat (Fin tl : NumX) (p - bulk)) with (fv (p - bulk) (fun _ => tl)) by (symmetry; apply repeat_tab). rewrite fv_glue. replace (bulk + (p - bulk))%nat with p by lia. rewrite from_spectrum_fin by auto.
  eapply total_bind; [apply total_lift; eexists; split; [reflexivity|exact (eq_refl _)]|]. intros ? <-. apply total_ret. rewrite leb_fin, sub_fin, abs_fin. unfold Rleb.
  destruct (Rle_dec (bulk_error bulk lam la) (bulk_error bulk lam lb)).
  - exists Q, la, lb. split; [exact HO|]. split; [do 2 f_equal; rewrite Rabs_left1; lra|]. split; [intros; auto|]. split; [intros; auto|lra].
  - exists Q, lb, la. split; [exact HO|]. split; [do 2 f_equal; rewrite Rabs_right; lra|]. split; [intros; auto|]. split; [intros; auto|lra].
Qed.
End Contests.

(** *** Groups *)
(** the equicorrelated groups, with noise between different groups *)
Definition grouped (gs : nat) (re sig : R) (n : rmat) : rmat :=
  fun i j => if Nat.eqb (i / gs) (j / gs) then (if Nat.eqb i j then 1 else re) else sig * symm n i j.
Definition zero_noise : rmat := fun _ _ => 0.
Lemma groups_nth g gs i d : (i < g * gs)%nat -> nth i (groups g gs) d = (i / gs)%nat.
Proof.
  unfold groups. assert (H : forall a g i, (i < g * gs)%nat -> nth i (concat (map (fun j => repeat j gs) (seq a g))) d = (a + i / gs)%nat).
  { clear. intros a g. revert a. induction g as [|g IH]; intros a i Hi; [lia|]. cbn [seq map concat]. destruct (Nat.lt_ge_cases i gs) as [H|H].
    - rewrite app_nth1 by now rewrite repeat_length. rewrite Nat.div_small by lia. rewrite (nth_indep _ d a) by now rewrite repeat_length. rewrite nth_repeat. lia.
    - rewrite app_nth2 by (rewrite repeat_length; lia). rewrite repeat_length, IH by (cbn in Hi; lia). replace i with ((i - gs) + 1 * gs)%nat at 2 by lia. rewrite Nat.div_add by (intros ->; lia). lia. }
  intros Hi. rewrite H by auto. reflexivity.
Qed.
Lemma groups_length g gs : length (groups g gs) = (g * gs)%nat.
Proof. unfold groups. generalize 0%nat. induction g as [|g IH]; intros a; [reflexivity|]. cbn [seq map concat]. rewrite app_length, repeat_length, IH. reflexivity. Qed.
Lemma within_fin p g gs re : p = (g * gs)%nat -> within (N := NumX) p g gs (Fin re) = fm p p (grouped gs re 0 zero_noise).
Proof.
  intros ->. unfold within, fm. apply tab2_ext. intros i j Hi Hj. destruct (Nat.ltb_spec i (g * gs)); [|lia]. destruct (Nat.ltb_spec j (g * gs)); [|lia]. cbn [andb]. unfold grouped, zero_noise, symm.
  destruct (Nat.eqb_spec (i / gs) (j / gs)); [|rewrite n0_fin; apply (f_equal Fin); lra]. rewrite n1_fin, n0_fin. destruct (Nat.eqb_spec i j); rewrite sub_fin, !mul_fin, add_fin; apply (f_equal Fin); ring.
Qed.
Lemma grouped_diag gs re sig n i : grouped gs re sig n i i = 1.
Proof. unfold grouped. now rewrite !Nat.eqb_refl. Qed.
Lemma grouped_project L p gs re sig n : lawful L -> (1 <= p)%nat -> exists M t, project_pd L (fm p p (grouped gs re sig n)) = Ok (fm p p M) /\ well_conditioned p M t.
Proof.
  intros HL Hp. destruct (project_pos L p (grouped gs re sig n) HL Hp) as (t & M & E & W); [|eauto]. exists (fun i => if Nat.eqb i 0 then 1 else 0). rewrite qf_unit by lia. rewrite grouped_diag. lra.
Qed.
(** *** The variables in another order *)
Lemma reorder_fin p perm A : Permutation perm (seq 0 p) -> reorder (N := NumX) perm (fm p p A) = fm p p (fun i j => A (nth i perm 0%nat) (nth j perm 0%nat)).
Proof.
  intros H. assert (Hl : length perm = p) by (rewrite (Permutation_length H); apply seq_length). unfold reorder, fm, tab2. rewrite (tab_nth' perm 0%nat p Hl) at 1. rewrite map_tab. apply tab_ext. intros i Hi.
  rewrite (tab_nth' perm 0%nat p Hl) at 1. rewrite map_tab. apply tab_ext. intros j Hj. apply (fm_get p p A).
  - assert (In (nth i perm 0%nat) (seq 0 p)) by (eapply Permutation_in; [exact H|apply nth_In; lia]). apply in_seq in H0. lia.
  - assert (In (nth j perm 0%nat) (seq 0 p)) by (eapply Permutation_in; [exact H|apply nth_In; lia]). apply in_seq in H0. lia.
Qed.
Lemma perm_reorders p perm : Permutation perm (seq 0 p) -> reorders p (fun i => nth i perm 0%nat).
Proof.
  intros H. assert (Hl : length perm = p) by (rewrite (Permutation_length H); apply seq_length). split.
  - intros i Hi. assert (In (nth i perm 0%nat) (seq 0 p)) by (eapply Permutation_in; [exact H|apply nth_In; lia]). apply in_seq in H0. lia.
  - intros i j Hi Hj E. apply (proj1 (NoDup_nth perm 0%nat)); [|lia|lia|exact E]. eapply Permutation_NoDup; [apply Permutation_sym, H|apply seq_NoDup].
Qed.
Lemma wc_reorder p sg A t : reorders p sg -> well_conditioned p A t -> well_conditioned p (fun i j => A (sg i) (sg j)) t.
Proof.
  intros HS (Ht & [SA HB] & HU). assert (K : forall v, exists w, qf p (fun i j => A (sg i) (sg j)) v = qf p A w /\ rdot p v v = rdot p w w).
  { intros v. set (w := fun k => rsum p (fun i => if Nat.eqb (sg i) k then v i else 0)). exists w.
    assert (EW : forall i, (i < p)%nat -> w (sg i) = v i).
    { intros i Hi. unfold w. rewrite (rsum_ext p _ (fun j => if Nat.eqb j i then v j else 0)); [now apply rsum_delta|]. intros j Hj.
      destruct (Nat.eqb_spec (sg j) (sg i)) as [E|E], (Nat.eqb_spec j i) as [E'|E']; auto; [exfalso; apply E'; now apply (proj2 HS)|subst; congruence]. }
    split.
    - unfold qf. rewrite <- (rsum_perm p sg HS (fun i => rsum p (fun j => w i * A i j * w j))). apply rsum_ext. intros i Hi. rewrite <- (rsum_perm p sg HS (fun j => w (sg i) * A (sg i) j * w j)). apply rsum_ext. intros j Hj. now rewrite !EW.
    - unfold rdot. rewrite <- (rsum_perm p sg HS (fun i => w i * w i)). apply rsum_ext. intros i Hi. now rewrite EW. }
  split; [exact Ht|]. split; [split|].
  - intros i j Hi Hj. apply SA; now apply (proj1 HS).
  - intros v. destruct (K v) as (w & -> & ->). apply HB.
  - intros v. destruct (K v) as (w & -> & ->). apply HU.
Qed.

Section Groups.
Context (L : LinAlg NumX) (HL : lawful L) (P : PowerRand NumX) (HP : fair_power P).
Notation G := (pr_rand P).
(** [A] is the nearest well-conditioned matrix of groups of size [gs] with correlation [re] and some noise between groups, reordered by [sg]. *)
Definition group_estimate (p gs : nat) (sg : nat -> nat) (sig re : R) (A : rmat) : Prop := exists n M,
  project_pd L (fm p p (grouped gs re sig n)) = Ok (fm p p M) /\ A = (fun i j => M (sg i) (sg j)).
Definition fair_groups (p gs : nat) (rho eg eb sig : R) (c : contest (N := NumX)) : Prop := exists sg T A B tt ta tb ra rb,
  reorders p sg /\ c = mkContest (fm p p T) (fm p p A) (fm p p B) (Fin (Rabs (rb - rho) - Rabs (ra - rho))) /\
  well_conditioned p T tt /\ well_conditioned p A ta /\ well_conditioned p B tb /\
  group_estimate p gs sg 0 rho T /\ group_estimate p gs sg sig ra A /\ group_estimate p gs sg sig rb B /\
  Rabs (ra - rho) <= Rabs (rb - rho) /\ Rabs (ra - rho) = Rmin (Rabs eg) (Rabs eb) /\ Rabs (rb - rho) = Rmax (Rabs eg) (Rabs eb).
Lemma noisy_groups_total p g gs rho e sig : p = (g * gs)%nat -> (1 <= p)%nat ->
  total (fun r => exists re n M t, r = (fm p p M, Fin (Rabs (re - rho))) /\ project_pd L (fm p p (grouped gs re sig n)) = Ok (fm p p M) /\ well_conditioned p M t /\ Rabs (re - rho) = Rabs e)
    (noisy_groups L P p g gs (Fin rho) (Fin e) (Fin sig)).
Proof.
  intros Ep Hp. unfold noisy_groups. apply (total_bind (fun s => s = (-1)%Z \/ s = 1%Z)).
  { intros g0. unfold choose, dbind, ddraw, dlift. cbn [length]. destruct (r_choice G 2 g0) as [i g1] eqn:EC. pose proof (fp_choice P HP 2 g0 ltac:(lia)) as Hc. rewrite EC in Hc. cbn [fst] in Hc.
    destruct i as [|[|i]]; [| |lia]; cbn [nth_error]; eexists _, _; (split; [reflexivity|auto]). }
  intros s Hs. apply (total_bind (fun M => exists A, M = fm p p A)); [apply total_draw; intros g0; apply (fair_normal G (fp_fair P HP))|]. intros A0 (A & ->).
  rewrite to_symmetric_fin. eapply total_bind; [apply total_lift; eexists; split; [reflexivity|exact (eq_refl _)]|]. intros ? <-. rewrite nofZ_fin, mul_fin, add_fin.
  set (re := rho + IZR s * e). rewrite within_fin by exact Ep. rewrite <- Ep, check_shape_fin. apply (total_bind (fun _ => True)); [apply total_lift; eauto|]. intros _ _.
  assert (EM : tab2 p p (fun i j => if cross_of (groups g gs) i j then @nadd NumX (mget (fm p p (grouped gs re 0 zero_noise)) i j) (@nmul NumX (Fin sig) (mget (fm p p (fun i j => (A i j + A j i) / 2)) i j)) else mget (fm p p (grouped gs re 0 zero_noise)) i j) = fm p p (grouped gs re sig A)).
  { unfold fm at 4. apply tab2_ext. intros i j Hi Hj. rewrite !fm_get by auto. unfold cross_of. rewrite !groups_nth by lia. unfold grouped at 3. destruct (Nat.eqb_spec (i / gs) (j / gs)) as [E|E]; cbn [negb].
    - unfold grouped. rewrite E, Nat.eqb_refl. reflexivity.
    - rewrite mul_fin, add_fin. apply (f_equal Fin). unfold grouped, zero_noise, symm. destruct (Nat.eqb_spec (i / gs) (j / gs)); [congruence|]. field. }
  match goal with |- context [project_pd L ?m] => replace m with (fm p p (grouped gs re sig A)) by (symmetry; exact EM) end.
  destruct (grouped_project L p gs re sig A HL Hp) as (M & t & E & W). rewrite E. eapply total_bind; [apply total_lift; eexists; split; [reflexivity|exact (eq_refl _)]|]. intros ? <-. apply total_ret. exists re, A, M, t.
  split; [rewrite sub_fin, abs_fin; reflexivity|]. split; [exact E|]. split; [exact W|]. unfold re. destruct Hs as [-> | ->]; [|f_equal; ring]. rewrite <- (Rabs_Ropp e). f_equal. ring.
Qed.
Theorem C103_group_contest p g gs rho eg eb sig : p = (g * gs)%nat -> (1 <= p)%nat ->
  total (fair_groups p gs rho eg eb sig) (group_contest L P p g gs (Fin rho) (Fin eg) (Fin eb) (Fin sig)).
Proof.
  intros Ep Hp. unfold group_contest. apply (total_bind (fun q => Permutation q (seq 0 p))); [apply total_draw; intros g0; apply (fp_perm P HP)|]. intros perm Hq.
  refine (total_bind _ _ _ _ (noisy_groups_total p g gs rho eg sig Ep Hp) _). intros a0 (ra & na & A & ta & -> & EA & WA & XA). cbv beta iota.
  refine (total_bind _ _ _ _ (noisy_groups_total p g gs rho eb sig Ep Hp) _). intros b0 (rb & nb & B & tb & -> & EB & WB & XB). cbv beta iota.
  rewrite within_fin by exact Ep. destruct (grouped_project L p gs rho 0 zero_noise HL Hp) as (T & tt & ET & WT). rewrite ET. eapply total_bind; [apply total_lift; eexists; split; [reflexivity|exact (eq_refl _)]|]. intros ? <-. apply total_ret.
  pose proof (perm_reorders p perm Hq) as HS. set (sg := fun i => nth i perm 0%nat) in *. rewrite leb_fin, sub_fin, abs_fin. unfold Rleb. destruct (Rle_dec (Rabs (ra - rho)) (Rabs (rb - rho))) as [Le|Gt].
  - exists sg, (fun i j => T (sg i) (sg j)), (fun i j => A (sg i) (sg j)), (fun i j => B (sg i) (sg j)), tt, ta, tb, ra, rb. split; [exact HS|]. split; [rewrite !reorder_fin by exact Hq; f_equal; apply (f_equal Fin); rewrite Rabs_left1; lra|].
    split; [now apply wc_reorder|]. split; [now apply wc_reorder|]. split; [now apply wc_reorder|]. split; [exists zero_noise, T; auto|]. split; [exists na, A; auto|]. split; [exists nb, B; auto|]. split; [exact Le|]. rewrite <- XA, <- XB. rewrite Rmin_left, Rmax_right by lra. auto.
  - exists sg, (fun i j => T (sg i) (sg j)), (fun i j => B (sg i) (sg j)), (fun i j => A (sg i) (sg j)), tt, tb, ta, rb, ra. split; [exact HS|]. split; [rewrite !reorder_fin by exact Hq; f_equal; apply (f_equal Fin); rewrite Rabs_right; lra|].
    split; [now apply wc_reorder|]. split; [now apply wc_reorder|]. split; [now apply wc_reorder|]. split; [exists zero_noise, T; auto|]. split; [exists nb, B; auto|]. split; [exists na, A; auto|]. split; [lra|]. rewrite <- XA, <- XB. rewrite Rmin_right, Rmax_left by lra. auto.
Qed.
End Groups.

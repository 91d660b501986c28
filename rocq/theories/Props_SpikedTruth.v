(** * C98: the spiked truth and the two candidates of research/schur_godambe.py, and the packaging of [snr_delta] *)
From Coq Require Import Reals ZArith List Lia Lra Arith Bool Classical.
From Verif Require Import Num Numpy ListLemmas RMat LinSpec Fin RealSpec EwaReal EmpFacts ShrinkReal Spectral MatAlg Det Contracts LinalgReal AssessReal GaussSpec GaussReal
  ResearchSpec ResearchReal ResearchModel Props_Research ResearchRun ResearchTwo Props_ResearchBlocks ResearchOp Props_Godambe SpikedModel Props_Spiked Props_SpikedVar.
Import ListNotations.
Local Open Scope R_scope.

(** ** The truth *)
Definition two_levels (k : nat) (s b : R) : nat -> R := fun i => if Nat.ltb i k then s else b.
Lemma repeat_tab {A} n (x : A) : repeat x n = tab n (fun _ => x).
Proof. induction n; [reflexivity|]. cbn [repeat]. rewrite tab_S, IHn. reflexivity. Qed.
Lemma evals_fin p k s b : (k <= p)%nat -> (repeat (Fin s : NumX) k ++ repeat (Fin b : NumX) (p - k))%list = fv p (two_levels k s b).
Proof.
  intros H. unfold fv. replace p with (k + (p - k))%nat at 2 by lia. rewrite tab_app, !repeat_tab. f_equal; apply tab_ext; intros i Hi; unfold two_levels.
  - now destruct (Nat.ltb_spec i k); [|lia].
  - now destruct (Nat.ltb_spec (k + i) k); [lia|].
Qed.
(** The truth returned is Q diag(spike, ..., spike, bulk, ..., bulk) Q^T, with the eigenvalues returned beside it; it is positive definite
    when both levels are positive, and asking for more spikes than variables raises ValueError. *)
Theorem C98_spiked (Q : rmat) p k s b : (1 <= p)%nat -> orth p Q ->
  ((k <= p)%nat -> exists T, spiked (N := NumX) (fm p p Q) k (Fin s) (Fin b) = Ok (fm p p T, fv p (two_levels k s b)) /\ eig_of p T Q (two_levels k s b) /\
     sym p T /\ (forall lo, lo <= s -> lo <= b -> bounded_below p lo T) /\ (0 < s -> 0 < b -> pd p T)) /\
  ((p < k)%nat -> spiked (N := NumX) (fm p p Q) k (Fin s) (Fin b) = Err ValueError).
Proof.
  intros Hp HQ. split.
  - intros Hk. exists (spec p Q (two_levels k s b)). pose proof (spec_sym p Q (two_levels k s b)) as SS.
    assert (BB : forall lo, lo <= s -> lo <= b -> bounded_below p lo (spec p Q (two_levels k s b))) by (intros lo H1 H2; apply spec_bb; [exact HQ|]; intros i _; unfold two_levels; destruct (Nat.ltb i k); lra).
    split; [|split; [|split; [|split]]]; auto.
    + unfold spiked. rewrite fm_nrows. destruct (Nat.ltb_spec p k); [lia|]. rewrite evals_fin by auto. rewrite rows_vmul_fin. cbn [bind]. rewrite transpose_sq_fin, matmul_fin by auto. cbn [bind].
      change (rmul p (fun i j => Q i j * two_levels k s b j) (rT Q)) with (spec p Q (two_levels k s b)). rewrite half_sym_fin. cbn [bind]. do 2 f_equal. apply fm_ext. intros i j Hi Hj. rewrite (SS i j Hi Hj). lra.
    + split; [exact HQ|]. reflexivity.
    + intros H1 H2. split; [exact SS|]. intros v Hv. destruct (BB (Rmin s b) (Rmin_l _ _) (Rmin_r _ _)) as [_ B]. specialize (B v). pose proof (rdot_pos p v Hv).
      assert (0 < Rmin s b) by (apply Rmin_glb_lt; auto). assert (0 < Rmin s b * rdot p v v) by (apply Rmult_lt_0_compat; auto). lra.
  - intros Hk. unfold spiked. rewrite fm_nrows. now destruct (Nat.ltb_spec p k); [|lia].
Qed.

(** ** A matrix of Frobenius norm f moves a quadratic form by at most f |v|^2 *)
Definition fro_sq (p : nat) (A : rmat) : R := rsum p (fun i => rsum p (fun j => A i j * A i j)).
Lemma fro_sq_nonneg p A : 0 <= fro_sq p A.
Proof. apply rsum_nonneg. intros. apply rsum_nonneg. intros. apply Rle_0_sqr. Qed.
Lemma qf_fro p A v : Rabs (qf p A v) <= sqrt (fro_sq p A) * rdot p v v.
Proof.
  assert (H1 : rdot p (rapp p A v) (rapp p A v) <= fro_sq p A * rdot p v v).
  { unfold rdot at 1, fro_sq. rewrite (Rmult_comm _ (rdot p v v)), <- rsum_scal. apply rsum_le. intros i Hi. pose proof (rdot_cauchy p (A i) v) as C. unfold rapp. unfold rdot in C at 1 2. unfold rdot in *. lra. }
  pose proof (rdot_cauchy p v (rapp p A v)) as C. rewrite <- qf_app in C. pose proof (rdot_nonneg p v) as N. pose proof (fro_sq_nonneg p A) as F.
  apply Rsqr_incr_0_var; [|apply Rmult_le_pos; [apply sqrt_pos|exact N]]. rewrite <- Rsqr_abs. unfold Rsqr.
  replace (sqrt (fro_sq p A) * rdot p v v * (sqrt (fro_sq p A) * rdot p v v)) with ((sqrt (fro_sq p A) * sqrt (fro_sq p A)) * (rdot p v v * rdot p v v)) by ring. rewrite sqrt_sqrt by exact F.
  assert (rdot p v v * rdot p (rapp p A v) (rapp p A v) <= rdot p v v * (fro_sq p A * rdot p v v)) by (apply Rmult_le_compat_l; auto). lra.
Qed.

(** ** The two candidates *)
Lemma skip_cols p q k F : (k <= q)%nat -> map (skipn k) (fm p q F) = fm p (q - k) (fun i j => F i (k + j)%nat).
Proof.
  intros H. unfold fm, tab2. rewrite map_tab. apply tab_ext. intros i Hi. replace q with (k + (q - k))%nat at 1 by lia. rewrite tab_app, skipn_app, skipn_all2 by (rewrite tab_length; lia).
  rewrite tab_length, Nat.sub_diag. reflexivity.
Qed.
Lemma lit_04 : @nlit NumX 4 1 = Fin (2 / 5).
Proof. rewrite nlit_fin. f_equal. cbn. lra. Qed.
(** the noise columns of Q *)
Definition tail_cols (Q : rmat) : rmat := fun i j => Q i (3 + j)%nat.
Lemma tail_orth p Q : (4 <= p)%nat -> orth p Q -> meq (p - 3) (p - 3) (rmul p (rT (tail_cols Q)) (tail_cols Q)) rI.
Proof. intros Hp [H _] i j Hi Hj. pose proof (H (3 + i)%nat (3 + j)%nat ltac:(lia) ltac:(lia)) as E. unfold rmul, rT, rI in *. unfold tail_cols. rewrite E. reflexivity. Qed.
(** For a well-formed call (at least four variables, noise matrix G0 whose symmetric part is not zero) the two candidates are
    T + eps_a P and T + eps_b P for one symmetric P of Frobenius norm 1 that annihilates the three spike directions and leaves the noise
    subspace invariant.  Candidates nearer than 0.4 are positive definite with least eigenvalue at least 0.4 - eps, and of two of them on
    the same side the nearer one has the strictly smaller divergence from the truth. *)
Theorem C98_noise_pair (L : LinAlg NumX) p (Q G0 : rmat) ea eb : lawful L -> (4 <= p)%nat -> orth p Q ->
  (exists i j, (i < p - 3)%nat /\ (j < p - 3)%nat /\ G0 i j + G0 j i <> 0) ->
  exists T P, noise_subspace_pair (N := NumX) (fm p p Q) (fm (p - 3) (p - 3) G0) (Fin ea) (Fin eb) = Ok (fm p p T, fm p p (along T P ea), fm p p (along T P eb)) /\
    eig_of p T Q (two_levels 3 12 (2 / 5)) /\ sym p P /\ fro_sq p P = 1 /\
    (forall k, (k < 3)%nat -> veq p (rapp p P (fun i => Q i k)) (fun _ => 0)) /\
    (forall e, 0 <= e -> bounded_below p (2 / 5 - e) (along T P e) /\ bounded_below p (2 / 5 - e) (along T P (- e))) /\
    (0 <= ea < eb -> eb < 2 / 5 -> exists ka kb, kl L (fm p p (along T P ea)) (fm p p T) = Ok (Fin ka) /\ kl L (fm p p (along T P eb)) (fm p p T) = Ok (Fin kb) /\ 0 <= ka < kb).
Proof.
  intros HL Hp HQ (i0 & j0 & Hi0 & Hj0 & NZ). destruct (C98_spiked Q p 3 12 (2 / 5) ltac:(lia) HQ) as [H _]. destruct (H ltac:(lia)) as (T & ET & HE & ST & BT & PT). clear H.
  set (q := (p - 3)%nat) in *. set (V := tail_cols Q). set (G := fun i j => 1 / 2 * (G0 i j + G0 j i)). set (P0 := rmul q (rmul q V G) (rT V)).
  assert (SG : forall i j, G i j = G j i) by (intros; unfold G; ring).
  assert (SP0 : forall i j, P0 i j = P0 j i).
  { intros i j. unfold P0. rewrite rmul_assoc. unfold rmul, rT. rewrite (rsum_ext q _ (fun k => rsum q (fun l => V i k * (G k l * V j l)))) by (intros; now rewrite rsum_scal).
    apply rsum_ext. intros l _. rewrite <- rsum_scal_r. apply rsum_ext. intros k _. rewrite (SG k l). ring. }
  assert (VO : meq q q (rmul p (rT V) V) rI) by (apply tail_orth; auto).
  assert (VGV : meq q q (rmul p (rT V) (rmul p P0 V)) G).
  { intros i j Hi Hj. unfold P0. rewrite (rmul_ext p q q (rT V) (rT V) _ (rmul q V G) (meq_refl _ _ _)); auto.
    - rewrite <- rmul_assoc. rewrite (rmul_ext q q q _ rI G G VO (meq_refl _ _ _)) by auto. now apply rmul_I_l.
    - intros a b Ha Hb. rewrite rmul_assoc. rewrite (rmul_ext q p q (rmul q V G) (rmul q V G) _ rI (meq_refl _ _ _) VO) by auto. now apply rmul_I_r. }
  assert (F0 : 0 < fro_sq p P0).
  { destruct (Rle_lt_or_eq_dec 0 _ (fro_sq_nonneg p P0)) as [|E]; [assumption|exfalso]. apply NZ. assert (EG : G i0 j0 = 0).
    { rewrite <- (VGV i0 j0 Hi0 Hj0). unfold rmul at 1. apply rsum_zero. intros a Ha. unfold rmul. rewrite (rsum_zero p); [ring|]. intros b Hb.
      assert (Z : P0 a b * P0 a b = 0). { apply (rsum_pos_zero p (fun j => P0 a j * P0 a j)); auto; [intros; apply Rle_0_sqr|]. apply (rsum_pos_zero p (fun i => rsum p (fun j => P0 i j * P0 i j))); auto. intros. apply rsum_nonneg. intros. apply Rle_0_sqr. }
      apply Rmult_integral in Z as [Z|Z]; rewrite Z; ring. }
    unfold G in EG. lra. }
  set (f := sqrt (fro_sq p P0)). assert (Hf : 0 < f) by (now apply sqrt_lt_R0). assert (ff : f * f = fro_sq p P0) by (apply sqrt_sqrt; lra).
  set (P := fun i j => P0 i j / f). exists T, P.
  assert (SP : sym p P) by (intros i j _ _; unfold P; now rewrite SP0).
  assert (FP : fro_sq p P = 1).
  { unfold fro_sq, P. rewrite (rsum_ext p _ (fun i => / (f * f) * rsum p (fun j => P0 i j * P0 i j))). 2:{ intros i _. rewrite <- rsum_scal. apply rsum_ext. intros. field. lra. }
    rewrite rsum_scal. fold (fro_sq p P0). rewrite ff. field. lra. }
  assert (BB : forall e, 0 <= e -> bounded_below p (2 / 5 - e) (along T P e) /\ bounded_below p (2 / 5 - e) (along T P (- e))).
  { intros e He. assert (QA : forall x v, qf p (along T P x) v = qf p T v + x * qf p P v) by (intros x v; unfold along; now rewrite qf_plus, qf_scal).
    assert (SA : forall x, sym p (along T P x)) by (intros x i j Hi Hj; unfold along; now rewrite (ST i j Hi Hj), (SP i j Hi Hj)).
    destruct (BT (2 / 5) ltac:(lra) ltac:(lra)) as [_ B].
    assert (K : forall v, Rabs (e * qf p P v) <= e * rdot p v v). { intros v. rewrite Rabs_mult, (Rabs_pos_eq e He). apply Rmult_le_compat_l; auto. pose proof (qf_fro p P v) as X. rewrite FP, sqrt_1 in X. lra. }
    split; (split; [apply SA|]); intros v; rewrite QA; specialize (B v); specialize (K v); pose proof (Rle_abs (e * qf p P v)); pose proof (Rle_abs (- (e * qf p P v))) as K2; rewrite Rabs_Ropp in K2; lra. }
  split; [|split; [exact HE|split; [exact SP|split; [exact FP|split; [|split; [exact BB|]]]]]].
  - unfold noise_subspace_pair. rewrite lit_04, nofZ_fin, ET. cbn [bind]. rewrite skip_cols by lia. rewrite half_sym_fin. cbn [bind]. fold q. change (fun i j => Q i (3 + j)%nat) with V. fold G.
    rewrite matmul_fin by (unfold q; lia). cbn [bind]. rewrite transpose_fin by lia. rewrite matmul_fin by (unfold q; lia). cbn [bind]. fold P0. rewrite mnorm_fin. fold (fro_sq p P0). fold f.
    rewrite mdivs_fin by lra. fold P. rewrite !mscale_fin, !madd_fin. reflexivity.
  - intros k Hk i Hi. unfold rapp. rewrite (rsum_ext p _ (fun j => / f * (P0 i j * Q j k))) by (intros; unfold P; field; lra). rewrite rsum_scal. replace (rsum p (fun j => P0 i j * Q j k)) with 0; [ring|].
    symmetry. change (rmul p P0 Q i k = 0). unfold P0. rewrite rmul_assoc. unfold rmul at 1. apply rsum_zero. intros a Ha. replace (rmul p (rT V) Q a k) with 0; [ring|].
    unfold q in Ha. pose proof (proj1 HQ (3 + a)%nat k ltac:(lia) ltac:(lia)) as E. unfold rI in E. destruct (Nat.eqb_spec (3 + a) k); [lia|]. symmetry. exact E.
  - intros He Heb. assert (PD : forall e, 0 <= e < 2 / 5 -> pd p (along T P e)).
    { intros e Hee. destruct (BB e ltac:(lra)) as [[S1 B] _]. split; [exact S1|]. intros v Hv. specialize (B v). pose proof (rdot_pos p v Hv). assert (0 < (2 / 5 - e) * rdot p v v) by (apply Rmult_lt_0_compat; lra). lra. }
    destruct (C98_divergence_along_a_line L p T P ea eb HL ltac:(lia) (PT ltac:(lra) ltac:(lra)) SP (PD ea ltac:(lra)) (PD eb ltac:(lra)) ltac:(lra)) as (ka & kb & E1 & E2 & K1 & K2).
    exists ka, kb. split; [exact E1|]. split; [exact E2|]. split; [lra|]. apply K2; [lra|].
    apply NNPP. intros HX. assert (Z : fro_sq p P = 0); [|lra]. apply rsum_zero. intros i Hi. apply rsum_zero. intros j Hj.
    destruct (Req_dec (P i j) 0) as [Z|Z]; [rewrite Z; ring|]. exfalso. apply HX. eauto.
Qed.

(** ** The delta-method prediction *)
Lemma plus_inf_X : @plus_inf NumX = PInf.
Proof. unfold plus_inf. cbn. unfold Reqb, Rltb. destruct (Req_EM_T 0 0); [|lra]. destruct (Rlt_dec 0 1); [reflexivity|lra]. Qed.
Lemma lit5 : @nlit NumX 1 5 = Fin (1 / 100000).
Proof. rewrite nlit_fin. f_equal. Qed.
Lemma pair_dir_bound p i j v : (i < p)%nat -> (j < p)%nat -> - (3 / 2 * rdot p v v) <= qf p (pair_dir i j) v <= 3 / 2 * rdot p v v.
Proof.
  intros Hi Hj. pose proof (qf_fro p (pair_dir i j) v) as H.
  assert (F : fro_sq p (pair_dir i j) <= 9 / 4).
  { change (fro_sq p (pair_dir i j)) with (inner p (pair_dir i j) (pair_dir i j)). rewrite inner_pair by auto. unfold pair_dir. rewrite !Nat.eqb_refl.
    destruct (Nat.eqb_spec i j) as [->|]; cbn [andb orb]; rewrite ?Nat.eqb_refl, ?orb_true_r; cbn [andb orb]; lra. }
  assert (S32 : sqrt (fro_sq p (pair_dir i j)) <= 3 / 2).
  { replace (3 / 2) with (sqrt (9 / 4)); [now apply sqrt_le_1_alt|]. replace (9 / 4) with ((3 / 2) * (3 / 2)) by lra. apply sqrt_square. lra. }
  pose proof (rdot_nonneg p v) as N. assert (sqrt (fro_sq p (pair_dir i j)) * rdot p v v <= 3 / 2 * rdot p v v) by (apply Rmult_le_compat_r; auto).
  pose proof (Rle_abs (qf p (pair_dir i j) v)). pose proof (Rle_abs (- qf p (pair_dir i j) v)) as K2. rewrite Rabs_Ropp in K2. lra.
Qed.
(** At gamma = 1, for a truth whose eigenvalues are at least 2e-5 and intensities in [0, 1], the prediction never fails: its mean is the
    gap at the truth, which is not positive when the first estimate is the more shrunk one; its standard deviation is the square root of
    the variance formula at the numerical gradient; and its third value is their ratio, or +inf exactly when the gradient is zero. *)
Theorem C98_prediction (L : LinAlg NumX) p (T : rmat) sizes a b n : lawful L -> (1 <= p)%nat -> sizes_ok sizes p -> (0 < n)%Z ->
  bounded_below p (1 / 50000) T -> 0 <= a <= 1 -> 0 <= b <= 1 ->
  exists m G r, score_gap L (fm p p T) sizes (Fin 1) (fm p p T) (Fin a) (Fin b) = Ok (Fin m) /\
    grad_score_gap L (fm p p T) sizes (Fin 1) (fm p p T) (Fin a) (Fin b) = Ok (fm p p G) /\ sym p G /\
    let v := linear_variance p G T (IZR n) in
    snr_delta L n sizes (Fin 1) (Fin a) (Fin b) (fm p p T) = Ok (Fin m, Fin (sqrt v), r) /\ 0 <= v /\
    (meq p p G (fun _ _ => 0) -> v = 0 /\ r = PInf) /\ (~ meq p p G (fun _ _ => 0) -> 0 < v /\ r = Fin (m / sqrt v)) /\
    (b <= a -> m <= 0).
Proof.
  intros HL Hp Hs Hn HB Ha Hb. set (lo := 1 / 50000) in *.
  assert (POS : forall X, bounded_below p (1 / 200000) X -> clear_of_zero p X).
  { intros X [_ B] v Hv. specialize (B v). pose proof (rdot_pos p v Hv). lra. }
  assert (PD : forall X, bounded_below p (1 / 200000) X -> pd p X) by (intros X B; apply clear_pd; [apply B|now apply POS]).
  assert (BT : bounded_below p (1 / 200000) T) by (destruct HB as [S B]; split; [exact S|]; intros v; specialize (B v); pose proof (rdot_nonneg p v); unfold lo in B; lra).
  assert (GAP : forall X, bounded_below p (1 / 200000) X -> exists d, score_gap L (fm p p X) sizes (Fin 1) (fm p p T) (Fin a) (Fin b) = Ok (Fin d)).
  { intros X BX. destruct (C98_estimates p X a b Hp (proj1 BX)) as [_ E].
    destruct (C98_full_trust_gap L p X T sizes a b HL Hp Hs (proj1 BX) (PD T BT)) as (ka & kb & _ & _ & D); [| |eauto]; apply POS; destruct (E a) as (_ & _ & Ea & _); destruct (E b) as (_ & _ & Eb & _); auto. }
  set (f := fun X : rmat => match score_gap L (fm p p X) sizes (Fin 1) (fm p p T) (Fin a) (Fin b) with Ok (Fin d) => d | _ => 0 end).
  assert (GF : forall X, bounded_below p (1 / 200000) X -> score_gap L (fm p p X) sizes (Fin 1) (fm p p T) (Fin a) (Fin b) = Ok (Fin (f X))) by (intros X BX; destruct (GAP X BX) as [d E]; unfold f; now rewrite E).
  set (h := 1 / 100000). assert (Hh : h <> 0) by (unfold h; lra).
  assert (BE : forall i j s, (i < p)%nat -> (j < p)%nat -> (s = h \/ s = - h) -> bounded_below p (1 / 200000) (fun x y => T x y + s * pair_dir i j x y)).
  { intros i j s Hi Hj Hss. split; [intros x y Hx Hy; now rewrite (proj1 HB x y Hx Hy), (pair_dir_sym i j x y)|]. intros v. rewrite qf_plus, qf_scal. destruct HB as [_ B]. specialize (B v). pose proof (pair_dir_bound p i j v Hi Hj) as K. pose proof (rdot_nonneg p v). unfold lo in B. unfold h in Hss. destruct Hss as [-> | ->]; lra. }
  pose proof (gradient_fin (fun X => score_gap L X sizes (Fin 1) (fm p p T) (Fin a) (Fin b)) p T h f Hp Hh (fun i j s Hi Hj Hss => GF _ (BE i j s Hi Hj Hss))) as EG.
  match type of EG with _ = Ok (fm p p ?g) => set (G := g) in EG end.
  assert (SG : sym p G) by (intros i j _ _; unfold G; now rewrite (Nat.min_comm j i), (Nat.max_comm j i)).
  destruct (C98_quadform p G T n Hp ltac:(lia) SG (proj1 HB)) as (EV & V0 & VZ). assert (Hn0 : 0 < IZR n) by (apply IZR_lt; lia).
  specialize (V0 Hn0 (pd_psd _ _ (PD T BT))). specialize (VZ Hn0 (PD T BT)).
  set (v := linear_variance p G T (IZR n)) in *.
  exists (f T), G, (if nltb n0 (Fin v : NumX) then ndiv (Fin (f T) : NumX) (nsqrt (Fin v : NumX)) else PInf).
  assert (EGS : grad_score_gap L (fm p p T) sizes (Fin 1) (fm p p T) (Fin a) (Fin b) = Ok (fm p p G)) by (unfold grad_score_gap; rewrite lit5; exact EG).
  split; [now apply GF|]. split; [exact EGS|]. split; [exact SG|]. cbv zeta. fold v.
  split; [|split; [exact V0|split; [|split]]].
  - unfold snr_delta. rewrite (GF T BT). cbn [bind]. rewrite EGS. cbn [bind]. rewrite EV. cbn [bind]. fold v. rewrite (sqrt_fin v V0), plus_inf_X. reflexivity.
  - intros Z. apply VZ in Z. split; [exact Z|]. rewrite Z, n0_fin, ltb_fin, Rltb_false by lra. reflexivity.
  - intros NZ. assert (Hv : 0 < v). { destruct (Rle_lt_or_eq_dec 0 v V0) as [|E]; [assumption|]. exfalso. apply NZ, VZ. now symmetry. }
    split; [exact Hv|]. rewrite n0_fin, ltb_fin, Rltb_true, sqrt_fin by lra. pose proof (sqrt_lt_R0 v Hv). now rewrite div_fin by lra.
  - intros Hba. destruct (C98_population_gap L p T sizes a b HL Hp Hs (PD T BT) (POS T BT) ltac:(lra) ltac:(lra)) as (d & E & Hd & _). rewrite (GF T BT) in E. injection E as E. lra.
Qed.

(** ** The hypotheses are met: the identity rotation, four variables, any one-entry noise matrix; and a two-variable diagonal truth *)
Example C98_noise_pair_witness L : lawful L -> exists T A B ka kb, noise_subspace_pair (N := NumX) (fm 4 4 rI) (fm 1 1 (fun _ _ => 1)) (Fin (1 / 10)) (Fin (1 / 5)) = Ok (T, A, B) /\ kl L A T = Ok (Fin ka) /\ kl L B T = Ok (Fin kb) /\ ka < kb.
Proof.
  intros HL. assert (O : orth 4 rI) by (split; intros i j Hi Hj; unfold rT; [rewrite (rmul_ext 4 4 4 _ rI rI rI ltac:(intros x y _ _; unfold rI; now rewrite Nat.eqb_sym) (meq_refl _ _ _)) by auto; now apply rmul_I_l|rewrite (rmul_I_l 4) by auto; unfold rI; now rewrite Nat.eqb_sym]).
  destruct (C98_noise_pair L 4 rI (fun _ _ => 1) (1 / 10) (1 / 5) HL ltac:(lia) O) as (T & P & E & _ & _ & _ & _ & _ & K).
  { exists 0%nat, 0%nat. split; [lia|]. split; [lia|]. lra. }
  destruct (K ltac:(lra) ltac:(lra)) as (ka & kb & E1 & E2 & Hk). eexists _, _, _, ka, kb. split; [exact E|]. split; [exact E1|]. split; [exact E2|]. lra.
Qed.
Example C98_prediction_witness L : lawful L -> exists m G r, let v := linear_variance 2 G (diag_of (fun i => INR (S i))) 60 in
  snr_delta L 60 [1; 1]%nat (Fin 1) (Fin (1 / 2)) (Fin (1 / 20)) (fm 2 2 (diag_of (fun i => INR (S i)))) = Ok (Fin m, Fin (sqrt v), r) /\ m < 0.
Proof.
  intros HL. set (T := diag_of (fun i => INR (S i))).
  assert (B1 : bounded_below 2 (1 / 2) T).
  { split; [intros i j _ _; unfold T, diag_of; rewrite (Nat.eqb_sym j i); destruct (Nat.eqb_spec i j) as [->|]; reflexivity|]. intros v. unfold qf, rdot, T, diag_of. cbn [rsum Nat.eqb]. rewrite !S_INR. cbn [INR].
    pose proof (Rle_0_sqr (v 0%nat)). pose proof (Rle_0_sqr (v 1%nat)). unfold Rsqr in *. lra. }
  assert (B2 : bounded_below 2 (1 / 50000) T) by (destruct B1 as [S1 B]; split; [exact S1|]; intros v; specialize (B v); pose proof (rdot_nonneg 2 v); lra).
  assert (SZ : sizes_ok [1; 1]%nat 2) by (split; [repeat constructor|reflexivity]).
  destruct (C98_prediction L 2 T [1; 1]%nat (1 / 2) (1 / 20) 60 HL ltac:(lia) SZ ltac:(lia) B2 ltac:(lra) ltac:(lra)) as (m & G & r & E1 & _ & _ & E & _).
  exists m, G, r. split; [exact E|].
  assert (C : clear_of_zero 2 T) by (intros v Hv; destruct B1 as [_ B]; specialize (B v); pose proof (rdot_pos 2 v Hv); lra).
  destruct (C98_population_gap L 2 T [1; 1]%nat (1 / 2) (1 / 20) HL ltac:(lia) SZ (clear_pd 2 T (proj1 B2) C) C ltac:(lra) ltac:(lra)) as (d & E' & _ & N). rewrite E1 in E'. injection E' as ->. apply N; [lra|].
  intros M. pose proof (M 0%nat 0%nat ltac:(lia) ltac:(lia)) as X. pose proof (M 1%nat 1%nat ltac:(lia) ltac:(lia)) as Y. unfold T, diag_of, rI in X, Y. cbn [Nat.eqb] in X, Y. rewrite !S_INR in *. cbn [INR] in *. lra.
Qed.

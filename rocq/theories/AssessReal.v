(** * The assessors on finite data *)
From Coq Require Import Reals ZArith String List Lia Lra Arith Bool.
From Verif Require Import Num Numpy LinalgModel BaseModel Estimators ListLemmas RMat LinSpec Fin RealSpec EwaReal EmpFacts Spectral MatAlg Det
  Contracts LinalgReal BlockSpec BlockGeom BlockReal BlockRun GaussSpec GaussReal AssessModel ScoreReal AssessSpec.
Import ListNotations.
Local Open Scope R_scope.

Lemma mnorm_fin p q A : mnorm (N := NumX) (fm p q A) = Fin (sqrt (rsum p (fun i => rsum q (fun j => A i j * A i j)))).
Proof.
  unfold mnorm. rewrite (mmap_fin p q _ A (fun i j => A i j * A i j)) by (intros; reflexivity).
  rewrite msum_fin. apply sqrt_fin. apply rsum_nonneg. intros. apply rsum_nonneg. intros. apply Rle_0_sqr.
Qed.
Lemma nabs_fin x : nabs (N := NumX) (Fin x) = Fin (Rabs x).
Proof.
  unfold nabs. rewrite n0_fin, ltb_fin. unfold Rltb. destruct (Rlt_dec x 0).
  - rewrite opp_fin, Rabs_left by lra. reflexivity.
  - rewrite Rabs_right by lra. reflexivity.
Qed.
Lemma matvec_fin p q A v : matvec (N := NumX) (fm p q A) (fv q v) = Ok (fv p (fun i => rdot q (A i) v)).
Proof.
  unfold matvec, fm, tab2. rewrite (mapM_tab _ p _ (fun i => Fin (rdot q (A i) v))); [reflexivity|].
  intros i Hi. apply (vdot_fin q (A i) v).
Qed.
Lemma matvec_rows q xs v : matvec (N := NumX) (map (fv q) xs) (fv q v) = Ok (map (fun x => Fin (rdot q x v)) xs).
Proof. unfold matvec. apply (mapM_map_ok _ (fv q)). intros x _. apply vdot_fin. Qed.

(** ** np.cov *)
Definition at_ (xs : list obs) (t : nat) : obs := nth t xs (fun _ => 0).
Lemma fm_of_rows p xs : map (fv p) xs = fm (length xs) p (at_ xs).
Proof. rewrite (tab_nth xs (fun _ => 0)) at 1. unfold fm, tab2. rewrite map_tab. reflexivity. Qed.
Lemma lsum_at {A} (f : A -> R) l d : lsum (map f l) = rsum (length l) (fun t => f (nth t l d)).
Proof.
  induction l as [|x l IH]; [reflexivity|]. cbn [map length]. rewrite rsum_S_first. cbn [nth]. rewrite <- IH. reflexivity.
Qed.
Lemma np_cov_fin p xs : (1 <= p)%nat -> xs <> [] -> np_cov (N := NumX) (map (fv p) xs) = Ok (fm p p (pcov_of xs)).
Proof.
  intros Hp Hx. assert (Hn : (1 <= length xs)%nat) by (destruct xs; cbn; [congruence|lia]).
  rewrite fm_of_rows. set (n := length xs) in *. unfold np_cov. rewrite fm_nrows, fm_ncols by auto.
  assert (EA : tab p (fun j => vmean (mcol (N := NumX) (fm n p (at_ xs)) j)) = fv p (mean_of xs)).
  { apply tab_ext. intros j Hj. rewrite mcol_fin, vmean_fin by auto. f_equal. unfold mean_of. fold n. f_equal.
    rewrite (lsum_at _ _ (fun _ => 0)). reflexivity. }
  rewrite EA.
  assert (EX : mapM (fun row => vsub (N := NumX) row (fv p (mean_of xs))) (fm n p (at_ xs)) = Ok (fm n p (fun t j => at_ xs t j - mean_of xs j))).
  { unfold fm, tab2. apply mapM_tab. intros t Ht. apply vsub_fin. }
  rewrite EX. cbn [bind]. rewrite transpose_fin, matmul_fin by auto. cbn [bind]. rewrite nofn_fin, n1_fin.
  assert (NZ : INR n <> 0) by (apply not_0_INR; lia). rewrite div_fin, mscale_fin by auto. f_equal. apply fm_ext. intros i j Hi Hj.
  unfold rmul, rT, pcov_of. fold n. rewrite (lsum_at _ _ (fun _ => 0)). fold n. unfold at_. field. auto.
Qed.

Section L.
  Context (L : LinAlg NumX) (HL : lawful L).

  (** ** SteinLoss *)
  Lemma stein_fin p A xs : (1 <= p)%nat -> pd p A -> xs <> [] -> pd p (pcov_of xs) ->
    stein L (fm p p A) (map (fv p) xs) =
    Ok (Fin (- (rtrace p (rmul p (tinv L p A) (pcov_of xs)) - ln (rdet p (tinv L p A) * rdet p (pcov_of xs)) - INR p))).
  Proof.
    intros Hp HA Hx HS. unfold stein. rewrite np_cov_fin by auto. cbn [bind].
    destruct (tinv_ok L HL p A Hp (proj1 HA)) as [-> _]. cbn [bind]. rewrite matmul_fin by auto. cbn [bind].
    pose proof (tinv_inverse L HL p A Hp (proj1 HA) (pd_invertible p A HA)) as HI.
    pose proof (pd_det_pos p _ (inverse_pd p A _ HA HI)) as D1. pose proof (pd_det_pos p _ HS) as D2.
    set (M := rmul p (tinv L p A) (pcov_of xs)).
    assert (DM : rdet p M = rdet p (tinv L p A) * rdet p (pcov_of xs)) by apply rdet_mul.
    assert (DP : 0 < rdet p M) by (rewrite DM; now apply Rmult_lt_0_compat).
    destruct (law_slogdet L HL p M Hp) as [[Z _]|[_ ->]]; [lra|]. cbn [bind].
    rewrite mtrace_fin, fm_nrows, nofn_fin, Rabs_right, DM by lra. reflexivity.
  Qed.
  Lemma stein_singular p A xs : (1 <= p)%nat -> sym p A -> xs <> [] -> rdet p (pcov_of xs) = 0 ->
    stein L (fm p p A) (map (fv p) xs) = Ok NInf.
  Proof.
    intros Hp HA Hx HS. unfold stein. rewrite np_cov_fin by auto. cbn [bind].
    destruct (tinv_ok L HL p A Hp HA) as [-> _]. cbn [bind]. rewrite matmul_fin by auto. cbn [bind].
    set (M := rmul p (tinv L p A) (pcov_of xs)).
    assert (DM : rdet p M = 0) by (unfold M; rewrite rdet_mul, HS; ring).
    destruct (law_slogdet L HL p M Hp) as [[_ ->]|[Z _]]; [|contradiction]. cbn [bind].
    rewrite mtrace_fin, fm_nrows, nofn_fin. reflexivity.
  Qed.

  (** ** SchurLikelihood *)
  Lemma schur_lik_linear p g nb interp A X : (1 <= p)%nat -> (1 <= nb)%Z -> interp <> "geodesic"%string ->
    schur_lik L (Fin g) nb interp (fm p p A) X = gaussian_loglik L (fm p p (mpd L p (damped p (blocks nb p) g A))) X.
  Proof.
    intros Hp Hn Hi. unfold schur_lik. rewrite fm_nrows, block_id_eq by auto. cbn [bind].
    destruct (String.eqb_spec interp "geodesic"); [contradiction|]. rewrite damp_fin. cbn [bind].
    destruct (mpd_ok L HL p (damped p (blocks nb p) g A) Hp) as [-> _]. reflexivity.
  Qed.
  Lemma schur_lik_geodesic p g nb A X : (1 <= p)%nat -> (1 <= nb)%Z ->
    schur_lik L (Fin g) nb "geodesic" (fm p p A) X =
    gaussian_loglik L (fm p p (mpd L p (gstep L p (mpd L p (damped p (blocks nb p) 0 A)) (mpd L p A) g))) X.
  Proof.
    intros Hp Hn. unfold schur_lik. rewrite fm_nrows, block_id_eq by auto. cbn [bind]. rewrite String.eqb_refl, zero_cross_fin. cbn [bind].
    destruct (mpd_ok L HL p (damped p (blocks nb p) 0 A) Hp) as [-> _]. cbn [bind].
    destruct (mpd_ok L HL p A Hp) as [-> _]. cbn [bind].
    destruct (gstep_ok L HL p (mpd L p (damped p (blocks nb p) 0 A)) (mpd L p A) g Hp) as [-> _]. cbn [bind].
    match goal with |- (c <- make_pos_def L (fm p p ?X) ;; _) = _ => destruct (mpd_ok L HL p X Hp) as [-> _] end. reflexivity.
  Qed.
  Lemma mpd_mpd p A : (1 <= p)%nat -> meq p p (mpd L p (mpd L p A)) (mpd L p A).
  Proof.
    intros Hp. assert (SS : meq p p (symm (mpd L p A)) (mpd L p A)) by (apply symm_id; now apply (mpd_sym L HL)).
    eapply meq_trans; [apply mpd_fix; auto|exact SS]. apply (bb_ext p e8 (mpd L p A)); [now apply meq_sym|]. now apply mpd_ok.
  Qed.
  Lemma gstep_0 p A B : (1 <= p)%nat -> meq p p (gstep L p (mpd L p A) (mpd L p B) 0) (mpd L p A).
  Proof.
    intros Hp. destruct (gstep_spec L HL p (mpd L p A) (mpd L p B) 0 Hp) as (Q & l & H1 & H2 & H3 & C & H4 & _ & H6).
    unfold gstep. rewrite H4. cbn [mres]. eapply meq_trans; [apply matR_fm|]. eapply meq_trans; [exact H6|].
    eapply meq_trans; [|apply mpd_mpd, Hp]. eapply meq_trans; [|apply meq_sym; exact H2]. apply spec_ext. intros i Hi. apply Rpower_O. auto.
  Qed.
  Lemma gstep_1 p A B : (1 <= p)%nat -> meq p p (gstep L p (mpd L p A) (mpd L p B) 1) (mpd L p B).
  Proof.
    intros Hp. destruct (gstep_spec L HL p (mpd L p A) (mpd L p B) 1 Hp) as (Q & l & H1 & H2 & H3 & C & H4 & _ & H6).
    unfold gstep. rewrite H4. cbn [mres]. eapply meq_trans; [apply matR_fm|]. eapply meq_trans; [exact H6|].
    eapply meq_trans; [|apply mpd_mpd, Hp]. eapply meq_trans; [|apply meq_sym; exact H3]. apply spec_ext. intros i Hi. apply Rpower_1. auto.
  Qed.

  (** ** GMVVariance *)
  Lemma gmv_fin p A xs : (1 <= p)%nat -> sym p A -> xs <> [] ->
    rsum p (fun i => rsum p (fun j => tinv L p A i j)) <> 0 ->
    gmv L (fm p p A) (map (fv p) xs) =
    Ok (Fin (- lmean (map (fun x => rdot p x (gmv_weights p (tinv L p A)) * rdot p x (gmv_weights p (tinv L p A))) xs))).
  Proof.
    intros Hp HA Hx HN. unfold gmv. destruct (tinv_ok L HL p A Hp HA) as [-> _]. cbn [bind].
    rewrite fm_nrows, vones_fin, matvec_fin. cbn [bind]. rewrite vsum_fin.
    set (B := tinv L p A) in *.
    assert (E : rsum p (fun i => rdot p (B i) (fun _ => 1)) = rsum p (fun i => rsum p (fun j => B i j))).
    { apply rsum_ext. intros i Hi. apply rsum_ext. intros; ring. }
    rewrite E, vdivs_fin by auto.
    rewrite (fv_ext p _ (gmv_weights p B)) by (intros i Hi; unfold gmv_weights; f_equal; apply rsum_ext; intros; ring).
    rewrite matvec_rows. cbn [bind]. f_equal. rewrite map_map.
    rewrite (map_ext_in _ (fun x => Fin (rdot p x (gmv_weights p B) * rdot p x (gmv_weights p B)))) by (intros; reflexivity).
    rewrite vmean_map by auto. reflexivity.
  Qed.
  Lemma sum_qf p B : rsum p (fun i => rsum p (fun j => B i j)) = qf p B (fun _ => 1).
  Proof. unfold qf. apply rsum_ext. intros i _. apply rsum_ext. intros; ring. Qed.
  Lemma sum_pd p B : (1 <= p)%nat -> pd p B -> 0 < rsum p (fun i => rsum p (fun j => B i j)).
  Proof. intros Hp HB. rewrite sum_qf. apply HB. exists O. split; [lia|lra]. Qed.
  Lemma lmean_sq p w xs : lmean (map (fun x => rdot p x w * rdot p x w) xs) = qf p (second_moment zero_mean xs) w.
  Proof.
    unfold qf, rdot.
    rewrite (lmean_ext _ (fun x => rsum p (fun i => rsum p (fun j => w i * (x i * x j) * w j)))).
    - rewrite lmean_rsum. apply rsum_ext. intros i _. rewrite lmean_rsum. apply rsum_ext. intros j _. unfold second_moment, zero_mean.
      rewrite (lmean_ext _ (fun x => (w i * w j) * ((x i - 0) * (x j - 0)))) by (intros; ring). rewrite lmean_scal. ring.
    - intros x _. rewrite <- rsum_scal_r. apply rsum_ext. intros i _. rewrite <- rsum_scal. apply rsum_ext. intros; ring.
  Qed.

  (** ** VariogramScore *)
  Lemma variogram_fin p A xs : (1 <= p)%nat -> xs <> [] ->
    variogram L (fm p p A) (map (fv p) xs) =
    Ok (Fin (- lmean (map (fun x => rsum p (fun i => rsum p (fun j =>
       (Rabs (x i - x j) - gauss_variogram (symm A) i j) * (Rabs (x i - x j) - gauss_variogram (symm A) i j)))) xs))).
  Proof.
    intros Hp Hx. unfold variogram. rewrite to_symmetric_fin. cbn [bind]. change (fun i j => (A i j + A j i) / 2) with (symm A).
    rewrite diagonal_fin, fm_nrows, fm_ncols by auto.
    match goal with |- (sums <- mapM (fun row => (D <- msub (@?d row) ?e ;; _)) _ ;; _) = _ =>
      assert (EE : e = fm p p (gauss_variogram (symm A))) end.
    { apply tab2_ext. intros i j Hi Hj. rewrite !fv_get, fm_get by auto. change (@nofZ NumX 2) with (Fin 2 : NumX).
      rewrite add_fin, mul_fin, sub_fin, n0_fin, np_max_fin, (law_two_over_pi L HL), mul_fin. apply sqrt_fin.
      apply Rmult_le_pos; [apply Rmax_r|]. apply Rlt_le, Rdiv_lt_0_compat; [lra|apply PI_RGT_0]. }
    rewrite EE.
    rewrite (mapM_map_ok _ (fv p) (fun x => Fin (rsum p (fun i => rsum p (fun j =>
       (Rabs (x i - x j) - gauss_variogram (symm A) i j) * (Rabs (x i - x j) - gauss_variogram (symm A) i j)))))).
    - cbn [bind]. rewrite vmean_map by auto. reflexivity.
    - intros x _. rewrite fv_length.
      assert (ED : tab2 p p (fun i j => nabs (N := NumX) (nsub (vget (fv p x) i) (vget (fv p x) j))) = fm p p (fun i j => Rabs (x i - x j))).
      { apply tab2_ext. intros i j Hi Hj. rewrite !fv_get by auto. rewrite sub_fin. apply nabs_fin. }
      rewrite ED, msub_fin. cbn [bind]. f_equal.
      rewrite (mmap_fin p p _ _ (fun i j => (Rabs (x i - x j) - gauss_variogram (symm A) i j) * (Rabs (x i - x j) - gauss_variogram (symm A) i j))) by (intros; reflexivity).
      now rewrite msum_fin.
  Qed.
End L.

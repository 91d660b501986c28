(** * Runs of the Schur family on finite streams *)
From Coq Require Import Reals ZArith String List Lia Lra Arith Bool.
From Verif Require Import Num Numpy PyVal LinalgModel StateModel BaseModel Estimators Spec ListLemmas BaseProofs
  RMat LinSpec Fin RealSpec RunFin EwaReal RunAvg EmpFacts ShrinkReal Spectral MatAlg Contracts LinalgReal BlockSpec BlockGeom BlockReal.
Import ListNotations.
Local Open Scope string_scope.
Local Open Scope R_scope.

Lemma damp_fin p k g A :
  damp (N := NumX) p (cross_of (tab p (block_of p k))) (Fin g) (fm p p A) = Ok (fm p p (damped p k g A)).
Proof.
  unfold damp. rewrite check_shape_fin. cbn [bind]. f_equal. apply tab2_ext. intros i j Hi Hj.
  rewrite cross_eq, fm_get by auto. unfold damped. destruct (Nat.eqb _ _); cbn [negb]; auto.
  rewrite mul_fin. now rewrite Rmult_comm.
Qed.
Lemma zero_cross_fin p k A :
  zero_cross (N := NumX) p (cross_of (tab p (block_of p k))) (fm p p A) = Ok (fm p p (damped p k 0 A)).
Proof.
  unfold zero_cross. rewrite check_shape_fin. cbn [bind]. f_equal. apply tab2_ext. intros i j Hi Hj.
  rewrite cross_eq, fm_get by auto. unfold damped. destruct (Nat.eqb _ _); cbn [negb]; auto.
  rewrite n0_fin. f_equal. ring.
Qed.
Lemma cross_msk p k F : msk p (cross_of (tab p (block_of p k))) F = cross_sum p k F.
Proof.
  unfold msk, cross_sum. apply rsum_ext. intros i Hi. apply rsum_ext. intros j Hj. rewrite cross_eq by auto.
  now destruct (Nat.eqb _ _).
Qed.

Section L.
  Context (L : LinAlg NumX) (HL : lawful L).

  Lemma mpd_sym p A : (1 <= p)%nat -> sym p (mpd L p A).
  Proof. intros Hp. apply (mpd_ok L HL p A Hp). Qed.
  Lemma gstep_sym p A B g : (1 <= p)%nat -> sym p (gstep L p A B g).
  Proof. intros Hp. destruct (gstep_ok L HL p A B g Hp) as [_ H]. apply H. Qed.

  (** ** SchurCovariance *)
  Definition SCH (r : R) (nb : Z) (g : R) (interp : string) (diff : bool) : SchP (N := NumX) :=
    mkSchP (Fin r : NumX) nb (Fin g : NumX) interp diff.
  Lemma sch_pair r nb g i : diff_pair (Schur L) (SCH r nb g i).
  Proof. split; [reflexivity|]. repeat split; intros; try reflexivity; try discriminate. Qed.
  Lemma Schur_run0 p r nb g interp diff rows xs : r <> 0 -> observes p diff rows xs -> xs <> [] ->
    exists o, partial_fit (new (C := Schur L) (SCH r nb g interp diff)) (In2 rows) = (o, Ok tt) /\
      n_samples_ o = Ok (length xs) /\
      location_ o = Ok (fv p (ewa_mean r (burn_len r) xs)) /\
      covariance_ o = (c <- sch_cov L (SCH r nb g interp false)
         (ewa_d p r (burn_len r) (mkA (length xs) (ewa_mean r (burn_len r) xs) (ewa_cov r (burn_len r) xs))) ;; to_symmetric c) /\
      correlation_ o = (c <- covariance_ o ;; cov_to_corrcoef c) /\
      (forall L', precision_ L' o = (c <- covariance_ o ;; try_invert L' c)).
  Proof.
    intros Hr Ho Hx.
    destruct (ewa_like_run (Schur L) (SCH r nb g interp) p r diff rows xs (sch_pair r nb g interp) (fun d => d)) as (o & R1 & R2 & R3 & R4 & R5 & R6); auto.
    - cbn [c_init Schur dict_class]. now apply ewa_init_fin.
    - intros a x. apply ewa_update_fin.
    - exists o. repeat (split; [first [exact R1|exact R2|exact R3|exact R4|exact R5]|]). intros L'. now apply R6.
  Qed.
  Lemma sch_cov_linear p r nb g interp diff a : (1 <= p)%nat -> (1 <= nb)%Z -> interp <> "geodesic" ->
    sch_cov L (SCH r nb g interp diff) (ewa_d p r (burn_len r) a) = Ok (fm p p (mpd L p (symm (damped p (blocks nb p) g (aC a))))).
  Proof.
    intros Hp Hn Hi. unfold sch_cov, ewa_d, emp_d, SCH. rd. cbn [sch_n_blocks sch_interp sch_gamma].
    rewrite block_id_eq by auto. cbn [bind].
    destruct (String.eqb_spec interp "geodesic"); [contradiction|]. rewrite damp_fin. cbn [bind]. rewrite to_symmetric_fin. cbn [bind].
    now apply mpd_ok.
  Qed.
  Lemma sch_cov_geodesic p r nb g diff a : (1 <= p)%nat -> (1 <= nb)%Z ->
    sch_cov L (SCH r nb g "geodesic" diff) (ewa_d p r (burn_len r) a) =
    Ok (fm p p (gstep L p (mpd L p (damped p (blocks nb p) 0 (aC a))) (mpd L p (aC a)) g)).
  Proof.
    intros Hp Hn. unfold sch_cov, ewa_d, emp_d, SCH. rd. cbn [sch_n_blocks sch_interp sch_gamma].
    rewrite block_id_eq by auto. cbn [bind]. rewrite String.eqb_refl, zero_cross_fin. cbn [bind].
    destruct (mpd_ok L HL p (damped p (blocks nb p) 0 (aC a)) Hp) as [-> _]. cbn [bind].
    destruct (mpd_ok L HL p (aC a) Hp) as [-> _]. cbn [bind]. now apply gstep_ok.
  Qed.
  Lemma symm_mpd p A : sym p A -> mpd L p (symm A) = mpd L p A.
  Proof. intros H. apply mpd_ext. now apply symm_id. Qed.
  Lemma Schur_linear p r nb g interp diff rows xs : (1 <= p)%nat -> r <> 0 -> (1 <= nb)%Z -> interp <> "geodesic" ->
    observes p diff rows xs -> xs <> [] ->
    exists o, partial_fit (new (C := Schur L) (SCH r nb g interp diff)) (In2 rows) = (o, Ok tt) /\
      n_samples_ o = Ok (length xs) /\
      location_ o = Ok (fv p (ewa_mean r (burn_len r) xs)) /\
      covariance_ o = Ok (fm p p (mpd L p (damped p (blocks nb p) g (ewa_cov r (burn_len r) xs)))).
  Proof.
    intros Hp Hr Hn Hi Ho Hx. destruct (Schur_run0 p r nb g interp diff rows xs Hr Ho Hx) as (o & R1 & R2 & R3 & R4 & _).
    exists o. split; [exact R1|]. split; [exact R2|]. split; [exact R3|]. rewrite R4, sch_cov_linear by auto. cbn [bind aC].
    rewrite symm_mpd by (apply damped_sym, sym_ewa_cov). apply to_symmetric_sym_fin. now apply mpd_sym.
  Qed.
  Lemma Schur_geodesic p r nb g diff rows xs : (1 <= p)%nat -> r <> 0 -> (1 <= nb)%Z ->
    observes p diff rows xs -> xs <> [] ->
    exists o, partial_fit (new (C := Schur L) (SCH r nb g "geodesic" diff)) (In2 rows) = (o, Ok tt) /\
      n_samples_ o = Ok (length xs) /\
      location_ o = Ok (fv p (ewa_mean r (burn_len r) xs)) /\
      covariance_ o = Ok (fm p p (gstep L p (mpd L p (damped p (blocks nb p) 0 (ewa_cov r (burn_len r) xs))) (mpd L p (ewa_cov r (burn_len r) xs)) g)).
  Proof.
    intros Hp Hr Hn Ho Hx. destruct (Schur_run0 p r nb g "geodesic" diff rows xs Hr Ho Hx) as (o & R1 & R2 & R3 & R4 & _).
    exists o. split; [exact R1|]. split; [exact R2|]. split; [exact R3|]. rewrite R4, sch_cov_geodesic by auto. cbn [bind aC].
    apply to_symmetric_sym_fin. now apply gstep_sym.
  Qed.
  Lemma Schur_bad_blocks p r nb g interp diff rows xs : r <> 0 -> (nb <= 0)%Z -> observes p diff rows xs -> xs <> [] ->
    exists o, partial_fit (new (C := Schur L) (SCH r nb g interp diff)) (In2 rows) = (o, Ok tt) /\ covariance_ o = Err ValueError.
  Proof.
    intros Hr Hn Ho Hx. destruct (Schur_run0 p r nb g interp diff rows xs Hr Ho Hx) as (o & R1 & _ & _ & R4 & _).
    exists o. split; [exact R1|]. rewrite R4. unfold sch_cov, ewa_d, emp_d, SCH. rd. cbn [sch_n_blocks]. now rewrite block_id_err.
  Qed.

  (** ** SchurLedoitWolfCovariance *)
  Definition BLK (r : R) (nb : Z) (diff : bool) : BlkP (N := NumX) := mkBlkP (Fin r : NumX) nb diff.
  Definition slw_d (p : nat) (r : R) (nb : nat) (a : lst) : dict NumX :=
    (ewa_d p r nb (la_ a) ++ [("pi_cross", VNum (Fin (lpi a) : NumX))])%list.
  Definition slw_q (p k : nat) (m : obs) (C : rmat) (x : obs) : R :=
    cross_sum p k (fun i j => ((x i - m i) * (x j - m j) - C i j) * ((x i - m i) * (x j - m j) - C i j)).
  Definition slw_step (p k : nat) (r : R) (nb : nat) (a : lst) (x : obs) : lst :=
    mkL (ewa_step r nb (la_ a) x)
        (if Nat.ltb (an (la_ a)) nb then lpi a
         else (1 - r) * lpi a + r * slw_q p k (am (la_ a)) (aC (la_ a)) x).
  Lemma slw_update_fin p r nbk nb diff a x : (1 <= p)%nat -> (1 <= nbk)%Z ->
    slw_update (BLK r nbk diff) (slw_d p r nb a) (fv p x) = Ok (slw_d p r nb (slw_step p (blocks nbk p) r nb a x)).
  Proof.
    intros Hp Hn. unfold slw_update, slw_d, slw_step, ewa_d. unfold emp_d at 1 2 3 4 5. rd. unfold ewa_step. cbn [la_ lpi].
    destruct (Nat.ltb (an (la_ a)) nb).
    - rewrite (emp_update_fin p _ (la_ a) x) by reflexivity. reflexivity.
    - cbn [blk_n_blocks BLK]. unfold emp_d. rd. rewrite block_id_eq by auto. cbn [bind].
      rewrite vsub_fin. cbn [bind]. rewrite outer_fin, msub_fin. cbn [bind].
      rewrite (mmap_fin p p _ _ (fun i j => ((x i - am (la_ a) i) * (x j - am (la_ a) j) - aC (la_ a) i j) *
                                ((x i - am (la_ a) i) * (x j - am (la_ a) j) - aC (la_ a) i j))) by reflexivity.
      rewrite check_shape_fin. cbn [bind]. rewrite masked_vsum, cross_msk.
      rewrite n1_fin, sub_fin, !vscale_fin, vadd_fin. cbn [bind]. rewrite !mscale_fin, madd_fin. cbn [bind].
      rewrite !mul_fin, add_fin. reflexivity.
  Qed.
  Definition slw_stat (p k : nat) (r : R) (nb : nat) (pre : list obs) (x : obs) : R :=
    slw_q p k (ewa_mean r nb pre) (ewa_cov r nb pre) x.
  Lemma cross_sum_ext p k F G : meq p p F G -> cross_sum p k F = cross_sum p k G.
  Proof. intros H. unfold cross_sum. apply rsum_ext. intros i Hi. apply rsum_ext. intros j Hj. now rewrite H. Qed.
  Lemma slw_fold p k r nb xs : let a := fold_left (slw_step p k r nb) xs l_init in
    la_ a = fold_left (ewa_step r nb) xs a_init /\ lpi a = ewsum r nb (slw_stat p k r nb) xs.
  Proof.
    cbv zeta. induction xs as [|x xs [I1 I2]] using rev_ind.
    - split; [reflexivity|]. unfold ewsum. reflexivity.
    - rewrite !fold_left_app. cbn [fold_left]. set (a := fold_left (slw_step p k r nb) xs l_init) in *.
      unfold slw_step at 1 2. cbn [la_ lpi]. split; [now rewrite I1|].
      pose proof (ewa_fold r nb xs) as E. cbv zeta in E. rewrite <- I1 in E. destruct E as (E1 & E2 & E3).
      rewrite ewsum_snoc, E1, I2. destruct (Nat.ltb (length xs) nb); auto.
      unfold slw_stat, slw_q. do 2 f_equal. apply cross_sum_ext. intros i j _ _. now rewrite !E2, E3.
  Qed.
  Definition slw_g (p k : nat) (r pi : R) (C : rmat) : R :=
    let m2 := cross_sum p k (fun i j => C i j * C i j) in
    if Rltb 0 m2 then rclip (1 - pi * r / m2) 0 1 else 1.
  Lemma slw_gamma_fin p r nbk nb diff a : (1 <= p)%nat -> (1 <= nbk)%Z ->
    slw_gamma (BLK r nbk diff) (slw_d p r nb a) = Ok (Fin (slw_g p (blocks nbk p) r (lpi a) (aC (la_ a)))).
  Proof.
    intros Hp Hn. unfold slw_gamma, slw_d, ewa_d, emp_d. rd. cbn [blk_n_blocks BLK]. rewrite block_id_eq by auto. cbn [bind].
    rewrite check_shape_fin. cbn [bind].
    rewrite (mmap_fin p p _ _ (fun i j => aC (la_ a) i j * aC (la_ a) i j)) by reflexivity.
    rewrite masked_vsum, cross_msk. unfold slw_g. set (m2 := cross_sum _ _ _). rewrite n0_fin, ltb_fin.
    destruct (Rltb_spec 0 m2); [|reflexivity]. rewrite mul_fin, py_div_fin by lra. cbn [bind].
    now rewrite n1_fin, sub_fin, np_clip_fin.
  Qed.
  Lemma slw_g_range p k r pi C : 0 <= slw_g p k r pi C <= 1.
  Proof. unfold slw_g. destruct (Rltb _ _); [apply rclip_bounds; lra|lra]. Qed.
  Lemma slw_cov_fin p r nbk nb diff a : (1 <= p)%nat -> (1 <= nbk)%Z ->
    slw_cov L (BLK r nbk diff) (slw_d p r nb a) =
    Ok (fm p p (mpd L p (symm (damped p (blocks nbk p) (slw_g p (blocks nbk p) r (lpi a) (aC (la_ a))) (aC (la_ a)))))).
  Proof.
    intros Hp Hn. unfold slw_cov. rewrite slw_gamma_fin by auto. cbn [bind]. unfold slw_d, ewa_d, emp_d. rd. cbn [blk_n_blocks BLK].
    rewrite block_id_eq by auto. cbn [bind]. rewrite damp_fin. cbn [bind]. rewrite to_symmetric_fin. cbn [bind]. now apply mpd_ok.
  Qed.
  Lemma slw_pair r nb : diff_pair (SchurLW L) (BLK r nb).
  Proof. split; [reflexivity|]. repeat split; intros; try reflexivity; try discriminate. Qed.
  Lemma slw_g_ext p k r pi C D : meq p p C D -> slw_g p k r pi C = slw_g p k r pi D.
  Proof. intros H. unfold slw_g. rewrite (cross_sum_ext p k _ (fun i j => D i j * D i j)); [reflexivity|]. intros i j Hi Hj. now rewrite H. Qed.
  Lemma damped_ext p k g n A B : meq n n A B -> meq n n (damped p k g A) (damped p k g B).
  Proof. intros H i j Hi Hj. unfold damped. now rewrite H. Qed.
  Lemma SchurLW_run p r nb diff rows xs : (1 <= p)%nat -> r <> 0 -> (1 <= nb)%Z -> observes p diff rows xs -> xs <> [] ->
    let k := blocks nb p in
    let C := ewa_cov r (burn_len r) xs in
    let g := slw_g p k r (ewsum r (burn_len r) (slw_stat p k r (burn_len r)) xs) C in
    exists o, partial_fit (new (C := SchurLW L) (BLK r nb diff)) (In2 rows) = (o, Ok tt) /\
      n_samples_ o = Ok (length xs) /\
      location_ o = Ok (fv p (ewa_mean r (burn_len r) xs)) /\
      slw_gamma_ L o = Ok (Fin g) /\
      covariance_ o = Ok (fm p p (mpd L p (damped p k g C))).
  Proof.
    intros Hp Hr Hnb Ho Hx k C g. destruct (length_S xs Hx) as (n & Hn).
    pose proof (slw_fold p k r (burn_len r) xs) as E. cbv zeta in E. destruct E as (E1 & E2).
    pose proof (ewa_fold r (burn_len r) xs) as F. cbv zeta in F. rewrite <- E1 in F. destruct F as (F1 & F2 & F3).
    destruct (run_reads_g (C := SchurLW L) (BLK r nb) (slw_pair r nb) (slw_d p r (burn_len r)) (slw_step p k r (burn_len r)) p l_init)
      with (xs := xs) (diff := diff) (rows := rows) (n := n) as (o & R1 & Rs & R2 & R3 & R4 & R5 & R6); auto.
    - cbn [c_init SchurLW dict_class]. unfold slw_init. cbn [blk_r BLK]. rewrite ewa_init_fin by auto. reflexivity.
    - clear - Hp Hnb. generalize l_init. induction xs as [|x xs IH]; intros a; cbn [good]; auto.
      split; [|apply IH]. cbn [c_update SchurLW dict_class]. now apply slw_update_fin.
    - cbn. unfold dict_nsamples, slw_d, ewa_d, emp_d. rd. now rewrite F1, Hn.
    - set (st := fold_left (slw_step p k r (burn_len r)) xs l_init) in *.
      assert (EC : meq p p (aC (la_ st)) C) by (intros i j _ _; apply F3).
      assert (EG : slw_g p k r (lpi st) (aC (la_ st)) = g) by (unfold g; rewrite E2; now apply slw_g_ext).
      exists o. split; [exact R1|]. rewrite Hn. split; [exact R2|]. split; [|split].
      + rewrite R3. cbn [c_mean SchurLW dict_class]. unfold dict_mean, slw_d, ewa_d, emp_d. rd. f_equal. now apply fv_ext.
      + unfold slw_gamma_. rewrite (partial_fit_params _ _ _ _ R1). cbn [i_params new].
        unfold fitted_state. rewrite Rs. cbn [c_nsamples SchurLW dict_class]. unfold dict_nsamples.
        replace (getI "n_samples" (slw_d p r (burn_len r) st)) with (Ok (an (la_ st))) by reflexivity. cbn [bind get_or].
        rewrite F1, Hn. cbn [Nat.ltb Nat.leb bind]. rewrite slw_gamma_fin by auto. fold k. now rewrite EG.
      + rewrite R4. cbn [c_cov SchurLW dict_class]. rewrite slw_cov_fin by auto. cbn [bind]. fold k. rewrite EG.
        rewrite (mpd_ext L p _ (damped p k g C)).
        * apply to_symmetric_sym_fin. now apply mpd_sym.
        * eapply meq_trans; [apply symm_ext, damped_ext; exact EC|]. apply symm_id. apply damped_sym, sym_ewa_cov.
  Qed.
End L.

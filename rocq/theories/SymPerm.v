(** * Reordering the variables: quantities that are not rotation covariant *)
From Coq Require Import Reals ZArith String List Lia Lra Arith Bool.
From Verif Require Import Num Numpy BaseModel Spec ListLemmas LinalgModel Estimators RMat LinSpec Fin RealSpec RunFin EwaReal RunAvg EmpFacts Props_Emp
  ShrinkReal MomentReal FactorReal Spectral MatAlg Contracts LinalgReal RobustReal TylerReal SymSpec SymReal SymRun.
Import ListNotations.
Local Open Scope R_scope.

(** running averages of a mapped stream *)
Lemma rw_avg_map r nb (g g' : list obs -> obs -> R) (f : obs -> obs) xs : (forall pre x, g (map f pre) (f x) = g' pre x) ->
  rw_avg r nb g (map f xs) = rw_avg r nb g' xs.
Proof.
  intros H. assert (E : forall k, (k < length xs)%nat -> stat g (map f xs) k = stat g' xs k).
  { intros k Hk. unfold stat. rewrite firstn_map. unfold nthobs.
    rewrite (nth_indep _ _ (f (fun _ => 0))) by (rewrite map_length; lia). rewrite map_nth. apply H. }
  unfold rw_avg, burn_avg, ewsum. rewrite map_length. f_equal.
  - f_equal. f_equal. apply rsum_ext. intros k Hk. apply E. lia.
  - apply rsum_ext. intros k Hk. rewrite E by lia. reflexivity.
Qed.

Section Perm.
  Context (p : nat) (sg : nat -> nat) (HS : reorders p sg).
  Notation re x := (fun i => x (sg i)).
  Let sgp : forall i, (i < p)%nat -> (sg i < p)%nat := proj1 HS.

  (** sums do not depend on the order *)
  Lemma rsum_perm (f : nat -> R) : rsum p (fun i => f (sg i)) = rsum p f.
  Proof.
    rewrite (rsum_ext p (fun i => f (sg i)) (fun i => rsum p (fun k => Pm sg i k * f k))) by (intros i Hi; symmetry; apply rapp_Pm; auto).
    rewrite rsum_swap. apply rsum_ext. intros k Hk.
    destruct (Pm_similarity p sg HS) as (_ & H & _). specialize (H k k Hk Hk). unfold rmul, rT, rI in H. rewrite Nat.eqb_refl in H.
    assert (E : rsum p (fun i => Pm sg i k) = 1).
    { transitivity (1 * 1); [|ring]. rewrite <- H. apply rsum_ext. intros i _. unfold Pm. destruct (Nat.eqb k (sg i)); ring. }
    rewrite rsum_scal_r, E. ring.
  Qed.
  Lemma msk_perm (F : rmat) : msk p (fun i j => negb (Nat.eqb i j)) (fun i j => F (sg i) (sg j)) = msk p (fun i j => negb (Nat.eqb i j)) F.
  Proof.
    unfold msk. rewrite <- (rsum_perm (fun i => rsum p (fun j => if negb (Nat.eqb i j) then F i j else 0))).
    apply rsum_ext. intros i Hi. rewrite <- (rsum_perm (fun j => if negb (Nat.eqb (sg i) j) then F (sg i) j else 0)).
    apply rsum_ext. intros j Hj. destruct (Nat.eqb_spec i j) as [->|N]; [now rewrite Nat.eqb_refl|].
    destruct (Nat.eqb_spec (sg i) (sg j)) as [E|_]; [|reflexivity]. exfalso. apply N. now apply (proj2 HS).
  Qed.
  Lemma cc_target_perm S i j : (i < p)%nat -> (j < p)%nat ->
    cc_target p (fun i j => S (sg i) (sg j)) i j = cc_target p S (sg i) (sg j).
  Proof.
    intros Hi Hj. unfold cc_target.
    assert (ER : rbar p (fun i j => S (sg i) (sg j)) = rbar p S).
    { unfold rbar. f_equal. exact (msk_perm (fun i j => S i j / (vol S i * vol S j))). }
    destruct (Nat.eqb_spec i j) as [->|N]; [now rewrite Nat.eqb_refl|].
    destruct (Nat.eqb_spec (sg i) (sg j)) as [E|_]; [|rewrite ER; reflexivity]. exfalso. apply N. now apply (proj2 HS).
  Qed.
  Lemma rdiag_perm f i j : (i < p)%nat -> (j < p)%nat -> rdiag (re f) i j = rdiag f (sg i) (sg j).
  Proof.
    intros Hi Hj. unfold rdiag. destruct (Nat.eqb_spec i j) as [->|N]; [now rewrite Nat.eqb_refl|].
    destruct (Nat.eqb_spec (sg i) (sg j)) as [E|_]; [|reflexivity]. exfalso. apply N. now apply (proj2 HS).
  Qed.

  (** running moments, coordinate by coordinate *)
  Lemma dev_perm r nb pre x i : dev r nb (map (fun y : obs => re y) pre) (re x) i = dev r nb pre x (sg i).
  Proof.
    unfold dev. destruct (ewa_ext_map r nb (fun y : obs => re y) sg pre (fun _ _ => eq_refl)) as [K _]. now rewrite K.
  Qed.
  Lemma sq_perm r nb xs i :
    rw_avg r nb (fun pre x => dev r nb pre x i * dev r nb pre x i) (map (fun y : obs => re y) xs) =
    rw_avg r nb (fun pre x => dev r nb pre x (sg i) * dev r nb pre x (sg i)) xs.
  Proof. apply rw_avg_map. intros. now rewrite dev_perm. Qed.
  Lemma dcc_eps_perm rv nb pre x i : dcc_eps rv nb (map (fun y : obs => re y) pre) (re x) i = dcc_eps rv nb pre x (sg i).
  Proof.
    unfold dcc_eps. rewrite dev_perm. do 2 f_equal. unfold dcc_h.
    replace (map (fun y : obs => re y) pre ++ [re x])%list with (map (fun y : obs => re y) (pre ++ [x])%list) by (now rewrite map_app).
    apply sq_perm.
  Qed.
  Lemma dcc_perm r rv nb xs i j :
    dcc_H (dcc_Q r rv nb (map (fun y : obs => re y) xs)) (dcc_h rv nb (map (fun y : obs => re y) xs)) i j =
    dcc_H (dcc_Q r rv nb xs) (dcc_h rv nb xs) (sg i) (sg j).
  Proof.
    assert (EQ : forall i j, dcc_Q r rv nb (map (fun y : obs => re y) xs) i j = dcc_Q r rv nb xs (sg i) (sg j)).
    { intros. unfold dcc_Q. apply rw_avg_map. intros. now rewrite !dcc_eps_perm. }
    assert (Eh : forall i, dcc_h rv nb (map (fun y : obs => re y) xs) i = dcc_h rv nb xs (sg i)) by (intros; apply sq_perm).
    unfold dcc_H, qcorr. now rewrite !EQ, !Eh.
  Qed.

  (** principal components *)
  Definition vperm (v v' : obs) : Prop := forall i, (i < p)%nat -> v' i = v (sg i).
  Lemma rdot_vperm u u' v v' : vperm u u' -> vperm v v' -> rdot p u' v' = rdot p u v.
  Proof.
    intros Hu Hv. unfold rdot. rewrite <- (rsum_perm (fun i => u i * v i)). apply rsum_ext. intros i Hi. now rewrite Hu, Hv.
  Qed.
  Lemma nrm_vperm v v' : vperm v v' -> nrm p v' = nrm p v.
  Proof. intros H. unfold nrm. now rewrite (rdot_vperm v v' v v' H H). Qed.
  Lemma rccipca_perm lr vs vs' : Forall2 vperm vs vs' -> forall u u', vperm u u' ->
    Forall2 vperm (rccipca p lr u vs) (rccipca p lr u' vs').
  Proof.
    intros H. induction H as [|v v' vs vs' Hv H IH]; intros u u' Hu; cbn [rccipca]; [constructor|].
    rewrite (nrm_vperm v v' Hv). destruct (Rltb (nrm p v) e12).
    - constructor; auto.
    - assert (EP : rdot p u' (fun i => v' i / nrm p v) = rdot p u (fun i => v i / nrm p v)).
      { apply rdot_vperm; auto. intros i Hi. now rewrite Hv. }
      rewrite EP. constructor.
      + intros i Hi. cbv beta. now rewrite (Hv i Hi), (Hu i Hi).
      + apply IH. intros i Hi. cbv beta. now rewrite (Hv i Hi), (Hu i Hi).
  Qed.
  Lemma fac_sum_perm vs vs' : Forall2 vperm vs vs' -> forall i j, (i < p)%nat -> (j < p)%nat -> fac_sum p vs' i j = fac_sum p vs (sg i) (sg j).
  Proof.
    intros H i j Hi Hj. unfold fac_sum. induction H as [|v v' vs vs' Hv H IH]; [reflexivity|]. cbn [map lsum fold_right]. fold (lsum (map (fun v => if live p v then v (sg i) * v (sg j) / nrm p v else 0) vs)). rewrite <- IH. f_equal.
    unfold live. rewrite (nrm_vperm v v' Hv), (Hv i Hi), (Hv j Hj). reflexivity.
  Qed.
  Lemma fac_comps_perm k r xs : Forall2 vperm (fac_comps p k r xs) (fac_comps p k r (map (fun y : obs => re y) xs)).
  Proof.
    unfold fac_comps.
    assert (G : forall xs a a', fn a' = fn a -> vperm (fm_ a) (fm_ a') -> Forall2 vperm (fV a) (fV a') ->
      Forall2 vperm (fV (fold_left (fac_step p k r) xs a)) (fV (fold_left (fac_step p k r) (map (fun y : obs => re y) xs) a'))).
    { clear xs. induction xs as [|x xs IH]; intros a a' H1 H2 H3; cbn [map fold_left]; [exact H3|]. apply IH; unfold fac_step; cbn [fn fm_ fV].
      - now rewrite H1.
      - intros i Hi. now rewrite H1, (H2 i Hi).
      - rewrite H1. apply rccipca_perm; auto. intros i Hi. cbv beta. now rewrite (H2 i Hi). }
    apply G; unfold f_init; cbn [fn fm_ fV]; auto.
    - intros i _. reflexivity.
    - clear G. induction k; cbn [repeat]; constructor; auto. intros i _. reflexivity.
  Qed.
  Lemma fac_H_perm vs vs' var i j : Forall2 vperm vs vs' -> (i < p)%nat -> (j < p)%nat ->
    fac_H p vs' (re var) i j = fac_H p vs var (sg i) (sg j).
  Proof.
    intros H Hi Hj. unfold fac_H. rewrite (fac_sum_perm vs vs' H i j Hi Hj). f_equal.
    rewrite <- (rdiag_perm (fun i => Rmax (var i - fac_sum p vs i i) 0) i j Hi Hj). unfold rdiag.
    destruct (Nat.eqb i j); [|reflexivity]. now rewrite (fac_sum_perm vs vs' H i i Hi Hi).
  Qed.
End Perm.

(** ** Tyler: the shape matrix is rotation covariant *)
Section Tyl.
  Context (p : nat) (A : rmat) (HA : similarity p 1 A) (Hp : (1 <= p)%nat) (L : LinAlg NumX) (HL : lawful L).
  Notation b0 := (fun _ : nat => 0).
  Lemma rel_tyl r nb a a' x x' : sym p (aC a) -> rel p A b0 a a' -> img p A b0 x x' ->
    rel p A b0 (tyl_step L p r nb a x) (tyl_step L p r nb a' x').
  Proof.
    intros Sa HR HX. pose proof (rel_maha p 1 A HA b0 L HL a a' x x' Hp Sa HR HX) as EM.
    pose proof (rel_dv p A b0 a a' x x' HR HX) as D. destruct HR as (R1 & R2 & R3).
    assert (EQ : tyl_q L p a' x' = tyl_q L p a x) by (unfold tyl_q; now rewrite EM).
    pose proof (tyl_q_pos L p a x) as Q. unfold tyl_step. rewrite R1. set (lr := tyl_lr r nb (an a)).
    assert (E1 : meq p p (tyl_C1 L p lr a' x') (congr p A (tyl_C1 L p lr a x))).
    { intros i j Hi Hj. unfold tyl_C1. rewrite EQ, (R3 i j Hi Hj), (D i Hi), (D j Hj). symmetry.
      etransitivity; [apply (congr_lin p A (aC a) (fun k l => dv a x k * dv a x l) _ (1 - lr) (lr * INR p / tyl_q L p a x)); intros; field; lra|].
      rewrite <- congr_outer. unfold rapp. field. lra. }
    split; [reflexivity|]. cbn [am aC]. split.
    - intros i Hi. rewrite (R2 i Hi), (D i Hi), !aff_rapp.
      rewrite (rapp_lin p A (am a) (dv a x) (fun i => am a i + lr * dv a x i) 1 lr) by (intros; ring). ring.
    - intros i j Hi Hj. rewrite (E1 i j Hi Hj), (rtrace_ext p _ _ E1), (congr_trace p 1 A HA), Rmult_1_l. symmetry.
      set (t := rtrace p (tyl_C1 L p lr a x)).
      etransitivity; [apply (congr_lin p A (tyl_C1 L p lr a x) (fun _ _ => 0) _ (INR p / t) 0); intros; unfold Rdiv; ring|]. unfold Rdiv. ring.
  Qed.
  Lemma sym_tyl r nb a x : sym p (aC a) -> sym p (aC (tyl_step L p r nb a x)).
  Proof. intros H i j Hi Hj. cbn [tyl_step aC]. unfold tyl_C1. rewrite (H i j Hi Hj), (Rmult_comm (dv a x i)). reflexivity. Qed.
  Lemma rel_tyl_st r xs xs' : Forall2 (img p A b0) xs xs' -> rel p A b0 (tyl_st L p r xs) (tyl_st L p r xs').
  Proof.
    intros H. unfold tyl_st.
    assert (G : forall a a', sym p (aC a) -> rel p A b0 a a' ->
      rel p A b0 (fold_left (tyl_step L p r (burn_len r)) xs a) (fold_left (tyl_step L p r (burn_len r)) xs' a')).
    { induction H as [|y y' xs xs' HY H IH]; intros a a' Ha HR; [exact HR|]. cbn [fold_left]. apply IH; [now apply sym_tyl|now apply rel_tyl]. }
    apply G; [apply psd_I|]. split; [reflexivity|]. split; unfold t_init; cbn [am aC].
    - intros i Hi. rewrite aff_rapp. unfold rapp. rewrite (rsum_ext p _ (fun _ => 0)) by (intros; ring). rewrite rsum_const. ring.
    - intros i j Hi Hj. rewrite (congr_I p 1 A HA i j Hi Hj). ring.
  Qed.
End Tyl.

Lemma rw_avg_rsum r nb n (g : nat -> list obs -> obs -> R) xs :
  rw_avg r nb (fun pre x => rsum n (fun k => g k pre x)) xs = rsum n (fun k => rw_avg r nb (g k) xs).
Proof.
  induction n as [|n IH]; cbn [rsum].
  - induction xs as [|x xs IH] using rev_ind; [apply rw_avg_nil|]. rewrite rw_avg_snoc, IH. destruct (Nat.ltb _ _); unfold Rdiv; ring.
  - now rewrite rw_avg_plus, IH.
Qed.
(** ** PartialMoments: averages of outer products of innovations, then nearest_pos_def *)
Section PM.
  Context (p : nat) (A : rmat).
  Notation b0 := (fun _ : nat => 0).
  Lemma aff0_nil r nb i : ewa_mean r nb [] i = 0.
  Proof. unfold ewa_mean, burn, after. now rewrite firstn_nil, skipn_nil, ewm_nil, mean_nil. Qed.
  Lemma dev_aff0 r nb pre x i : (1 <= nb)%nat -> dev r nb (map (aff p A b0) pre) (aff p A b0 x) i = rapp p A (fun k => dev r nb pre x k) i.
  Proof.
    intros Hn. unfold dev. destruct pre as [|y pre].
    - cbn [map]. rewrite aff0_nil. unfold aff, rapp. rewrite Rplus_0_r, Rminus_0_r. apply rsum_ext. intros k _. now rewrite aff0_nil, Rminus_0_r.
    - rewrite (ewa_mean_aff r nb p A b0 (y :: pre) i Hn) by discriminate.
      etransitivity; [apply aff_diff|]. reflexivity.
  Qed.
  Lemma dev_cov_aff0 r nb xs i j : (1 <= nb)%nat -> dev_cov r nb (map (aff p A b0) xs) i j = congr p A (dev_cov r nb xs) i j.
  Proof.
    intros Hn. unfold dev_cov.
    rewrite (rw_avg_map r nb _ (fun pre x => rapp p A (fun k => dev r nb pre x k) i * rapp p A (fun k => dev r nb pre x k) j))
      by (intros; now rewrite !dev_aff0 by auto).
    rewrite (rw_avg_ext r nb _ (fun pre x => rsum p (fun k => rsum p (fun l => (A i k * A j l) * (dev r nb pre x k * dev r nb pre x l))))).
    - rewrite rw_avg_rsum. apply rsum_ext. intros k _. rewrite rw_avg_rsum. apply rsum_ext. intros l _.
      rewrite rw_avg_scal. unfold dev_cov. ring.
    - intros pre x. etransitivity; [exact (congr_outer p A (fun k => dev r nb pre x k) (fun k => dev r nb pre x k) i j)|].
      apply rsum_ext. intros k _. apply rsum_ext. intros; ring.
  Qed.
  Context (HA : similarity p 1 A) (Hp : (1 <= p)%nat) (L : LinAlg NumX) (HL : lawful L) (fuel : nat) (Hf : (1 <= fuel)%nat).
  Lemma mnorm_fin C : mnorm (fm p p C) = Fin (sqrt (fro2 p C)).
  Proof.
    unfold mnorm. rewrite (mmap_fin p p _ C (fun i j => C i j * C i j)) by (intros; reflexivity).
    rewrite msum_fin. apply sqrt_fin. apply rsum_nonneg. intros. apply rsum_nonneg. intros. apply Rle_0_sqr.
  Qed.
  Lemma npd_psd S : psd p S -> exists e, la_spacing L (Fin (sqrt (fro2 p S)) : NumX) = Fin e /\ 0 < e /\
    ((pd p S /\ nearest_pos_def L fuel (fm p p S) = Ok (fm p p S)) \/
     (~ pd p S /\ nearest_pos_def L fuel (fm p p S) = Ok (fm p p (fun i j => S i j + e * rI i j)))).
  Proof.
    intros HS. destruct (npd_spec L HL p S fuel Hp Hf) as (W & mu & e & He & Hpos & Es & D). cbv zeta in D.
    exists e. rewrite mnorm_fin in Es. split; [exact Es|]. split; [exact Hpos|].
    assert (SA : meq p p (symm S) S) by (apply symm_id; apply HS).
    assert (E : meq p p (eigmax0 p W mu) S).
    { eapply meq_trans; [|exact SA]. eapply meq_trans; [|apply meq_sym; apply (eig_spec p _ W mu He)].
      apply spec_ext. intros k Hk. apply Rmax_left. apply (psd_eig p (symm S) W mu); auto.
      apply (psd_ext p S); auto. now apply meq_sym. }
    destruct D as [[Y EQ]|[N EQ]]; [left|right].
    - split; [now apply (pd_ext p (eigmax0 p W mu))|]. rewrite EQ. f_equal. now apply fm_meq.
    - split; [intros Y; apply N; apply (pd_ext p S); auto; now apply meq_sym|]. rewrite EQ. f_equal. apply fm_meq.
      intros i j Hi Hj. now rewrite (E i j Hi Hj).
  Qed.
End PM.
Lemma pd_congr_sim p A C : similarity p 1 A -> pd p C -> pd p (congr p A C).
Proof.
  intros HA HC. apply (pd_ext p (rmul p (rT (rT A)) (rmul p C (rT A)))); [intros i j _ _; symmetry; apply congr_mul|].
  apply LinalgReal.pd_congr; auto. destruct HA as (_ & H1 & H2). exists A. split; [rewrite H1|rewrite H2]; intros i j _ _; ring.
Qed.
Lemma similarity_T p A : similarity p 1 A -> similarity p 1 (rT A).
Proof. intros (H0 & H1 & H2). split; [lra|]. split; [exact H2|exact H1]. Qed.
Lemma congr_T_back p A C : similarity p 1 A -> meq p p (congr p (rT A) (congr p A C)) C.
Proof.
  intros (_ & H1 & _). assert (O : meq p p (rmul p (rT A) A) rI) by (rewrite H1; intros i j _ _; ring).
  assert (EB : forall B X, meq p p (congr p B X) (rmul p B (rmul p X (rT B)))) by (intros B X i j _ _; apply congr_mul).
  rewrite (EB (rT A)), (EB A). change (rT (rT A)) with A. rewrite !mul_assoc, O, mul_I_r, <- mul_assoc, O, mul_I_l. reflexivity.
Qed.
Lemma npd_congr p A L fuel S S' : similarity p 1 A -> (1 <= p)%nat -> lawful L -> (1 <= fuel)%nat -> psd p S -> meq p p S' (congr p A S) ->
  exists B, nearest_pos_def L fuel (fm p p S) = Ok (fm p p B) /\ sym p B /\ nearest_pos_def L fuel (fm p p S') = Ok (fm p p (congr p A B)).
Proof.
  intros HA Hp HL Hf HS E. rewrite (fm_meq p p S' _ E).
  assert (HS' : psd p (congr p A S)).
  { apply (psd_ext p (rmul p (rT (rT A)) (rmul p S (rT A)))); [intros i j _ _; symmetry; apply congr_mul|]. now apply psd_congr. }
  destruct (npd_psd p Hp L HL fuel Hf S HS) as (e & E1 & _ & D). destruct (npd_psd p Hp L HL fuel Hf _ HS') as (e' & E1' & _ & D').
  rewrite (congr_fro2 p 1 A HA), !Rmult_1_l in E1'. assert (e' = e) by congruence. subst e'.
  destruct D as [[Y EQ]|[N EQ]], D' as [[Y' EQ']|[N' EQ']].
  - exists S. split; [exact EQ|]. split; [apply HS|exact EQ'].
  - exfalso. apply N'. now apply pd_congr_sim.
  - exfalso. apply N. apply (pd_ext p (congr p (rT A) (congr p A S))); [now apply congr_T_back|]. apply pd_congr_sim; auto using similarity_T.
  - exists (fun i j => S i j + e * rI i j). split; [exact EQ|]. split.
    + intros i j Hi Hj. rewrite (proj1 HS i j Hi Hj), rI_sym. reflexivity.
    + rewrite EQ'. f_equal. apply fm_meq. intros i j Hi Hj. symmetry.
      etransitivity; [apply (congr_lin p A S rI _ 1 e); intros; ring|]. rewrite (congr_I p 1 A HA i j Hi Hj). ring.
Qed.

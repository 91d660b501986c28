(** * C105, exact arithmetic: the block count of SchurLedoitWolf changed after the burn-in

    The noise accumulated so far was measured between the old blocks and is compared with the signal
    between the new ones. *)
From Coq Require Import Reals ZArith String List Lia Lra Arith Bool.
From Verif Require Import Num Numpy PyVal LinalgModel StateModel BaseModel Estimators Spec ListLemmas BaseProofs
  RMat LinSpec Fin RealSpec RunFin EwaReal RunAvg EmpFacts ShrinkReal Spectral MatAlg Contracts LinalgReal
  BlockSpec BlockGeom BlockReal BlockRun BlockRun2 Props_Emp Props_Block.
Import ListNotations.
Local Open Scope string_scope.
Local Open Scope R_scope.

(** keep fraction from the noise between the [k1] old blocks and the signal between the [k2] new ones *)
Definition switched_reliability (p k1 k2 : nat) (r : R) (xs : list obs) : R :=
  let nb := burn_len r in
  let m2 := cross_sum p k2 (fun i j => ewa_cov r nb xs i j ^ 2) in
  if Rlt_dec 0 m2 then Rmin (Rmax (1 - r * cross_noise p k1 r nb xs / m2) 0) 1 else 1.

Theorem C105_schur_lw_switch L p r n1 n2 diff rows xs :
  lawful L -> (1 <= p)%nat -> r <> 0 -> (1 <= n1)%Z -> (1 <= n2)%Z -> observes p diff rows xs -> xs <> [] ->
  let g := switched_reliability p (blocks n1 p) (blocks n2 p) r xs in
  exists o B, fitted_on (C := SchurLW L) (BLK r n1 diff) rows o /\
    let o' := set_params o (BLK r n2 diff) in
    slw_gamma_ L o' = Ok (Fin g) /\ covariance_ o' = Ok (fm p p B) /\
    pd_projection p (damped p (blocks n2 p) g (ewa_cov r (burn_len r) xs)) B.
Proof.
  intros HL Hp Hr Hn1 Hn2 Ho Hx g. set (k := blocks n1 p). set (k2 := blocks n2 p).
  destruct (length_S xs Hx) as (n & Hn).
  pose proof (slw_fold p k r (burn_len r) xs) as E. cbv zeta in E. destruct E as (E1 & E2).
  pose proof (ewa_fold r (burn_len r) xs) as F. cbv zeta in F. rewrite <- E1 in F. destruct F as (F1 & F2 & F3).
  destruct (run_reads_g (C := SchurLW L) (BLK r n1) (slw_pair L r n1) (slw_d p r (burn_len r)) (slw_step p k r (burn_len r)) p l_init)
    with (xs := xs) (diff := diff) (rows := rows) (n := n) as (o & R1 & Rs & R2 & R3 & R4 & R5 & R6); auto.
  - cbn [c_init SchurLW dict_class]. unfold slw_init. cbn [blk_r BLK]. rewrite ewa_init_fin by auto. reflexivity.
  - clear - Hp Hn1. generalize l_init. induction xs as [|x xs IH]; intros a; cbn [good]; auto.
    split; [|apply IH]. cbn [c_update SchurLW dict_class]. now apply slw_update_fin.
  - cbn. unfold dict_nsamples, slw_d, ewa_d, emp_d. rd. now rewrite F1, Hn.
  - set (st := fold_left (slw_step p k r (burn_len r)) xs l_init) in *.
    set (C := ewa_cov r (burn_len r) xs) in *.
    assert (EC : meq p p (aC (la_ st)) C) by (intros i j _ _; apply F3).
    assert (EG : slw_g p k2 r (lpi st) (aC (la_ st)) = g).
    { rewrite (slw_g_ext p k2 r _ _ C EC). rewrite E2. unfold g, switched_reliability. fold k k2. fold C. unfold slw_g.
      assert (Q1 : cross_sum p k2 (fun i j => C i j * C i j) = cross_sum p k2 (fun i j => C i j ^ 2)) by
        (apply cross_sum_ext; intros i j _ _; ring).
      assert (Q2 : ewsum r (burn_len r) (slw_stat p k r (burn_len r)) xs = cross_noise p k r (burn_len r) xs).
      { unfold cross_noise, ewsum. apply rsum_ext. intros m Hm. f_equal. unfold stat, slw_stat, slw_q. apply cross_sum_ext. intros i j _ _. unfold dev. ring. }
      rewrite Q1, Q2. cbv zeta. destruct (Rltb_spec 0 (cross_sum p k2 (fun i j => C i j ^ 2))), (Rlt_dec 0 (cross_sum p k2 (fun i j => C i j ^ 2))); try contradiction; auto.
      unfold rclip. now rewrite (Rmult_comm (cross_noise _ _ _ _ _)). }
    assert (Fs : fitted_state (set_params o (BLK r n2 diff)) = Ok (slw_d p r (burn_len r) st)).
    { unfold fitted_state, set_params. cbn [i_state]. rewrite Rs. cbn [c_nsamples SchurLW dict_class]. unfold dict_nsamples.
      replace (getI "n_samples" (slw_d p r (burn_len r) st)) with (Ok (an (la_ st))) by reflexivity. cbn [bind get_or].
      rewrite F1, Hn. reflexivity. }
    exists o, (mpd L p (damped p k2 g C)). split; [exact R1|]. cbv zeta. split; [|split].
    + unfold slw_gamma_. rewrite Fs. cbn [bind set_params i_params]. rewrite slw_gamma_fin by auto. fold k2. now rewrite EG.
    + unfold covariance_. rewrite Fs. cbn [bind set_params i_params c_cov SchurLW dict_class].
      rewrite slw_cov_fin by auto. cbn [bind]. fold k2. rewrite EG.
      rewrite (mpd_ext L p _ (damped p k2 g C)).
      * apply to_symmetric_sym_fin. now apply mpd_sym.
      * eapply meq_trans; [apply symm_ext, damped_ext; exact EC|]. apply symm_id. apply damped_sym, sym_ewa_cov.
    + now apply mpd_projection.
Qed.

(** From one block to several: no noise has been recorded, so the whole coupling is kept at first. *)
Corollary C105_schur_lw_from_one_block L p r n2 diff rows xs :
  lawful L -> (1 <= p)%nat -> r <> 0 -> (1 <= n2)%Z -> observes p diff rows xs -> xs <> [] ->
  exists o, fitted_on (C := SchurLW L) (BLK r 1 diff) rows o /\
    slw_gamma_ L (set_params o (BLK r n2 diff)) = Ok (Fin 1).
Proof.
  intros HL Hp Hr Hn2 Ho Hx.
  destruct (C105_schur_lw_switch L p r 1 n2 diff rows xs HL Hp Hr ltac:(lia) Hn2 Ho Hx) as (o & B & E1 & E2 & _).
  exists o. split; [exact E1|]. rewrite E2. do 2 f_equal. unfold switched_reliability.
  assert (E : cross_noise p (blocks 1 p) r (burn_len r) xs = 0).
  { unfold cross_noise, ewsum. apply rsum_zero. intros n Hn. unfold stat.
    apply Rmult_eq_0_compat_l. unfold cross_sum. apply rsum_zero. intros i Hi. apply rsum_zero. intros j Hj.
    replace (blocks 1 p) with 1%nat by (unfold blocks; lia).
    destruct (block_of_spec p 1 i) as [A1 _]; [lia|auto|]. destruct (block_of_spec p 1 j) as [A2 _]; [lia|auto|].
    replace (block_of p 1 i) with (block_of p 1 j) by lia. now rewrite Nat.eqb_refl. }
  rewrite E. destruct (Rlt_dec 0 _) as [H|H]; auto.
  replace (1 - r * 0 / _) with 1 by (field; lra). rewrite Rmax_left by lra. apply Rmin_left. lra.
Qed.

(** ... while the same stream with two blocks from the start may keep none of it: five zero rows, then (1, 1). *)
Definition xs_switch : list obs := [fun _ => 0; fun _ => 0; fun _ => 0; fun _ => 0; fun _ => 0; fun _ => 1].
Lemma burn_len_one : burn_len 1 = 5%nat.
Proof.
  unfold burn_len. replace (1 / 1) with 1 by field. replace (up (Ropp 1)) with 0%Z; [reflexivity|].
  apply tech_up; simpl; lra.
Qed.
Lemma five_zeros k : exists a, fold_left (slw_step 2 k 1 5) (firstn 5 xs_switch) l_init = a /\
  an (la_ a) = 5%nat /\ (forall i, am (la_ a) i = 0) /\ (forall i j, aC (la_ a) i j = 0) /\ lpi a = 0.
Proof.
  assert (S1 : forall a m, (m < 5)%nat -> an (la_ a) = m -> (forall i, am (la_ a) i = 0) -> (forall i j, aC (la_ a) i j = 0) -> lpi a = 0 ->
    let b := slw_step 2 k 1 5 a (fun _ => 0) in
    an (la_ b) = S m /\ (forall i, am (la_ b) i = 0) /\ (forall i j, aC (la_ b) i j = 0) /\ lpi b = 0).
  { intros a m Hm H1 H2 H3 H4. cbv zeta. unfold slw_step, ewa_step. rewrite H1. apply Nat.ltb_lt in Hm. rewrite Hm.
    cbn [la_ lpi]. unfold emp_step. cbn [an am aC]. split; [now rewrite H1|]. split; [|split; auto].
    - intros i. rewrite H2. unfold Rdiv. ring.
    - intros i j. rewrite H3, !H2. unfold Rdiv. ring. }
  cbn [firstn xs_switch fold_left]. eexists. split; [reflexivity|].
  destruct (S1 l_init 0%nat) as (A1 & A2 & A3 & A4); auto with arith.
  destruct (S1 _ 1%nat ltac:(lia) A1 A2 A3 A4) as (B1 & B2 & B3 & B4).
  destruct (S1 _ 2%nat ltac:(lia) B1 B2 B3 B4) as (C1 & C2 & C3 & C4).
  destruct (S1 _ 3%nat ltac:(lia) C1 C2 C3 C4) as (D1 & D2 & D3 & D4).
  destruct (S1 _ 4%nat ltac:(lia) D1 D2 D3 D4) as (E1 & E2 & E3 & E4). auto.
Qed.
Example C105_switch_differs : coupling_reliability 2 (blocks 2 2) 1 xs_switch = 0 /\
  switched_reliability 2 (blocks 1 2) (blocks 2 2) 1 xs_switch = 1 /\ observes 2 false (map (fv 2) xs_switch) xs_switch.
Proof.
  change (blocks 2 2) with 2%nat. change (blocks 1 2) with 1%nat.
  assert (K : forall k, lpi (fold_left (slw_step 2 k 1 5) xs_switch l_init) = cross_sum 2 k (fun _ _ => 1) /\
     forall i j, ewa_cov 1 5 xs_switch i j = 1).
  { intros k. destruct (five_zeros k) as (a & E0 & A1 & A2 & A3 & A4).
    assert (E : fold_left (slw_step 2 k 1 5) xs_switch l_init = slw_step 2 k 1 5 a (fun _ => 1)).
    { change xs_switch with (firstn 5 xs_switch ++ [fun _ => 1])%list. rewrite fold_left_app, E0. reflexivity. }
    pose proof (slw_fold 2 k 1 5 xs_switch) as F. cbv zeta in F. destruct F as (F1 & _).
    pose proof (ewa_fold 1 5 xs_switch) as G. cbv zeta in G. rewrite <- F1, E in G. destruct G as (_ & _ & G).
    rewrite E. unfold slw_step in G |- *. cbn [lpi la_] in *. unfold ewa_step in G. rewrite A1 in G |- *.
    cbn [Nat.ltb Nat.leb] in *. split.
    - rewrite A4. unfold slw_q. ring_simplify. apply cross_sum_ext. intros i j _ _. rewrite !A2, A3. ring.
    - intros i j. rewrite <- G. unfold ew_step. cbn [aC]. rewrite A3, !A2. ring. }
  destruct (K 2%nat) as [K2 KC]. destruct (K 1%nat) as [K1 _].
  assert (M2 : forall F : rmat, (forall i j, F i j = 1) -> cross_sum 2 2 F = 2).
  { intros F HF. unfold cross_sum. cbn. rewrite !HF. lra. }
  assert (M1 : forall F, cross_sum 2 1 F = 0) by (intros F; unfold cross_sum; cbn; lra).
  split; [|split; [|apply observes_plain]].
  - rewrite <- rel_slw, burn_len_one. pose proof (slw_fold 2 2 1 5 xs_switch) as F. cbv zeta in F. destruct F as (_ & <-).
    rewrite K2, (M2 _ (fun _ _ => eq_refl)). unfold slw_g.
    rewrite (M2 (fun i j => _)) by (intros; rewrite KC; ring). destruct (Rltb_spec 0 2); [|lra].
    unfold rclip. rewrite Rmax_right by lra. apply Rmin_left. lra.
  - unfold switched_reliability. rewrite burn_len_one. rewrite (M2 (fun i j => _)) by (intros; rewrite KC; ring).
    replace (cross_noise 2 1 1 5 xs_switch) with 0.
    + destruct (Rlt_dec 0 2); [|lra]. replace (1 - 1 * 0 / 2) with 1 by lra. rewrite Rmax_left by lra. apply Rmin_left. lra.
    + unfold cross_noise, ewsum. symmetry. apply rsum_zero. intros n Hn. unfold stat. rewrite M1. ring.
Qed.
Example C105_burn_in_met : ewa_burn_n (Fin 1 : NumX) = Ok 5%nat.
Proof. pose proof (ewa_init_fin 0 1 ltac:(lra)) as E. unfold ewa_init in E. destruct (ewa_burn_n (Fin 1 : NumX)) as [nb|e] eqn:EB; [|discriminate].
  cbn [bind] in E. injection E as ->. now rewrite burn_len_one. Qed.

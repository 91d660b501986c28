(** * C96: a case in which the evaluation completes (all seventeen estimators, one asset) *)
From Coq Require Import Reals ZArith Bool String List Lia Lra Arith.
From Verif Require Import Num Numpy PyVal LinalgModel StateModel BaseModel Estimators RegistryModel ParamsModel AssessModel RecommendModel
  Spec RMat LinSpec Fin RealSpec GaussSpec AssessSpec RunFin EwaReal RunAvg EmpFacts Props_Emp ShrinkReal Props_Shrink MomentReal FactorReal Props_Moment Contracts LinalgReal RobustReal Props_Robust
  BlockSpec BlockRun Props_Block SchurCondSpec SchurCondReal Props_SchurCond Props_Corr Props_Params Props_Defaults FloatEwa
  OosModel OosSpec Props_Oos Props_OosReal Props_OosRun.
Import ListNotations.
Local Open Scope string_scope.
Local Open Scope R_scope.

Lemma Ok_inj' {A} (a b : A) : Ok a = Ok b -> a = b. Proof. congruence. Qed.
Lemma pd1 (A : rmat) : 0 < A O O -> pd 1 A.
Proof.
  intros H. split; [intros i j Hi Hj; now replace i with O by lia; replace j with O by lia|].
  intros v (i & Hi & Hv). replace i with O in Hv by lia. unfold qf. cbn [rsum]. assert (0 < v O * v O) by (apply Rsqr_pos_lt in Hv; exact Hv). nra.
Qed.
Lemma pd1_pos (A : rmat) : pd 1 A -> 0 < A O O.
Proof. intros [_ H]. specialize (H (fun _ => 1)). unfold qf in H. cbn [rsum] in H. assert (0 < 0 + (0 + 1 * A O O * 1)) by (apply H; exists O; split; [lia|lra]). lra. Qed.
Lemma fit_cov_intro (k : Signed NumX) (P : c_P (sg_class k)) rows (o : inst (sg_class k)) M :
  (exists ob, construct k [] = Ok ob /\ view k ob = Some (new P)) -> fitted_on P rows o -> covariance_ o = Ok M -> fit_cov k rows = Ok M.
Proof.
  intros (ob & H1 & H2) H3 H4. unfold fit_cov. rewrite H1. cbn [bind]. rewrite H2. unfold fit. cbn [new i_params i_nfeat].
  unfold fitted_on, new in H3. rewrite H3. exact H4.
Qed.
Ltac intro_class P := match goal with |- exists A, fit_cov ?k ?rows = _ /\ _ =>
  assert (HB : exists ob, construct k [] = Ok ob /\ view k ob = Some (new (P : c_P (sg_class k))))
    by (eexists; split; [reflexivity|]; cbn -[nlit]; unfold read_ewa, read_blk, rd_num, rd_int, rd_bool, rd_str, rd_optnum; cbn -[nlit]; rewrite ?lit_r, ?lit_half, ?lit_tenth, ?lit_c; reflexivity) end.

Definition toy_train : list obs := [fun _ => 1; fun _ => Ropp 1].
Definition toy : list obs := [fun _ => 1; fun _ => Ropp 1; fun _ => 2].
Lemma rw_two r nb g x0 x1 : (2 <= nb)%nat -> rw_avg r nb g [x0; x1] = (g [] x0 + g [x0] x1) / 2.
Proof.
  intros H. unfold rw_avg, ewsum, burn_avg. cbn [length]. replace (2 - nb)%nat with O by lia. replace (Nat.min 2 nb) with 2%nat by lia.
  cbn [rsum pow]. unfold stat, nthobs. cbn [firstn nth INR]. field.
Qed.
Lemma toy_dev0 r nb i : dev r nb [] (fun _ => 1) i = 1.
Proof. unfold dev, ewa_mean, burn, after. rewrite firstn_nil, skipn_nil, ewm_nil, mean_nil. lra. Qed.
Lemma toy_innov r nb i : (2 <= nb)%nat -> 1 / 2 <= innov_var r nb toy_train i.
Proof.
  intros H. unfold innov_var, toy_train. rewrite rw_two by auto. rewrite toy_dev0.
  assert (Q := Rle_0_sqr (dev r nb [fun _ => 1] (fun _ => Ropp 1) i)). unfold Rsqr in Q. lra.
Qed.
Lemma toy_ewa : ewa_cov (1 / 20) (burn_len (1 / 20)) toy_train O O = 1.
Proof.
  pose proof (burn_len_bounds (1 / 20)). rewrite ewa_cov_burning by (unfold toy_train; cbn [length]; lia).
  unfold pcov_of, mean_of, toy_train. cbn [map lsum length INR]. field.
Qed.
Lemma toy_observes : observes 1 false (map (fv 1) toy_train) toy_train. Proof. apply observes_plain. Qed.

Lemma toy_pd L k : lawful L -> In k (signatures L 1) -> exists A, fit_cov k (map (fv 1) toy_train) = Ok (fm 1 1 A) /\ pd 1 A.
Proof.
  intros HL Hk. pose proof (burn_len_bounds (1 / 20)) as HB0. pose proof toy_observes as Ho. pose proof toy_ewa as HE.
  assert (Hx : toy_train <> []) by discriminate. assert (Hr : 0 < 1 / 20 <= 1) by lra. assert (Hr0 : 1 / 20 <> 0) by lra. assert (Hlen : (length toy_train <= burn_len (1 / 20))%nat) by (cbn [length toy_train]; lia).
  destruct (C16_ewa_closed_form 1 (1 / 20) false _ _ Hr0 Ho Hx) as (e0 & Fe & _ & _ & Ce).
  assert (PE : pd 1 (ewa_cov (1 / 20) (burn_len (1 / 20)) toy_train)) by (apply pd1; rewrite HE; lra).
  assert (FE : forall e, fitted_on (C := Ewa) (EWA (1 / 20) false) (map (fv 1) toy_train) e -> covariance_ e = Ok (fm 1 1 (ewa_cov (1 / 20) (burn_len (1 / 20)) toy_train))).
  { intros e He. rewrite (fitted_unique _ _ _ _ He Fe). exact Ce. }
  repeat (destruct Hk as [<-|Hk]); try contradiction.
  - intro_class (mkEmpP false). destruct (Empirical_run 1 false _ _ Ho Hx) as (o & E1 & _ & _ & E4 & _).
    eexists. split; [exact (fit_cov_intro _ _ _ _ _ HB E1 E4)|]. apply pd1. rewrite <- (ewa_cov_burning (1 / 20) (burn_len (1 / 20)) toy_train O O Hlen), HE. lra.
  - intro_class (EWA (1 / 20) false). destruct (C32_diagonal_closed_form 1 (1 / 20) false _ _ Hr Ho Hx) as (o & e & S & E1 & _ & _ & _ & E4 & _).
    eexists. split; [exact (fit_cov_intro _ _ _ _ _ HB E1 E4)|]. apply pd1. cbn [Nat.eqb]. assert (QI := toy_innov (1 / 20) (burn_len (1 / 20)) O ltac:(lia)). lra.
  - intro_class (BLK (1 / 20) 4 false). destruct (C45_block_covariance L 1 (1 / 20) 4 false _ _ HL (le_n 1) Hr0 Ho Hx) as (o & B & P & E1 & _ & E3 & _ & E5 & _).
    eexists. split; [exact (fit_cov_intro _ _ _ _ _ HB E1 E3)|exact E5].
  - intro_class (EWA (1 / 20) false). eexists. split; [exact (fit_cov_intro _ _ _ _ _ HB Fe Ce)|exact PE].
  - intro_class (ADA (1 / 20) (1 / 2) false). destruct (C35_equal_rates_is_ewa L 1 (1 / 20) (1 / 2) false _ _ HL (le_n 1) Hr0 Ho Hx (or_introl Hlen)) as (o & e & E1 & E2 & _ & _ & E3 & _).
    rewrite (FE _ E2) in E3. eexists. split; [exact (fit_cov_intro _ _ _ _ _ HB E1 E3)|exact PE].
  - intro_class (EWA (1 / 20) false). destruct (C26_ledoit_wolf_convex_shrinkage 1 (1 / 20) false _ _ (le_n 1) Hr Ho Hx) as (o & e & S & a & E1 & E2 & _ & _ & _ & _ & _ & _ & _ & E3).
    destruct (E3 Hlen) as [_ E4]. rewrite (FE _ E2) in E4. eexists. split; [exact (fit_cov_intro _ _ _ _ _ HB E1 E4)|exact PE].
  - intro_class (EWA (1 / 20) false). destruct (C27_oas_convex_shrinkage 1 (1 / 20) false _ _ (le_n 1) Hr Ho Hx) as (o & e & S & rho & E1 & E2 & E3 & _ & E4 & _).
    rewrite (FE _ E2) in E3. assert (ES : S O O = 1) by (rewrite <- HE; symmetry; apply (fm_inj 1 1 _ S O O); [exact (Ok_inj' _ _ E3)|lia|lia]).
    eexists. split; [exact (fit_cov_intro _ _ _ _ _ HB E1 E4)|]. apply pd1. unfold rtrace, rI. cbn [rsum Nat.eqb INR]. rewrite ES. lra.
  - intro_class (SHR (1 / 20) (1 / 10) "constant_correlation" false).
    destruct (C29_shrunk_constant_correlation 1 (1 / 20) (1 / 10) "constant_correlation" false _ _ (le_n 1) Hr0 ltac:(discriminate) Ho Hx) as (o & e & S & F & E1 & E2 & E3 & _ & E4 & E5 & _).
    rewrite (FE _ E2) in E3. eexists. split; [exact (fit_cov_intro _ _ _ _ _ HB E1 E4)|]. apply pd1. rewrite E5 by lia.
    assert (ES : S O O = 1) by (rewrite <- HE; symmetry; apply (fm_inj 1 1 _ S O O); [exact (Ok_inj' _ _ E3)|lia|lia]). lra.
  - intro_class (SCH (1 / 20) 4 (1 / 2) "linear" false). destruct (C43_schur_linear L 1 (1 / 20) 4 (1 / 2) "linear" false _ _ HL (le_n 1) Hr0 ltac:(lia) ltac:(discriminate) Ho Hx) as (o & B & E1 & _ & E3 & _ & E5 & _).
    eexists. split; [exact (fit_cov_intro _ _ _ _ _ HB E1 E3)|exact E5].
  - intro_class (BLK (1 / 20) 4 false). destruct (C47_no_error L 1 (1 / 20) 4 false _ _ HL (le_n 1) Hr Ho Hx) as (o & B & E1 & E3 & E5 & _).
    { intros i Hi. replace i with O by lia. right. rewrite HE. unfold effective_n, e12. cbn [length toy_train INR]. rewrite Rmin_left by lra. rewrite Rmax_left by lra. lra. }
    eexists. split; [exact (fit_cov_intro _ _ _ _ _ HB E1 E3)|exact E5].
  - intro_class (BLK (1 / 20) 4 false). destruct (C46_schur_ledoit_wolf L 1 (1 / 20) 4 false _ _ HL (le_n 1) Hr0 ltac:(lia) Ho Hx) as (o & B & E1 & _ & _ & _ & E3 & _ & E5 & _).
    eexists. split; [exact (fit_cov_intro _ _ _ _ _ HB E1 E3)|exact E5].
  - intro_class (EWA (1 / 20) false). destruct (C18_partial_moments_psd L 1 1 (1 / 20) false _ _ HL (le_n 1) (le_n 1) Hr Ho Hx) as (o & B & e & E1 & E3 & _ & E5 & _).
    eexists. split; [exact (fit_cov_intro _ _ _ _ _ HB E1 E3)|exact E5].
  - intro_class (HUB (1 / 20) (5 / 2) false). destruct (C34_huber_equals_ewa_on_inliers L 1 (1 / 20) (5 / 2) false _ _ HL (le_n 1) Hr Ho Hx) as (o & e & E1 & E2 & _ & E3 & _).
    { intros k B Hk'. lia. }
    rewrite (FE _ E2) in E3. eexists. split; [exact (fit_cov_intro _ _ _ _ _ HB E1 E3)|exact PE].
  - intro_class (EWA (1 / 20) false). destruct (C36_tyler_shape L 1 (1 / 20) false _ _ _ HL (le_n 1) ltac:(lra) Ho) as (o & C & E1 & _ & E3 & E4 & _ & E6).
    { exists O. split; [lia|lra]. }
    eexists. split; [exact (fit_cov_intro _ _ _ _ _ HB E1 E6)|]. apply pd1. unfold rtrace in E4. cbn [rsum INR] in E4. replace (C O O) with 1 by lra.
    rewrite Rmult_1_r, sqrt_1. pose proof e12_pos. apply Rdiv_lt_0_compat; lra.
  - intro_class (EWA (1 / 20) false). destruct (C38_geodesic_burn_in_is_ewa L 1 (1 / 20) false _ _ HL (le_n 1) Hr0 Ho Hx Hlen) as (o & e & E1 & E2 & _ & E3).
    rewrite (FE _ E2) in E3. eexists. split; [exact (fit_cov_intro _ _ _ _ _ HB E1 E3)|exact PE].
  - intro_class (DCCP (1 / 20) None false). destruct (C39_dcc_composition 1 (1 / 20) None false _ _ Hr Hr Ho Hx) as (o & Rm & E1 & _ & E3 & _ & _ & _ & E6 & _).
    eexists. split; [exact (fit_cov_intro _ _ _ _ _ HB E1 E3)|]. apply pd1.
    assert (Fv : forall h, 0 < floored_vol h) by (intros h; unfold floored_vol; apply sqrt_lt_R0; pose proof e12_pos; pose proof (Rmax_r h e12); lra).
    rewrite E6. { rewrite Rmult_1_l. apply Rmult_lt_0_compat; apply Fv. }
    rewrite Rmin_left by lra. unfold dcc_quasi, toy_train. rewrite rw_two by lia.
    assert (Q := Rle_0_sqr (dcc_residual (1 / 20) (burn_len (1 / 20)) [fun _ => 1] (fun _ => Ropp 1) O)). unfold Rsqr in Q.
    assert (D : dcc_residual (1 / 20) (burn_len (1 / 20)) [] (fun _ => 1) O = 1).
    { unfold dcc_residual. rewrite toy_dev0. cbn [app]. unfold dcc_variance, innov_var, rw_avg, ewsum, burn_avg. cbn [length]. replace (1 - burn_len (1 / 20))%nat with O by lia.
      replace (Nat.min 1 (burn_len (1 / 20))) with 1%nat by lia. cbn [rsum pow]. unfold stat, nthobs. cbn [firstn nth INR]. rewrite toy_dev0.
      unfold floored_vol. replace (Rmax _ _) with 1. { rewrite sqrt_1. field. }
      rewrite Rmax_left; [field|]. unfold e12. lra. }
    rewrite D. unfold e12. lra.
  - intro_class (FACP 2 (1 / 20) false). destruct (C40_factor_dominates 1 2 (1 / 20) false _ _ Hr Ho Hx) as (o & vs & H & E1 & _ & E3 & _ & _ & E5 & _).
    eexists. split; [exact (fit_cov_intro _ _ _ _ _ HB E1 E3)|]. apply pd1. rewrite E5. cbn [Nat.min Nat.add].
    pose proof (toy_innov (1 / 20) 2 O (le_n 2)). pose proof (Rmax_l (innov_var (1 / 20) 2 toy_train O) (captured 1 vs O O)). lra.
Qed.

(** With a single asset all weights are 1: every estimator, and equal weighting, has the same volatility. *)
Lemma one_weight (A B : rmat) (w : R) : pd 1 A -> inverse 1 A B -> w = rsum 1 (fun l => B O l) / rsum 1 (fun i => rsum 1 (fun l => B i l)) -> w = 1.
Proof.
  intros HA [H1 _] ->. cbn [rsum]. specialize (H1 O O ltac:(lia) ltac:(lia)). unfold rmul, rI in H1. cbn [rsum Nat.eqb] in H1.
  assert (B O O <> 0) by (intros E; rewrite E in H1; lra). field. lra.
Qed.
(** Three rows (1, -1 | 2), two for training: one window, on which every registered estimator succeeds. *)
Example C96_witness : exists L o, lawful L /\ rolling_oos L 1 true (map (fv 1) toy) 2 1 1 = Ok o /\
  length (o_fixed o) = 17%nat /\ (forall nm v, In (nm, v) (o_fixed o) -> v = Fin (sqrt (252 * 4))) /\ o_equal o = Fin (sqrt (252 * 4)) /\
  list_sum (map snd (o_counts o)) = 1%nat.
Proof.
  destruct lawful_satisfiable as [L HL]. exists L.
  assert (HC : forall k j, In k (signatures L 1) -> (j < windows (length toy) 2 1 1)%nat ->
    fit_cov k (train_rows 2 1 j (map (fv 1) toy)) = Ok (fm 1 1 (mres (fit_cov k (map (fv 1) toy_train)))) /\ pd 1 (mres (fit_cov k (map (fv 1) toy_train)))).
  { intros k j Hk Hj. change (windows (length toy) 2 1 1) with 1%nat in Hj. replace j with O by lia.
    destruct (toy_pd L k HL Hk) as (A & E & HA). change (train_rows 2 1 0 (map (fv 1) toy)) with (map (fv 1) toy_train).
    destruct (mres_ok 1 1 _ A E) as [E1 E2]. split; [exact E1|]. apply pd1. rewrite (E2 O O) by lia. now apply pd1_pos. }
  destruct (C96_completes L 1 true 1 toy 2 1 1 HL (le_n 1) ltac:(lia) (le_n 1) (le_n 1) ltac:(cbn; lia) (fun k j => mres (fit_cov k (map (fv 1) toy_train))) HC)
    as (o & w & E & _ & Hw & Ef & Ee & _ & _).
  exists o. split; [exact HL|]. split; [exact E|]. change (windows (length toy) 2 1 1) with 1%nat in *.
  assert (ER : forall v : obs, v O = 1 -> lmean (map (fun j => realised_var 1 v (test_rows 2 1 1 j toy)) (seq 0 1)) = 4).
  { intros v Hv. cbn [seq map]. unfold realised_var, test_rows, rows_between, toy. cbn [firstn skipn Nat.mul Nat.add Nat.sub map]. unfold lmean, rdot. cbn [rsum lsum length INR]. rewrite Hv. field. }
  split; [rewrite Ef, map_length; reflexivity|]. split; [|split].
  - intros nm v Hi. rewrite Ef in Hi. apply in_map_iff in Hi as (k & Ek & Hk). injection Ek as _ <-.
    destruct (Hw k O Hk (le_n 1)) as (B & HI & HB). destruct (HC k O Hk (le_n 1)) as [_ HP].
    assert (W1 : w k O O = 1) by exact (one_weight _ B _ HP HI (HB O)).
    apply (f_equal (fun z => Fin (sqrt (252 * z)))). rewrite <- (ER (w k O) W1). reflexivity.
  - rewrite Ee. apply (f_equal (fun z => Fin (sqrt (252 * z)))). apply (ER (fun _ => 1 / INR 1)). cbn [INR]. field.
  - destruct (C96_picks L 1 true _ _ _ _ _ E) as (names & _ & _ & _ & _ & _ & ->). reflexivity.
Qed.

(** * C47: SchurConditionalCovariance

    Exact arithmetic, every lawful LAPACK (Contracts.v).  Vocabulary: BlockSpec.v, SchurCondSpec.v. *)
From Coq Require Import Reals ZArith String List Lia Lra Arith Bool.
From Verif Require Import Num Numpy PyVal LinalgModel StateModel BaseModel Estimators Spec ListLemmas BaseProofs
  RMat LinSpec Fin RealSpec RunFin EwaReal RunAvg EmpFacts ShrinkReal Spectral MatAlg Contracts LinalgReal
  BlockSpec BlockGeom BlockReal BlockRun BlockRun2 SchurCondSpec SchurCondReal Props_Emp.
Import ListNotations.
Local Open Scope string_scope.
Local Open Scope R_scope.

(** gamma_ is the Gaussian reliability of the cross-block correlation, always in [0, 1].  Reading the covariance
    raises LinAlgError only if one of the ridge-regularised conditioning matrices is singular; otherwise it is
    positive definite and equals the projection of the reassembled matrix, scaled back by the (floored) standard
    deviations; it is block diagonal when gamma_ = 0. *)
Theorem C47_schur_conditional L p r n_blocks diff rows xs :
  lawful L -> (1 <= p)%nat -> 0 < r <= 1 -> observes p diff rows xs -> xs <> [] ->
  let k := blocks n_blocks p in
  let C := ewa_cov r (burn_len r) xs in
  let n := effective_n r (length xs) in
  let g := gaussian_reliability p k n (corr_of C) in
  exists o, fitted_on (C := SchurCond L) (BLK r n_blocks diff) rows o /\
    location_ o = Ok (fv p (ewa_mean r (burn_len r) xs)) /\
    sc_gamma_ L o = Ok (Fin g) /\ 0 <= g <= 1 /\
    ((covariance_ o = Err LinAlgError /\
      exists b, (1 <= b < k)%nat /\ ~ invertible (block_start p k b) (regularised (block_start p k b) n (corr_of C))) \/
     (exists G B, covariance_ o = Ok (fm p p (fun i j => B i j * (floored_sd C i * floored_sd C j))) /\
        pd p (fun i j => B i j * (floored_sd C i * floored_sd C j)) /\
        pd_projection p G B /\ reassembled p k g n (corr_of C) G /\
        (g = 0 -> block_diagonal p k B))).
Proof.
  intros HL Hp Hr Ho Hx k C n g. pose proof (blocks_range n_blocks p Hp) as Hk. fold k in Hk.
  destruct (SchurCond_run L HL p r n_blocks diff rows xs Hp Hr Ho Hx) as (o & E1 & _ & E3 & E4 & E5). fold k in E4, E5. fold C in E4, E5.
  fold n in E4, E5. fold g in E4, E5. exists o. split; [exact E1|]. split; [exact E3|]. split; [exact E4|].
  split; [apply gaussian_reliability_range|]. destruct E5 as [E5|(G & HG & E)]; [left; exact E5|]. right.
  exists G, (mpd L p (symm G)). split; [exact E|]. split; [|split; [|split; [exact HG|]]].
  - apply pd_congr_diag; [apply (bb_pd p e8); [apply e8_pos|now apply mpd_ok]|]. intros i _. apply Rgt_not_eq, floored_sd_pos.
  - destruct (mpd_projection L HL p (symm G) Hp) as [P1 P2]. split; auto. intros D HD. specialize (P2 D HD).
    assert (SS : meq p p (symm (symm G)) (symm G)) by apply symm_id, symm_sym.
    rewrite (fro2_meq p (fun i j => mpd L p (symm G) i j - symm G i j) (fun i j => mpd L p (symm G) i j - symm (symm G) i j))
      by (intros i j Hi Hj; now rewrite SS by auto).
    rewrite (fro2_meq p (fun i j => D i j - symm G i j) (fun i j => D i j - symm (symm G) i j))
      by (intros i j Hi Hj; now rewrite SS by auto). exact P2.
  - intros g0. apply (mpd_block_diagonal L HL); auto. destruct HG as [_ HB].
    assert (KK : forall i j, (i < p)%nat -> (j < p)%nat -> (block_of p k i < block_of p k j)%nat -> G i j = 0 /\ G j i = 0).
    { intros i j Hi Hj Hlt. destruct (block_of_spec p k i ltac:(lia) Hi) as [A1 A2]. destruct (block_of_spec p k j ltac:(lia) Hj) as [B1 B2].
      set (b := block_of p k j) in *. destruct (HB b ltac:(lia)) as (H & S_ & _ & _ & H3 & _).
      pose proof (start_mono p k (S (block_of p k i)) b ltac:(lia)).
      destruct (H3 (j - block_start p k b)%nat i ltac:(lia) ltac:(lia)) as [Q1 Q2].
      replace (block_start p k b + (j - block_start p k b))%nat with j in Q1, Q2 by lia.
      assert (Z : G j i = 0) by (rewrite Q1; apply rsum_zero; intros l Hl; rewrite g0; ring). split; [congruence|exact Z]. }
    intros i j Hi Hj Nb. unfold symm. destruct (Nat.lt_ge_cases (block_of p k i) (block_of p k j)).
    + destruct (KK i j) as [-> ->]; auto; lra.
    + destruct (KK j i) as [-> ->]; auto; try lia; lra.
Qed.
(** The read does not raise when every variance is zero or at least 1e-12 (1 + n_eff + p). *)
Theorem C47_no_error L p r n_blocks diff rows xs :
  lawful L -> (1 <= p)%nat -> 0 < r <= 1 -> observes p diff rows xs -> xs <> [] ->
  (forall i, (i < p)%nat -> ewa_cov r (burn_len r) xs i i = 0 \/
     e12 * (1 + effective_n r (length xs) + INR p) <= ewa_cov r (burn_len r) xs i i) ->
  exists o B, fitted_on (C := SchurCond L) (BLK r n_blocks diff) rows o /\ covariance_ o = Ok (fm p p B) /\ pd p B /\ finite_fitted p o.
Proof.
  intros HL Hp Hr Ho Hx Hv. pose proof (blocks_range n_blocks p Hp) as Hk.
  destruct (C47_schur_conditional L p r n_blocks diff rows xs HL Hp Hr Ho Hx) as (o & E1 & E2 & _ & _ & [(E & b & Hb & HI)|(G & B & E & HB & _)]).
  - exfalso. apply HI. apply pd_invertible. apply (regularised_pd p); auto.
    + apply psd_ewa_cov; lra.
    + apply effective_n_ge.
    + pose proof (start_lt p _ 0 Hk). rewrite start_0 in *. pose proof (start_mono p (blocks n_blocks p) 1 b ltac:(lia)).
      pose proof (start_le_p p (blocks n_blocks p) b ltac:(lia) ltac:(lia)). lia.
  - exists o. eexists. split; [exact E1|]. split; [exact E|]. split; [exact HB|]. eapply finite_fitted_intro; eauto.
    intros i Hi. apply Rlt_le. exact (pd_diag_pos p _ i HB Hi).
Qed.
(** n_blocks = 1 (or fewer): gamma_ is 1 and, when the correlation matrix is well conditioned and no variance is below
    1e-12, the covariance is the EWA covariance up to the 1e-12 in the correlation denominator. *)
Theorem C47_single_block L p r n_blocks diff rows xs :
  lawful L -> (1 <= p)%nat -> 0 < r <= 1 -> (n_blocks <= 1)%Z -> observes p diff rows xs -> xs <> [] ->
  let C := ewa_cov r (burn_len r) xs in
  bounded_below p e8 (corr_of C) -> (forall i, (i < p)%nat -> e12 <= C i i) ->
  exists o, fitted_on (C := SchurCond L) (BLK r n_blocks diff) rows o /\ sc_gamma_ L o = Ok (Fin 1) /\
    covariance_ o = Ok (fm p p (fun i j => C i j * (sqrt (C i i * C j j) / (sqrt (C i i * C j j) + e12)))).
Proof.
  intros HL Hp Hr Hn Ho Hx C HB Hv. assert (k1 : blocks n_blocks p = 1%nat) by (unfold blocks; lia).
  destruct (SchurCond_run L HL p r n_blocks diff rows xs Hp Hr Ho Hx) as (o & E1 & _ & _ & E4 & E5). rewrite k1 in E4, E5. fold C in E4, E5.
  exists o. split; [exact E1|]. split; [exact E4|]. destruct E5 as [(_ & b & Hb & _)|(G & [HG _] & E)]; [lia|]. rewrite E. f_equal. apply fm_ext. intros i j Hi Hj.
  replace (block_start p 1 1) with p in HG by (symmetry; now apply start_k).
  assert (SG : meq p p (symm G) (corr_of C)).
  { intros a b Ha Hb. unfold symm. rewrite !HG by auto. rewrite (proj1 HB b a) by auto. lra. }
  rewrite (mpd_ext L p _ _ SG). rewrite (mpd_fix L HL p (corr_of C) Hp).
  - rewrite (symm_id p _ (proj1 HB)) by auto. unfold corr_of, floored_sd. rewrite !Rmax_left by auto.
    pose proof e12_pos. rewrite <- sqrt_mult by (eapply Rle_trans; [apply Rlt_le; eassumption|auto]). pose proof (sqrt_pos (C i i * C j j)). field. lra.
  - apply (bb_ext p e8 (corr_of C)); auto. apply meq_sym. apply symm_id, HB.
  - exact Hi.
  - exact Hj.
Qed.
(** Beside the theorems: a stream that satisfies their hypotheses. *)
Example C47_witness : exists L, lawful L /\
  exists o B, fitted_on (C := SchurCond L) (BLK (1 / 2) 2 false) (map (fv 2) [fun i => INR i; fun _ => 0; fun i => INR (2 * i)]) o /\
    covariance_ o = Ok (fm 2 2 B) /\ pd 2 B.
Proof.
  destruct lawful_satisfiable as [L HL]. exists L. split; auto.
  set (xs := [fun i => INR i; fun _ => 0; fun i => INR (2 * i)]).
  destruct (C47_no_error L 2 (1 / 2) 2 false (map (fv 2) xs) xs) as (o & B & H1 & H2 & H3 & _); auto; try lra; try (apply observes_plain); try discriminate.
  - assert (EC : forall i, ewa_cov (1 / 2) (burn_len (1 / 2)) xs i i = pcov_of xs i i).
    { intros i. assert (Hb : (3 <= burn_len (1 / 2))%nat) by (pose proof (burn_len_bounds (1 / 2)); lia).
      unfold ewa_cov, after, burn. rewrite skipn_all2, firstn_all2 by exact Hb. apply ewc_nil. }
    assert (En : effective_n (1 / 2) (length xs) <= 3).
    { unfold effective_n. apply Rmax_lub; [lra|]. eapply Rle_trans; [apply Rmin_l|]. unfold xs. cbn. lra. }
    change (length xs) with 3%nat in *. intros [|[|i]] Hi; [left|right|lia]; rewrite EC; unfold pcov_of, mean_of, xs; cbn; unfold e12 in *; lra.
  - exists o, B. auto.
Qed.

(** * C72: how far correlation_ can be from positive semidefinite; C18, C23: the remaining classes *)
From Coq Require Import Reals ZArith String List Lia Lra Arith Bool.
From Verif Require Import Num Numpy PyVal LinalgModel StateModel BaseModel Estimators
  Spec ListLemmas BaseProofs RMat LinSpec Fin RealSpec RunFin EwaReal EmpFacts Props_Emp ShrinkReal MomentReal Props_Moment MatAlg Contracts LinalgReal Props_Linalg RobustReal TylerReal Props_Robust BlockReal BlockRun BlockRun2 Props_Block.
Import ListNotations.
Local Open Scope string_scope.
Local Open Scope R_scope.

(** The matrix correlation_ computes from a covariance F (C24), and the textbook one *)
Definition reported_corr (F : rmat) : rmat := fun i j => F i j / (sqrt (F i i * F j j) + 1 / 10 ^ 12).
Definition true_corr (F : rmat) : rmat := fun i j => F i j / sqrt (F i i * F j j).

Lemma rdot_abs p v : rdot p (fun i => Rabs (v i)) (fun _ => 1) ^ 2 <= INR p * rdot p v v.
Proof.
  pose proof (rdot_cauchy p (fun i => Rabs (v i)) (fun _ => 1)) as K.
  assert (E1 : rdot p (fun i => Rabs (v i)) (fun i => Rabs (v i)) = rdot p v v).
  { apply rsum_ext. intros i _. rewrite <- Rabs_mult. apply Rabs_pos_eq. apply Rle_0_sqr. }
  assert (E2 : rdot p (fun _ => 1) (fun _ => 1) = INR p).
  { unfold rdot. clear. induction p as [|p IH]; [reflexivity|]. cbn [rsum]. rewrite IH, S_INR. lra. }
  rewrite E1, E2 in K. lra.
Qed.
Lemma qf_small p D c v : 0 <= c -> (forall i j, (i < p)%nat -> (j < p)%nat -> Rabs (D i j) <= c) -> qf p D v <= c * (INR p * rdot p v v).
Proof.
  intros Hc HD. apply Rle_trans with (c * rdot p (fun i => Rabs (v i)) (fun _ => 1) ^ 2); [|apply Rmult_le_compat_l; [auto|apply rdot_abs]].
  assert (E : qf p (fun i j => c * 1) (fun i => Rabs (v i)) = c * rdot p (fun i => Rabs (v i)) (fun _ => 1) ^ 2).
  { rewrite (qf_scal p c (fun _ _ => 1)). f_equal. pose proof (qf_outer p (fun _ => 1) (fun i => Rabs (v i))) as K. 
    rewrite (qf_ext p (fun _ _ => 1) (fun _ _ => 1 * 1) _ (fun i => Rabs (v i))); [|intros i j _ _; lra|auto]. rewrite K. f_equal. apply rsum_ext. intros; lra. }
  rewrite <- E. unfold qf. apply rsum_le. intros i Hi. apply rsum_le. intros j Hj.
  apply Rle_trans with (Rabs (v i * D i j * v j)); [apply Rle_abs|]. rewrite !Rabs_mult.
  pose proof (HD i j Hi Hj). pose proof (Rabs_pos (v i)). pose proof (Rabs_pos (v j)). pose proof (Rmult_le_pos _ _ H0 H1) as K0. pose proof (Rmult_le_compat_l _ _ _ K0 H). lra.
Qed.
Lemma true_corr_psd p F : psd p F -> (forall i, (i < p)%nat -> 0 < F i i) -> psd p (true_corr F).
Proof.
  intros HF Hd. pose proof (psd_congr_diag p F (fun i => / sqrt (F i i)) HF) as K.
  assert (E : meq p p (fun i j => F i j * (/ sqrt (F i i) * / sqrt (F j j))) (true_corr F)).
  { intros i j Hi Hj. unfold true_corr, Rdiv. rewrite sqrt_mult by (left; auto). f_equal. symmetry. 
    pose proof (sqrt_lt_R0 _ (Hd i Hi)). pose proof (sqrt_lt_R0 _ (Hd j Hj)). field. lra. }
  destruct K as [KS KQ]. split.
  - intros i j Hi Hj. rewrite <- !E by auto. now apply KS.
  - intros v. rewrite <- (qf_ext p _ _ v v E) by auto. apply KQ.
Qed.
Lemma corr_close p F m i j : psd p F -> 0 < m -> (forall i, (i < p)%nat -> m <= F i i) -> (i < p)%nat -> (j < p)%nat ->
  Rabs (true_corr F i j - reported_corr F i j) <= 1 / 10 ^ 12 / m.
Proof.
  intros HF Hm Hd Hi Hj. unfold true_corr, reported_corr. fold e12. pose proof e12_pos as E.
  pose proof (Hd i Hi) as Di. pose proof (Hd j Hj) as Dj.
  assert (HS : m <= sqrt (F i i * F j j)).
  { rewrite <- (sqrt_square m) by lra. apply sqrt_le_1; try nra. }
  set (s := sqrt (F i i * F j j)) in *.
  assert (B : Rabs (F i j) <= s).
  { unfold s. rewrite <- (sqrt_Rsqr_abs (F i j)). apply sqrt_le_1; [apply Rle_0_sqr|nra|]. unfold Rsqr. now apply (psd_cauchy p). }
  replace (F i j / s - F i j / (s + e12)) with (F i j * (e12 * / (s * (s + e12)))) by (field; lra).
  rewrite Rabs_mult. rewrite (Rabs_pos_eq (e12 * / (s * (s + e12)))).
  2: { apply Rmult_le_pos; [lra|]. left. apply Rinv_0_lt_compat. nra. }
  apply Rle_trans with (s * (e12 * / (s * (s + e12)))).
  - apply Rmult_le_compat_r; [|exact B]. apply Rmult_le_pos; [lra|]. left. apply Rinv_0_lt_compat. nra.
  - replace (s * (e12 * / (s * (s + e12)))) with (e12 * / (s + e12)) by (field; lra). unfold Rdiv. apply Rmult_le_compat_l; [lra|]. apply Rinv_le_contravar; lra.
Qed.
Lemma reported_nearly_psd p F m : psd p F -> 0 < m -> (forall i, (i < p)%nat -> m <= F i i) ->
  forall v, - (INR p * (1 / 10 ^ 12) / m) * rdot p v v <= qf p (reported_corr F) v.
Proof.
  intros HF Hm Hd v. fold e12. pose proof e12_pos as E.
  assert (P : psd p (true_corr F)) by (apply true_corr_psd; auto; intros i Hi; specialize (Hd i Hi); lra).
  assert (Q : qf p (reported_corr F) v = qf p (true_corr F) v + -1 * qf p (fun i j => true_corr F i j - reported_corr F i j) v).
  { rewrite <- qf_scal, <- qf_plus. apply qf_ext; [|auto]. intros i j _ _. lra. }
  assert (K : qf p (fun i j => true_corr F i j - reported_corr F i j) v <= e12 / m * (INR p * rdot p v v)).
  { apply qf_small. { unfold Rdiv. apply Rmult_le_pos; [lra|]. left. now apply Rinv_0_lt_compat. }
    intros i j Hi Hj. now apply (corr_close p). }
  destruct P as [_ P]. specialize (P v). rewrite Q.
  replace (- (INR p * e12 / m) * rdot p v v) with (- (e12 / m * (INR p * rdot p v v))) by (field; lra). lra.
Qed.

(** ** C72 *)
(** Every class: the smallest eigenvalue of correlation_ is at least - p 1e-12 / (smallest variance), and correlation_ is
    within 1e-12 / (smallest variance) of the textbook correlation matrix. *)
Theorem C72_correlation_nearly_psd {C : EstClass NumX} (o : inst C) p F m :
  covariance_ o = Ok (fm p p F) -> psd p F -> 0 < m -> (forall i, (i < p)%nat -> m <= F i i) ->
  exists R, correlation_ o = Ok (fm p p R) /\ sym p R /\
    (forall v, - (INR p * (1 / 10 ^ 12) / m) * rdot p v v <= qf p R v) /\
    (forall i j, (i < p)%nat -> (j < p)%nat -> Rabs (F i j / sqrt (F i i * F j j) - R i j) <= 1 / 10 ^ 12 / m).
Proof.
  intros HC HF Hm Hd. exists (reported_corr F).
  destruct (C24_correlations_bounded o p F HC HF) as (R & E1 & _ & E2).
  split. { rewrite E1. f_equal. apply fm_ext. intros i j Hi Hj. now apply E2. }
  split. { intros i j Hi Hj. unfold reported_corr. rewrite (proj1 HF i j) by auto. now rewrite (Rmult_comm (F i i)). }
  split; [now apply reported_nearly_psd|]. intros i j Hi Hj. now apply (corr_close p).
Qed.
(** It is not always positive semidefinite: any two perfectly correlated variables of different variance. *)
Lemma rank_one_not_psd a b : 0 < a -> 0 < b -> a <> b ->
  let F := fun i j : nat => (if Nat.eqb i 0 then a else b) * (if Nat.eqb j 0 then a else b) in exists v, qf 2 (reported_corr F) v < 0.
Proof.
  intros Ha Hb Hab F. set (R := reported_corr F).
  exists (fun i => if Nat.eqb i 0 then R 1%nat 1%nat else - R 0%nat 1%nat).
  assert (E := e12_pos).
  assert (S : R 1%nat 0%nat = R 0%nat 1%nat).
  { unfold R, reported_corr, F. cbn [Nat.eqb]. rewrite (Rmult_comm (b * b)), (Rmult_comm b a). reflexivity. }
  assert (R00 : R 0%nat 0%nat = a * a / (a * a + e12)).
  { unfold R, reported_corr, F. cbn [Nat.eqb]. rewrite sqrt_square by nra. reflexivity. }
  assert (R11 : R 1%nat 1%nat = b * b / (b * b + e12)).
  { unfold R, reported_corr, F. cbn [Nat.eqb]. rewrite sqrt_square by nra. reflexivity. }
  assert (R01 : R 0%nat 1%nat = a * b / (a * b + e12)).
  { unfold R, reported_corr, F. cbn [Nat.eqb]. replace (a * a * (b * b)) with ((a * b) * (a * b)) by ring. rewrite sqrt_square by nra. reflexivity. }
  assert (D : R 0%nat 0%nat * R 1%nat 1%nat - R 0%nat 1%nat * R 0%nat 1%nat < 0).
  { rewrite R00, R11, R01. 
    replace (a * a / (a * a + e12) * (b * b / (b * b + e12)) - a * b / (a * b + e12) * (a * b / (a * b + e12)))
      with (- ((a * b) ^ 2 * e12 * (a - b) ^ 2 / ((a * a + e12) * (b * b + e12) * (a * b + e12) ^ 2))).
    2: { field. repeat split; nra. }
    apply Ropp_lt_gt_0_contravar. apply Rdiv_lt_0_compat.
    - assert (0 < (a - b) ^ 2) by (rewrite <- Rsqr_pow2; apply Rlt_0_sqr; lra). assert (0 < (a * b) ^ 2) by (apply pow_lt; nra). apply Rmult_lt_0_compat; [nra|auto].
    - assert (0 < (a * b + e12) ^ 2) by (apply pow_lt; nra). apply Rmult_lt_0_compat; [|auto]. apply Rmult_lt_0_compat; nra. }
  assert (P : 0 < R 1%nat 1%nat). { rewrite R11. apply Rdiv_lt_0_compat; nra. }
  unfold qf. cbn [rsum Nat.eqb]. rewrite S.
  replace (0 + (0 + R 1%nat 1%nat * R 0%nat 0%nat * R 1%nat 1%nat + R 1%nat 1%nat * R 0%nat 1%nat * - R 0%nat 1%nat) + (0 + - R 0%nat 1%nat * R 0%nat 1%nat * R 1%nat 1%nat + - R 0%nat 1%nat * R 1%nat 1%nat * - R 0%nat 1%nat))
    with (R 1%nat 1%nat * (R 0%nat 0%nat * R 1%nat 1%nat - R 0%nat 1%nat * R 0%nat 1%nat)) by ring.
  nra.
Qed.
Theorem C72_correlation_not_psd_empirical a b : 0 < a -> 0 < b -> a <> b ->
  exists o R, fitted_on (C := Empirical) (mkEmpP false) [fv 2 (fun i => if Nat.eqb i 0 then a else b); fv 2 (fun i => if Nat.eqb i 0 then - a else - b)] o /\
    psd_cov 2 o /\ correlation_ o = Ok (fm 2 2 R) /\ exists v, qf 2 R v < 0.
Proof.
  intros Ha Hb Hab. set (x := fun i => if Nat.eqb i 0 then a else b). set (y := fun i => if Nat.eqb i 0 then - a else - b).
  destruct (Empirical_run 2 false _ _ (observes_plain 2 [x; y]) ltac:(discriminate)) as (o & E1 & _ & _ & E4 & _).
  destruct (C18_empirical_psd 2 false _ _ (observes_plain 2 [x; y]) ltac:(discriminate)) as (o' & E1' & P).
  assert (o' = o) by (unfold fitted_on in E1'; congruence). subst o'.
  set (F := fun i j : nat => (if Nat.eqb i 0 then a else b) * (if Nat.eqb j 0 then a else b)).
  assert (EF : fm 2 2 (pcov_of [x; y]) = fm 2 2 F).
  { apply fm_ext. intros i j _ _. unfold pcov_of, mean_of, F. cbn [map lsum length INR]. unfold x, y.
    destruct (Nat.eqb i 0), (Nat.eqb j 0); field. }
  rewrite EF in E4.
  assert (PF : psd 2 F) by (split; [intros i j _ _; unfold F; ring|]; intros v; unfold F; rewrite (qf_outer 2 (fun i => if Nat.eqb i 0 then a else b)); apply pow2_ge_0).
  destruct (C24_correlations_bounded o 2 F E4 PF) as (R & G1 & _ & G2).
  destruct (rank_one_not_psd a b Ha Hb Hab) as (v & Hv).
  exists o, R. split; [exact E1|]. split; [exact P|]. split; [exact G1|]. exists v.
  rewrite (qf_ext 2 R (reported_corr F) v v); auto.
Qed.

(** ** C18, C23: PartialMomentsCovariance *)
Lemma fro2_zero p A : fro2 p A <= 0 -> forall i j, (i < p)%nat -> (j < p)%nat -> A i j = 0.
Proof.
  intros H i j Hi Hj.
  assert (K : A i j * A i j <= fro2 p A).
  { unfold fro2. apply Rle_trans with (rsum p (fun j => A i j * A i j)).
    - apply (rsum_ge_term p (fun j => A i j * A i j)); auto. intros. apply Rle_0_sqr.
    - apply (rsum_ge_term p (fun i => rsum p (fun j => A i j * A i j))); auto. intros. apply rsum_nonneg. intros. apply Rle_0_sqr. }
  nra.
Qed.
(** Positive definite at every read: the plain average itself when that is positive definite, else plus a multiple of the
    identity by the float spacing at its norm. *)
Theorem C18_partial_moments_psd L fuel p r diff rows xs : lawful L -> (1 <= p)%nat -> (1 <= fuel)%nat -> 0 < r <= 1 ->
  observes p diff rows xs -> xs <> [] ->
  let M := innov_cov r (burn_len r) xs in
  exists o B e, fitted_on (C := PartialMoments L fuel) (EWA r diff) rows o /\ covariance_ o = Ok (fm p p B) /\ psd_cov p o /\ pd p B /\ finite_fitted p o /\
    la_spacing L (mnorm (fm p p M)) = Fin e /\ 0 < e /\
    (pd p M -> fm p p B = fm p p M) /\ (~ pd p M -> fm p p B = fm p p (fun i j => M i j + e * rI i j)).
Proof.
  intros HL Hp Hf Hr Ho Hx M.
  destruct (C33_partial_moments_is_plain L fuel p r diff rows xs Hr Ho Hx) as (o & E1 & E2 & E3 & PM). fold M in E3, PM.
  destruct (C42_nearest_pos_def L p M fuel HL Hp Hf) as (B & P & e & F1 & F2 & F3 & F4 & F5 & F6 & F7).
  rewrite F1 in E3. cbn [bind] in E3. rewrite to_symmetric_sym_fin in E3 by apply F2.
  assert (SM : meq p p (symm M) M) by (apply symm_id; apply PM).
  assert (PE : meq p p P M).
  { specialize (F4 M PM). assert (Z : fro2 p (fun i j => M i j - symm M i j) = 0).
    { rewrite (fro2_meq p _ (fun _ _ => 0)); [|intros i j Hi Hj; rewrite (SM i j) by auto; lra]. unfold fro2.
      rewrite (rsum_ext p _ (fun _ => 0)); [apply rsum_0|]. intros i _. rewrite (rsum_ext p _ (fun _ => 0)); [apply rsum_0|]. intros; lra. }
    rewrite Z in F4. intros i j Hi Hj. pose proof (fro2_zero p _ F4 i j Hi Hj) as K. cbv beta in K. rewrite (SM i j Hi Hj) in K. lra. }
  exists o, B, e. split; [exact E1|]. split; [exact E3|].
  assert (PB : psd p B) by (apply pd_psd; exact F2).
  split. { exists B. auto. } split; [exact F2|].
  split. { apply (finite_fitted_intro p o _ B E2 E3). intros i Hi. now apply (psd_diag_nonneg p). }
  split; [exact F5|]. split; [exact F6|]. split.
  - intros HM. destruct F7 as [[_ F7]|[N _]]; [|exfalso; apply N; apply (pd_ext p M); auto; now apply meq_sym].
    apply fm_meq. eapply meq_trans; [exact F7|exact PE].
  - intros HM. destruct F7 as [[F7 _]|[_ F7]]; [exfalso; apply HM; now apply (pd_ext p P)|].
    apply fm_meq. intros i j Hi Hj. rewrite F7, PE by auto. reflexivity.
Qed.
Corollary C23_partial_moments_finite L fuel p r diff rows xs : lawful L -> (1 <= p)%nat -> (1 <= fuel)%nat -> 0 < r <= 1 ->
  observes p diff rows xs -> xs <> [] -> exists o, fitted_on (C := PartialMoments L fuel) (EWA r diff) rows o /\ finite_fitted p o.
Proof. intros HL Hp Hf Hr Ho Hx. destruct (C18_partial_moments_psd L fuel p r diff rows xs HL Hp Hf Hr Ho Hx) as (o & B & e & H1 & _ & _ & _ & H2 & _). eauto. Qed.
Corollary C23_schur_finite L p r n_blocks gamma interp diff rows xs :
  lawful L -> (1 <= p)%nat -> r <> 0 -> (1 <= n_blocks)%Z -> observes p diff rows xs -> xs <> [] ->
  exists o, fitted_on (C := Schur L) (SCH r n_blocks gamma interp diff) rows o /\ finite_fitted p o.
Proof. intros. destruct (C18_schur_psd L p r n_blocks gamma interp diff rows xs) as (o & H5 & _ & H6); auto. eauto. Qed.
Corollary C23_block_finite L p r n_blocks diff rows xs :
  lawful L -> (1 <= p)%nat -> r <> 0 -> observes p diff rows xs -> xs <> [] ->
  exists o, fitted_on (C := Block L) (BLK r n_blocks diff) rows o /\ finite_fitted p o.
Proof. intros. destruct (C18_block_psd L p r n_blocks diff rows xs) as (o & H5 & _ & H6); auto. eauto. Qed.
Corollary C23_schur_lw_finite L p r n_blocks diff rows xs :
  lawful L -> (1 <= p)%nat -> r <> 0 -> (1 <= n_blocks)%Z -> observes p diff rows xs -> xs <> [] ->
  exists o, fitted_on (C := SchurLW L) (BLK r n_blocks diff) rows o /\ finite_fitted p o.
Proof. intros. destruct (C18_schur_lw_psd L p r n_blocks diff rows xs) as (o & H5 & _ & H6); auto. eauto. Qed.

(** ** C18: TylerCovariance reports the correlation form of its (positive semidefinite) shape matrix, so its covariance_ is
    positive semidefinite only up to p 1e-12 / (smallest diagonal entry of the shape matrix). *)
Theorem C18_tyler_nearly_psd L p r diff rows x xs m : lawful L -> (1 <= p)%nat -> 0 < r < 1 ->
  observes p diff rows (x :: xs) -> (exists i, (i < p)%nat /\ x i <> 0) ->
  exists o C F, fitted_on (C := Tyler L) (EWA r diff) rows o /\ reports_shape o p C /\ psd p C /\ covariance_ o = Ok (fm p p F) /\ sym p F /\
    (0 < m -> (forall i, (i < p)%nat -> m <= C i i) -> forall v, - (INR p * (1 / 10 ^ 12) / m) * rdot p v v <= qf p F v).
Proof.
  intros HL Hp Hr Ho Hx. destruct (C36_tyler_shape L p r diff rows x xs HL Hp Hr Ho Hx) as (o & C & E1 & E2 & E3 & _ & _ & E6).
  exists o, C, (reported_corr C). split; [exact E1|]. split; [exact E2|]. split; [exact E3|]. split; [exact E6|].
  split. { intros i j Hi Hj. unfold reported_corr. rewrite (proj1 E3 i j) by auto. now rewrite (Rmult_comm (C i i)). }
  intros Hm Hd v. now apply reported_nearly_psd.
Qed.

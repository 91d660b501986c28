(** * C83: every registered class works with its default parameters *)
From Coq Require Import Reals ZArith String List Lia Lra Arith Bool.
From Verif Require Import Num Numpy PyVal LinalgModel StateModel BaseModel Estimators RegistryModel ParamsModel
  Spec RMat LinSpec Fin RealSpec RunFin Props_Emp ShrinkReal Props_Shrink MomentReal FactorReal Props_Moment Contracts RobustReal Props_Robust
  BlockRun Props_Block SchurCondSpec SchurCondReal Props_SchurCond Props_Corr Props_Params.
Import ListNotations.
Local Open Scope string_scope.
Local Open Scope R_scope.

(** [Class(diff=diff)] (all other parameters left out), then partial_fit on the rows: no exception, and [Q] holds of the fitted estimator *)
Definition out_of_the_box (k : Signed NumX) (diff : bool) (rows : list (vec NumX)) (Q : inst (sg_class k) -> Prop) : Prop :=
  exists (o : pobj k) (i i' : inst (sg_class k)),
    construct k [("diff", PvBool diff)] = Ok o /\ view k o = Some i /\ partial_fit i (In2 rows) = (i', Ok tt) /\ Q i'.

Lemma box_intro (k : Signed NumX) diff rows Q (P : c_P (sg_class k)) :
  (exists o, construct k [("diff", PvBool diff)] = Ok o /\ view k o = Some (new P)) ->
  (exists i', fitted_on P rows i' /\ Q i') -> out_of_the_box k diff rows Q.
Proof. intros (o & H1 & H2) (i' & H3 & H4). exists o, (new P), i'. auto. Qed.

Lemma lit_r : @nlit NumX 5 2 = Fin (1 / 20). Proof. rewrite nlit_fin. apply f_equal. change (10 ^ Z.of_nat 2)%Z with 100%Z. change (10 ^ Z.of_nat 1)%Z with 10%Z. lra. Qed.
Lemma lit_half : @nlit NumX 5 1 = Fin (1 / 2). Proof. rewrite nlit_fin. apply f_equal. change (10 ^ Z.of_nat 2)%Z with 100%Z. change (10 ^ Z.of_nat 1)%Z with 10%Z. lra. Qed.
Lemma lit_tenth : @nlit NumX 1 1 = Fin (1 / 10). Proof. rewrite nlit_fin. apply f_equal. change (10 ^ Z.of_nat 2)%Z with 100%Z. change (10 ^ Z.of_nat 1)%Z with 10%Z. lra. Qed.
Lemma lit_c : @nlit NumX 25 1 = Fin (5 / 2). Proof. rewrite nlit_fin. apply f_equal. change (10 ^ Z.of_nat 2)%Z with 100%Z. change (10 ^ Z.of_nat 1)%Z with 10%Z. lra. Qed.

Ltac box P := match goal with |- out_of_the_box ?k ?d ?r ?Q => apply (box_intro k d r Q (P : c_P (sg_class k))) end;
  [ eexists; split; [reflexivity|]; cbn -[nlit]; unfold read_ewa, read_blk, rd_num, rd_int, rd_bool, rd_str, rd_optnum; cbn -[nlit]; rewrite ?lit_r, ?lit_half, ?lit_tenth, ?lit_c; reflexivity | ].

(** Every class but TylerCovariance and SchurConditionalCovariance: no exception on any finite rows with at least one observation, and location_,
    covariance_ and correlation_ are finite. *)
Theorem C83_finite L fuel p diff rows xs k : lawful L -> (1 <= fuel)%nat -> (1 <= p)%nat -> observes p diff rows xs -> xs <> [] ->
  In k (signatures L fuel) -> c_name (sg_class k) <> "TylerCovariance" -> c_name (sg_class k) <> "SchurConditionalCovariance" ->
  out_of_the_box k diff rows (finite_fitted p).
Proof.
  intros HL Hf Hp Ho Hx Hk NT NS.
  assert (Hr : 0 < 1 / 20 <= 1) by lra. assert (Hr0 : 1 / 20 <> 0) by lra.
  repeat (destruct Hk as [<-|Hk]); try contradiction; try (exfalso; apply NT; reflexivity); try (exfalso; apply NS; reflexivity).
  - box (mkEmpP diff). now apply C23_empirical_finite with xs.
  - box (EWA (1 / 20) diff). now apply C23_diagonal_finite with xs.
  - box (BLK (1 / 20) 4 diff). now apply C23_block_finite with xs.
  - box (EWA (1 / 20) diff). now apply C23_ewa_finite with xs.
  - box (ADA (1 / 20) (1 / 2) diff). apply C23_adaptive_finite with xs; auto; lra.
  - box (EWA (1 / 20) diff). now apply C23_ledoit_wolf_finite with xs.
  - box (EWA (1 / 20) diff). now apply C23_oas_finite with xs.
  - box (SHR (1 / 20) (1 / 10) "constant_correlation" diff). apply C23_shrunk_finite with xs; auto; lra.
  - box (SCH (1 / 20) 4 (1 / 2) "linear" diff). now apply C23_schur_finite with xs.
  - box (BLK (1 / 20) 4 diff). now apply C23_schur_lw_finite with xs.
  - box (EWA (1 / 20) diff). now apply C23_partial_moments_finite with xs.
  - box (HUB (1 / 20) (5 / 2) diff). now apply C23_huber_finite with xs.
  - box (EWA (1 / 20) diff). now apply C23_geodesic_finite with xs.
  - box (DCCP (1 / 20) None diff). now apply C23_dcc_finite with xs.
  - box (FACP 2 (1 / 20) diff). now apply C23_factor_finite with xs.
Qed.

(** The covariance is symmetric positive semidefinite for every class but TylerCovariance, SchurConditionalCovariance and ShrunkCovariance. *)
Theorem C83_psd L fuel p diff rows xs k : lawful L -> (1 <= fuel)%nat -> (1 <= p)%nat -> observes p diff rows xs -> xs <> [] ->
  In k (signatures L fuel) -> c_name (sg_class k) <> "TylerCovariance" -> c_name (sg_class k) <> "SchurConditionalCovariance" ->
  c_name (sg_class k) <> "ShrunkCovariance" ->
  out_of_the_box k diff rows (psd_cov p).
Proof.
  intros HL Hf Hp Ho Hx Hk NT NS NU.
  assert (Hr : 0 < 1 / 20 <= 1) by lra. assert (Hr0 : 1 / 20 <> 0) by lra.
  repeat (destruct Hk as [<-|Hk]); try contradiction; try (exfalso; apply NT; reflexivity); try (exfalso; apply NS; reflexivity); try (exfalso; apply NU; reflexivity).
  - box (mkEmpP diff). now apply C18_empirical_psd with xs.
  - box (EWA (1 / 20) diff). now apply C18_diagonal_psd with xs.
  - box (BLK (1 / 20) 4 diff). destruct (C18_block_psd L p (1 / 20) 4 diff rows xs) as (o & H1 & H2 & _); auto. exists o. auto.
  - box (EWA (1 / 20) diff). now apply C18_ewa_psd with xs.
  - box (ADA (1 / 20) (1 / 2) diff). apply C18_adaptive_psd with xs; auto; lra.
  - box (EWA (1 / 20) diff). now apply C18_ledoit_wolf_psd with xs.
  - box (EWA (1 / 20) diff). now apply C18_oas_psd with xs.
  - box (SCH (1 / 20) 4 (1 / 2) "linear" diff). destruct (C18_schur_psd L p (1 / 20) 4 (1 / 2) "linear" diff rows xs) as (o & H1 & H2 & _); auto; try lia. exists o. auto.
  - box (BLK (1 / 20) 4 diff). destruct (C18_schur_lw_psd L p (1 / 20) 4 diff rows xs) as (o & H1 & H2 & _); auto; try lia. exists o. auto.
  - box (EWA (1 / 20) diff). destruct (C18_partial_moments_psd L fuel p (1 / 20) diff rows xs) as (o & B & e & H1 & _ & H2 & _); auto. exists o. auto.
  - box (HUB (1 / 20) (5 / 2) diff). now apply C18_huber_psd with xs.
  - box (EWA (1 / 20) diff). now apply C18_geodesic_psd with xs.
  - box (DCCP (1 / 20) None diff). now apply C18_dcc_psd with xs.
  - box (FACP 2 (1 / 20) diff). now apply C18_factor_psd with xs.
Qed.

(** The other two: TylerCovariance when the first observation is not zero, SchurConditionalCovariance when every variance is zero or at least
    1e-12 (1 + effective sample size + p). *)
Theorem C83_tyler L fuel p diff rows x xs k : lawful L -> (1 <= p)%nat -> observes p diff rows (x :: xs) -> (exists i, (i < p)%nat /\ x i <> 0) ->
  In k (signatures L fuel) -> c_name (sg_class k) = "TylerCovariance" ->
  out_of_the_box k diff rows (finite_fitted p).
Proof.
  intros HL Hp Ho Hx Hk NT. repeat (destruct Hk as [<-|Hk]); try contradiction; try discriminate.
  box (EWA (1 / 20) diff). apply C23_tyler_finite with x xs; auto; lra.
Qed.
Theorem C83_schur_conditional L fuel p diff rows xs k : lawful L -> (1 <= p)%nat -> observes p diff rows xs -> xs <> [] ->
  (forall i, (i < p)%nat -> ewa_cov (1 / 20) (burn_len (1 / 20)) xs i i = 0 \/
     e12 * (1 + effective_n (1 / 20) (length xs) + INR p) <= ewa_cov (1 / 20) (burn_len (1 / 20)) xs i i) ->
  In k (signatures L fuel) -> c_name (sg_class k) = "SchurConditionalCovariance" ->
  out_of_the_box k diff rows (fun o => finite_fitted p o /\ psd_cov p o).
Proof.
  intros HL Hp Ho Hx Hv Hk NT. repeat (destruct Hk as [<-|Hk]); try contradiction; try discriminate.
  box (BLK (1 / 20) 4 diff). destruct (C47_no_error L p (1 / 20) 4 diff rows xs) as (o & B & H1 & H2 & H3 & H4); auto; try lra.
  exists o. split; auto. split; auto. exists B. split; auto. now apply RMat.pd_psd.
Qed.

(** Witness: three rows in two dimensions, all seventeen classes *)
Example C83_witness : exists L, lawful L /\ observes 2 false (map (fv 2) [fun i => INR i + 1; fun _ => 2; fun i => 3 - INR i]) [fun i => INR i + 1; fun _ => 2; fun i => 3 - INR i]
  /\ length (signatures L 1) = 17%nat.
Proof. destruct lawful_satisfiable as [L HL]. exists L. split; auto. split; [apply observes_plain|reflexivity]. Qed.

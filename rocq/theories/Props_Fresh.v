(** * C114: scores on fresh data *)
From Coq Require Import Reals ZArith String List Lia Lra Psatz Arith Bool.
From Verif Require Import Num Numpy PyVal LinalgModel StateModel BaseModel Estimators RegistryModel Spec ListLemmas BaseProofs
  RMat LinSpec Fin RealSpec RunFin EwaReal RunAvg EmpFacts Props_Emp ShrinkReal Props_Shrink Spectral MatAlg Det Contracts LinalgReal Props_Linalg
  GaussSpec GaussReal ScoreReal Props_Score Props_Assess FloatEwa Props_Bias Props_Consistency.
Import ListNotations.
Local Open Scope string_scope.
Local Open Scope R_scope.

(** ** The specification: one random row with mean mu and covariance Sig *)
Definition has_moments {Om} (p : nat) (oms : list Om) (w : Om -> R) (x : Om -> obs) (mu : obs) (Sig : rmat) : Prop :=
  (forall i, (i < p)%nat -> expect oms w (fun o => x o i) = mu i) /\
  (forall i j, (i < p)%nat -> (j < p)%nat -> expect oms w (fun o => (x o i - mu i) * (x o j - mu j)) = Sig i j).
(** an estimator whose fitted mean and covariance are these (whatever its class and however it got there) *)
Definition reports {C : EstClass NumX} (p : nat) (e : inst C) (m : obs) (A : rmat) : Prop := location_ e = Ok (fv p m) /\ covariance_ e = Ok (fm p p A).

Section Fresh.
  Context {Om : Type} (oms : list Om) (w : Om -> R) (HP : probability oms w) (p : nat) (x : Om -> obs) (mu : obs) (Sig : rmat) (HX : has_moments p oms w x mu Sig).
  Notation E := (expect oms w).
  Lemma E_rsum n (f : nat -> Om -> R) : E (fun o => rsum n (fun i => f i o)) = rsum n (fun i => E (f i)).
  Proof. induction n as [|n IH]; cbn [rsum]; [rewrite (E_ext oms w _ (fun _ => 0 * 0)) by (intros; ring); rewrite E_scal; ring|]. rewrite E_plus, IH. reflexivity. Qed.
  Lemma E_about m i j : (i < p)%nat -> (j < p)%nat -> E (fun o => (x o i - m i) * (x o j - m j)) = Sig i j + (mu i - m i) * (mu j - m j).
  Proof.
    destruct HX as [H1 H2]. intros Hi Hj.
    assert (K : forall c k, (k < p)%nat -> E (fun o => c * (x o k - mu k)) = 0).
    { intros c k Hk. rewrite E_scal. rewrite (E_ext oms w _ (fun o => x o k + - mu k)) by (intros; ring). rewrite E_plus, H1, (E_const oms w _ (proj2 HP)) by auto. ring. }
    rewrite (E_ext oms w _ (fun o => ((x o i - mu i) * (x o j - mu j) + (mu i - m i) * (mu j - m j)) + ((mu j - m j) * (x o i - mu i) + (mu i - m i) * (x o j - mu j)))) by (intros; ring).
    rewrite !E_plus, !K, (E_const oms w _ (proj2 HP)), H2 by auto. ring.
  Qed.
  Lemma E_qf B m : sym p B -> E (fun o => qf p B (fun i => x o i - m i)) = rtrace p (rmul p B Sig) + qf p B (fun i => mu i - m i).
  Proof.
    intros SB. unfold qf. rewrite E_rsum. unfold rtrace, rmul. rewrite <- rsum_plus. apply rsum_ext. intros i Hi. rewrite E_rsum. rewrite <- rsum_plus. apply rsum_ext. intros j Hj.
    rewrite (E_ext oms w _ (fun o => B i j * ((x o i - m i) * (x o j - m j)))) by (intros; ring). rewrite E_scal, E_about by auto.
    replace (Sig j i) with (Sig i j); [ring|]. rewrite <- !(proj2 HX) by auto. apply E_ext. intros; ring.
  Qed.
End Fresh.

(** ** C114 *)
(** The squared Mahalanobis distance of a fresh row is on average tr(P Sig) + (mu - m)^T P (mu - m), where P is precision_ and m is location_; it is the number of variables
    when the estimator's mean and covariance are the true ones. *)
Theorem C114_fresh_mahalanobis {Om} (oms : list Om) w p x mu Sig L (C : EstClass NumX) (e : inst C) m A : lawful L -> (1 <= p)%nat -> c_prec C = None ->
  probability oms w -> has_moments p oms w x mu Sig -> reports p e m A -> sym p A ->
  exists P d, precision_ L e = Ok (fm p p P) /\ (forall o, mahalanobis L e (In1 (fv p (x o))) = Ok [Fin (d o)]) /\
    expect oms w d = rtrace p (rmul p P Sig) + qf p P (fun i => mu i - m i) /\
    (meq p p A Sig -> pd p A -> (forall i, (i < p)%nat -> m i = mu i) -> expect oms w d = INR p).
Proof.
  intros HL Hp Hc HP HX [HM HA] SA. destruct (C66_precision_is_pseudo_inverse L C e p A HL Hp Hc HA SA) as (B & B1 & _ & B3 & B4 & _).
  exists B, (fun o => qf p B (fun i => x o i - m i)). split; [exact B1|]. split.
  { intros o. destruct (C67_mahalanobis L C e p m B [x o] Hp HM B1) as (K & _). exact K. }
  pose proof (E_qf oms w HP p x mu Sig HX B m B3) as Q. split; [exact Q|]. intros EA PA Em. rewrite Q. specialize (B4 (pd_invertible p A PA)).
  rewrite qf_zero by (intros i Hi; rewrite Em by auto; ring). rewrite Rplus_0_r, <- rtrace_I. apply rtrace_ext.
  apply (meq_trans _ _ _ (rmul p B A)); [apply rmul_ext; [apply meq_refl|now apply meq_sym]|apply (proj2 B4)].
Qed.
(** score on a fresh row: on average a constant minus half of ln det + tr(P Sig) + the squared distance between the means. No estimator beats one that reports the true mean
    and covariance, and only an estimator that reports them ties. *)
Theorem C114_truth_scores_best {Om} (oms : list Om) w p x mu Sig L (C : EstClass NumX) (e : inst C) m A : lawful L -> (1 <= p)%nat -> c_prec C = None ->
  probability oms w -> has_moments p oms w x mu Sig -> pd p Sig -> reports p e m A -> pd p A ->
  exists P s, inverse p A P /\ (forall o, score L e (In1 (fv p (x o))) = Ok (Fin (s o))) /\
    expect oms w s = - (INR p * ln (2 * PI) + ln (rdet p A) + rtrace p (rmul p P Sig) + qf p P (fun i => mu i - m i)) / 2 /\
    expect oms w s <= - (INR p * ln (2 * PI) + ln (rdet p Sig) + INR p) / 2 /\
    (expect oms w s = - (INR p * ln (2 * PI) + ln (rdet p Sig) + INR p) / 2 <-> meq p p A Sig /\ forall i, (i < p)%nat -> m i = mu i).
Proof.
  intros HL Hp Hc HP HX HSig [HM HA] PA. pose proof (proj1 PA) as SA. destruct (C66_precision_is_pseudo_inverse L C e p A HL Hp Hc HA SA) as (B & B1 & B2 & B3 & B4 & _). specialize (B4 (pd_invertible p A PA)).
  pose proof (inverse_pd p A B PA B4) as PB.
  exists B, (fun o => gauss_logpdf p A B m (x o)). split; [exact B4|]. split.
  { intros o. destruct (C67_score L C e p m A B [x o] HL Hp ltac:(discriminate) HM B1 SA B2) as (K & _). rewrite (proj2 (C67_single_row NumX L C e (fv p (x o)))). cbn [map] in K. rewrite (K PA).
    do 2 f_equal. unfold lmean. cbn. field. }
  assert (Q : expect oms w (fun o => gauss_logpdf p A B m (x o)) = - (INR p * ln (2 * PI) + ln (rdet p A) + rtrace p (rmul p B Sig) + qf p B (fun i => mu i - m i)) / 2).
  { unfold gauss_logpdf. rewrite (E_ext oms w _ (fun o => - (INR p * ln (2 * PI) + ln (rdet p A)) / 2 + - / 2 * qf p B (fun i => x o i - m i))) by (intros; lra).
    rewrite E_plus, E_scal, (E_const oms w _ (proj2 HP)), (E_qf oms w HP p x mu Sig HX B m B3). lra. }
  rewrite Q. split; [reflexivity|]. destruct (stein_ineq p B Sig PB HSig) as [S1 S2]. pose proof (proj2 (pd_psd p B PB) (fun i => mu i - m i)) as Q0.
  assert (EL : ln (rdet p B * rdet p Sig) = - ln (rdet p A) + ln (rdet p Sig)) by (rewrite ln_mult by (now apply pd_det_pos); now rewrite (ln_inverse p A B PA B4)).
  rewrite EL in S1, S2. split; [lra|]. split.
  - intros E. assert (I : inverse p Sig B) by (apply S2; lra). assert (Z : qf p B (fun i => mu i - m i) = 0) by lra. split.
    + apply (inverse_unique p B); split; try apply I; apply B4.
    + intros i Hi. destruct (Req_dec (m i) (mu i)) as [|N]; [auto|exfalso]. assert (0 < qf p B (fun i => mu i - m i)); [|lra]. apply (proj2 PB). exists i. split; [auto|lra].
  - intros [EA Em]. rewrite (qf_zero p B) by (intros i Hi; rewrite Em by auto; ring). rewrite <- (rdet_ext EA).
    replace (rtrace p (rmul p B Sig)) with (INR p); [lra|]. rewrite <- rtrace_I. symmetry. apply rtrace_ext. apply (meq_trans _ _ _ (rmul p B A)); [apply rmul_ext; [apply meq_refl|now apply meq_sym]|apply (proj2 B4)].
Qed.
(** the premises are met: two independent signs, and EmpiricalCovariance after the four corners, which reports the truth *)
Example C114_witness : let corners := map (fun o : list R => (fun i => nth i o 0) : obs) (signs 2) in
  probability (signs 2) (fun _ => / 2 ^ 2) /\ has_moments 2 (signs 2) (fun _ => / 2 ^ 2) (fun o i => nth i o 0) (fun _ => 0) rI /\ pd 2 rI /\
  exists e, fitted_on (C := Empirical) (mkEmpP false) (map (fv 2) corners) e /\ reports 2 e (mean_of corners) (pcov_of corners) /\ meq 2 2 (pcov_of corners) rI /\ pd 2 (pcov_of corners).
Proof.
  intros corners. destruct (C112_witness 2 ltac:(lia)) as (HP & _). assert (PI : pd 2 rI) by apply pd_rI.
  assert (EC : meq 2 2 (pcov_of corners) rI).
  { intros i j Hi Hj. unfold pcov_of, mean_of, corners, rI. destruct i as [|[|i]]; [| |lia]; (destruct j as [|[|j]]; [| |lia]); cbn; field. }
  split; [exact HP|]. split; [|split; [exact PI|]].
  - split; [intros i Hi; now apply signs_zero|]. intros i j Hi Hj. unfold rI. rewrite <- (signs_pair 2 i j Hi Hj). apply E_ext. intros; ring.
  - destruct (Empirical_run 2 false (map (fv 2) corners) corners (observes_plain 2 _) ltac:(discriminate)) as (e & E1 & _ & E3 & E4 & _). exists e. split; [exact E1|]. split; [split; assumption|]. split; [exact EC|].
    apply (pd_ext 2 rI); [now apply meq_sym|exact PI].
Qed.

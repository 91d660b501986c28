(** * C110: distances and scores do not depend on the units *)
From Coq Require Import Reals ZArith String List Lia Lra Psatz Arith Bool Setoid.
From Verif Require Import Num Numpy PyVal LinalgModel StateModel BaseModel Estimators RegistryModel Spec ListLemmas BaseProofs
  RMat LinSpec Fin RealSpec RunFin EwaReal RunAvg EmpFacts Props_Emp ShrinkReal Props_Shrink Spectral MatAlg Det Contracts LinalgReal Props_Linalg
  GaussSpec GaussReal ScoreReal Props_Score RobustReal TylerReal Props_Robust SymSpec SymReal SymRun Props_Sym.
Import ListNotations.
Local Open Scope string_scope.
Local Open Scope R_scope.

(** ** An invertible change of variables *)
Lemma inverse_T p A Ai : inverse p A Ai -> inverse p (rT A) (rT Ai).
Proof.
  intros [H1 H2]. split.
  - eapply meq_trans; [apply meq_sym, T_mul|]. intros i j Hi Hj. unfold rT. rewrite (H2 j i) by auto. unfold rI. now rewrite Nat.eqb_sym.
  - eapply meq_trans; [apply meq_sym, T_mul|]. intros i j Hi Hj. unfold rT. rewrite (H1 j i) by auto. unfold rI. now rewrite Nat.eqb_sym.
Qed.
Lemma inverse_mul p A Ai B Bi : inverse p A Ai -> inverse p B Bi -> inverse p (rmul p A B) (rmul p Bi Ai).
Proof.
  assert (K : forall A Ai B Bi, inverse p A Ai -> inverse p B Bi -> meq p p (rmul p (rmul p A B) (rmul p Bi Ai)) rI).
  { clear. intros A Ai B Bi [H1 _] [H2 _]. eapply meq_trans; [apply mul_assoc|]. eapply meq_trans; [apply rmul_ext; [apply meq_refl|apply meq_sym, mul_assoc]|].
    eapply meq_trans; [apply rmul_ext; [apply meq_refl|apply rmul_ext; [exact H2|apply meq_refl]]|]. eapply meq_trans; [apply rmul_ext; [apply meq_refl|apply mul_I_l]|]. exact H1. }
  intros HA HB. split; [now apply K|]. destruct HA as [a1 a2], HB as [b1 b2]. apply (K Bi B Ai A); split; auto.
Qed.
Lemma congr_rmul p A C : meq p p (congr p A C) (rmul p A (rmul p C (rT A))).
Proof. intros i j _ _. apply congr_mul. Qed.
Lemma congr_inverse p A Ai S Si : inverse p A Ai -> inverse p S Si -> inverse p (congr p A S) (rmul p (rT Ai) (rmul p Si Ai)).
Proof.
  intros HA HS. pose proof (inverse_mul p A Ai (rmul p S (rT A)) (rmul p (rT Ai) Si) HA (inverse_mul p S Si (rT A) (rT Ai) HS (inverse_T p A Ai HA))) as [K1 K2].
  split.
  - eapply meq_trans; [|exact K1]. apply rmul_ext; [apply congr_rmul|apply meq_sym, mul_assoc].
  - eapply meq_trans; [|exact K2]. apply rmul_ext; [apply meq_sym, mul_assoc|apply congr_rmul].
Qed.
Lemma rapp_inv p A Ai v : inverse p A Ai -> veq p (rapp p Ai (rapp p A v)) v.
Proof. intros [_ H] i Hi. rewrite <- rapp_mul. rewrite (rapp_ext p _ rI v v H (fun _ _ => eq_refl) i Hi). now apply rapp_I. Qed.
Lemma aff_sub p A b x m i : aff p A b x i - aff p A b m i = rapp p A (fun k => x k - m k) i.
Proof. unfold aff, rapp. rewrite (rsum_ext p (fun j => A i j * (x j - m j)) (fun j => A i j * x j - A i j * m j)) by (intros; ring). rewrite rsum_minus. ring. Qed.
Lemma qf_transported p A Ai Si d : inverse p A Ai -> qf p (rmul p (rT Ai) (rmul p Si Ai)) (rapp p A d) = qf p Si d.
Proof. intros H. rewrite qf_congr_sq. apply qf_ext; [apply meq_refl|]. now apply rapp_inv. Qed.
Lemma pd_congr' p A Ai S : inverse p A Ai -> pd p S -> pd p (congr p A S).
Proof.
  intros HA HS. apply (pd_ext p (rmul p (rT (rT A)) (rmul p S (rT A)))); [apply meq_sym, congr_rmul|]. apply pd_congr; [exact HS|]. exists (rT Ai). now apply inverse_T.
Qed.
(** ** C110 *)
(** Distances and scores of any estimator whose estimate follows the change of variables y -> A y + b (C20, C80), A invertible, while its covariance is positive definite:
    every squared distance is unchanged, and the score drops by ln |det A| - the same for every estimator, so comparisons do not depend on units either. *)
Theorem C110_change_of_variables L p A Ai b (C : EstClass NumX) (P : bool -> c_P C) diff ys : lawful L -> (1 <= p)%nat -> c_prec C = None -> inverse p A Ai ->
  follows p A b C P diff ys ->
  exists o o' S, fitted_on (P diff) (map (fv p) ys) o /\ fitted_on (P diff) (map (fv p) (map (aff p A b) ys)) o' /\ covariance_ o = Ok (fm p p S) /\
    (pd p S -> forall zs, let zs' := map (aff p A (if diff then fun _ => 0 else b)) zs in
       mahalanobis L o' (In2 (map (fv p) zs')) = mahalanobis L o (In2 (map (fv p) zs)) /\
       (zs <> [] -> exists s, score L o (In2 (map (fv p) zs)) = Ok (Fin s) /\ score L o' (In2 (map (fv p) zs')) = Ok (Fin (s - ln (Rabs (rdet p A)))))).
Proof.
  intros HL Hp Hc HA (o & o' & m & S & E1 & E2 & E3 & E4 & E5 & E6). exists o, o', S. split; [exact E1|]. split; [exact E2|]. split; [exact E4|]. intros HP zs. set (b' := if diff then fun _ => 0 else b) in *.
  cbv zeta. pose proof (pd_congr' p A Ai S HA HP) as HP'.
  destruct (C66_precision_is_pseudo_inverse L C o p S HL Hp Hc E4 (proj1 HP)) as (B & F1 & F2 & _ & F4 & _). specialize (F4 (pd_invertible p S HP)).
  destruct (C66_precision_is_pseudo_inverse L C o' p (congr p A S) HL Hp Hc E6 (proj1 HP')) as (B' & G1 & G2 & _ & G4 & _). specialize (G4 (pd_invertible p _ HP')).
  destruct (C67_mahalanobis L C o p m B zs Hp E3 F1) as (M1 & _). destruct (C67_mahalanobis L C o' p _ B' (map (aff p A b') zs) Hp E5 G1) as (M2 & _).
  pose proof (inverse_unique p _ _ _ G4 (congr_inverse p A Ai S B HA F4)) as EB.
  assert (Q : forall x, qf p B' (fun i => aff p A b' x i - aff p A b' m i) = qf p B (fun i => x i - m i)).
  { intros x. rewrite (qf_ext p B' (rmul p (rT Ai) (rmul p B Ai)) (fun i => aff p A b' x i - aff p A b' m i) (rapp p A (fun k => x k - m k)) EB (fun i _ => aff_sub p A b' x m i)). now apply qf_transported. }
  split; [rewrite M1, M2, map_map; f_equal; apply map_ext; intros x; now rewrite Q|]. intros Hz.
  destruct (C67_score L C o p m S B zs HL Hp Hz E3 F1 (proj1 HP) F2) as [S1 _].
  assert (Hz' : map (aff p A b') zs <> []) by (destruct zs; [congruence|discriminate]).
  destruct (C67_score L C o' p _ (congr p A S) B' (map (aff p A b') zs) HL Hp Hz' E5 G1 (proj1 HP') G2) as [S2 _].
  eexists. split; [apply S1; exact HP|]. rewrite (S2 HP'). f_equal. f_equal. rewrite map_map.
  assert (D : rdet p (congr p A S) = (Rabs (rdet p A) * Rabs (rdet p A)) * rdet p S).
  { rewrite (rdet_ext (congr_rmul p A S)), !rdet_mul, rdet_T. replace (Rabs (rdet p A) * Rabs (rdet p A)) with (rdet p A * rdet p A); [ring|]. rewrite <- Rabs_mult. symmetry. apply Rabs_pos_eq. apply Rle_0_sqr. }
  assert (N : rdet p A <> 0). { destruct HA as [h1 _]. pose proof (rdet_ext h1) as K. rewrite rdet_mul, rdet_I in K. intros Z. rewrite Z in K. lra. }
  assert (A0 : 0 < Rabs (rdet p A)) by now apply Rabs_pos_lt. pose proof (pd_det_pos p S HP) as D0.
  assert (LD : ln (rdet p (congr p A S)) = 2 * ln (Rabs (rdet p A)) + ln (rdet p S)) by (rewrite D, ln_mult, ln_mult by (try apply Rmult_lt_0_compat; lra); ring).
  rewrite (lmean_ext _ (fun x => gauss_logpdf p S B m x + - ln (Rabs (rdet p A)))) by (intros x _; unfold gauss_logpdf; rewrite Q, LD; field).
  rewrite lmean_plus, lmean_const by exact Hz. reflexivity.
Qed.
(** Singular covariances: under a rotation, reflection or relabelling times a common change of units every squared distance is unchanged too (the pseudo-inverse follows);
    the score is -inf before and after. *)
Theorem C110_similarity L p s A b (C : EstClass NumX) (P : bool -> c_P C) diff ys : lawful L -> (1 <= p)%nat -> c_prec C = None -> similarity p s A ->
  follows p A b C P diff ys ->
  exists o o' S, fitted_on (P diff) (map (fv p) ys) o /\ fitted_on (P diff) (map (fv p) (map (aff p A b) ys)) o' /\ covariance_ o = Ok (fm p p S) /\
    (sym p S -> forall zs, let zs' := map (aff p A (if diff then fun _ => 0 else b)) zs in
       mahalanobis L o' (In2 (map (fv p) zs')) = mahalanobis L o (In2 (map (fv p) zs)) /\
       (zs <> [] -> ~ invertible p S -> score L o (In2 (map (fv p) zs)) = Ok NInf /\ score L o' (In2 (map (fv p) zs')) = Ok NInf)).
Proof.
  intros HL Hp Hc HA (o & o' & m & S & E1 & E2 & E3 & E4 & E5 & E6). exists o, o', S. split; [exact E1|]. split; [exact E2|]. split; [exact E4|]. intros HP zs. set (b' := if diff then fun _ => 0 else b) in *.
  cbv zeta. pose proof (congr_sym p A S p (le_n p) HP) as HP'.
  destruct (C66_precision_is_pseudo_inverse L C o p S HL Hp Hc E4 HP) as (B & F1 & F2 & _ & _ & _).
  destruct (C66_precision_is_pseudo_inverse L C o' p (congr p A S) HL Hp Hc E6 HP') as (B' & G1 & G2 & _ & _ & _).
  destruct (C67_mahalanobis L C o p m B zs Hp E3 F1) as (M1 & _). destruct (C67_mahalanobis L C o' p _ B' (map (aff p A b') zs) Hp E5 G1) as (M2 & _).
  pose proof (penrose_unique p _ _ _ G2 (congr_penrose p s A HA S B F2)) as EB. assert (s0 : 0 < s) by apply HA.
  assert (Q : forall x, qf p B' (fun i => aff p A b' x i - aff p A b' m i) = qf p B (fun i => x i - m i)).
  { intros x. rewrite (qf_ext p B' _ (fun i => aff p A b' x i - aff p A b' m i) (rapp p A (fun k => x k - m k)) EB (fun i _ => aff_sub p A b' x m i)).
    rewrite qf_scal, (congr_qf p s A HA). field. lra. }
  split; [rewrite M1, M2, map_map; f_equal; apply map_ext; intros x; now rewrite Q|]. intros Hz HN.
  destruct (C67_score L C o p m S B zs HL Hp Hz E3 F1 HP F2) as [_ S1].
  assert (Hz' : map (aff p A b') zs <> []) by (destruct zs; [congruence|discriminate]).
  destruct (C67_score L C o' p _ (congr p A S) B' (map (aff p A b') zs) HL Hp Hz' E5 G1 HP' G2) as [_ S2].
  split; [now apply S1|]. apply S2. intros [D [D1 D2]]. apply HN.
  (* S = A^T (A S A^T) A / s^2 *)
  destruct HA as (_ & a1 & a2). assert (IA : inverse p A (fun i j => / s * rT A i j)).
  { split.
    - intros i j Hi Hj. rewrite (mul_scal_r p (/ s) A (rT A) i j Hi Hj). rewrite a2 by auto. field. lra.
    - intros i j Hi Hj. rewrite (mul_scal_l p (/ s) (rT A) A i j Hi Hj). rewrite a1 by auto. field. lra. }
  set (Ai := fun i j => / s * rT A i j) in *. destruct IA as [i1 i2].
  assert (E : meq p p S (rmul p Ai (rmul p (congr p A S) (rT Ai)))).
  { apply meq_sym. eapply meq_trans; [apply rmul_ext; [apply meq_refl|apply rmul_ext; [apply congr_rmul|apply meq_refl]]|].
    eapply meq_trans; [apply rmul_ext; [apply meq_refl|apply mul_assoc]|]. eapply meq_trans; [apply meq_sym, mul_assoc|].
    eapply meq_trans; [apply rmul_ext; [exact i2|]; apply mul_assoc|]. eapply meq_trans; [apply mul_I_l|].
    eapply meq_trans; [apply rmul_ext; [apply meq_refl|exact (proj2 (inverse_T p Ai A (conj i2 i1)))]|]. apply mul_I_r. }
  pose proof (inverse_mul p Ai A (rmul p (congr p A S) (rT Ai)) (rmul p (rT A) D) (conj i2 i1) (inverse_mul p (congr p A S) D (rT Ai) (rT A) (conj D1 D2) (inverse_T p Ai A (conj i2 i1)))) as [K1 K2].
  eexists. split; [eapply meq_trans; [apply rmul_ext; [exact E|apply meq_refl]|exact K1]|eapply meq_trans; [apply rmul_ext; [apply meq_refl|exact E]|exact K2]].
Qed.
(** Instances: any invertible change for EwaCovariance and EmpiricalCovariance; similarities for the shrinkage and the outlier-robust estimators. *)
Theorem C110_ewa L p A Ai b r diff ys : lawful L -> (1 <= p)%nat -> r <> 0 -> inverse p A Ai -> seen diff ys <> [] ->
  exists o o' S, fitted_on (C := Ewa) (EWA r diff) (map (fv p) ys) o /\ fitted_on (C := Ewa) (EWA r diff) (map (fv p) (map (aff p A b) ys)) o' /\ covariance_ o = Ok (fm p p S) /\
    (pd p S -> forall zs, let zs' := map (aff p A (if diff then fun _ => 0 else b)) zs in
       mahalanobis L o' (In2 (map (fv p) zs')) = mahalanobis L o (In2 (map (fv p) zs)) /\
       (zs <> [] -> exists s, score L o (In2 (map (fv p) zs)) = Ok (Fin s) /\ score L o' (In2 (map (fv p) zs')) = Ok (Fin (s - ln (Rabs (rdet p A)))))).
Proof. intros HL Hp Hr HA Hx. apply (C110_change_of_variables L p A Ai b Ewa (EWA r) diff ys); auto. now apply C80_ewa_follows. Qed.
Theorem C110_empirical L p A Ai b diff ys : lawful L -> (1 <= p)%nat -> inverse p A Ai -> seen diff ys <> [] ->
  exists o o' S, fitted_on (C := Empirical) (mkEmpP diff) (map (fv p) ys) o /\ fitted_on (C := Empirical) (mkEmpP diff) (map (fv p) (map (aff p A b) ys)) o' /\ covariance_ o = Ok (fm p p S) /\
    (pd p S -> forall zs, let zs' := map (aff p A (if diff then fun _ => 0 else b)) zs in
       mahalanobis L o' (In2 (map (fv p) zs')) = mahalanobis L o (In2 (map (fv p) zs)) /\
       (zs <> [] -> exists s, score L o (In2 (map (fv p) zs)) = Ok (Fin s) /\ score L o' (In2 (map (fv p) zs')) = Ok (Fin (s - ln (Rabs (rdet p A)))))).
Proof. intros HL Hp HA Hx. apply (C110_change_of_variables L p A Ai b Empirical mkEmpP diff ys); auto. now apply C80_empirical_follows. Qed.
(** what an estimator that follows similarities owes its user *)
Definition distances_follow (L : LinAlg NumX) (p : nat) (A : rmat) (b : obs) (C : EstClass NumX) (P : bool -> c_P C) (diff : bool) (ys : list obs) : Prop :=
  exists o o' S, fitted_on (P diff) (map (fv p) ys) o /\ fitted_on (P diff) (map (fv p) (map (aff p A b) ys)) o' /\ covariance_ o = Ok (fm p p S) /\
    (sym p S -> forall zs, mahalanobis L o' (In2 (map (fv p) (map (aff p A (if diff then fun _ => 0 else b)) zs))) = mahalanobis L o (In2 (map (fv p) zs))).
Theorem C110_similarity_instances L p s A b r c delta mx diff ys : lawful L -> (1 <= p)%nat -> 0 < r <= 1 -> similarity p s A -> seen diff ys <> [] ->
  distances_follow L p A b Ewa (EWA r) diff ys /\ distances_follow L p A b Empirical mkEmpP diff ys /\ distances_follow L p A b LedoitWolf (EWA r) diff ys /\
  distances_follow L p A b OAS (EWA r) diff ys /\ distances_follow L p A b Shrunk (SHR r delta "identity") diff ys /\
  distances_follow L p A b (Huber L) (HUB r c) diff ys /\ distances_follow L p A b (Adaptive L) (ADA r mx) diff ys.
Proof.
  intros HL Hp Hr HA Hx. assert (R0 : r <> 0) by lra.
  assert (K : forall (C : EstClass NumX) (P : bool -> c_P C), c_prec C = None -> follows p A b C P diff ys -> distances_follow L p A b C P diff ys).
  { intros C P Hc HF. destruct (C110_similarity L p s A b C P diff ys HL Hp Hc HA HF) as (o & o' & S & E1 & E2 & E3 & E4). exists o, o', S. split; [exact E1|]. split; [exact E2|]. split; [exact E3|].
    intros HS zs. now apply (E4 HS zs). }
  refine (conj (K Ewa (EWA r) eq_refl _) (conj (K Empirical mkEmpP eq_refl _) (conj (K LedoitWolf (EWA r) eq_refl _) (conj (K OAS (EWA r) eq_refl _) (conj (K Shrunk (SHR r delta "identity") eq_refl _) (conj (K (Huber L) (HUB r c) eq_refl _) (K (Adaptive L) (ADA r mx) eq_refl _))))))).
  - now apply C80_ewa_follows.
  - now apply C80_empirical_follows.
  - now apply (C80_ledoit_wolf_follows p s).
  - now apply (C80_oas_follows p s).
  - now apply (C80_shrunk_identity_follows p s).
  - now apply (C80_huber_follows L p s).
  - now apply (C80_adaptive_follows L p s).
Qed.
(** the premises are met: a shear with unequal scales, which is no similarity *)
Definition shear : rmat := fun i j => match i, j with 0%nat, 0%nat => 2 | 0%nat, 1%nat => 1 | 1%nat, 1%nat => 3 | _, _ => 0 end.
Definition shear_inv : rmat := fun i j => match i, j with 0%nat, 0%nat => / 2 | 0%nat, 1%nat => - / 6 | 1%nat, 1%nat => / 3 | _, _ => 0 end.
Example C110_witness : inverse 2 shear shear_inv /\ (forall s, ~ similarity 2 s shear).
Proof.
  split.
  - split; intros i j Hi Hj; unfold rmul, rI; destruct i as [|[|i]]; [| |lia| | |lia]; (destruct j as [|[|j]]; [| |lia]); cbn; field.
  - intros s (_ & H & _). pose proof (H 0%nat 1%nat ltac:(lia) ltac:(lia)) as K. unfold rmul, rT, rI in K. cbn in K. lra.
Qed.

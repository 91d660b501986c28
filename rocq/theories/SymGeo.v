(** * Functions of symmetric matrices do not depend on the eigenbasis; the geodesic step commutes with rotations *)
From Coq Require Import Reals ZArith String List Lia Lra Arith Bool Setoid Morphisms.
From Verif Require Import Num Numpy PyVal LinalgModel StateModel BaseModel Estimators
  Spec ListLemmas BaseProofs RMat LinSpec Fin RealSpec RunFin EwaReal RunAvg EmpFacts Spectral MatAlg Contracts LinalgReal Det
  ShrinkReal RobustReal TylerReal Props_Emp SymSpec SymReal SymRun.
Import ListNotations.
Local Open Scope string_scope.
Local Open Scope R_scope.

Lemma spec_mulT n U f : meq n n (spec n U f) (rmul n U (rmul n (rdiag f) (rT U))).
Proof.
  intros i j Hi Hj. unfold spec, rmul. apply rsum_ext. intros k Hk. unfold rdiag, rT.
  rewrite (rsum_ext n _ (fun l => if Nat.eqb k l then f k * U j l else 0)) by (intros l _; destruct (Nat.eqb k l); ring).
  rewrite rsum_delta' by auto. ring.
Qed.
Lemma diag_l n f W i j : (i < n)%nat -> rmul n (rdiag f) W i j = f i * W i j.
Proof.
  intros Hi. unfold rmul, rdiag. rewrite (rsum_ext n _ (fun l => if Nat.eqb i l then f i * W l j else 0)) by (intros l _; destruct (Nat.eqb i l); ring).
  now rewrite (rsum_delta' n i (fun l => f i * W l j)).
Qed.
Lemma diag_r n f W i j : (j < n)%nat -> rmul n W (rdiag f) i j = W i j * f j.
Proof.
  intros Hj. unfold rmul, rdiag. rewrite (rsum_ext n _ (fun l => if Nat.eqb l j then W i l * f l else 0)).
  - now rewrite (rsum_delta n j (fun l => W i l * f l)).
  - intros l _. destruct (Nat.eqb l j); ring.
Qed.
Lemma rdiag_one n : meq n n (rdiag (fun _ => 1)) rI.
Proof. intros i j _ _. reflexivity. Qed.
(** if G G^T = H H^T and G diag(l) G^T = H diag(m) H^T then G diag(f l) G^T = H diag(f m) H^T *)
Lemma spec_fun_unique n G Gi H Hi l m (f : R -> R) : inverse n G Gi -> inverse n H Hi ->
  meq n n (spec n G (fun _ => 1)) (spec n H (fun _ => 1)) -> meq n n (spec n G l) (spec n H m) ->
  meq n n (spec n G (fun k => f (l k))) (spec n H (fun k => f (m k))).
Proof.
  intros [G1 G2] [H1 H2] E1 E2. rewrite !spec_mulT in E1. rewrite !spec_mulT in E2. rewrite rdiag_one, mul_I_l, mul_I_l in E1.
  assert (GT : meq n n (rmul n (rT G) (rT Gi)) rI).
  { rewrite <- T_mul. rewrite G2. intros i j _ _. unfold rT, rI. now rewrite Nat.eqb_sym. }
  assert (GT2 : meq n n (rmul n (rT Gi) (rT G)) rI).
  { rewrite <- T_mul. rewrite G1. intros i j _ _. unfold rT, rI. now rewrite Nat.eqb_sym. }
  set (W := rmul n Gi H).
  assert (WT : meq n n (rT W) (rmul n (rT H) (rT Gi))) by (unfold W; apply T_mul).
  assert (WW : meq n n (rmul n W (rT W)) rI).
  { rewrite WT. unfold W. rewrite (mul_assoc n Gi H). rewrite <- (mul_assoc n H (rT H)), <- E1. rewrite (mul_assoc n G), GT, mul_I_r. exact G2. }
  assert (Wi : meq n n (rmul n W (rmul n Hi G)) rI).
  { unfold W. rewrite (mul_assoc n Gi H). rewrite <- (mul_assoc n H Hi), H1, mul_I_l. exact G2. }
  assert (Wi' : meq n n (rmul n (rmul n Hi G) W) rI).
  { unfold W. rewrite (mul_assoc n Hi G). rewrite <- (mul_assoc n G Gi), G1, mul_I_l. exact H2. }
  assert (WtW : meq n n (rmul n (rT W) W) rI).
  { assert (X : meq n n (rT W) (rmul n Hi G)).
    { rewrite <- (mul_I_l n (rT W)), <- Wi', (mul_assoc n _ W), WW, mul_I_r. reflexivity. }
    now rewrite X. }
  assert (GW : meq n n (rmul n G W) H) by (unfold W; rewrite <- mul_assoc, G1, mul_I_l; reflexivity).
  assert (K : meq n n (rmul n W (rmul n (rdiag m) (rT W))) (rdiag l)).
  { rewrite WT. unfold W. rewrite <- (mul_assoc n (rdiag m)). rewrite (mul_assoc n Gi H). rewrite <- (mul_assoc n H).
    rewrite <- E2. rewrite (mul_assoc n G), (mul_assoc n (rdiag l)), GT, mul_I_r. rewrite <- (mul_assoc n Gi G), G2, mul_I_l. reflexivity. }
  assert (C : meq n n (rmul n (rdiag l) W) (rmul n W (rdiag m))).
  { rewrite <- K. rewrite (mul_assoc n W), (mul_assoc n (rdiag m)), WtW, mul_I_r. reflexivity. }
  assert (Cf : meq n n (rmul n (rdiag (fun k => f (l k))) W) (rmul n W (rdiag (fun k => f (m k))))).
  { intros i j Hi' Hj'. specialize (C i j Hi' Hj'). rewrite diag_l, diag_r in * by auto.
    destruct (Req_dec (W i j) 0) as [Z|Z]; [rewrite Z; ring|]. assert (l i = m j) as -> by (apply (Rmult_eq_reg_r (W i j)); lra). ring. }
  rewrite !spec_mulT. rewrite <- GW. rewrite T_mul. rewrite (mul_assoc n G W). rewrite <- (mul_assoc n W). rewrite <- Cf.
  rewrite (mul_assoc n (rdiag _)). rewrite <- (mul_assoc n W (rT W)), WW, mul_I_l. reflexivity.
Qed.
Lemma orth_inverse n U : orth n U -> inverse n U (rT U).
Proof. intros [a b]. split; auto. Qed.

(** factors of a positive definite matrix are invertible *)
Lemma factor_invertible n G : pd n (spec n G (fun _ => 1)) -> exists Gi, inverse n G Gi.
Proof.
  intros H. destruct (pd_invertible n _ H) as (B & B1 & B2).
  rewrite spec_mulT, rdiag_one, mul_I_l in B1. apply rdet_invertible. intros Z.
  assert (E : rdet n (rmul n G (rmul n (rT G) B)) = rdet n rI) by (apply rdet_ext; now rewrite <- mul_assoc).
  rewrite rdet_mul, Z, rdet_I in E. lra.
Qed.

Section Orth.
  Context (p : nat) (A : rmat) (HA : similarity p 1 A) (Hp : (1 <= p)%nat).
  Context (L : LinAlg NumX) (HL : lawful L).
  Lemma A_orth : orth p A.
  Proof.
    destruct HA as (_ & H1 & H2). split.
    - rewrite H1. intros i j _ _. ring.
    - rewrite H2. intros i j _ _. ring.
  Qed.
  Lemma congr_spec U f : meq p p (congr p A (spec p U f)) (spec p (rmul p A U) f).
  Proof.
    assert (E : meq p p (congr p A (spec p U f)) (rmul p A (rmul p (spec p U f) (rT A)))) by (intros i j _ _; apply congr_mul).
    rewrite E, !spec_mulT, T_mul. rewrite !mul_assoc. reflexivity.
  Qed.
  Lemma orth_mul U : orth p U -> orth p (rmul p A U).
  Proof.
    intros [U1 U2]. destruct A_orth as [A1 A2]. split; rewrite T_mul.
    - rewrite mul_assoc, <- (mul_assoc p (rT A) A), A1, mul_I_l. exact U1.
    - rewrite mul_assoc, <- (mul_assoc p U), U2, mul_I_l. exact A2.
  Qed.
  Lemma mpd_congr S S' : meq p p S' (congr p A S) -> meq p p (mpd L p S') (congr p A (mpd L p S)).
  Proof.
    intros HS. rewrite (mpd_ext L p _ _ HS).
    destruct (mpd_spec L HL p S Hp) as (U & l & [OU EU] & E). destruct (mres_ok p p _ _ E) as [_ E1].
    destruct (mpd_spec L HL p (congr p A S) Hp) as (V & m & [OV EV] & F). destruct (mres_ok p p _ _ F) as [_ F1].
    unfold mpd. rewrite F1. rewrite (congr_meq p A _ _ E1). rewrite congr_spec.
    pose proof (orth_mul U OU) as OAU.
    apply (spec_fun_unique p V (rT V) (rmul p A U) (rT (rmul p A U)) m l (fun z => Rmax z e8)); try now apply orth_inverse.
    - rewrite !spec_one by (auto; intros k _; reflexivity). reflexivity.
    - rewrite <- congr_spec. intros i j Hi Hj. transitivity (symm (congr p A S) i j); [symmetry; exact (EV i j Hi Hj)|]. unfold symm at 1.
      rewrite (congr_ext p A (spec p U l) (symm S) i j (fun k l Hk Hl => eq_sym (EU k l Hk Hl))). unfold symm.
      symmetry. etransitivity; [apply (congr_lin p A S (rT S) _ (1 / 2) (1 / 2)); intros; unfold rT; field|].
      rewrite <- (congr_T p A S i j Hi Hj). unfold rT. field.
  Qed.
  Lemma gstep_congr S S' E E' g : meq p p S' (congr p A S) -> meq p p E' (congr p A E) ->
    meq p p (gstep L p S' E' g) (congr p A (gstep L p S E g)).
  Proof.
    intros HS HE. destruct (gstep_spec L HL p S E g Hp) as (G & l & Pl & G1 & G2 & B & EB & PB & G3).
    destruct (mres_ok p p _ _ EB) as [_ EB1].
    destruct (gstep_spec L HL p S' E' g Hp) as (H & m & Pm & H1 & H2 & D & ED & PD & H3). destruct (mres_ok p p _ _ ED) as [_ ED1].
    unfold gstep. rewrite ED1, H3. rewrite (congr_meq p A _ _ EB1). rewrite (congr_meq p A _ _ G3). rewrite congr_spec.
    assert (PS : forall S, pd p (mpd L p S)) by (intros Z; apply (bb_pd p e8); [apply e8_pos|]; now apply mpd_ok).
    destruct (factor_invertible p H) as (Hi & IH). { apply (pd_ext p _ _ H1). apply PS. }
    destruct (factor_invertible p G) as (Gi & [IG1 IG2]). { apply (pd_ext p _ _ G1). apply PS. }
    apply (spec_fun_unique p H Hi (rmul p A G) (rmul p Gi (rT A)) m l (fun z => Rpower z g)); auto.
    - destruct A_orth as [A1 A2]. split.
      + rewrite mul_assoc, <- (mul_assoc p G), IG1, mul_I_l. exact A2.
      + rewrite mul_assoc, <- (mul_assoc p (rT A)), A1, mul_I_l. exact IG2.
    - rewrite <- H1, <- congr_spec. rewrite <- (congr_meq p A _ _ G1). now apply mpd_congr.
    - rewrite <- H2, <- congr_spec. rewrite <- (congr_meq p A _ _ G2). now apply mpd_congr.
  Qed.
  Lemma rel_geo_st r b xs xs' : xs <> [] -> Forall2 (img p A b) xs xs' -> rel p A b (geo_st L p r xs) (geo_st L p r xs').
  Proof.
    unfold geo_st. pose proof (burn_len_bounds r) as B. apply (rel_run p A b (geo_step L p r (burn_len r)) (fun _ => True)); auto.
    - intros x. unfold geo_step. cbn [an a_init]. destruct (burn_len r); [lia|reflexivity].
    - intros a a' x x' _ HR HX. pose proof (rel_dv p A b a a' x x' HR HX) as D. unfold geo_step. rewrite (proj1 HR).
      destruct (Nat.ltb (an a) (burn_len r)); [now apply rel_emp|]. pose proof HR as (R1 & R2 & R3). split; [cbn [an]; auto|]. cbn [am aC]. split.
      + apply (rel_ew p A b r a a' x x' HR HX).
      + apply gstep_congr; auto. intros i j Hi Hj. rewrite (D i Hi), (D j Hj). unfold rapp. apply congr_outer.
  Qed.
End Orth.

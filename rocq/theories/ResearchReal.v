(** * Real-number facts about block conditional laws *)
From Coq Require Import Reals List Lia Lra Arith Bool.
From Verif Require Import ListLemmas RMat LinSpec RealSpec Spectral MatAlg Det GaussSpec GaussReal AssessSpec BlockDet AssessBlock ResearchSpec.
Import ListNotations.
Local Open Scope R_scope.

Lemma sym_lead s m A : sym (s + m) A -> sym s A.
Proof. intros H i j Hi Hj. apply H; lia. Qed.

(** the conditional law exists, with a symmetric conditional covariance *)
Lemma law_exists C g s m : invertible s C -> exists B S, law C g s m B S.
Proof.
  intros (Ci & HI). exists (fun i j => rmul s (fun a b => g * C (s + a)%nat b) Ci i j). eexists. split; [|intros i l _ _; reflexivity].
  intros i j Hi Hj. rewrite rmul_assoc. etransitivity; [|apply (rmul_I_r s (fun a b => g * C (s + a)%nat b) i j Hj)].
  unfold rmul at 1 3. apply rsum_ext. intros k Hk. now rewrite (proj2 HI k j Hk Hj).
Qed.
Lemma regression_unique C g s m B B' : invertible s C ->
  (forall i j, (i < m)%nat -> (j < s)%nat -> rmul s B C i j = g * C (s + i)%nat j) ->
  (forall i j, (i < m)%nat -> (j < s)%nat -> rmul s B' C i j = g * C (s + i)%nat j) -> meq m s B B'.
Proof.
  intros (Ci & HI) H H' i j Hi Hj. rewrite <- (rmul_I_r s B i j Hj), <- (rmul_I_r s B' i j Hj).
  assert (E : forall D : rmat, rmul s D rI i j = rmul s (rmul s D C) Ci i j).
  { intros D. rewrite rmul_assoc. unfold rmul at 1 2. apply rsum_ext. intros k Hk. now rewrite (proj1 HI k j Hk Hj). }
  rewrite !E. unfold rmul at 1 3. apply rsum_ext. intros k Hk. now rewrite H, H' by auto.
Qed.
Lemma law_S_meq C g s m B S S' : law C g s m B S -> law C g s m B S' -> meq m m S S'.
Proof. intros [_ H] [_ H'] i l Hi Hl. now rewrite H, H'. Qed.
Lemma law_S_ext C g s m B B' S : meq m s B B' -> law C g s m B S -> law C g s m B' S.
Proof.
  intros E [H1 H2]. split.
  - intros i j Hi Hj. rewrite <- H1 by auto. unfold rmul. apply rsum_ext. intros k Hk. now rewrite (E i k Hi Hk).
  - intros i l Hi Hl. rewrite H2 by auto. f_equal. apply rsum_ext. intros k Hk. now rewrite (E i k Hi Hk).
Qed.
Lemma law_unique C g s m B B' S S' : invertible s C -> law C g s m B S -> law C g s m B' S' -> meq m s B B' /\ meq m m S S'.
Proof.
  intros HC H H'. assert (E : meq m s B B') by (eapply regression_unique; eauto; [apply H|apply H']). split; [exact E|].
  apply (law_S_meq C g s m B'); [|auto]. now apply (law_S_ext C g s m B B').
Qed.
(** B C_WK = B C_WW B^T / g, symmetric *)
Lemma law_cross C g s m B S i l : sym (s + m) C -> law C g s m B S -> (i < m)%nat -> (l < m)%nat ->
  g * rsum s (fun k => B i k * C k (s + l)%nat) = rsum s (fun k => rsum s (fun j => B i k * C k j * B l j)).
Proof.
  intros HS [H1 _] Hi Hl. rewrite <- rsum_scal. apply rsum_ext. intros k Hk.
  replace (g * (B i k * C k (s + l)%nat)) with (B i k * (g * C (s + l)%nat k)) by (rewrite (HS k (s + l)%nat) by lia; ring).
  rewrite <- H1 by auto. unfold rmul. rewrite <- rsum_scal. apply rsum_ext. intros j Hj. rewrite (HS j k) by lia. ring.
Qed.
Lemma law_sym C g s m B S : g <> 0 -> sym (s + m) C -> law C g s m B S -> sym m S.
Proof.
  intros Hg HS HL i l Hi Hl. rewrite !(proj2 HL) by auto. rewrite (HS (s + i)%nat (s + l)%nat) by lia. f_equal.
  apply (Rmult_eq_reg_l g); auto. rewrite !(law_cross C g s m B S) by auto. rewrite rsum_swap. apply rsum_ext. intros j Hj. apply rsum_ext. intros k Hk.
  rewrite (HS k j) by lia. ring.
Qed.

(** ** The exact conditional law (g = 1) *)
Section Exact.
  Context (T : rmat) (s m : nat) (B S : rmat) (HT : sym (s + m) T) (HL : law T 1 s m B S).
  Lemma T_KW i j : (i < m)%nat -> (j < s)%nat -> T (s + i)%nat j = rmul s B T i j.
  Proof. intros Hi Hj. rewrite (proj1 HL) by auto. ring. Qed.
  Definition wvec (v : nat -> R) : nat -> R := fun k => if Nat.ltb k s then - rsum m (fun i => v i * B i k) else v (k - s)%nat.
  Lemma wvec_lo v k : (k < s)%nat -> wvec v k = - rsum m (fun i => v i * B i k).
  Proof. intros H. unfold wvec. now rewrite (proj2 (Nat.ltb_lt k s) H). Qed.
  Lemma wvec_hi v i : wvec v (s + i)%nat = v i.
  Proof. unfold wvec. destruct (Nat.ltb_spec (s + i) s); [lia|]. f_equal. lia. Qed.
  Lemma rapp_wvec v a : rapp (s + m) T (wvec v) a = rsum m (fun i => v i * (T a (s + i)%nat - rsum s (fun k => T a k * B i k))).
  Proof.
    unfold rapp. rewrite rsum_split.
    rewrite (rsum_ext s _ (fun k => rsum m (fun i => - (v i * (T a k * B i k))))).
    2:{ intros k Hk. rewrite wvec_lo by auto. replace (T a k * - rsum m (fun i => v i * B i k)) with (- T a k * rsum m (fun i => v i * B i k)) by ring. rewrite <- rsum_scal. apply rsum_ext. intros; ring. }
    rewrite rsum_swap, <- rsum_plus. apply rsum_ext. intros i Hi. rewrite wvec_hi.
    rewrite (rsum_ext s _ (fun k => - v i * (T a k * B i k))) by (intros; ring). rewrite rsum_scal. ring.
  Qed.
  Lemma qf_wvec v : qf m S v = qf (s + m) T (wvec v).
  Proof.
    rewrite (qf_app (s + m)). unfold rdot. rewrite rsum_split.
    rewrite (rsum_zero s).
    2:{ intros a Ha. rewrite rapp_wvec. rewrite (rsum_zero m); [ring|]. intros i Hi.
        rewrite (HT a (s + i)%nat), T_KW by lia. unfold rmul. rewrite (rsum_ext s (fun k => T a k * B i k) (fun k => B i k * T k a)); [ring|].
        intros k Hk. rewrite (HT a k) by lia. ring. }
    rewrite Rplus_0_l, qf_app. unfold rdot. apply rsum_ext. intros l Hl. rewrite wvec_hi, rapp_wvec. f_equal. unfold rapp. apply rsum_ext. intros i Hi.
    rewrite (law_sym T 1 s m B S ltac:(lra) HT HL l i Hl Hi), (proj2 HL i l Hi Hl), (HT (s + i)%nat (s + l)%nat) by lia.
    rewrite (rsum_ext s (fun k => T (s + l)%nat k * B i k) (fun k => B i k * T k (s + l)%nat)); [ring|]. intros k Hk. rewrite (HT (s + l)%nat k) by lia. ring.
  Qed.
  Lemma schur_pd : pd (s + m) T -> pd m S.
  Proof.
    intros HP. split; [now apply (law_sym T 1 s m B S); auto; lra|]. intros v (i & Hi & Hv). rewrite qf_wvec. apply HP. exists (s + i)%nat. split; [lia|]. now rewrite wvec_hi.
  Qed.
  (** determinant *)
  Definition elim : rmat := fun i j => rI i j - (if Nat.ltb i s then 0 else if Nat.ltb j s then B (i - s)%nat j else 0).
  Lemma elim_mul i j : (i < s + m)%nat -> rmul (s + m) elim T i j = T i j - (if Nat.ltb i s then 0 else rsum s (fun k => B (i - s)%nat k * T k j)).
  Proof.
    intros Hi. transitivity (rmul (s + m) rI T i j - rsum (s + m) (fun k => (if Nat.ltb i s then 0 else if Nat.ltb k s then B (i - s)%nat k else 0) * T k j)).
    { unfold rmul. replace (rsum (s + m) (fun k => rI i k * T k j) - rsum (s + m) (fun k => (if Nat.ltb i s then 0 else if Nat.ltb k s then B (i - s)%nat k else 0) * T k j))
        with (rsum (s + m) (fun k => rI i k * T k j) + (-1) * rsum (s + m) (fun k => (if Nat.ltb i s then 0 else if Nat.ltb k s then B (i - s)%nat k else 0) * T k j)) by ring.
      rewrite <- rsum_scal, <- rsum_plus. apply rsum_ext. intros k _. unfold elim. ring. }
    rewrite rmul_I_l by auto. f_equal. rewrite rsum_split. rewrite (rsum_zero m).
    2:{ intros k _. destruct (Nat.ltb i s); [ring|]. destruct (Nat.ltb_spec (s + k) s); [lia|ring]. }
    rewrite Rplus_0_r. destruct (Nat.ltb i s); [apply rsum_zero; intros; ring|].
    apply rsum_ext. intros k Hk. now rewrite (proj2 (Nat.ltb_lt k s) Hk).
  Qed.
  Lemma rdet_elim : rdet (s + m) elim = 1.
  Proof.
    rewrite (rdet_block s m elim).
    2:{ intros i j Hi Hj. unfold elim, rI. rewrite (proj2 (Nat.ltb_lt i s) Hi). destruct (Nat.eqb_spec i (s + j)); [lia|ring]. }
    replace (rdet s elim) with 1.
    2:{ rewrite <- (rdet_I s). apply rdet_ext. intros i j Hi Hj. unfold elim. rewrite (proj2 (Nat.ltb_lt i s) Hi). ring. }
    replace (rdet m (block_at s elim)) with 1; [ring|].
    rewrite <- (rdet_I m). apply rdet_ext. intros i j Hi Hj. unfold block_at, elim.
    destruct (Nat.ltb_spec (s + i) s); [lia|]. destruct (Nat.ltb_spec (s + j) s); [lia|]. unfold rI. destruct (Nat.eqb_spec i j), (Nat.eqb_spec (s + i) (s + j)); lia || ring.
  Qed.
  Lemma rdet_schur : rdet (s + m) T = rdet s T * rdet m S.
  Proof.
    transitivity (rdet (s + m) (rmul (s + m) elim T)). { rewrite rdet_mul, rdet_elim. ring. }
    rewrite <- rdet_T. rewrite (rdet_block s m).
    2:{ intros i j Hi Hj. unfold rT. rewrite elim_mul by lia. destruct (Nat.ltb_spec (s + j) s); [lia|]. replace (s + j - s)%nat with j by lia. rewrite T_KW by auto. unfold rmul. ring. }
    f_equal.
    - rewrite <- (rdet_T s T). apply rdet_ext. intros i j Hi Hj. unfold rT. rewrite elim_mul by lia. rewrite (proj2 (Nat.ltb_lt j s) Hj). ring.
    - rewrite <- (rdet_T m S). apply rdet_ext. intros i j Hi Hj. unfold block_at, rT. rewrite elim_mul by lia. destruct (Nat.ltb_spec (s + j) s); [lia|].
      replace (s + j - s)%nat with j by lia. now rewrite (proj2 HL).
  Qed.
  (** expected residual of a predictor with coefficients G *)
  Definition resid (G : rmat) : rmat := fun i l =>
    T (s + i)%nat (s + l)%nat - rsum s (fun k => G i k * T (s + l)%nat k) - rsum s (fun k => T (s + i)%nat k * G l k) + rsum s (fun k => rsum s (fun j => G i k * T k j * G l j)).
  Lemma resid_eq G : meq m m (resid G) (fun i l => S i l + rsum s (fun k => rsum s (fun j => (G i k - B i k) * T k j * (G l j - B l j)))).
  Proof.
    intros i l Hi Hl. unfold resid.
    assert (X : forall P Q : rmat, rsum s (fun k => rsum s (fun j => P i k * T k j * Q l j)) = rsum s (fun k => P i k * rmul s Q T l k)).
    { intros P Q. apply rsum_ext. intros k Hk. unfold rmul. rewrite <- rsum_scal. apply rsum_ext. intros j Hj. rewrite (HT k j) by lia. ring. }
    assert (Y : forall P : rmat, rsum s (fun k => P i k * T (s + l)%nat k) = rsum s (fun k => rsum s (fun j => P i k * T k j * B l j))).
    { intros P. rewrite X. apply rsum_ext. intros k Hk. rewrite T_KW by auto. reflexivity. }
    assert (Z : rsum s (fun k => T (s + i)%nat k * G l k) = rsum s (fun k => rsum s (fun j => B i k * T k j * G l j))).
    { rewrite rsum_swap. apply rsum_ext. intros j Hj. rewrite T_KW by auto. unfold rmul. rewrite <- rsum_scal_r. reflexivity. }
    rewrite (proj2 HL) by auto.
    assert (W : rsum s (fun k => B i k * T k (s + l)%nat) = rsum s (fun k => rsum s (fun j => B i k * T k j * B l j))).
    { rewrite <- Y. apply rsum_ext. intros k Hk. rewrite (HT k (s + l)%nat) by lia. ring. }
    rewrite (Y G), Z, W.
    replace (rsum s (fun k => rsum s (fun j => (G i k - B i k) * T k j * (G l j - B l j)))) with
      (rsum s (fun k => rsum s (fun j => G i k * T k j * G l j)) - rsum s (fun k => rsum s (fun j => G i k * T k j * B l j))
       - rsum s (fun k => rsum s (fun j => B i k * T k j * G l j)) + rsum s (fun k => rsum s (fun j => B i k * T k j * B l j))); [ring|].
    assert (D : forall f g h e : nat -> nat -> R, rsum s (fun k => rsum s (f k)) - rsum s (fun k => rsum s (g k)) - rsum s (fun k => rsum s (h k)) + rsum s (fun k => rsum s (e k))
              = rsum s (fun k => rsum s (fun j => f k j - g k j - h k j + e k j))).
    { intros f g h e. transitivity (rsum s (fun k => rsum s (f k)) + (-1) * rsum s (fun k => rsum s (g k)) + (-1) * rsum s (fun k => rsum s (h k)) + rsum s (fun k => rsum s (e k))); [ring|].
      rewrite <- !rsum_scal, <- !rsum_plus. apply rsum_ext. intros k _. rewrite <- !rsum_scal, <- !rsum_plus. apply rsum_ext. intros; ring. }
    rewrite D. apply rsum_ext. intros k _. apply rsum_ext. intros; ring.
  Qed.
End Exact.

(** tr(P D Q D^T) >= 0 for pd P, Q, zero only for D = 0 *)
Lemma trace_quad m s P Q D : pd m P -> pd s Q ->
  0 <= rtrace m (rmul m P (fun i l => rsum s (fun k => rsum s (fun j => D i k * Q k j * D l j)))) /\
  (rtrace m (rmul m P (fun i l => rsum s (fun k => rsum s (fun j => D i k * Q k j * D l j)))) = 0 -> meq m s D (fun _ _ => 0)).
Proof.
  intros HP HQ. destruct (pd_sqrt s Q HQ) as (R & Ri & SR & _ & HR & HRi).
  set (Nn := rmul s D R).
  assert (E : rtrace m (rmul m P (fun i l => rsum s (fun k => rsum s (fun j => D i k * Q k j * D l j)))) = rsum s (fun a => qf m P (fun i => Nn i a))).
  { transitivity (rtrace m (rmul m P (fun i l => rsum s (fun a => Nn i a * Nn l a)))).
    - apply rtrace_ext. apply rmul_ext; [apply meq_refl|]. intros i l Hi Hl. unfold Nn, rmul.
      transitivity (rsum s (fun k => rsum s (fun j => rsum s (fun a => D i k * R k a * (D l j * R j a))))).
      + apply rsum_ext. intros k Hk. apply rsum_ext. intros j Hj. rewrite <- (HR k j Hk Hj). unfold rmul.
        rewrite <- rsum_scal, <- rsum_scal_r. apply rsum_ext. intros a Ha. rewrite (SR a j) by auto. ring.
      + rewrite (rsum_ext s _ (fun k => rsum s (fun a => rsum s (fun j => D i k * R k a * (D l j * R j a))))) by (intros; apply rsum_swap).
        rewrite rsum_swap. apply rsum_ext. intros a Ha. rewrite <- rsum_scal_r. apply rsum_ext. intros k Hk. now rewrite rsum_scal.
    - unfold rtrace, rmul, qf. rewrite (rsum_ext m _ (fun i => rsum s (fun a => rsum m (fun j => Nn i a * P i j * Nn j a)))).
      + rewrite rsum_swap. reflexivity.
      + intros i Hi. rewrite rsum_swap. apply rsum_ext. intros j Hj. rewrite <- rsum_scal. apply rsum_ext. intros a Ha. ring. }
  rewrite E. assert (P0 : forall a, (a < s)%nat -> 0 <= qf m P (fun i => Nn i a)) by (intros; apply pd_psd; auto).
  split; [apply rsum_nonneg; auto|]. intros Z.
  assert (N0 : forall i a, (i < m)%nat -> (a < s)%nat -> Nn i a = 0).
  { intros i a Hi Ha. destruct (nz_dec m (fun i => Nn i a)) as [NZ|NZ]; [|auto]. exfalso. pose proof (proj2 HP _ NZ) as PP.
    pose proof (rsum_ge_term s (fun a => qf m P (fun i => Nn i a)) a P0 Ha). cbv beta in H. lra. }
  intros i j Hi Hj. rewrite <- (rmul_I_r s D i j Hj).
  transitivity (rmul s Nn Ri i j).
  - unfold Nn. rewrite rmul_assoc. unfold rmul at 1 2. apply rsum_ext. intros k Hk. now rewrite (proj1 HRi k j Hk Hj).
  - unfold rmul. apply rsum_zero. intros k Hk. rewrite N0 by auto. ring.
Qed.

(** ** One block: predicting with (G, Sg) against the true law (B, S) *)
Lemma block_bound T s m B S G Sg X : pd (s + m) T -> law T 1 s m B S -> pd m Sg -> meq m m (rmul m Sg X) (resid T s G) ->
  let v := - (1 / 2) * (ln (rdet m Sg) + rtrace m X) in let best := - (1 / 2) * (ln (rdet m S) + INR m) in
  v <= best /\ (v = best <-> meq m s G B /\ meq m m Sg S).
Proof.
  intros HT HL HSg HX v best.
  assert (HTs : pd s T) by (eapply pd_lead; eauto).
  assert (HS : pd m S) by (apply (schur_pd T s m B S (proj1 HT) HL HT)).
  destruct (pd_invertible m Sg HSg) as (Sgi & HI). pose proof (inverse_pd m Sg Sgi HSg HI) as HSgi.
  set (Q := fun i l => rsum s (fun k => rsum s (fun j => (G i k - B i k) * T k j * (G l j - B l j)))).
  assert (EX : meq m m X (rmul m Sgi (resid T s G))).
  { intros i j Hi Hj. rewrite <- (rmul_I_l m X i j Hi). transitivity (rmul m (rmul m Sgi Sg) X i j).
    - unfold rmul at 1 2. apply rsum_ext. intros k Hk. now rewrite (proj2 HI i k Hi Hk).
    - rewrite rmul_assoc. unfold rmul at 1 3. apply rsum_ext. intros k Hk. now rewrite (HX k j Hk Hj). }
  assert (ET : rtrace m X = rtrace m (rmul m Sgi S) + rtrace m (rmul m Sgi Q)).
  { transitivity (rtrace m (rmul m Sgi (fun i l => S i l + Q i l))).
    - apply rtrace_ext. eapply meq_trans; [exact EX|]. apply rmul_ext; [apply meq_refl|]. apply (resid_eq T s m B S (proj1 HT) HL).
    - unfold rtrace, rmul. rewrite <- rsum_plus. apply rsum_ext. intros i _. rewrite <- rsum_plus. apply rsum_ext. intros; ring. }
  destruct (stein_ineq m Sgi S HSgi HS) as [St1 St2].
  destruct (trace_quad m s Sgi T (fun i k => G i k - B i k) HSgi HTs) as [Tq1 Tq2]. fold Q in Tq1, Tq2.
  assert (DI : rdet m Sg * rdet m Sgi = 1) by (now apply rdet_inverse).
  pose proof (pd_det_pos m Sg HSg) as D1. pose proof (pd_det_pos m Sgi HSgi) as D2. pose proof (pd_det_pos m S HS) as D3.
  rewrite ln_mult in St1, St2 by auto.
  assert (LI : ln (rdet m Sgi) = - ln (rdet m Sg)).
  { assert (L0 : ln (rdet m Sg * rdet m Sgi) = 0) by (rewrite DI; apply ln_1). rewrite ln_mult in L0 by auto. lra. }
  unfold v, best. rewrite ET. split; [lra|]. split.
  - intros K. assert (K1 : rtrace m (rmul m Sgi Q) = 0) by lra. assert (K2 : inverse m S Sgi) by (apply St2; lra). split.
    + intros i k Hi Hk. pose proof (Tq2 K1 i k Hi Hk). cbv beta in H. lra.
    + apply (inverse_unique m Sgi); [|]; (split; [apply HI || apply K2|apply HI || apply K2]).
  - intros [K1 K2].
    assert (Q0 : rtrace m (rmul m Sgi Q) = 0).
    { unfold rtrace. apply rsum_zero. intros i Hi. unfold rmul. apply rsum_zero. intros j Hj. unfold Q. rewrite (rsum_zero s); [ring|].
      intros k Hk. apply rsum_zero. intros a Ha. rewrite (K1 j k Hj Hk). ring. }
    assert (I2 : inverse m S Sgi) by (apply (inverse_ext m Sg S Sgi Sgi K2 (meq_refl _ _ _) HI)).
    assert (T2 : rtrace m (rmul m Sgi S) = INR m). { rewrite <- (rtrace_I m). apply rtrace_ext. apply I2. }
    rewrite Q0, T2, (rdet_ext K2). lra.
Qed.

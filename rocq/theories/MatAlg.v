(** * Matrix algebra over the reals (proof infrastructure): inverses, square roots, spectral functions *)
From Coq Require Import Reals List Lia Lra Arith Setoid Morphisms.
From Verif Require Import RMat LinSpec Spectral.
Local Open Scope R_scope.

Global Instance meq_equiv n m : Equivalence (meq n m).
Proof. split; [intros A; apply meq_refl|intros A B; apply meq_sym|intros A B C; apply meq_trans]. Qed.
Global Instance rmul_proper n : Proper (meq n n ==> meq n n ==> meq n n) (rmul n).
Proof. intros A A' HA B B' HB. now apply rmul_ext. Qed.
Global Instance rT_proper n : Proper (meq n n ==> meq n n) rT.
Proof. intros A A' HA i j Hi Hj. unfold rT. now apply HA. Qed.
Lemma mul_assoc n A B C : meq n n (rmul n (rmul n A B) C) (rmul n A (rmul n B C)).
Proof. intros i j _ _. apply rmul_assoc. Qed.
Lemma mul_I_l n A : meq n n (rmul n rI A) A.
Proof. intros i j Hi _. now apply rmul_I_l. Qed.
Lemma mul_I_r n A : meq n n (rmul n A rI) A.
Proof. intros i j _ Hj. now apply rmul_I_r. Qed.
Lemma T_mul n A B : meq n n (rT (rmul n A B)) (rmul n (rT B) (rT A)).
Proof. intros i j _ _. apply rT_rmul. Qed.
Lemma T_T n A : meq n n (rT (rT A)) A.
Proof. intros i j _ _. reflexivity. Qed.
Lemma sym_T n A : sym n A <-> meq n n (rT A) A.
Proof. unfold sym, meq; split; intros H i j Hi Hj; [unfold rT; now apply H|symmetry; apply (H i j Hi Hj)]. Qed.
Lemma sym_ext n A B : meq n n A B -> sym n A -> sym n B.
Proof. intros E H i j Hi Hj. rewrite <- (E i j), <- (E j i) by auto. now apply H. Qed.

(** ** Vectors *)
Definition veq (n : nat) (u v : nat -> R) : Prop := forall i, (i < n)%nat -> u i = v i.
Lemma rapp_ext n A B u v : meq n n A B -> veq n u v -> veq n (rapp n A u) (rapp n B v).
Proof. intros H E i Hi. unfold rapp. apply rsum_ext. intros j Hj. now rewrite (H i j), (E j). Qed.
Lemma rdot_ext n u u' v v' : veq n u u' -> veq n v v' -> rdot n u v = rdot n u' v'.
Proof. intros H E. unfold rdot. apply rsum_ext. intros i Hi. now rewrite (H i), (E i). Qed.
Lemma rapp_mul n A B v i : rapp n (rmul n A B) v i = rapp n A (rapp n B v) i.
Proof.
  unfold rapp, rmul. rewrite (rsum_ext n _ (fun j => rsum n (fun k => A i k * (B k j * v j)))).
  - rewrite rsum_swap. apply rsum_ext. intros k _. now rewrite <- rsum_scal.
  - intros j _. rewrite <- rsum_scal_r. apply rsum_ext. intros; ring.
Qed.
Lemma rapp_I n v : veq n (rapp n rI v) v.
Proof.
  intros i Hi. unfold rapp. rewrite <- (rsum_delta' n i v Hi). apply rsum_ext. intros j _. unfold rI. destruct (Nat.eqb i j); ring.
Qed.
Lemma rdot_app_T n A u v : rdot n u (rapp n A v) = rdot n (rapp n (rT A) u) v.
Proof.
  unfold rdot, rapp. rewrite (rsum_ext n (fun i => u i * _) (fun i => rsum n (fun j => u i * (A i j * v j)))) by (intros; now rewrite rsum_scal).
  rewrite rsum_swap. apply rsum_ext. intros j _. rewrite <- rsum_scal_r. apply rsum_ext. intros i _. unfold rT. ring.
Qed.
Lemma qf_meq n A B v : meq n n A B -> qf n A v = qf n B v.
Proof. intros H. apply qf_ext; auto. Qed.

(** ** Bilinear Cauchy-Schwarz *)
Definition bil (n : nat) (A : rmat) (u v : nat -> R) : R := rdot n u (rapp n A v).
Lemma bil_qf n A v : bil n A v v = qf n A v.
Proof. unfold bil. now rewrite qf_app. Qed.
Lemma bil_add_l n A u w v c d : bil n A (fun i => c * u i + d * w i) v = c * bil n A u v + d * bil n A w v.
Proof. unfold bil, rdot. rewrite <- !rsum_scal, <- rsum_plus. apply rsum_ext. intros; ring. Qed.
Lemma bil_sym n A u v : sym n A -> bil n A u v = bil n A v u.
Proof.
  intros H. unfold bil. rewrite rdot_app_T, rdot_comm. apply rdot_ext; [intros i Hi; reflexivity|].
  apply rapp_ext; [now apply sym_T|intros i Hi; reflexivity].
Qed.
Lemma bil_add_r n A u w v c d : sym n A -> bil n A v (fun i => c * u i + d * w i) = c * bil n A v u + d * bil n A v w.
Proof. intros H. rewrite (bil_sym n A v) by auto. rewrite bil_add_l. now rewrite (bil_sym n A u), (bil_sym n A w). Qed.
Lemma bil_cauchy n A u v : psd n A -> bil n A u v * bil n A u v <= qf n A u * qf n A v.
Proof.
  intros [HS HP]. apply quad_disc; auto. intros s t.
  specialize (HP (fun i => s * u i + t * v i)). rewrite <- bil_qf in HP. rewrite bil_add_l, !bil_add_r, !bil_qf in HP by auto.
  rewrite (bil_sym n A v u) in HP by auto. lra.
Qed.
Lemma psd_null n A v : psd n A -> qf n A v = 0 -> veq n (rapp n A v) (fun _ => 0).
Proof.
  intros H Hv i Hi. pose proof (bil_cauchy n A (fun j => if Nat.eqb j i then 1 else 0) v H) as C.
  rewrite Hv, Rmult_0_r in C. unfold bil in C. rewrite rdot_e in C by auto.
  pose proof (Rle_0_sqr (rapp n A v i)) as Q. unfold Rsqr in Q.
  assert (rapp n A v i * rapp n A v i = 0) as E by lra. apply Rmult_integral in E. tauto.
Qed.

(** ** Congruence, trace *)
Lemma qf_congr_sq n A B v : qf n (rmul n (rT B) (rmul n A B)) v = qf n A (rapp n B v).
Proof.
  rewrite !qf_app. rewrite (rdot_app_T n (rT B)) with (v := rapp n (rmul n A B) v) || idtac.
  transitivity (rdot n v (rapp n (rT B) (rapp n A (rapp n B v)))).
  - apply rdot_ext; [intros i Hi; reflexivity|]. intros i Hi. rewrite rapp_mul. apply rapp_ext; auto using meq_refl.
    intros j Hj. apply rapp_mul.
  - rewrite rdot_app_T. apply rdot_ext; [|intros i Hi; reflexivity]. apply rapp_ext; [apply T_T|intros i Hi; reflexivity].
Qed.
Lemma sym_congr n A B : sym n A -> sym n (rmul n (rT B) (rmul n A B)).
Proof.
  intros H. apply (proj2 (sym_T n _)). rewrite T_mul, T_mul, T_T, mul_assoc. pose proof (proj1 (sym_T n A) H) as HT. now rewrite HT.
Qed.
Lemma psd_congr n A B : psd n A -> psd n (rmul n (rT B) (rmul n A B)).
Proof. intros [HS HP]. split; [now apply sym_congr|]. intros v. rewrite qf_congr_sq. apply HP. Qed.
Lemma rtrace_ext n A B : meq n n A B -> rtrace n A = rtrace n B.
Proof. intros H. apply rsum_ext. intros i Hi. now apply H. Qed.
Lemma rtrace_comm n A B : rtrace n (rmul n A B) = rtrace n (rmul n B A).
Proof. unfold rtrace, rmul. rewrite rsum_swap. apply rsum_ext. intros i _. apply rsum_ext. intros; ring. Qed.
Lemma psd_trace_zero n A : psd n A -> rtrace n A = 0 -> meq n n A (fun _ _ => 0).
Proof.
  intros H Ht i j Hi Hj.
  assert (D : forall k, (k < n)%nat -> A k k = 0).
  { apply rsum_pos_zero; auto. intros k Hk. now apply (psd_diag_nonneg n). }
  pose proof (psd_cauchy n A i j H Hi Hj) as C. rewrite D, Rmult_0_l in C by auto.
  pose proof (Rle_0_sqr (A i j)) as Q. unfold Rsqr in Q. assert (A i j * A i j = 0) as E by lra. apply Rmult_integral in E. tauto.
Qed.
Lemma mul_zero_qf n A D : psd n A -> meq n n (rmul n (rT D) (rmul n A D)) (fun _ _ => 0) -> meq n n (rmul n A D) (fun _ _ => 0).
Proof.
  intros H Z i j Hi Hj.
  assert (Q : qf n A (fun k => D k j) = 0).
  { assert (E : qf n A (fun k => D k j) = rmul n (rT D) (rmul n A D) j j).
    { unfold qf, rmul, rT. apply rsum_ext. intros k _. rewrite <- rsum_scal. apply rsum_ext. intros; ring. }
    rewrite E. now apply Z. }
  exact (psd_null n A (fun k => D k j) H Q i Hi).
Qed.

(** ** Uniqueness of the positive semidefinite square root *)
Definition msub_ (A B : rmat) : rmat := fun i j => A i j - B i j.
Definition madd_ (A B : rmat) : rmat := fun i j => A i j + B i j.
Lemma mul_sub_l n A B C : forall i j, rmul n (msub_ A B) C i j = rmul n A C i j - rmul n B C i j.
Proof. intros. unfold rmul, msub_. rewrite <- rsum_minus. apply rsum_ext. intros; ring. Qed.
Lemma mul_sub_r n A B C : forall i j, rmul n C (msub_ A B) i j = rmul n C A i j - rmul n C B i j.
Proof. intros. unfold rmul, msub_. rewrite <- rsum_minus. apply rsum_ext. intros; ring. Qed.
Lemma mul_add_l n A B C : forall i j, rmul n (madd_ A B) C i j = rmul n A C i j + rmul n B C i j.
Proof. intros. unfold rmul, madd_. rewrite <- rsum_plus. apply rsum_ext. intros; ring. Qed.
Lemma mul_add_r n A B C : forall i j, rmul n C (madd_ A B) i j = rmul n C A i j + rmul n C B i j.
Proof. intros. unfold rmul, madd_. rewrite <- rsum_plus. apply rsum_ext. intros; ring. Qed.
Theorem psd_sqrt_unique n P Q : psd n P -> psd n Q -> meq n n (rmul n P P) (rmul n Q Q) -> meq n n P Q.
Proof.
  intros HP HQ E. set (D := msub_ P Q).
  assert (SD : sym n D). { intros i j Hi Hj. unfold D, msub_. now rewrite (proj1 HP i j), (proj1 HQ i j). }
  assert (TD : meq n n (rT D) D) by now apply (proj2 (sym_T n _)).
  (* D P + Q D = 0 and P D + D Q = 0 *)
  assert (E1 : meq n n (madd_ (rmul n D P) (rmul n Q D)) (fun _ _ => 0)).
  { intros i j Hi Hj. unfold madd_, D. rewrite mul_sub_l, mul_sub_r. specialize (E i j Hi Hj). lra. }
  assert (T0 : rtrace n (rmul n (rT D) (rmul n P D)) + rtrace n (rmul n (rT D) (rmul n Q D)) = 0).
  { assert (X1 : rtrace n (rmul n (rT D) (rmul n P D)) = rtrace n (rmul n D (rmul n D P))).
    { rewrite (rtrace_ext n _ (rmul n D (rmul n P D))) by (now rewrite TD).
      rewrite (rtrace_ext n _ (rmul n (rmul n D P) D)) by (now rewrite mul_assoc). apply rtrace_comm. }
    assert (X2 : rtrace n (rmul n (rT D) (rmul n Q D)) = rtrace n (rmul n D (rmul n Q D))).
    { apply rtrace_ext. now rewrite TD. }
    rewrite X1, X2. unfold rtrace. rewrite <- rsum_plus. apply rsum_zero. intros i Hi.
    rewrite <- (mul_add_r n (rmul n D P) (rmul n Q D) D i i).
    rewrite (rmul_ext n n n D D _ (fun _ _ => 0)); auto using meq_refl. unfold rmul. apply rsum_zero. intros; ring. }
  assert (P1 : psd n (rmul n (rT D) (rmul n P D))) by now apply psd_congr.
  assert (P2 : psd n (rmul n (rT D) (rmul n Q D))) by now apply psd_congr.
  assert (N1 : 0 <= rtrace n (rmul n (rT D) (rmul n P D))) by (apply rsum_nonneg; intros; now apply (psd_diag_nonneg n)).
  assert (N2 : 0 <= rtrace n (rmul n (rT D) (rmul n Q D))) by (apply rsum_nonneg; intros; now apply (psd_diag_nonneg n)).
  assert (Z1 : meq n n (rmul n P D) (fun _ _ => 0)).
  { apply mul_zero_qf; auto. apply psd_trace_zero; auto. lra. }
  assert (Z2 : meq n n (rmul n Q D) (fun _ _ => 0)).
  { apply mul_zero_qf; auto. apply psd_trace_zero; auto. lra. }
  assert (DD : meq n n (rmul n D D) (fun _ _ => 0)).
  { intros i j Hi Hj. unfold D at 1. rewrite mul_sub_l, Z1, Z2 by auto. ring. }
  intros i j Hi Hj. assert (S2 : rsum n (fun k => D i k * D i k) = 0).
  { rewrite <- (DD i i Hi Hi). unfold rmul. apply rsum_ext. intros k Hk. rewrite (SD k i) by auto. reflexivity. }
  pose proof (rsum_pos_zero n _ (fun k _ => Rle_0_sqr (D i k)) S2 j Hj) as Zz. unfold Rsqr in Zz. apply Rmult_integral in Zz.
  unfold D, msub_ in Zz. lra.
Qed.

(** ** Inverses and pseudo-inverses *)
Lemma inverse_penrose n A B : inverse n A B -> penrose n A B.
Proof.
  intros [H1 H2]. repeat split.
  - now rewrite H2, mul_I_r.
  - now rewrite H1, mul_I_r.
  - apply (sym_ext n rI); [now symmetry|]. intros i j _ _. unfold rI. now rewrite Nat.eqb_sym.
  - apply (sym_ext n rI); [now symmetry|]. intros i j _ _. unfold rI. now rewrite Nat.eqb_sym.
Qed.
Lemma penrose_unique n A X Y : penrose n A X -> penrose n A Y -> meq n n X Y.
Proof.
  intros (a1 & a2 & a3 & a4) (b1 & b2 & b3 & b4). pose proof (proj1 (sym_T n _) a3) as a3'. pose proof (proj1 (sym_T n _) a4) as a4'. pose proof (proj1 (sym_T n _) b3) as b3'. pose proof (proj1 (sym_T n _) b4) as b4'. clear a3 a4 b3 b4. rename a3' into a3, a4' into a4, b3' into b3, b4' into b4.
  assert (E1 : meq n n (rmul n A X) (rmul n A Y)).
  { rewrite <- a3. rewrite <- b1 at 1. rewrite <- (mul_assoc n A Y A). rewrite (mul_assoc n (rmul n A Y) A X).
    rewrite T_mul, a3, b3. rewrite <- (mul_assoc n (rmul n A X) A Y), (mul_assoc n A X A), a1. reflexivity. }
  assert (E2 : meq n n (rmul n X A) (rmul n Y A)).
  { rewrite <- a4. rewrite <- b1 at 1. rewrite <- (mul_assoc n X A). rewrite T_mul, a4, b4.
    rewrite (mul_assoc n Y A). now rewrite a1. }
  rewrite <- a2, E1, <- (mul_assoc n X A Y), E2, (mul_assoc n Y A Y). apply b2.
Qed.
Lemma penrose_T n A B : penrose n A B -> penrose n (rT A) (rT B).
Proof.
  intros (a1 & a2 & a3 & a4). repeat split.
  - rewrite <- T_mul, <- T_mul. rewrite mul_assoc. now rewrite a1.
  - rewrite <- T_mul, <- T_mul. rewrite mul_assoc. now rewrite a2.
  - apply (proj2 (sym_T n _)). rewrite T_mul, !T_T. apply (proj1 (sym_T n _)) in a4. rewrite <- T_mul. now rewrite a4.
  - apply (proj2 (sym_T n _)). rewrite T_mul, !T_T. apply (proj1 (sym_T n _)) in a3. rewrite <- T_mul. now rewrite a3.
Qed.
Lemma penrose_ext n A A' B B' : meq n n A A' -> meq n n B B' -> penrose n A B -> penrose n A' B'.
Proof.
  intros EA EB (a1 & a2 & a3 & a4). repeat split.
  - now rewrite <- EA, <- EB.
  - now rewrite <- EA, <- EB.
  - apply (sym_ext n (rmul n A B)); auto. now rewrite EA, EB.
  - apply (sym_ext n (rmul n B A)); auto. now rewrite EA, EB.
Qed.
Lemma penrose_sym n A B : sym n A -> penrose n A B -> sym n B.
Proof.
  intros HS HB. apply (proj2 (sym_T n _)). apply penrose_unique with A; auto.
  apply (penrose_ext n (rT A) A (rT B) (rT B)); [now apply sym_T|reflexivity|now apply penrose_T].
Qed.
Lemma penrose_psd n A B : psd n A -> penrose n A B -> psd n B.
Proof.
  intros [HS HP] HB. pose proof (penrose_sym n A B HS HB) as SB. split; auto. intros v.
  destruct HB as (_ & b2 & _ & _). rewrite <- (qf_meq n _ _ v b2).
  rewrite (qf_meq n _ (rmul n (rT B) (rmul n A B))); [rewrite qf_congr_sq; apply HP|].
  apply (proj1 (sym_T n _)) in SB. now rewrite SB.
Qed.

(** ** Functions of a symmetric matrix *)
Lemma spec_ext n U f g : veq n f g -> meq n n (spec n U f) (spec n U g).
Proof. intros H i j _ _. unfold spec. apply rsum_ext. intros k Hk. now rewrite (H k). Qed.
Lemma spec_sym n U f : sym n (spec n U f).
Proof. intros i j _ _. unfold spec. apply rsum_ext. intros; ring. Qed.
Lemma spec_mul n U f g : orth n U -> meq n n (rmul n (spec n U f) (spec n U g)) (spec n U (fun k => f k * g k)).
Proof.
  intros [H _] i j Hi Hj. unfold rmul, spec.
  rewrite (rsum_ext n _ (fun k => rsum n (fun a => rsum n (fun b => U i a * f a * (U j b * g b) * (U k a * U k b))))).
  2:{ intros k _. rewrite <- rsum_scal_r. apply rsum_ext. intros a _. rewrite <- rsum_scal. apply rsum_ext. intros; ring. }
  rewrite rsum_swap. apply rsum_ext. intros a Ha. rewrite rsum_swap.
  rewrite (rsum_ext n _ (fun b => if Nat.eqb a b then U i a * f a * (U j b * g b) else 0)).
  - rewrite rsum_delta' by auto. ring.
  - intros b Hb. rewrite rsum_scal. change (rsum n (fun k => U k a * U k b)) with (rmul n (rT U) U a b). rewrite H by auto.
    unfold rI. destruct (Nat.eqb a b); ring.
Qed.
Lemma spec_one n U f : orth n U -> veq n f (fun _ => 1) -> meq n n (spec n U f) rI.
Proof.
  intros [_ H] E i j Hi Hj. rewrite <- (H i j Hi Hj). unfold spec, rmul, rT. apply rsum_ext. intros k Hk. rewrite (E k Hk). ring.
Qed.
Lemma qf_spec n U f v : qf n (spec n U f) v = rsum n (fun k => f k * rapp n (rT U) v k ^ 2).
Proof.
  unfold qf, spec, rapp, rT.
  rewrite (rsum_ext n _ (fun i => rsum n (fun k => rsum n (fun j => f k * (U i k * v i) * (U j k * v j))))).
  - rewrite rsum_swap. apply rsum_ext. intros k _.
    rewrite (rsum_ext n _ (fun i => f k * (U i k * v i) * rsum n (fun j => U j k * v j))) by (intros; now rewrite rsum_scal).
    rewrite rsum_scal_r, rsum_scal. ring.
  - intros i _. rewrite rsum_swap. apply rsum_ext. intros j _. rewrite <- rsum_scal, <- rsum_scal_r. apply rsum_ext. intros; ring.
Qed.
Lemma orth_norm n U v : orth n U -> rdot n (rapp n (rT U) v) (rapp n (rT U) v) = rdot n v v.
Proof.
  intros [_ H]. rewrite rdot_app_T. rewrite (rdot_ext n _ (rapp n (rmul n (rT (rT U)) (rT U)) v) v v); [| |intros i Hi; reflexivity].
  2:{ intros i Hi. now rewrite rapp_mul. }
  rewrite (rdot_ext n _ (rapp n rI v) v v); [| |intros i Hi; reflexivity].
  - apply rdot_ext; [apply rapp_I|intros i Hi; reflexivity].
  - apply rapp_ext; [|intros i Hi; reflexivity]. intros i j Hi Hj. unfold rmul, rT. apply (H i j Hi Hj).
Qed.
Lemma bb_ext n lo A B : meq n n A B -> bounded_below n lo A -> bounded_below n lo B.
Proof. intros E [H1 H2]. split; [now apply (sym_ext n A)|]. intros v. rewrite <- (qf_meq n A B v E). apply H2. Qed.
Lemma spec_bb n U f lo : orth n U -> (forall k, (k < n)%nat -> lo <= f k) -> bounded_below n lo (spec n U f).
Proof.
  intros HU Hf. split; [apply spec_sym|]. intros v. rewrite qf_spec, <- (orth_norm n U v HU). unfold rdot. rewrite <- rsum_scal.
  apply rsum_le. intros k Hk. pose proof (Rle_0_sqr (rapp n (rT U) v k)) as Q. unfold Rsqr in Q. specialize (Hf k Hk). nra.
Qed.
Lemma spec_col n U f k : orth n U -> (k < n)%nat -> qf n (spec n U f) (fun i => U i k) = f k /\ rdot n (fun i => U i k) (fun i => U i k) = 1.
Proof.
  intros [H _] Hk. assert (E : forall l, (l < n)%nat -> rapp n (rT U) (fun i => U i k) l = rI l k) by (intros l Hl; exact (H l k Hl Hk)).
  split.
  - rewrite qf_spec. rewrite (rsum_ext n _ (fun l => if Nat.eqb l k then f l else 0)).
    + now apply rsum_delta.
    + intros l Hl. rewrite E by auto. unfold rI. destruct (Nat.eqb l k); ring.
  - pose proof (E k Hk) as E'. unfold rI in E'. rewrite Nat.eqb_refl in E'. exact E'.
Qed.
Lemma spec_bb_inv n U f lo : orth n U -> bounded_below n lo (spec n U f) -> forall k, (k < n)%nat -> lo <= f k.
Proof.
  intros HU [_ H] k Hk. specialize (H (fun i => U i k)). destruct (spec_col n U f k HU Hk) as [E1 E2].
  rewrite E1, E2 in H. lra.
Qed.
Lemma bb_psd n A : bounded_below n 0 A <-> psd n A.
Proof.
  split; intros [H1 H2]; split; auto; intros v; specialize (H2 v); lra.
Qed.
Lemma rdot_pos n v : (exists i, (i < n)%nat /\ v i <> 0) -> 0 < rdot n v v.
Proof.
  intros (i & Hi & Hv). apply (rsum_pos n (fun i => v i * v i) i); auto.
  - intros. apply Rle_0_sqr.
  - destruct (Rdichotomy _ _ Hv); nra.
Qed.
Lemma bb_pd n lo A : 0 < lo -> bounded_below n lo A -> pd n A.
Proof.
  intros Hlo [H1 H2]. split; auto. intros v Hv. specialize (H2 v). pose proof (rdot_pos n v Hv). nra.
Qed.
Lemma bb_le n lo lo' A : lo' <= lo -> bounded_below n lo A -> bounded_below n lo' A.
Proof. intros H [H1 H2]. split; auto. intros v. specialize (H2 v). pose proof (rdot_nonneg n v). nra. Qed.
Lemma eig_spec n A U lam : eig_of n A U lam -> meq n n A (spec n U lam).
Proof. intros [_ H] i j Hi Hj. now apply H. Qed.
Lemma pd_eig n A U lam : pd n A -> eig_of n A U lam -> forall k, (k < n)%nat -> 0 < lam k.
Proof.
  intros [_ H] He k Hk. pose proof (eig_spec n A U lam He) as E. destruct He as [HU _].
  destruct (spec_col n U lam k HU Hk) as [E1 E2]. rewrite <- E1, <- (qf_meq n _ _ (fun i => U i k) E). apply H.
  destruct (nz_dec n (fun i => U i k)) as [|Z]; auto. exfalso. unfold rdot in E2. rewrite rsum_zero in E2; [lra|].
  intros i Hi. cbv beta in Z. rewrite (Z i Hi). ring.
Qed.
Lemma psd_eig n A U lam : psd n A -> eig_of n A U lam -> forall k, (k < n)%nat -> 0 <= lam k.
Proof.
  intros HP He. apply (spec_bb_inv n U lam 0); [apply He|]. apply (bb_ext n 0 A); [now apply eig_spec|now apply bb_psd].
Qed.
Lemma spec_inverse n U f : orth n U -> (forall k, (k < n)%nat -> f k <> 0) -> inverse n (spec n U f) (spec n U (fun k => / f k)).
Proof.
  intros HU Hf. split; rewrite spec_mul by auto; apply spec_one; auto; intros k Hk; field; auto.
Qed.
Lemma inverse_ext n A A' B B' : meq n n A A' -> meq n n B B' -> inverse n A B -> inverse n A' B'.
Proof. intros E F [H1 H2]. split; now rewrite <- E, <- F. Qed.
Lemma pd_invertible n A : pd n A -> invertible n A.
Proof.
  intros H. destruct (spectral n A (proj1 H)) as (U & lam & He). exists (spec n U (fun k => / lam k)).
  apply (inverse_ext n (spec n U lam) A (spec n U (fun k => / lam k)) (spec n U (fun k => / lam k))); [symmetry; now apply eig_spec|reflexivity|].
  apply spec_inverse; [apply He|]. intros k Hk. pose proof (pd_eig n A U lam H He k Hk). lra.
Qed.
Lemma psd_invertible_pd n A : psd n A -> invertible n A -> pd n A.
Proof.
  intros HP (B & HB & HB'). split; [apply HP|]. intros v Hv. destruct (proj2 HP v) as [|Z]; auto. exfalso.
  pose proof (psd_null n A v HP (eq_sym Z)) as N. destruct Hv as (i & Hi & Hv). apply Hv.
  rewrite <- (rapp_I n v i Hi). rewrite <- (rapp_ext n _ _ v v HB' (fun k _ => eq_refl) i Hi). rewrite rapp_mul.
  unfold rapp at 1. apply rsum_zero. intros j Hj. rewrite (N j Hj). ring.
Qed.
(** inverse of a positive definite matrix *)
Lemma inverse_psd n A B : psd n A -> inverse n A B -> psd n B.
Proof. intros H HI. apply (penrose_psd n A); auto. now apply inverse_penrose. Qed.
Lemma inverse_pd n A B : pd n A -> inverse n A B -> pd n B.
Proof.
  intros H HI. apply psd_invertible_pd; [apply (inverse_psd n A); auto; now apply pd_psd|]. exists A. destruct HI. now split.
Qed.
Lemma inverse_unique n A B C : inverse n A B -> inverse n A C -> meq n n B C.
Proof. intros H H'. apply (penrose_unique n A); now apply inverse_penrose. Qed.
Lemma penrose_exists n A : sym n A -> exists B, penrose n A B.
Proof.
  intros H. destruct (spectral n A H) as (U & lam & He). set (g := fun k => if Req_EM_T (lam k) 0 then 0 else / lam k).
  exists (spec n U g). pose proof (proj1 He) as HU.
  apply (penrose_ext n (spec n U lam) A (spec n U g) (spec n U g)); [symmetry; now apply eig_spec|reflexivity|].
  assert (M : forall f f', meq n n (rmul n (spec n U f) (spec n U f')) (spec n U (fun k => f k * f' k))) by (intros; now apply spec_mul).
  repeat split.
  - rewrite M, M. apply spec_ext. intros k Hk. unfold g. destruct (Req_EM_T (lam k) 0) as [->|]; [ring|now field].
  - rewrite M, M. apply spec_ext. intros k Hk. unfold g. destruct (Req_EM_T (lam k) 0) as [->|]; [ring|now field].
  - eapply sym_ext; [symmetry; apply M|apply spec_sym].
  - eapply sym_ext; [symmetry; apply M|apply spec_sym].
Qed.

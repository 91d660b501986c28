(** * Similarities of the observation space (proof infrastructure) *)
From Coq Require Import Reals ZArith String List Lia Lra Arith Bool Setoid Morphisms.
From Verif Require Import Num Numpy PyVal LinalgModel StateModel BaseModel Estimators
  Spec ListLemmas BaseProofs RMat LinSpec Fin RealSpec RunFin EwaReal RunAvg EmpFacts Spectral MatAlg Contracts LinalgReal
  ShrinkReal RobustReal TylerReal Props_Emp SymSpec.
Import ListNotations.
Local Open Scope string_scope.
Local Open Scope R_scope.

Lemma congr_mul p A C i j : congr p A C i j = rmul p A (rmul p C (rT A)) i j.
Proof. unfold congr, rmul. apply rsum_ext. intros k _. rewrite <- rsum_scal. apply rsum_ext. intros l _. unfold rT. ring. Qed.
Lemma congr_meq p A C D : meq p p C D -> meq p p (congr p A C) (congr p A D).
Proof. intros H i j _ _. now apply congr_ext. Qed.
Lemma congr_lin p A C D E c d i j : (forall k l, (k < p)%nat -> (l < p)%nat -> E k l = c * C k l + d * D k l) ->
  congr p A E i j = c * congr p A C i j + d * congr p A D i j.
Proof. intros H. rewrite (congr_ext p A E (fun k l => c * C k l + d * D k l)) by auto. now rewrite congr_plus, !congr_scal. Qed.
Lemma congr_sym p A C n : (n <= p)%nat -> sym p C -> sym n (congr p A C).
Proof.
  intros Hn H i j Hi Hj. unfold congr. rewrite rsum_swap. apply rsum_ext. intros k Hk. apply rsum_ext. intros l Hl. rewrite (H l k) by auto. ring.
Qed.
Lemma rapp_lin p A u v w c d i : (forall k, (k < p)%nat -> w k = c * u k + d * v k) -> rapp p A w i = c * rapp p A u i + d * rapp p A v i.
Proof. intros H. unfold rapp. rewrite <- !rsum_scal, <- rsum_plus. apply rsum_ext. intros k Hk. rewrite (H k Hk). ring. Qed.
Lemma aff_rapp p A b x i : aff p A b x i = rapp p A x i + b i. Proof. reflexivity. Qed.
Lemma rapp_scal p c A v i : rapp p (fun a b => c * A a b) v i = c * rapp p A v i.
Proof. unfold rapp. rewrite <- rsum_scal. apply rsum_ext. intros; ring. Qed.

Section Sim.
  Context (p : nat) (s : R) (A : rmat) (HA : similarity p s A).
  Let Spos : 0 < s := proj1 HA.
  Let ATA : meq p p (rmul p (rT A) A) (fun i j => s * rI i j) := proj1 (proj2 HA).
  Let AAT : meq p p (rmul p A (rT A)) (fun i j => s * rI i j) := proj2 (proj2 HA).

  Lemma sI_l B : meq p p (rmul p (fun i j => s * rI i j) B) (fun i j => s * B i j).
  Proof.
    intros i j Hi Hj. transitivity (s * rmul p rI B i j); [|now rewrite rmul_I_l].
    unfold rmul. rewrite <- rsum_scal. apply rsum_ext. intros; ring.
  Qed.
  Lemma sI_r B : meq p p (rmul p B (fun i j => s * rI i j)) (fun i j => s * B i j).
  Proof.
    intros i j Hi Hj. transitivity (s * rmul p B rI i j); [|now rewrite rmul_I_r].
    unfold rmul. rewrite <- rsum_scal. apply rsum_ext. intros; ring.
  Qed.
  Lemma mul_scal_r c B D : meq p p (rmul p B (fun i j => c * D i j)) (fun i j => c * rmul p B D i j).
  Proof. intros i j _ _. unfold rmul. rewrite <- rsum_scal. apply rsum_ext. intros; ring. Qed.
  Lemma mul_scal_l c B D : meq p p (rmul p (fun i j => c * B i j) D) (fun i j => c * rmul p B D i j).
  Proof. intros i j _ _. unfold rmul. rewrite <- rsum_scal. apply rsum_ext. intros; ring. Qed.
  Lemma scal_meq c B D : meq p p B D -> meq p p (fun i j => c * B i j) (fun i j => c * D i j).
  Proof. intros H i j Hi Hj. now rewrite H. Qed.

  (** A B A^T A D A^T = s A (B D) A^T *)
  Lemma congr_mulmul B D : meq p p (rmul p (congr p A B) (congr p A D)) (fun i j => s * congr p A (rmul p B D) i j).
  Proof.
    assert (EB : forall X, meq p p (congr p A X) (rmul p A (rmul p X (rT A)))) by (intros X i j _ _; apply congr_mul).
    rewrite (EB B), (EB D). rewrite (mul_assoc p A), (mul_assoc p B (rT A)). rewrite <- (mul_assoc p (rT A) A), ATA, sI_l.
    rewrite mul_scal_r, mul_scal_r. rewrite (scal_meq s _ (rmul p A (rmul p (rmul p B D) (rT A)))).
    - intros i j Hi Hj. now rewrite EB.
    - now rewrite (mul_assoc p B D).
  Qed.
  Lemma congr_T B : meq p p (rT (congr p A B)) (congr p A (rT B)).
  Proof. intros i j _ _. unfold rT, congr. rewrite rsum_swap. apply rsum_ext. intros k _. apply rsum_ext. intros; ring. Qed.
  Lemma congr_trace B : rtrace p (congr p A B) = s * rtrace p B.
  Proof.
    rewrite (rtrace_ext p _ (rmul p A (rmul p B (rT A)))) by (intros i j _ _; apply congr_mul).
    rewrite rtrace_comm. rewrite (rtrace_ext p _ (fun i j => s * B i j)); [unfold rtrace; now rewrite rsum_scal|].
    now rewrite (mul_assoc p B), ATA, sI_r.
  Qed.
  Lemma congr_I : meq p p (congr p A rI) (fun i j => s * rI i j).
  Proof.
    rewrite <- AAT. intros i j Hi Hj. rewrite congr_mul. revert i j Hi Hj. change (meq p p (rmul p A (rmul p rI (rT A))) (rmul p A (rT A))). now rewrite mul_I_l.
  Qed.
  Lemma congr_fro2 B : fro2 p (congr p A B) = s * s * fro2 p B.
  Proof.
    rewrite !fro2_trace. rewrite (rtrace_ext p _ (fun i j => s * congr p A (rmul p (rT B) B) i j)).
    - unfold rtrace. rewrite rsum_scal. fold (rtrace p (congr p A (rmul p (rT B) B))). rewrite congr_trace. unfold rtrace. ring.
    - rewrite congr_T. apply congr_mulmul.
  Qed.
  Lemma congr_qf B v : qf p (congr p A B) (rapp p A v) = s * s * qf p B v.
  Proof.
    rewrite (qf_meq p _ (rmul p (rT (rT A)) (rmul p B (rT A)))) by (intros i j _ _; apply congr_mul).
    rewrite qf_congr_sq.
    assert (E : veq p (rapp p (rT A) (rapp p A v)) (fun i => s * v i)).
    { intros i Hi. rewrite <- rapp_mul. rewrite (rapp_ext p _ _ v v ATA (fun i _ => eq_refl) i Hi). rewrite rapp_scal. f_equal. now apply rapp_I. }
    rewrite (qf_ext p B B _ (fun i => s * v i)) by (auto using meq_refl).
    unfold qf. rewrite <- rsum_scal. apply rsum_ext. intros i _. rewrite <- rsum_scal. apply rsum_ext. intros; ring.
  Qed.
  Lemma congr_penrose C B : penrose p C B -> penrose p (congr p A C) (fun i j => / (s * s) * congr p A B i j).
  Proof.
    intros (h1 & h2 & h3 & h4). assert (N : s <> 0) by lra.
    assert (E1 : meq p p (rmul p (congr p A C) (fun i j => / (s * s) * congr p A B i j)) (fun i j => / s * congr p A (rmul p C B) i j)).
    { rewrite mul_scal_r. intros i j Hi Hj. rewrite (congr_mulmul C B i j Hi Hj). field. auto. }
    assert (E2 : meq p p (rmul p (fun i j => / (s * s) * congr p A B i j) (congr p A C)) (fun i j => / s * congr p A (rmul p B C) i j)).
    { rewrite mul_scal_l. intros i j Hi Hj. rewrite (congr_mulmul B C i j Hi Hj). field. auto. }
    split; [|split; [|split]].
    - rewrite E2. rewrite mul_scal_r. intros i j Hi Hj. rewrite (congr_mulmul C (rmul p B C) i j Hi Hj).
      rewrite (congr_meq p A _ _ h1 i j Hi Hj). field. auto.
    - rewrite E1. rewrite mul_scal_r. intros i j Hi Hj. rewrite (mul_scal_l _ _ _ i j Hi Hj).
      rewrite (congr_mulmul B (rmul p C B) i j Hi Hj). rewrite (congr_meq p A _ _ h2 i j Hi Hj). field. auto.
    - apply (sym_ext p _ _ (meq_sym _ _ _ _ E1)). intros i j Hi Hj. f_equal. now apply (congr_sym p A _ p).
    - apply (sym_ext p _ _ (meq_sym _ _ _ _ E2)). intros i j Hi Hj. f_equal. now apply (congr_sym p A _ p).
  Qed.
  Lemma tinv_congr L (HL : lawful L) C : (1 <= p)%nat -> sym p C ->
    meq p p (tinv L p (congr p A C)) (fun i j => / (s * s) * congr p A (tinv L p C) i j).
  Proof.
    intros Hp HC. apply (penrose_unique p (congr p A C)).
    - apply tinv_ok; auto. now apply (congr_sym p A C p).
    - apply congr_penrose. now apply tinv_ok.
  Qed.

  (** related states *)
  Context (b : obs).
  Definition rel (a a' : ast) : Prop :=
    an a' = an a /\ veq p (am a') (aff p A b (am a)) /\ meq p p (aC a') (congr p A (aC a)).
  Definition img (x x' : obs) : Prop := veq p x' (aff p A b x).
  Lemma rel_dv a a' x x' : rel a a' -> img x x' -> veq p (dv a' x') (rapp p A (dv a x)).
  Proof. intros (_ & H & _) HX i Hi. unfold dv. rewrite (H i Hi), (HX i Hi), aff_diff. reflexivity. Qed.
  Lemma rel_maha L (HL : lawful L) a a' x x' : (1 <= p)%nat -> sym p (aC a) -> rel a a' -> img x x' -> maha2 L p a' x' = maha2 L p a x.
  Proof.
    intros Hp HS HR HX. unfold maha2. destruct HR as (R1 & R2 & R3).
    rewrite (tinv_ext L p _ _ R3).
    rewrite (qf_ext p _ _ _ (rapp p A (dv a x)) (tinv_congr L HL _ Hp HS)) by (apply (rel_dv a a'); auto; repeat split; auto).
    rewrite qf_scal, congr_qf. field. lra.
  Qed.
  Lemma rel_emp a a' x x' : rel a a' -> img x x' -> rel (emp_step a x) (emp_step a' x').
  Proof.
    intros HR HX. pose proof (rel_dv a a' x x' HR HX) as D. destruct HR as (R1 & R2 & R3). unfold rel, emp_step. cbn [an am aC]. rewrite R1.
    set (N := INR (S (an a))). assert (Nz : N <> 0) by apply INR_S_nz.
    assert (M : veq p (fun i => am a' i + (x' i - am a' i) / N) (aff p A b (fun i => am a i + (x i - am a i) / N))).
    { intros i Hi. fold (dv a' x' i). rewrite (D i Hi), (R2 i Hi), !aff_rapp.
      rewrite (rapp_lin p A (am a) (dv a x) (fun i => am a i + (x i - am a i) / N) 1 (/ N)) by (intros; unfold dv; field; auto). field. auto. }
    split; [reflexivity|]. split; [exact M|].
    intros i j Hi Hj. cbv beta. rewrite (R3 i j Hi Hj). fold (dv a' x' i). rewrite (D i Hi).
    replace (x' j - (am a' j + (x' j - am a' j) / N)) with ((1 - / N) * dv a' x' j) by (unfold dv; field; auto). rewrite (D j Hj).
    symmetry. etransitivity; [apply (congr_lin p A (aC a) (fun k l => dv a x k * dv a x l) _ (INR (an a) / N) ((1 - / N) / N))|].
    - intros k l _ _. unfold dv. field. auto.
    - rewrite <- congr_outer. unfold rapp. field. auto.
  Qed.
  Lemma rel_ew rho a a' x x' : rel a a' -> img x x' -> rel (ew_step rho a x) (ew_step rho a' x').
  Proof.
    intros HR HX. pose proof (rel_dv a a' x x' HR HX) as D. destruct HR as (R1 & R2 & R3). unfold rel, ew_step. cbn [an am aC]. rewrite R1.
    split; [reflexivity|]. split.
    - intros i Hi. rewrite (R2 i Hi), (HX i Hi), !aff_rapp.
      rewrite (rapp_lin p A (am a) x (fun i => (1 - rho) * am a i + rho * x i) (1 - rho) rho) by reflexivity. ring.
    - intros i j Hi Hj. rewrite (R3 i j Hi Hj). fold (dv a' x' i) (dv a' x' j). rewrite (D i Hi), (D j Hj).
      symmetry. etransitivity; [apply (congr_lin p A (aC a) (fun k l => dv a x k * dv a x l) _ (1 - rho) rho); reflexivity|]. rewrite <- congr_outer. reflexivity.
  Qed.
  Lemma rel_first x x' : img x x' -> rel (emp_step a_init x) (emp_step a_init x').
  Proof.
    intros HX. unfold rel, emp_step, a_init. cbn [an am aC INR]. split; [reflexivity|]. split.
    - intros i Hi. rewrite (HX i Hi), !aff_rapp. rewrite (rapp_lin p A x x (fun i => 0 + (x i - 0) / 1) 1 0) by (intros; field). field.
    - intros i j Hi Hj. rewrite (congr_ext p A _ (fun _ _ => 0)) by (intros; field). rewrite congr_zero. field.
  Qed.

  (** runs that start with a Welford step *)
  Lemma rel_run (st : ast -> obs -> ast) (Inv : ast -> Prop) : (forall x, st a_init x = emp_step a_init x) ->
    (forall x, Inv (emp_step a_init x)) ->
    (forall a a' x x', Inv a -> rel a a' -> img x x' -> rel (st a x) (st a' x')) -> (forall a x, Inv a -> Inv (st a x)) ->
    forall xs xs', xs <> [] -> Forall2 img xs xs' -> rel (fold_left st xs a_init) (fold_left st xs' a_init).
  Proof.
    intros H0 HI HS HP xs xs' Hx H. destruct H as [|x x' xs xs' HX H]; [congruence|]. cbn [fold_left]. rewrite !H0.
    assert (G : forall a a', Inv a -> rel a a' -> rel (fold_left st xs a) (fold_left st xs' a')).
    { clear Hx. induction H as [|y y' xs xs' HY H IH]; intros a a' Ha HR; [exact HR|]. cbn [fold_left]. apply IH; auto. }
    apply G; auto. now apply rel_first.
  Qed.
End Sim.

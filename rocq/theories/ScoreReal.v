(** * Gaussian scores in exact arithmetic (helpers of Props_Score.v and Props_Assess.v) *)
From Coq Require Import Reals ZArith List Lia Lra Arith Bool.
From Verif Require Import Num Numpy LinalgModel BaseModel ListLemmas RMat LinSpec Fin RealSpec Spectral MatAlg Det Contracts LinalgReal
  GaussSpec GaussReal AssessModel.
Import ListNotations.
Local Open Scope R_scope.

Lemma einsum_quad_fin p c B : (1 <= p)%nat -> einsum_quad (N := NumX) (fv p c) (fm p p B) = Ok (Fin (qf p B c)).
Proof.
  intros Hp. unfold einsum_quad. rewrite fv_length, fm_nrows, Nat.eqb_refl, vecmat_fin by auto. cbn [bind]. rewrite vdot_fin.
  do 2 f_equal. unfold rdot, qf. rewrite rsum_swap. apply rsum_ext. intros j Hj. rewrite <- rsum_scal_r. apply rsum_ext. intros; ring.
Qed.
Lemma fold_add_fin l a : fold_left (@nadd NumX) (map (fun x : R => Fin x) l) (Fin a) = Fin (a + lsum l).
Proof.
  revert a. induction l as [|x l IH]; intros a; cbn [map fold_left]; [cbn; f_equal; unfold lsum; cbn; lra|].
  rewrite add_fin, IH. f_equal. unfold lsum. cbn. fold (lsum l). lra.
Qed.
Lemma vmean_map {A} (f : A -> R) (l : list A) : l <> [] -> vmean (N := NumX) (map (fun x => Fin (f x)) l) = Fin (lmean (map f l)).
Proof.
  intros H. unfold vmean, vsum, lmean. rewrite <- (map_map f (fun x => Fin x)), n0_fin, fold_add_fin, !map_length, nofn_fin.
  rewrite div_fin; [f_equal; f_equal; lra|]. apply not_0_INR. destruct l; cbn; [congruence|lia].
Qed.
Lemma fold_add_ninf l : fold_left (@nadd NumX) (repeat NInf l) NInf = NInf.
Proof. induction l; cbn; auto. Qed.
Lemma vmean_ninf n : (1 <= n)%nat -> vmean (N := NumX) (repeat NInf n) = NInf.
Proof.
  intros H. unfold vmean, vsum. destruct n; [lia|]. cbn [repeat fold_left]. change (@nadd NumX n0 NInf) with NInf.
  rewrite fold_add_ninf. cbn [length]. rewrite repeat_length, nofn_fin. unfold ndiv; cbn.
  assert (P : 0 < INR (S n)) by (apply lt_0_INR; lia). change (match n with O => 1 | S _ => INR n + 1 end) with (INR (S n)).
  unfold Reqb. destruct (Req_EM_T _ _); [lra|]. rewrite Rltb_true by auto. reflexivity.
Qed.
Lemma mapM_map_ok {A B C} (f : B -> res C) (g : A -> B) (h : A -> C) l :
  (forall x, In x l -> f (g x) = Ok (h x)) -> mapM f (map g l) = Ok (map h l).
Proof.
  induction l as [|x l IH]; intros H; cbn; auto. rewrite H by now left. cbn. rewrite IH by (intros; apply H; now right). reflexivity.
Qed.

Lemma lit5 : @nlit NumX 5 1 = Fin (1 / 2).
Proof. rewrite nlit_fin. f_equal. cbn. lra. Qed.
Lemma half_ninf : @nmul NumX (Fin (1 / 2)) NInf = NInf.
Proof. cbn. rewrite Rltb_true by lra. reflexivity. Qed.

Section L.
  Context (L : LinAlg NumX) (HL : lawful L).

  Lemma ln_det_inverse p A Ai : pd p A -> inverse p A Ai -> 0 < rdet p Ai /\ ln (rdet p Ai) = - ln (rdet p A).
  Proof.
    intros HA HI. pose proof (pd_det_pos p A HA) as P. pose proof (rdet_inverse HI) as E.
    assert (P' : 0 < rdet p Ai) by (apply pd_det_pos; eapply inverse_pd; eauto). split; auto.
    assert (ln (rdet p A * rdet p Ai) = 0) by (rewrite E; apply ln_1). rewrite ln_mult in H by auto. lra.
  Qed.
  Lemma slogdet_inverse p A Ai : (1 <= p)%nat -> pd p A -> inverse p A Ai ->
    la_slogdet L (fm p p Ai) = Ok (Fin 1, Fin (- ln (rdet p A))).
  Proof.
    intros Hp HA HI. destruct (ln_det_inverse p A Ai HA HI) as [P E].
    destruct (law_slogdet L HL p Ai Hp) as [[H _]|[_ ->]]; [lra|]. rewrite Rabs_right by lra. rewrite E.
    destruct (Rlt_dec 0 (rdet p Ai)); [reflexivity|lra].
  Qed.
  (** a singular matrix has a singular pseudo-inverse *)
  Lemma penrose_singular p A B : penrose p A B -> ~ invertible p A -> rdet p B = 0.
  Proof.
    intros (H1 & H2 & _) N. destruct (Req_dec (rdet p B) 0) as [E|E]; auto. exfalso. apply N. apply rdet_invertible.
    intros Z. apply E. pose proof (rdet_ext H2) as D. rewrite !rdet_mul, Z in D. rewrite <- D. ring.
  Qed.
  Lemma slogdet_singular p A B : (1 <= p)%nat -> penrose p A B -> ~ invertible p A -> la_slogdet L (fm p p B) = Ok (Fin 0, NInf).
  Proof.
    intros Hp H N. pose proof (penrose_singular p A B H N). destruct (law_slogdet L HL p B Hp) as [[_ E]|[H1 _]]; auto. lra.
  Qed.

  Lemma loglik_fin p A xs : (1 <= p)%nat -> pd p A -> xs <> [] ->
    gaussian_loglik L (fm p p A) (map (fv p) xs) = Ok (Fin (lmean (map (gauss_logpdf p A (tinv L p A) (fun _ => 0)) xs))).
  Proof.
    intros Hp HA Hx. unfold gaussian_loglik. destruct (tinv_ok L HL p A Hp (proj1 HA)) as [-> _]. cbn [bind].
    pose proof (tinv_inverse L HL p A Hp (proj1 HA) (pd_invertible p A HA)) as HI.
    rewrite (slogdet_inverse p A _ Hp HA HI). cbn [bind].
    rewrite (mapM_map_ok _ (fv p) (fun x => Fin (qf p (tinv L p A) x))) by (intros; now apply einsum_quad_fin). cbn [bind].
    rewrite fm_nrows, nofn_fin, (law_log2pi L HL), lit5. do 2 f_equal. rewrite map_map.
    rewrite <- vmean_map by auto. f_equal. apply map_ext_in. intros x _. rewrite !mul_fin, !sub_fin. f_equal.
    unfold gauss_logpdf. rewrite (qf_ext p (tinv L p A) (tinv L p A) (fun i => x i - 0) x) by (auto using meq_refl; intros; ring). lra.
  Qed.
  Lemma loglik_singular p A xs : (1 <= p)%nat -> sym p A -> ~ invertible p A -> xs <> [] ->
    gaussian_loglik L (fm p p A) (map (fv p) xs) = Ok NInf.
  Proof.
    intros Hp HA HN Hx. unfold gaussian_loglik. destruct (tinv_ok L HL p A Hp HA) as [-> HP]. cbn [bind].
    rewrite (slogdet_singular p A _ Hp HP HN). cbn [bind].
    rewrite (mapM_map_ok _ (fv p) (fun x => Fin (qf p (tinv L p A) x))) by (intros; now apply einsum_quad_fin). cbn [bind].
    rewrite fm_nrows, nofn_fin, (law_log2pi L HL), lit5, half_ninf. f_equal. rewrite map_map.
    rewrite (map_ext_in _ (fun _ => NInf)) by (intros; reflexivity).
    replace (map (fun _ : nat -> R => NInf) xs) with (repeat NInf (length xs)); [|clear; induction xs; cbn; congruence].
    apply vmean_ninf. destruct xs; cbn; [congruence|lia].
  Qed.
End L.

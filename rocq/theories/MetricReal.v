(** * The scoring functions of research/metric_power.py in exact arithmetic (proof infrastructure) *)
From Coq Require Import Reals ZArith List Lia Lra Arith Bool.
From Verif Require Import Num Numpy LinalgModel ListLemmas RMat LinSpec Fin RealSpec Spectral MatAlg Det Contracts LinalgReal GaussSpec GaussReal ScoreReal
  AssessModel AssessSpec AssessReal ResearchModel ResearchRun MetricModel.
Import ListNotations.
Local Open Scope R_scope.

Lemma phalf_fin : @phalf NumX = Fin (1 / 2).
Proof. exact lit5. Qed.
Lemma mhalf_fin : @mhalf NumX = Fin (- (1 / 2)).
Proof. unfold mhalf. rewrite lit5. reflexivity. Qed.
Lemma lit3 : @nlit NumX 1 3 = Fin (1 / 1000).
Proof. rewrite nlit_fin. f_equal; cbn; lra. Qed.

(** largest entry *)
Lemma vmax_fin p f : (1 <= p)%nat -> exists k, (k < p)%nat /\ vmax (fv p f) = Ok (Fin (f k)) /\ forall i, (i < p)%nat -> f i <= f k.
Proof.
  intros Hp. destruct p as [|p]; [lia|]. clear Hp.
  assert (E : fv (S p) f = (Fin (f O) : NumX) :: fv p (fun i => f (S i))).
  { unfold fv, tab. cbn [seq map]. f_equal. rewrite <- seq_shift, map_map. reflexivity. }
  rewrite E. cbn [vmax].
  assert (G : forall q g x, exists k, (k <= q)%nat /\
    fold_left np_max (fv q g) (Fin x : NumX) = Fin (match k with O => x | S i => g i end) /\
    x <= (match k with O => x | S i => g i end) /\ forall i, (i < q)%nat -> g i <= (match k with O => x | S i => g i end)).
  { induction q as [|q IH]; intros g x.
    - exists O. split; [lia|]. split; [reflexivity|]. split; [lra|intros; lia].
    - assert (E' : fv (S q) g = (Fin (g O) : NumX) :: fv q (fun i => g (S i))).
      { unfold fv, tab. cbn [seq map]. f_equal. rewrite <- seq_shift, map_map. reflexivity. }
      rewrite E'. cbn [fold_left]. rewrite np_max_fin.
      destruct (IH (fun i => g (S i)) (Rmax x (g O))) as (k & Hk & Ek & L1 & L2).
      pose proof (Rmax_l x (g O)). pose proof (Rmax_r x (g O)).
      destruct k as [|k].
      + unfold Rmax in *. destruct (Rle_dec x (g O)).
        * exists 1%nat. split; [lia|]. split; [auto|]. split; [lra|]. intros [|i] Hi; [lra|apply L2; lia].
        * exists O. split; [lia|]. split; [auto|]. split; [lra|]. intros [|i] Hi; [lra|apply L2; lia].
      + exists (S (S k)). split; [lia|]. split; [auto|]. split; [lra|]. intros [|i] Hi; [lra|apply L2; lia]. }
  destruct (G p (fun i => f (S i)) (f O)) as (k & Hk & Ek & L1 & L2). exists k. split; [lia|].
  replace (match k with O => f O | S i => f (S i) end) with (f k) in * by now destruct k.
  split; [now rewrite Ek|]. intros [|i] Hi; [auto|apply L2; lia].
Qed.

Section L.
  Context (L : LinAlg NumX) (HL : lawful L).
  Lemma inv_ok p A : (1 <= p)%nat -> pd p A -> exists Ai, la_inv L (fm p p A) = Ok (fm p p Ai) /\ inverse p A Ai.
  Proof.
    intros Hp HA. destruct (law_inv L HL p A Hp (proj1 HA)) as [(Ai & E & HI)|(_ & HN)]; [eauto|]. exfalso. apply HN. now apply pd_invertible.
  Qed.
  Lemma slogdet_pd p A : (1 <= p)%nat -> pd p A -> la_slogdet L (fm p p A) = Ok (Fin 1, Fin (ln (rdet p A))).
  Proof.
    intros Hp HA. pose proof (pd_det_pos p A HA) as D. destruct (law_slogdet L HL p A Hp) as [[H _]|[_ ->]]; [lra|]. rewrite Rabs_right by lra.
    destruct (Rlt_dec 0 (rdet p A)); [reflexivity|lra].
  Qed.
  Lemma mean_loglik_eq p A B xs : xs <> [] -> mean_loglik p A B xs = - (INR p * ln (2 * PI)) / 2 - ln (rdet p A) / 2 - lmean (map (qf p B) xs) / 2.
  Proof.
    intros Hx. unfold mean_loglik.
    rewrite (lmean_ext _ (fun x => (- (INR p * ln (2 * PI)) / 2 - ln (rdet p A) / 2) + (- (1 / 2)) * qf p B x)).
    - rewrite lmean_plus, lmean_const, lmean_scal by auto. change (map (fun a => qf p B a) xs) with (map (qf p B) xs). lra.
    - intros x _. unfold gauss_logpdf, zero_mean. rewrite (qf_ext p B B (fun i => x i - 0) x) by (auto using meq_refl; intros; ring). lra.
  Qed.
  Lemma mp_loglik_fin p A Ai xs : (1 <= p)%nat -> pd p A -> inverse p A Ai -> xs <> [] ->
    mp_loglik L (fm p p A) (map (fv p) xs) = Ok (Fin (mean_loglik p A Ai xs + INR p / 2 * ln (2 * PI))).
  Proof.
    intros Hp HA HI Hx. unfold mp_loglik. destruct (inv_ok p A Hp HA) as (B & -> & HB). cbn [bind].
    rewrite (slogdet_inverse L HL p A B Hp HA HB). cbn [bind].
    rewrite (mapM_map_ok _ (fv p) (fun x => Fin (qf p B x))) by (intros; now apply einsum_quad_fin). cbn [bind].
    rewrite phalf_fin, map_map. apply (f_equal (@Ok _)).
    rewrite (map_ext_in _ (fun x => (Fin (- ln (rdet p A) / 2 + (- (1 / 2)) * qf p B x) : NumX))) by (intros x _; rewrite !mul_fin, sub_fin; f_equal; lra).
    rewrite (vmean_map (fun x => - ln (rdet p A) / 2 + (- (1 / 2)) * qf p B x)) by auto. f_equal.
    rewrite lmean_plus, lmean_const, lmean_scal, mean_loglik_eq by auto.
    rewrite (lmean_ext (fun x => qf p B x) (qf p Ai)) by (intros x _; apply qf_meq; exact (inverse_unique p A B Ai HB HI)). lra.
  Qed.

  (** ** _project_pd *)
  Definition ppd (p : nat) (A : rmat) : rmat := mres (project_pd L (fm p p A)).
  Lemma ppd_spec p A : (1 <= p)%nat -> exists U lam k, (k < p)%nat /\ eig_of p (symm A) U lam /\ (forall i, (i < p)%nat -> lam i <= lam k) /\
    project_pd L (fm p p A) = Ok (fm p p (spec p U (fun i => Rmax (lam i) (1 / 1000 * lam k)))).
  Proof.
    intros Hp. unfold project_pd. rewrite to_symmetric_fin. cbn [bind]. fold (symm A).
    destruct (law_eigh L HL p (symm A) Hp (symm_sym p A)) as (lam & U & E & He). rewrite E. cbn [bind].
    destruct (vmax_fin p lam Hp) as (k & Hk & Ek & Mk). rewrite Ek. cbn [bind]. exists U, lam, k. split; [exact Hk|]. split; [exact He|]. split; [exact Mk|].
    rewrite (map_fin p _ (fun i => Rmax (lam i) (1 / 1000 * lam k))) by (intros; now rewrite lit3, mul_fin, np_clip_lo_fin).
    rewrite rows_vmul_fin. cbn [bind]. rewrite transpose_sq_fin, matmul_fin by auto. reflexivity.
  Qed.
End L.

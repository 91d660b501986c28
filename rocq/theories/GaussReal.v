(** * Stein's inequality: tr(B S) - ln det(B S) - p >= 0, with equality exactly when B is the inverse of S *)
From Coq Require Import Reals List Lia Lra Arith.
From Verif Require Import RMat LinSpec RealSpec Spectral MatAlg Det GaussSpec.
Import ListNotations.
Local Open Scope R_scope.

Lemma rprod_pos n f : (forall i, (i < n)%nat -> 0 < f i) -> 0 < rprod n f.
Proof. induction n; cbn; intros; [lra|]. apply Rmult_lt_0_compat; [apply IHn; intros; apply H; lia|apply H; lia]. Qed.
Lemma ln_rprod n f : (forall i, (i < n)%nat -> 0 < f i) -> ln (rprod n f) = rsum n (fun i => ln (f i)).
Proof.
  induction n; cbn; intros H; [apply ln_1|]. rewrite ln_mult; [|apply rprod_pos; intros; apply H; lia|apply H; lia].
  rewrite IHn; auto. Qed.
Lemma ln_le_minus x : 0 < x -> ln x <= x - 1.
Proof. intros H. pose proof (exp_ineq1_le (ln x)). rewrite exp_ln in H0 by auto. lra. Qed.
Lemma ln_eq_minus x : 0 < x -> ln x = x - 1 -> x = 1.
Proof.
  intros H E. destruct (Req_dec (ln x) 0) as [Z|N].
  - lra.
  - pose proof (exp_ineq1 (ln x) N). rewrite exp_ln in H0 by auto. lra.
Qed.

Lemma rtrace_spec n U f : orth n U -> rtrace n (spec n U f) = rsum n f.
Proof.
  intros [H1 _]. unfold rtrace, spec. rewrite rsum_swap. apply rsum_ext. intros k Hk.
  rewrite (rsum_ext n _ (fun i => f k * (U i k * U i k))) by (intros; ring). rewrite rsum_scal.
  specialize (H1 k k Hk Hk). unfold rmul, rT, rI in H1. rewrite Nat.eqb_refl in H1. rewrite H1. ring.
Qed.
Lemma pd_det_pos n A : pd n A -> 0 < rdet n A.
Proof.
  intros H. destruct (spectral n A (proj1 H)) as (U & lam & He). rewrite (rdet_eig He). apply rprod_pos. intros. eapply pd_eig; eauto.
Qed.
Lemma psd_det_nonneg n A : psd n A -> 0 <= rdet n A.
Proof.
  intros H. destruct (Req_dec (rdet n A) 0) as [E|E]; [lra|]. apply Rlt_le, pd_det_pos, psd_invertible_pd; auto. now apply rdet_invertible.
Qed.
Lemma psd_det0 n A : psd n A -> (rdet n A = 0 <-> ~ pd n A).
Proof.
  intros H. split.
  - intros E P. apply pd_det_pos in P. lra.
  - intros N. destruct (Req_dec (rdet n A) 0) as [E|E]; auto. exfalso. apply N, psd_invertible_pd; auto. now apply rdet_invertible.
Qed.
Lemma pd_sqrt n S : pd n S -> exists R Ri, sym n R /\ sym n Ri /\ meq n n (rmul n R R) S /\ inverse n R Ri.
Proof.
  intros H. destruct (spectral n S (proj1 H)) as (U & lam & He). pose proof (pd_eig n S U lam H He) as Hp.
  exists (spec n U (fun k => sqrt (lam k))), (spec n U (fun k => / sqrt (lam k))).
  split; [apply spec_sym|]. split; [apply spec_sym|]. split.
  - eapply meq_trans; [apply spec_mul, He|]. eapply meq_trans; [|apply meq_sym, (eig_spec n S U lam He)].
    apply spec_ext. intros k Hk. apply sqrt_sqrt. apply Rlt_le. auto.
  - apply spec_inverse; [apply He|]. intros k Hk. pose proof (sqrt_lt_R0 (lam k) (Hp k Hk)). lra.
Qed.

Theorem stein_ineq n B S : pd n B -> pd n S ->
  0 <= rtrace n (rmul n B S) - ln (rdet n B * rdet n S) - INR n /\
  (rtrace n (rmul n B S) - ln (rdet n B * rdet n S) - INR n = 0 -> inverse n S B).
Proof.
  intros HB HS. destruct (pd_sqrt n S HS) as (R & Ri & SR & SRi & HR & HRi).
  set (W := rmul n (rT R) (rmul n B R)).
  assert (TR : meq n n (rT R) R) by (now apply sym_T).
  assert (PW : psd n W) by (apply psd_congr, pd_psd, HB).
  assert (DW : rdet n W = rdet n B * rdet n S).
  { unfold W. rewrite !rdet_mul, rdet_T, <- (rdet_ext HR), rdet_mul. ring. }
  assert (DP : 0 < rdet n W) by (rewrite DW; apply Rmult_lt_0_compat; now apply pd_det_pos).
  assert (PDW : pd n W) by (apply psd_invertible_pd; auto; apply rdet_invertible; lra).
  assert (TW : rtrace n (rmul n B S) = rtrace n W).
  { rewrite (rtrace_ext n W (rmul n R (rmul n B R)));
      [|unfold W; apply rmul_ext; [exact TR|apply meq_refl]].
    rewrite (rtrace_comm n R). apply rtrace_ext. eapply meq_trans; [|apply meq_sym, mul_assoc].
    apply rmul_ext; auto using meq_refl, meq_sym. }
  destruct (spectral n W (proj1 PDW)) as (V & mu & He). pose proof (pd_eig n W V mu PDW He) as Hmu.
  assert (E : rtrace n (rmul n B S) - ln (rdet n B * rdet n S) - INR n = rsum n (fun k => mu k - ln (mu k) - 1)).
  { rewrite TW, <- DW, (rdet_eig He), ln_rprod by auto.
    rewrite (rtrace_ext n W (spec n V mu) (eig_spec n W V mu He)), rtrace_spec by apply He.
    rewrite !rsum_minus, rsum_const. ring. }
  assert (NN : forall k, (k < n)%nat -> 0 <= mu k - ln (mu k) - 1) by (intros k Hk; pose proof (ln_le_minus (mu k) (Hmu k Hk)); lra).
  rewrite E. split; [now apply rsum_nonneg|]. intros Z.
  assert (M1 : forall k, (k < n)%nat -> mu k = 1).
  { intros k Hk. apply ln_eq_minus; auto. pose proof (rsum_pos_zero n _ NN Z k Hk) as K. cbv beta in K. lra. }
  assert (WI : meq n n W rI).
  { eapply meq_trans; [apply (eig_spec n W V mu He)|]. apply spec_one; [apply He|]. intros k Hk. now apply M1. }
  (* R B R = I, so B = Ri Ri, so S B = R R Ri Ri = I *)
  assert (RBR : meq n n (rmul n R (rmul n B R)) rI).
  { eapply meq_trans; [|exact WI]. apply rmul_ext; auto using meq_refl, meq_sym. }
  assert (BR : meq n n (rmul n B R) Ri).
  { eapply meq_trans; [apply meq_sym, mul_I_l|]. eapply meq_trans; [apply rmul_ext; [apply meq_sym, (proj2 HRi)|apply meq_refl]|].
    eapply meq_trans; [apply mul_assoc|]. eapply meq_trans; [apply rmul_ext; [apply meq_refl|exact RBR]|]. apply mul_I_r. }
  assert (EB : meq n n B (rmul n Ri Ri)).
  { eapply meq_trans; [apply meq_sym, mul_I_r|]. eapply meq_trans; [apply rmul_ext; [apply meq_refl|apply meq_sym, (proj1 HRi)]|].
    eapply meq_trans; [apply meq_sym, mul_assoc|]. apply rmul_ext; auto using meq_refl. }
  assert (K : forall X Y, inverse n X Y -> meq n n (rmul n (rmul n X X) (rmul n Y Y)) rI).
  { intros X Y [H1 _]. eapply meq_trans; [apply mul_assoc|].
    eapply meq_trans; [apply rmul_ext; [apply meq_refl|apply meq_sym, mul_assoc]|].
    eapply meq_trans; [apply rmul_ext; [apply meq_refl|apply rmul_ext; [exact H1|apply meq_refl]]|].
    eapply meq_trans; [apply rmul_ext; [apply meq_refl|apply mul_I_l]|]. exact H1. }
  split.
  - eapply meq_trans; [|apply (K R Ri HRi)]. apply rmul_ext; auto using meq_sym.
  - eapply meq_trans; [|apply (K Ri R)]; [|split; apply HRi]. apply rmul_ext; auto using meq_sym.
Qed.

(** ** The Gaussian log-likelihood of a sample *)
Lemma lmean_nz {A} (l : list A) : l <> [] -> INR (length l) <> 0.
Proof. intros H. apply not_0_INR. destruct l; cbn; [congruence|lia]. Qed.
Lemma lmean_plus {A} (f g : A -> R) l : lmean (map (fun a => f a + g a) l) = lmean (map f l) + lmean (map g l).
Proof. unfold lmean. rewrite lsum_map_plus, !map_length. unfold Rdiv. ring. Qed.
Lemma lmean_scal {A} c (f : A -> R) l : lmean (map (fun a => c * f a) l) = c * lmean (map f l).
Proof. unfold lmean. rewrite lsum_map_scal, !map_length. unfold Rdiv. ring. Qed.
Lemma lmean_const {A} c (l : list A) : l <> [] -> lmean (map (fun _ => c) l) = c.
Proof. intros H. unfold lmean. rewrite lsum_const, map_length. field. now apply lmean_nz. Qed.
Lemma lmean_ext {A} (f g : A -> R) l : (forall a, In a l -> f a = g a) -> lmean (map f l) = lmean (map g l).
Proof. intros H. unfold lmean. now rewrite (lsum_map_ext f g l H), !map_length. Qed.
Lemma lmean_rsum {A} (l : list A) p (F : A -> nat -> R) : lmean (map (fun a => rsum p (F a)) l) = rsum p (fun i => lmean (map (fun a => F a i) l)).
Proof. unfold lmean. rewrite lsum_rsum, map_length, <- rsum_div. apply rsum_ext. intros. now rewrite map_length. Qed.

Lemma lmean_qf p B m xs : lmean (map (fun x => qf p B (fun i => x i - m i)) xs) = rtrace p (rmul p B (rT (second_moment m xs))).
Proof.
  unfold qf, rtrace, rmul. rewrite lmean_rsum. apply rsum_ext. intros i _. rewrite lmean_rsum. apply rsum_ext. intros j _.
  unfold rT, second_moment. rewrite <- lmean_scal. apply lmean_ext. intros; ring.
Qed.
Lemma second_moment_sym n m xs : sym n (second_moment m xs).
Proof. intros i j _ _. unfold second_moment. apply lmean_ext. intros; ring. Qed.
Lemma lmean_qf' p B m xs : lmean (map (fun x => qf p B (fun i => x i - m i)) xs) = rtrace p (rmul p B (second_moment m xs)).
Proof.
  rewrite lmean_qf. apply rtrace_ext, rmul_ext; [apply meq_refl|]. apply sym_T, second_moment_sym.
Qed.
Lemma lmean_gauss p A Ai m xs : xs <> [] -> lmean (map (gauss_logpdf p A Ai m) xs) =
  - (INR p * ln (2 * PI) + ln (rdet p A) + rtrace p (rmul p Ai (second_moment m xs))) / 2.
Proof.
  intros Hx. rewrite <- lmean_qf'. unfold gauss_logpdf.
  rewrite (lmean_ext _ (fun x => - (INR p * ln (2 * PI) + ln (rdet p A)) / 2 + - / 2 * qf p Ai (fun i => x i - m i))) by (intros; lra).
  rewrite lmean_plus, lmean_const, lmean_scal by auto. lra.
Qed.
Lemma ln_inverse p A Ai : pd p A -> inverse p A Ai -> ln (rdet p Ai) = - ln (rdet p A).
Proof.
  intros HA HI. pose proof (pd_det_pos p A HA) as P. pose proof (rdet_inverse HI) as E.
  assert (P' : 0 < rdet p Ai) by (apply pd_det_pos; eapply inverse_pd; eauto).
  assert (ln (rdet p A * rdet p Ai) = 0) by (rewrite E; apply ln_1). rewrite ln_mult in H by auto. lra.
Qed.
Lemma rtrace_I n : rtrace n rI = INR n.
Proof. unfold rtrace, rI. rewrite (rsum_ext n _ (fun _ => 1)) by (intros; now rewrite Nat.eqb_refl). rewrite rsum_const. ring. Qed.
(** For a fixed mean, the likelihood is maximal exactly at the second-moment matrix. *)
Theorem gauss_likelihood_max p A Ai S Si m xs : xs <> [] -> meq p p S (second_moment m xs) ->
  pd p S -> inverse p S Si -> pd p A -> inverse p A Ai ->
  lmean (map (gauss_logpdf p A Ai m) xs) <= lmean (map (gauss_logpdf p S Si m) xs) /\
  (lmean (map (gauss_logpdf p A Ai m) xs) = lmean (map (gauss_logpdf p S Si m) xs) -> meq p p A S).
Proof.
  intros Hx HM HS HSi HA HAi. rewrite !lmean_gauss by auto.
  assert (T1 : rtrace p (rmul p Si (second_moment m xs)) = INR p).
  { rewrite <- rtrace_I. apply rtrace_ext. eapply meq_trans; [|apply (proj2 HSi)]. apply rmul_ext; auto using meq_refl, meq_sym. }
  assert (T2 : rtrace p (rmul p Ai (second_moment m xs)) = rtrace p (rmul p Ai S)).
  { apply rtrace_ext. apply rmul_ext; auto using meq_refl, meq_sym. }
  rewrite T1, T2. pose proof (inverse_pd p A Ai HA HAi) as HAi'.
  destruct (stein_ineq p Ai S HAi' HS) as [H0 H1].
  assert (EL : ln (rdet p Ai * rdet p S) = - ln (rdet p A) + ln (rdet p S)).
  { rewrite ln_mult by now apply pd_det_pos. now rewrite (ln_inverse p A Ai HA HAi). }
  rewrite EL in H0, H1. split; [lra|]. intros E.
  assert (I : inverse p S Ai) by (apply H1; lra).
  apply (inverse_unique p Ai); split; try apply I; apply HAi.
Qed.

(** About another centre the second moments grow by the squared shift. *)
Lemma second_moment_mean xs : forall i j, second_moment (mean_of xs) xs i j = pcov_of xs i j.
Proof. intros. unfold second_moment, pcov_of, lmean. now rewrite map_length. Qed.
Lemma second_moment_shift m xs i j : xs <> [] ->
  second_moment m xs i j = pcov_of xs i j + (mean_of xs i - m i) * (mean_of xs j - m j).
Proof.
  intros Hx. rewrite <- second_moment_mean. unfold second_moment.
  set (u := mean_of xs).
  assert (Hu : forall k, lmean (map (fun x => x k - u k) xs) = 0).
  { intros k. rewrite (lmean_ext _ (fun x => x k + - u k)) by (intros; ring).
    rewrite lmean_plus, lmean_const by auto. unfold u, mean_of, lmean. rewrite map_length. ring. }
  rewrite (lmean_ext _ (fun x => ((x i - u i) * (x j - u j) + ((u j - m j) * (x i - u i) + (u i - m i) * (x j - u j))) + (u i - m i) * (u j - m j)))
    by (intros; ring).
  rewrite !lmean_plus, !lmean_scal, !Hu, lmean_const by auto. ring.
Qed.
Lemma qf_trace p B d : sym p B -> rtrace p (rmul p B (fun i j => d i * d j)) = qf p B d.
Proof.
  intros HS. unfold rtrace, rmul, qf. apply rsum_ext. intros i Hi. apply rsum_ext. intros j Hj. ring.
Qed.
Lemma rtrace_second_moment p B m xs : xs <> [] -> sym p B ->
  rtrace p (rmul p B (second_moment m xs)) = rtrace p (rmul p B (pcov_of xs)) + qf p B (fun i => mean_of xs i - m i).
Proof.
  intros Hx HB. rewrite <- qf_trace by auto. unfold rtrace. rewrite <- rsum_plus. apply rsum_ext. intros i Hi.
  unfold rmul. rewrite <- rsum_plus. apply rsum_ext. intros j Hj. rewrite second_moment_shift by auto. ring.
Qed.
(** The sample mean and population covariance are the (unique) maximum-likelihood estimate. *)
Theorem gauss_mle p A Ai Si m xs : xs <> [] -> pd p (pcov_of xs) -> inverse p (pcov_of xs) Si -> pd p A -> inverse p A Ai ->
  lmean (map (gauss_logpdf p A Ai m) xs) <= lmean (map (gauss_logpdf p (pcov_of xs) Si (mean_of xs)) xs) /\
  (lmean (map (gauss_logpdf p A Ai m) xs) = lmean (map (gauss_logpdf p (pcov_of xs) Si (mean_of xs)) xs) ->
   meq p p A (pcov_of xs) /\ forall i, (i < p)%nat -> m i = mean_of xs i).
Proof.
  intros Hx HS HSi HA HAi. pose proof (inverse_pd p A Ai HA HAi) as HAi'.
  destruct (gauss_likelihood_max p A Ai (pcov_of xs) Si (mean_of xs) xs Hx) as [H1 H2]; auto.
  { intros i j _ _. symmetry. apply second_moment_mean. }
  assert (E : lmean (map (gauss_logpdf p A Ai m) xs) = lmean (map (gauss_logpdf p A Ai (mean_of xs)) xs) - qf p Ai (fun i => mean_of xs i - m i) / 2).
  { rewrite !lmean_gauss by auto. rewrite (rtrace_second_moment p Ai m xs Hx (proj1 HAi')).
    rewrite (rtrace_ext p (rmul p Ai (second_moment (mean_of xs) xs)) (rmul p Ai (pcov_of xs))); [lra|].
    apply rmul_ext; [apply meq_refl|]. intros i j _ _. apply second_moment_mean. }
  pose proof (proj2 (pd_psd p Ai HAi') (fun i => mean_of xs i - m i)) as Q. split; [lra|]. intros Eq. split; [apply H2; lra|].
  intros i Hi. destruct (Req_dec (m i) (mean_of xs i)) as [|N]; auto. exfalso.
  assert (0 < qf p Ai (fun i => mean_of xs i - m i)); [|lra].
  apply HAi'. exists i. split; auto. lra.
Qed.

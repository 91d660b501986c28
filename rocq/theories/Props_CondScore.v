(** * C66, C67, C100: precision_, mahalanobis and score of a ConditionalCovariance *)
From Coq Require Import Reals ZArith String List Lia Lra Psatz Arith Bool.
From Verif Require Import Num Numpy PyVal LinalgModel StateModel BaseModel Estimators RegistryModel
  Spec ListLemmas BaseProofs RMat LinSpec Fin RealSpec RunFin EwaReal RunAvg EmpFacts Props_Emp MomentReal Props_Moment Spectral MatAlg Det Contracts LinalgReal GaussSpec GaussReal AssessModel ScoreReal Props_Score
  ConditionalModel ConditionalSpec ConditionalProofs Props_Cond CondRealSpec CondReal Props_CondReal CondObjModel CondObjSpec Props_CondCorr.
Import ListNotations.
Local Open Scope R_scope.

(** precision_ of a ConditionalCovariance is the Moore-Penrose inverse of its covariance_. *)
Theorem C66_conditional_precision L {V : VolModel NumX} {C : EstClass NumX} (c : cond V C) p A :
  lawful L -> (1 <= p)%nat -> cond_covariance V c = Ok (fm p p A) -> sym p A ->
  exists B, cond_precision L c = Ok (fm p p B) /\ penrose p A B /\ sym p B /\ (invertible p A -> inverse p A B) /\ (psd p A -> psd p B).
Proof.
  intros HL Hp Ho HS. exists (tinv L p A). destruct (tinv_ok L HL p A Hp HS) as [E1 E2].
  split; [unfold cond_precision; rewrite Ho; exact E1|]. split; auto. split; [now apply (penrose_sym p A)|].
  split; [now apply tinv_inverse|now apply tinv_psd].
Qed.
(** mahalanobis: the quadratic form of precision_ at the deviation from location_, row by row. *)
Theorem C67_conditional_mahalanobis L {V : VolModel NumX} {C : EstClass NumX} (c : cond V C) p m B xs :
  (1 <= p)%nat -> cond_location V c = Ok (fv p m) -> cond_precision L c = Ok (fm p p B) ->
  cond_mahalanobis L c (In2 (map (fv p) xs)) = Ok (map (fun x => Fin (qf p B (fun i => x i - m i))) xs).
Proof.
  intros Hp Hm HB. unfold cond_mahalanobis. cbn [as_rows bind]. rewrite HB, Hm. cbn [bind].
  apply (mapM_map_ok _ (fv p)). intros x _. rewrite vsub_fin. cbn [bind]. now apply einsum_quad_fin.
Qed.
(** score is the assessors' log-likelihood of the centred rows under covariance_, for any number type. *)
Theorem C67_conditional_score_is_assessor_score (N : Num) (L : LinAlg N) (V : VolModel N) (C : EstClass N) (c : cond V C) cov loc rows centred :
  cond_covariance V c = Ok cov -> cond_location V c = Ok loc -> ncols rows = nrows cov -> mapM (fun row => vsub row loc) rows = Ok centred ->
  cond_score L c (In2 rows) = assess L LogLikelihood cov (Some centred) None.
Proof.
  intros Ho Hl Hn Hv. unfold cond_score. cbn [as_rows bind].
  assert (HP : cond_precision L c = try_invert L cov) by (unfold cond_precision; now rewrite Ho).
  rewrite HP. cbn [assess]. unfold gaussian_loglik. destruct (try_invert L cov) as [prec|] eqn:Et; cbn [bind]; [|reflexivity].
  destruct (la_slogdet L prec) as [[sg ld]|]; cbn [bind]; [|reflexivity].
  unfold cond_mahalanobis. cbn [as_rows bind]. rewrite HP. cbn [bind]. rewrite Hl. cbn [bind].
  assert (Q : mapM (fun row => c <- vsub row loc ;; einsum_quad c prec) rows = mapM (fun row => einsum_quad row prec) centred).
  { clear -Hv. revert centred Hv. induction rows as [|x rows IH]; intros centred; cbn [mapM].
    - intros [= <-]. reflexivity.
    - destruct (vsub x loc) as [d|] eqn:E; cbn [bind]; [|discriminate].
      destruct (mapM (fun row => vsub row loc) rows) as [cs|] eqn:E2; cbn [bind]; [|discriminate]. intros [= <-].
      cbn [mapM]. now rewrite (IH cs eq_refl). }
  rewrite Q. destruct (mapM _ centred); cbn [bind]; [|reflexivity]. now rewrite Hn.
Qed.
(** The score of a batch of rows when covariance_ can be inverted, positive definite or not: the sign of the determinant is dropped. *)
Definition unsigned_logpdf (p : nat) (A Ai : rmat) (m x : nat -> R) : R := - (INR p * ln (2 * PI) + ln (Rabs (rdet p A)) + qf p Ai (fun i => x i - m i)) / 2.
Lemma cond_score_fin L {V : VolModel NumX} {C : EstClass NumX} (c : cond V C) p m A xs :
  lawful L -> (1 <= p)%nat -> xs <> [] -> cond_location V c = Ok (fv p m) -> cond_covariance V c = Ok (fm p p A) -> sym p A -> invertible p A ->
  exists B, inverse p A B /\ cond_precision L c = Ok (fm p p B) /\ cond_score L c (In2 (map (fv p) xs)) = Ok (Fin (lmean (map (unsigned_logpdf p A B m) xs))).
Proof.
  intros HL Hp Hx Hm Ho HS HA. destruct (C66_conditional_precision L c p A HL Hp Ho HS) as (B & HB & HP & _ & HI & _). specialize (HI HA). exists B. split; [exact HI|]. split; [exact HB|].
  pose proof (C67_conditional_mahalanobis L c p m B xs Hp Hm HB) as M.
  assert (NC : @ncols NumX (map (fv p) xs) = p) by (destruct xs; [congruence|apply fv_length]).
  unfold cond_score. cbn [as_rows bind]. rewrite HB. cbn [bind]. pose proof (rdet_inverse HI) as D.
  assert (DA : rdet p A <> 0) by (intros Z; rewrite Z in D; lra). assert (DB : rdet p B <> 0) by (intros Z; rewrite Z in D; lra).
  destruct (law_slogdet L HL p B Hp) as [[Z _]|[_ ->]]; [contradiction|]. cbn [bind]. rewrite M. cbn [bind]. f_equal.
  assert (EL : ln (Rabs (rdet p B)) = - ln (Rabs (rdet p A))).
  { assert (E1 : Rabs (rdet p A) * Rabs (rdet p B) = 1) by (rewrite <- Rabs_mult, D; apply Rabs_R1). pose proof (Rabs_pos_lt _ DA). pose proof (Rabs_pos_lt _ DB).
    pose proof (ln_mult _ _ H H0) as EL. rewrite E1, ln_1 in EL. lra. }
  rewrite NC, nofn_fin, (law_log2pi L HL), lit5, map_map, <- vmean_map by auto. f_equal. apply map_ext_in. intros x _.
  rewrite !mul_fin, !sub_fin. f_equal. unfold unsigned_logpdf. rewrite EL. lra.
Qed.
(** Where covariance_ is positive definite, score is the mean Gaussian log-density N(location_, covariance_) of the rows. *)
Theorem C67_conditional_score L {V : VolModel NumX} {C : EstClass NumX} (c : cond V C) p m A xs :
  lawful L -> (1 <= p)%nat -> xs <> [] -> cond_location V c = Ok (fv p m) -> cond_covariance V c = Ok (fm p p A) -> pd p A ->
  exists B, inverse p A B /\ cond_precision L c = Ok (fm p p B) /\ cond_score L c (In2 (map (fv p) xs)) = Ok (Fin (lmean (map (gauss_logpdf p A B m) xs))).
Proof.
  intros HL Hp Hx Hm Ho HA. destruct (cond_score_fin L c p m A xs HL Hp Hx Hm Ho (proj1 HA) (pd_invertible p A HA)) as (B & HI & HB & E). exists B. split; [exact HI|]. split; [exact HB|].
  rewrite E. do 3 f_equal. apply map_ext. intros x. unfold unsigned_logpdf, gauss_logpdf. pose proof (pd_det_pos p A HA). rewrite Rabs_right by lra. reflexivity.
Qed.
(** The same from the data, for any pair of sub-models with known forecasts. *)
Theorem C67_conditional_score_of_stream L {Cv C : EstClass NumX} (vol : inst Cv) (corr : inst C) mu va p F xs ys :
  lawful L -> (1 <= p)%nat -> tracks vol mu va -> models p corr F -> xs <> [] -> ys <> [] ->
  let V := vol_of_estimator vol in let H := drd (fun i => va (col i xs)) (F (std_residuals mu va xs)) in
  pd p H ->
  exists c B, cond_partial_fit V corr (cond_new V) (In2 (map (fv p) xs)) = (c, Ok tt) /\ inverse p H B /\
    cond_score L c (In2 (map (fv p) ys)) = Ok (Fin (lmean (map (gauss_logpdf p H B (fun i => mu (col i xs))) ys))).
Proof.
  intros HL Hp H1 H2 Hx Hy V H HH. destruct (C48_closed_form vol corr mu va p F xs H1 H2 Hx) as (c & E1 & _ & E3 & E4).
  destruct (C67_conditional_score L c p _ H ys HL Hp Hy E3 E4 HH) as (B & A1 & _ & A3). exists c, B. auto.
Qed.

(** ** A covariance_ that is not positive semidefinite (C48_not_psd) *)
Lemma inverse_sym_swap p A B : inverse p A B -> inverse p B A.
Proof. intros [H1 H2]. now split. Qed.
Lemma not_psd_witness p A : sym p A -> ~ psd p A -> exists v, qf p A v < 0.
Proof.
  intros HS HN. destruct (Classical_Prop.classic (exists v, qf p A v < 0)) as [H|H]; [exact H|]. exfalso. apply HN. split; [exact HS|].
  intros v. destruct (Rle_lt_dec 0 (qf p A v)); [assumption|]. exfalso. apply H. now exists v.
Qed.
Lemma qf_stretch p B v t : qf p B (fun i => t * v i) = t ^ 2 * qf p B v.
Proof. unfold qf. rewrite <- rsum_scal. apply rsum_ext. intros i _. rewrite <- rsum_scal. apply rsum_ext. intros j _. ring. Qed.
(** Then mahalanobis is negative for some rows and score has no upper bound: it is not a log-density. *)
Theorem C100_score_unbounded L {V : VolModel NumX} {C : EstClass NumX} (c : cond V C) p m A :
  lawful L -> (1 <= p)%nat -> cond_location V c = Ok (fv p m) -> cond_covariance V c = Ok (fm p p A) -> sym p A -> invertible p A -> ~ psd p A ->
  (exists x q, cond_mahalanobis L c (In1 (fv p x)) = Ok [Fin q] /\ q < 0) /\
  forall M, exists x s, cond_score L c (In1 (fv p x)) = Ok (Fin s) /\ M < s.
Proof.
  intros HL Hp Hm Ho HS HA HN. destruct (cond_score_fin L c p m A [m] HL Hp ltac:(discriminate) Hm Ho HS HA) as (B & HI & HB & _).
  destruct (C66_conditional_precision L c p A HL Hp Ho HS) as (B' & HB' & HP & HSB & _).
  assert (MB : meq p p B' B) by (rewrite HB in HB'; injection HB' as HB'; intros i j Hi Hj; symmetry; now apply (fm_inj p p B B' i j)).
  assert (SB : sym p B) by (intros i j Hi Hj; rewrite <- (MB i j), <- (MB j i) by auto; now apply HSB).
  assert (NB : ~ psd p B). { intros PB. apply HN. apply (inverse_psd p B A PB). now apply inverse_sym_swap. }
  destruct (not_psd_witness p B SB NB) as (v & Hv). split.
  - exists (fun i => m i + v i), (qf p B v). split; [|exact Hv].
    change (In1 (fv p (fun i => m i + v i))) with (In1 (N := NumX) (fv p (fun i => m i + v i))).
    transitivity (cond_mahalanobis L c (In2 (map (fv p) [fun i => m i + v i]))); [reflexivity|]. rewrite (C67_conditional_mahalanobis L c p m B _ Hp Hm HB). cbn [map].
    do 3 f_equal. unfold qf. apply rsum_ext. intros i _. apply rsum_ext. intros j _. ring.
  - intros M. set (K := INR p * ln (2 * PI) + ln (Rabs (rdet p A))). set (q := qf p B v) in *.
    set (t := 1 + Rabs ((2 * M + K) / - q)). exists (fun i => m i + t * v i).
    destruct (cond_score_fin L c p m A [fun i => m i + t * v i] HL Hp ltac:(discriminate) Hm Ho HS HA) as (B2 & _ & HB2 & E2).
    assert (M2 : meq p p B2 B) by (rewrite HB in HB2; injection HB2 as HB2; intros i j Hi Hj; symmetry; now apply (fm_inj p p B B2 i j)).
    eexists. split; [exact E2|]. cbn [map]. unfold lmean. cbn [lsum length]. simpl INR. unfold unsigned_logpdf. fold K.
    assert (EQ : qf p B2 (fun i => m i + t * v i - m i) = t ^ 2 * q).
    { unfold q. rewrite <- (qf_stretch p B v t). unfold qf. apply rsum_ext. intros i Hi. apply rsum_ext. intros j Hj. rewrite (M2 i j) by auto. ring. }
    rewrite EQ. assert (Ht : 1 <= t) by (unfold t; pose proof (Rabs_pos ((2 * M + K) / - q)); lra).
    assert (Hb : 2 * M + K < t * - q). { assert (Z : (2 * M + K) / - q < t) by (unfold t; pose proof (Rle_abs ((2 * M + K) / - q)); lra). apply (Rmult_lt_compat_r (- q)) in Z; [|lra]. unfold Rdiv in Z. rewrite Rmult_assoc, Rinv_l, Rmult_1_r in Z by lra. exact Z. }
    clearbody q t K. assert (t * - q <= t ^ 2 * - q) by (apply Rmult_le_compat_r; [lra|]; replace t with (t * 1) at 1 by ring; replace (t ^ 2) with (t * t) by ring; apply Rmult_le_compat_l; lra). match goal with |- M < ?x => replace x with (- (K + t ^ 2 * q) / 2) by field end. lra.
Qed.

(** *** The documented default (two exponentially weighted models) reaches such a state *)
Lemma two_by_two A : sym 2 A -> 0 <= A 0%nat 0%nat -> 0 <= A 1%nat 1%nat -> ~ psd 2 A -> invertible 2 A.
Proof.
  intros HS H0 H1 HN. set (a := A 0%nat 0%nat) in *. set (d := A 1%nat 1%nat) in *. set (b := A 0%nat 1%nat).
  assert (Eb : A 1%nat 0%nat = b) by (unfold b; apply HS; lia).
  assert (Q : forall v, qf 2 A v = a * v 0%nat ^ 2 + 2 * b * (v 0%nat * v 1%nat) + d * v 1%nat ^ 2).
  { intros v. unfold qf. cbn [rsum]. rewrite Eb. fold a b d. ring. }
  assert (D : a * d - b ^ 2 < 0).
  { destruct (Rle_lt_dec 0 (a * d - b ^ 2)) as [Z|Z]; [|exact Z]. exfalso. apply HN. split; [exact HS|]. intros v. rewrite Q.
    set (x := v 0%nat). set (y := v 1%nat). destruct (Req_dec a 0) as [Ea|Ea].
    - assert (b = 0) by nra. rewrite Ea, H. nra.
    - assert (Pa : 0 < a) by lra. apply (Rmult_le_reg_l a); [exact Pa|].
      replace (a * (a * x ^ 2 + 2 * b * (x * y) + d * y ^ 2)) with ((a * x + b * y) ^ 2 + (a * d - b ^ 2) * y ^ 2) by ring.
      pose proof (pow2_ge_0 (a * x + b * y)). pose proof (pow2_ge_0 y). nra. }
  set (k := a * d - b ^ 2) in *.
  exists (fun i j => if Nat.eqb i j then A (1 - i)%nat (1 - i)%nat / k else - b / k).
  assert (K : k <> 0) by lra.
  split; intros i j Hi Hj; assert (Ci : i = 0%nat \/ i = 1%nat) by lia; assert (Cj : j = 0%nat \/ j = 1%nat) by lia;
    unfold rmul, rI; destruct Ci as [-> | ->], Cj as [-> | ->]; cbn [rsum Nat.eqb Nat.sub]; rewrite ?Eb; fold a b d;
    unfold k in *; field; exact K.
Qed.
Theorem C100_default_score_unbounded L r a b : lawful L -> 0 < r <= 1 -> 0 < a -> 0 < b -> a <> b ->
  exists c, ewa_pair_fit 2 r r [fun _ => 0; fun i => if Nat.eqb i 0 then a else b] c /\
    (exists x q, cond_mahalanobis L c (In1 (fv 2 x)) = Ok [Fin q] /\ q < 0) /\
    forall M, exists x s, cond_score L c (In1 (fv 2 x)) = Ok (Fin s) /\ M < s.
Proof.
  intros HL Hr Ha Hb Hab. set (xs := [fun _ => 0; fun i => if Nat.eqb i 0 then a else b] : list obs).
  destruct (C48_not_psd r a b Hr Ha Hb Hab) as (c & H & E1 & E2 & HN). fold xs in E1. exists c. split; [exact E1|].
  destruct (C48_ewa_ewa 2 r r xs Hr Hr ltac:(discriminate)) as (c' & F1 & _ & F2 & F3).
  assert (c' = c) by (unfold ewa_pair_fit in *; congruence). subst c'.
  set (G := drd _ _) in F3. assert (HG : meq 2 2 H G) by (assert (EE : fm 2 2 H = fm 2 2 G) by (assert (Z : Ok (fm 2 2 H) = Ok (fm 2 2 G)) by (etransitivity; [symmetry; exact E2|exact F3]); exact (f_equal (fun r => match r with Ok x => x | _ => fm 2 2 H end) Z)); intros i j Hi Hj; exact (fm_inj 2 2 H G i j EE Hi Hj)).
  assert (NG : ~ psd 2 G). { intros PG. apply HN. apply (psd_ext 2 G H); [|exact PG]. intros i j Hi Hj. symmetry. now apply HG. }
  assert (P : psd 2 (ewa_cov r (burn_len r) (std_residuals (ewa_mu r) (ewa_va r) xs))).
  { apply psd_ewa_cov. lra. }
  assert (SG : sym 2 G).
  { intros i j Hi Hj. unfold G, drd. rewrite (proj1 P i j Hi Hj), (Rmult_comm (ewa_cov _ _ _ i i)), (Rmult_comm (sqrt (Rmax (ewa_cov _ _ _ i i) _))). reflexivity. }
  assert (DG : forall i, (i < 2)%nat -> 0 <= G i i) by (intros i Hi; apply drd_diag_nonneg; now apply (psd_diag_nonneg 2)).
  apply (C100_score_unbounded L c 2 _ G HL ltac:(lia) F2 F3 SG); [|exact NG]. apply two_by_two; [exact SG|apply DG; lia|apply DG; lia|exact NG].
Qed.
(** The hypotheses of C67_conditional_score_of_stream are met: one series observed at 0 and then at a > 0. *)
Example C67_conditional_met L r a : lawful L -> 0 < r <= 1 -> 0 < a ->
  exists c H B, ewa_pair_fit 1 r r [fun _ => 0; fun _ => a] c /\ pd 1 H /\ inverse 1 H B /\
    cond_score L c (In2 (map (fv 1) [fun _ => 1])) = Ok (Fin (lmean (map (gauss_logpdf 1 H B (ewa_mean r (burn_len r) [fun _ => 0; fun _ => a])) [fun _ => 1]))).
Proof.
  intros HL Hr Ha. set (z := (fun _ : nat => 0) : obs). set (w := (fun _ : nat => a) : obs).
  destruct (C48_ewa_ewa 1 r r [z; w] Hr Hr) as (c & E1 & _ & E3 & E2); [discriminate|].
  set (es := std_residuals (ewa_mu r) (ewa_va r) [z; w]) in E2. set (sd := sqrt (1 / 10 ^ 12)).
  assert (Sd : 0 < sd) by (apply sqrt_lt_R0; lra).
  assert (Es : es = [std_residual (ewa_mu r) (ewa_va r) [] z; std_residual (ewa_mu r) (ewa_va r) [z] w]) by reflexivity.
  set (k := / (2 * sd)). assert (Kp : 0 < k) by (apply Rinv_0_lt_compat; lra).
  assert (EF : ewa_cov r (burn_len r) es 0%nat 0%nat = (k * a) * (k * a)).
  { rewrite Es, ewa_cov_two. rewrite !(proj1 (C48_ewa_residuals r [] z _)), !(proj2 (C48_ewa_residuals r [z] w _)) by discriminate.
    rewrite !ewa_mean_one, !ewa_cov_one. rewrite Rmax_right by lra. fold sd. unfold z, w, k. field. lra. }
  set (H := drd _ _) in E2. assert (P : pd 1 H).
  { assert (K1 : 0 < k * a) by nra. assert (K2 : 0 < (k * a) * (k * a)) by nra.
    assert (P0 : 0 < H 0%nat 0%nat).
    { unfold H. rewrite drd_diag by (rewrite EF; lra). rewrite EF. set (f := (k * a) * (k * a)) in *. set (v := ewa_cov _ _ _ _ _).
      pose proof (Rmax_r v (1 / 10 ^ 12)). apply Rmult_lt_0_compat; [|lra]. apply Rdiv_lt_0_compat; lra. }
    split; [intros i j Hi Hj; now replace i with j by lia|]. intros v (i & Hi & Hv). replace i with 0%nat in Hv by lia. unfold qf. cbn [rsum]. clearbody H. assert (V : 0 < v 0%nat * v 0%nat) by (destruct (Rdichotomy _ _ Hv); nra). pose proof (Rmult_lt_0_compat _ _ P0 V). lra. }
  destruct (C67_conditional_score L c 1 _ H [fun _ => 1] HL ltac:(lia) ltac:(discriminate) E3 E2 P) as (B & A1 & _ & A3).
  exists c, H, B. auto.
Qed.

(** * C91: the gamma-Schur score is a quadratic form in the data; Kullback-Leibler divergence; the discrimination ratio

    research/schur_godambe.py.  [expected_schur_loglik] (research/schur_likelihood_theory.py) and [schur_operator] are two
    independently written programs: here each candidate's score is shown to be the quadratic form the second one returns. *)
From Coq Require Import Reals ZArith String List Lia Lra Arith Bool.
From Verif Require Import Num Numpy LinalgModel ListLemmas RMat LinSpec Fin RealSpec Spectral MatAlg Det Contracts LinalgReal GaussSpec GaussReal ScoreReal ShrinkReal
  AssessSpec AssessBlock ResearchModel ResearchSpec ResearchReal ResearchTwo Props_Research ResearchRun ResearchOp Props_ResearchBlocks Props_Improper Props_Corr.
Import ListNotations.
Local Open Scope R_scope.

(** ** The score is a quadratic form *)
Theorem C91_score_is_quadratic (L : LinAlg NumX) (log : NumX -> NumX) T A g sizes p v : lawful L -> is_log log -> sizes_ok sizes p -> sym p T -> sym p A ->
  expected_schur_loglik L log (fm p p T) (fm p p A) sizes (Fin g) = Ok (Fin v) ->
  exists W Ld, schur_operator L (fm p p A) sizes (Fin g) = Ok (fm p p W, Fin Ld) /\ psd p W /\
    v = - (1 / 2) * (Ld + rtrace p (rmul p W T)).
Proof.
  intros HL Hlog [Hf Hs] HT HA E. assert (Ht : total 0 sizes = p) by now rewrite total_sum.
  unfold expected_schur_loglik, blocks_of in E. assert (N0 : @n0 NumX = Fin 0) by apply n0_fin. rewrite N0 in E. change (@nil nat) with (seq 0 0) in E.
  destruct (op_expected L HL log Hlog T A g sizes 0%nat 0 p v (fun _ _ => 0) 0 Ht Hf HT HA) as (W & Ld & E1 & E2 & E3 & E4); [intros i j _ _; reflexivity|exact E|].
  exists W, Ld. unfold schur_operator, blocks_of. change (fold_left Nat.add sizes 0%nat) with (total 0 sizes). rewrite Ht, mzeros_fin, N0. change (@nil nat) with (seq 0 0). rewrite E1. cbn [bind].
  rewrite half_sym_sym by auto. cbn [bind]. split; [reflexivity|].
  assert (Z : forall x, qf p (fun _ _ => 0) x = 0) by (intros x; unfold qf; apply rsum_zero; intros; apply rsum_zero; intros; ring).
  split. { split; [exact E2|]. intros x. rewrite <- (Z x). apply E3. }
  assert (Z2 : rtrace p (rmul p (fun _ _ => 0) T) = 0) by (unfold rtrace, rmul; apply rsum_zero; intros; apply rsum_zero; intros; ring). rewrite Z2 in E4. lra.
Qed.
(** Over any non-empty sample, the score at the sample's second moment is the average of -1/2 (Ld + x^T W x). *)
Theorem C91_score_of_a_sample (L : LinAlg NumX) (log : NumX -> NumX) (xs : list obs) A g sizes p v : lawful L -> is_log log -> sizes_ok sizes p -> sym p A -> xs <> [] ->
  expected_schur_loglik L log (fm p p (second_moment (fun _ => 0) xs)) (fm p p A) sizes (Fin g) = Ok (Fin v) ->
  exists W Ld, schur_operator L (fm p p A) sizes (Fin g) = Ok (fm p p W, Fin Ld) /\
    v = lmean (map (fun x => - (1 / 2) * (Ld + qf p W x)) xs).
Proof.
  intros HL Hlog HS HA Hx E. destruct (C91_score_is_quadratic L log _ A g sizes p v HL Hlog HS (second_moment_sym p (fun _ => 0) xs) HA E) as (W & Ld & E1 & E2 & E3).
  exists W, Ld. split; [exact E1|]. rewrite E3, <- lmean_qf', lmean_scal, lmean_plus, lmean_const by auto. do 2 f_equal. apply lmean_ext. intros x _. unfold qf. apply rsum_ext. intros i Hi. apply rsum_ext. intros. now rewrite !Rminus_0_r.
Qed.

(** ** Full trust: the operator is the inverse of the candidate and Ld its log determinant *)
Theorem C91_full_trust (L : LinAlg NumX) A sizes p : lawful L -> sizes_ok sizes p -> pd p A ->
  exists W, schur_operator L (fm p p A) sizes (Fin 1) = Ok (fm p p W, Fin (ln (rdet p A))) /\ inverse p A W.
Proof.
  intros HL [Hf Hs] HA. assert (Ht : total 0 sizes = p) by now rewrite total_sum.
  destruct (op_full L HL A sizes 0%nat p (fun _ _ => 0) 0 Ht Hf HA) as (W & E1 & E2 & E3).
  - intros i j _ _; reflexivity.
  - intros; reflexivity.
  - intros i j Hi; lia.
  - assert (E : rdet 0 A = 1) by (rewrite <- (rdet_I 0); apply rdet_ext; intros i j Hi; lia). now rewrite E, ln_1.
  - exists W. unfold schur_operator, blocks_of. change (fold_left Nat.add sizes 0%nat) with (total 0 sizes). rewrite Ht, mzeros_fin. assert (N0 : @n0 NumX = Fin 0) by apply n0_fin. rewrite N0.
    change (@nil nat) with (seq 0 0). rewrite E1. cbn [bind]. rewrite half_sym_sym by auto. cbn [bind]. split; [reflexivity|]. split; [|exact E3].
    intros i j Hi Hj. rewrite (rI_sym i j), <- (E3 j i Hj Hi). unfold rmul. apply rsum_ext. intros k Hk. rewrite (proj1 HA i k), (E2 k j) by auto. ring.
Qed.

(** ** Kullback-Leibler divergence *)
Definition kl_of (p : nat) (Ai A T : rmat) : R := 1 / 2 * (rtrace p (rmul p Ai T) - INR p + ln (rdet p A) - ln (rdet p T)).
Theorem C91_divergence (L : LinAlg NumX) A T p : lawful L -> (1 <= p)%nat -> pd p A -> pd p T ->
  exists Ai, inverse p A Ai /\ kl L (fm p p A) (fm p p T) = Ok (Fin (kl_of p Ai A T)) /\ 0 <= kl_of p Ai A T /\ (kl_of p Ai A T = 0 <-> meq p p A T).
Proof.
  intros HL Hp HA HT. destruct (law_inv L HL p A Hp (proj1 HA)) as [(Ai & E & HI)|(_ & HN)]; [|exfalso; apply HN, pd_invertible, HA].
  exists Ai. split; [exact HI|]. pose proof (pd_det_pos p A HA) as DA. pose proof (pd_det_pos p T HT) as DT.
  split.
  { unfold kl. rewrite E. cbn [bind]. rewrite matmul_fin by auto. cbn [bind].
    destruct (law_slogdet L HL p A Hp) as [(Z & _)|(_ & EA)]; [lra|]. destruct (law_slogdet L HL p T Hp) as [(Z & _)|(_ & ET)]; [lra|]. rewrite EA. cbn [bind]. rewrite ET. cbn [bind].
    rewrite mtrace_fin, fm_nrows, nofZ_fin, <- INR_IZR_INZ, phalf_fin by auto. rewrite !Rabs_right by lra. reflexivity. }
  destruct (stein_pair p A Ai T HA HT HI) as [S1 S2]. unfold kl_of. split; [lra|]. split; [intros K; apply S2; lra|]. intros K.
  rewrite (rdet_ext K). assert (TR : rtrace p (rmul p Ai T) = INR p).
  { rewrite <- (inverse_trace p A Ai HI). apply rtrace_ext, rmul_ext; [apply meq_refl|apply meq_sym, K]. }
  rewrite TR. lra.
Qed.

(** ** The discrimination ratio *)
Lemma var_congr p D T : sym p D -> pd p T -> 0 <= rtrace p (rmul p (rmul p D T) (rmul p D T)) /\
  (rtrace p (rmul p (rmul p D T) (rmul p D T)) = 0 -> meq p p D (fun _ _ => 0)).
Proof.
  intros HD HT. destruct (pd_sqrt p T HT) as (R & Ri & SR & SRi & HR & HRi). set (W := rmul p R (rmul p D R)).
  assert (SW : sym p W).
  { intros i j Hi Hj. unfold W, rmul. rewrite (rsum_ext p _ (fun k => rsum p (fun l => R i k * (D k l * R l j)))) by (intros; symmetry; apply rsum_scal).
    rewrite (rsum_ext p (fun k => R j k * _) (fun k => rsum p (fun l => R j k * (D k l * R l i)))) by (intros; symmetry; apply rsum_scal).
    rewrite rsum_swap. apply rsum_ext. intros l Hl. apply rsum_ext. intros k Hk. rewrite (SR i k), (SR j l), (HD k l) by auto. ring. }
  assert (EV : rtrace p (rmul p (rmul p D T) (rmul p D T)) = fro2 p W).
  { rewrite fro2_trace. transitivity (rtrace p (rmul p W W)).
    - transitivity (rtrace p (rmul p (rmul p (rmul p D R) (rmul p R (rmul p D R))) R)).
      + apply rtrace_ext. intros i j Hi Hj. 
        assert (X : meq p p (rmul p D T) (rmul p (rmul p D R) R)).
        { intros a b Ha Hb. rewrite rmul_assoc. unfold rmul at 1 2. apply rsum_ext. intros k Hk. now rewrite (HR k b Hk Hb). }
        rewrite (rmul_ext p p p _ _ _ _ X X i j Hi Hj). rewrite (rmul_assoc p p (rmul p D R) R (rmul p (rmul p D R) R) i j), (rmul_assoc p p (rmul p D R) (rmul p R (rmul p D R)) R i j).
        unfold rmul at 1 4. apply rsum_ext. intros k Hk. f_equal. symmetry. apply rmul_assoc.
      + rewrite rtrace_comm. apply rtrace_ext. intros i j Hi Hj. unfold W. symmetry. apply rmul_assoc.
    - apply rtrace_ext. apply rmul_ext; [|apply meq_refl]. apply meq_sym. now apply sym_T. }
  rewrite EV. split; [apply fro2_nonneg|]. intros Z. assert (W0 : meq p p W (fun _ _ => 0)) by (intros i j Hi Hj; apply (fro2_zero p W); lra || auto).
  intros i j Hi Hj.
  assert (Q : rmul p Ri (rmul p W Ri) i j = D i j).
  { transitivity (rmul p rI (rmul p D rI) i j). 2:{ rewrite rmul_I_l by auto. now apply rmul_I_r. }
    transitivity (rmul p (rmul p Ri R) (rmul p D (rmul p R Ri)) i j).
    - rewrite rmul_assoc. unfold rmul at 1 3. apply rsum_ext. intros k Hk. f_equal. unfold W. rewrite rmul_assoc. unfold rmul at 1 3. apply rsum_ext. intros l Hl. f_equal. apply rmul_assoc.
    - apply (rmul_ext p p p); auto; [apply HRi|]. apply rmul_ext; [apply meq_refl|apply HRi]. }
  rewrite <- Q. unfold rmul at 1. apply rsum_zero. intros k Hk. unfold rmul. rewrite rsum_zero; [ring|]. intros l Hl. rewrite W0 by auto. ring.
Qed.

(** the score difference has variance 1/2 tr(((W_A - W_B) T)^2) under N(0, T) *)
Definition spread (p : nat) (WA WB T : rmat) : R :=
  let M := rmul p (fun i j => WA i j - WB i j) T in sqrt (1 / 2 * rtrace p (rmul p M M)).
Lemma snr_fin L A B T sizes g p WA WB LA LB : (1 <= p)%nat -> sym p WA -> sym p WB -> pd p T ->
  schur_operator L (fm p p A) sizes (Fin g) = Ok (fm p p WA, Fin LA) -> schur_operator L (fm p p B) sizes (Fin g) = Ok (fm p p WB, Fin LB) ->
  (meq p p WA WB -> snr L (fm p p A) (fm p p B) (fm p p T) sizes (Fin g) = Ok PInf) /\
  (~ meq p p WA WB -> 0 < spread p WA WB T /\ snr L (fm p p A) (fm p p B) (fm p p T) sizes (Fin g) =
     Ok (Fin ((- (1 / 2) * (LA + rtrace p (rmul p WA T)) - - (1 / 2) * (LB + rtrace p (rmul p WB T))) / spread p WA WB T))).
Proof.
  intros Hp SA SB HT EA EB. set (D := fun i j => WA i j - WB i j). set (M := rmul p D T).
  assert (SD : sym p D) by (intros i j Hi Hj; unfold D; rewrite (SA i j), (SB i j) by auto; reflexivity).
  destruct (var_congr p D T SD HT) as [V1 V2]. fold M in V1, V2.
  assert (E : snr L (fm p p A) (fm p p B) (fm p p T) sizes (Fin g) =
    Ok (if Rltb 0 (1 / 2 * rtrace p (rmul p M M)) then @ndiv NumX (Fin (- (1 / 2) * (LA - LB + rtrace p M))) (@nsqrt NumX (Fin (1 / 2 * rtrace p (rmul p M M)))) else plus_inf)).
  { unfold snr. rewrite EA. cbn [bind]. rewrite EB. cbn [bind]. rewrite msub_fin. cbn [bind]. rewrite matmul_fin by auto. cbn [bind]. fold D M. rewrite matmul_fin by auto. cbn [bind].
    rewrite !mtrace_fin, mhalf_fin, phalf_fin. reflexivity. }
  assert (TM : rtrace p M = rtrace p (rmul p WA T) - rtrace p (rmul p WB T)).
  { unfold M, D, rtrace, rmul. rewrite <- rsum_minus. apply rsum_ext. intros i Hi. rewrite <- rsum_minus. apply rsum_ext. intros; ring. }
  rewrite E. unfold Rltb. split.
  - intros K. assert (Z : rtrace p (rmul p M M) = 0).
    { unfold rtrace. apply rsum_zero. intros i Hi. unfold rmul at 1. apply rsum_zero. intros k Hk. unfold M at 1, rmul. rewrite rsum_zero; [ring|]. intros l Hl. unfold D. rewrite K by auto. ring. }
    rewrite Z. destruct (Rlt_dec 0 (1 / 2 * 0)); [lra|]. f_equal. unfold plus_inf. cbn. unfold Reqb, Rltb. destruct (Req_EM_T 0 0); [|lra]. destruct (Rlt_dec 0 1); [reflexivity|lra].
  - intros K. assert (P : 0 < rtrace p (rmul p M M)).
    { destruct V1 as [V1|V1]; [exact V1|]. exfalso. apply K. intros i j Hi Hj. pose proof (V2 (eq_sym V1) i j Hi Hj) as Z. unfold D in Z. lra. }
    assert (P2 : 0 < sqrt (1 / 2 * rtrace p (rmul p M M))) by (apply sqrt_lt_R0; lra).
    split; [exact P2|]. destruct (Rlt_dec 0 (1 / 2 * rtrace p (rmul p M M))); [|lra]. rewrite sqrt_fin, div_fin by lra. do 2 f_equal. unfold spread. fold D. cbv zeta. fold M. rewrite TM. f_equal. ring.
Qed.

(** Whenever both candidates have a finite expected score, the ratio is the difference of the scores over the (positive) spread; it is +inf when the
    two operators coincide, and reversing the candidates flips its sign. *)
Theorem C91_ratio (L : LinAlg NumX) (log : NumX -> NumX) T A B g sizes p a b : lawful L -> is_log log -> (1 <= p)%nat -> sizes_ok sizes p -> pd p T -> sym p A -> sym p B ->
  expected_schur_loglik L log (fm p p T) (fm p p A) sizes (Fin g) = Ok (Fin a) -> expected_schur_loglik L log (fm p p T) (fm p p B) sizes (Fin g) = Ok (Fin b) ->
  exists WA WB LA LB, schur_operator L (fm p p A) sizes (Fin g) = Ok (fm p p WA, Fin LA) /\ schur_operator L (fm p p B) sizes (Fin g) = Ok (fm p p WB, Fin LB) /\
    let snr_AB := snr L (fm p p A) (fm p p B) (fm p p T) sizes (Fin g) in
    let snr_BA := snr L (fm p p B) (fm p p A) (fm p p T) sizes (Fin g) in
    (meq p p WA WB -> snr_AB = Ok PInf /\ snr_BA = Ok PInf) /\
    (~ meq p p WA WB -> 0 < spread p WA WB T /\ snr_AB = Ok (Fin ((a - b) / spread p WA WB T)) /\ snr_BA = Ok (Fin (- ((a - b) / spread p WA WB T)))).
Proof.
  intros HL Hlog Hp HS HT HA HB EA EB. destruct (C91_score_is_quadratic L log T A g sizes p a HL Hlog HS (proj1 HT) HA EA) as (WA & LA & E1 & PA & V1).
  destruct (C91_score_is_quadratic L log T B g sizes p b HL Hlog HS (proj1 HT) HB EB) as (WB & LB & E2 & PB & V2).
  exists WA, WB, LA, LB. split; [exact E1|]. split; [exact E2|]. cbv zeta.
  destruct (snr_fin L A B T sizes g p WA WB LA LB Hp (proj1 PA) (proj1 PB) HT E1 E2) as [Q1 Q2].
  destruct (snr_fin L B A T sizes g p WB WA LB LA Hp (proj1 PB) (proj1 PA) HT E2 E1) as [Q3 Q4].
  assert (SP : spread p WB WA T = spread p WA WB T).
  { unfold spread. do 2 f_equal. apply rtrace_ext. intros i j Hi Hj. unfold rmul. apply rsum_ext. intros k Hk.
    rewrite <- !rsum_scal_r. apply rsum_ext. intros l Hl. rewrite <- !rsum_scal. 
    rewrite (rsum_ext p (fun m => (WB i l - WA i l) * T l k * ((WB k m - WA k m) * T m j)) (fun m => (WA i l - WB i l) * T l k * ((WA k m - WB k m) * T m j))) by (intros; ring). reflexivity. }
  split; intros K.
  - split; [now apply Q1|]. apply Q3. now apply meq_sym.
  - destruct (Q2 K) as [P R1]. destruct Q4 as [_ R2]; [intros K'; apply K; now apply meq_sym|]. split; [exact P|]. rewrite R1, R2, SP, <- V1, <- V2. split; [reflexivity|]. do 2 f_equal. field. lra.
Qed.
(** At gamma = 1 the ratio of two distinct positive definite candidates is (KL_B - KL_A) / spread: it is positive exactly when A is nearer the truth. *)
Theorem C91_full_trust_ranks_by_divergence (L : LinAlg NumX) T A B sizes p : lawful L -> (1 <= p)%nat -> sizes_ok sizes p -> pd p T -> pd p A -> pd p B ->
  snr L (fm p p A) (fm p p A) (fm p p T) sizes (Fin 1) = Ok PInf /\
  (~ meq p p A B -> exists ka kb s r, kl L (fm p p A) (fm p p T) = Ok (Fin ka) /\ kl L (fm p p B) (fm p p T) = Ok (Fin kb) /\
     snr L (fm p p A) (fm p p B) (fm p p T) sizes (Fin 1) = Ok (Fin r) /\ 0 < s /\ r = (kb - ka) / s /\ (0 < r <-> ka < kb)).
Proof.
  intros HL Hp HS HT HA HB. destruct (C91_full_trust L A sizes p HL HS HA) as (WA & E1 & IA). destruct (C91_full_trust L B sizes p HL HS HB) as (WB & E2 & IB).
  pose proof (inverse_pd p A WA HA IA) as PA. pose proof (inverse_pd p B WB HB IB) as PB.
  split. { apply (snr_fin L A A T sizes 1 p WA WA (ln (rdet p A)) (ln (rdet p A)) Hp (proj1 PA) (proj1 PA) HT E1 E1). apply meq_refl. }
  intros K. destruct (snr_fin L A B T sizes 1 p WA WB (ln (rdet p A)) (ln (rdet p B)) Hp (proj1 PA) (proj1 PB) HT E1 E2) as [_ Q]. destruct Q as [P R].
  { intros M. apply K. apply (inverse_unique p WA); [split; apply IA|]. assert (I : inverse p B WA) by (apply (inverse_ext p B B WB WA); auto using meq_refl, meq_sym). split; apply I. }
  destruct (C91_divergence L A T p HL Hp HA HT) as (Ai & IA' & KA & _). destruct (C91_divergence L B T p HL Hp HB HT) as (Bi & IB' & KB & _).
  exists (kl_of p Ai A T), (kl_of p Bi B T), (spread p WA WB T). eexists. split; [exact KA|]. split; [exact KB|]. split; [exact R|]. split; [exact P|].
  assert (TA : rtrace p (rmul p Ai T) = rtrace p (rmul p WA T)) by (apply rtrace_ext, rmul_ext; [apply (inverse_unique p A); auto|apply meq_refl]).
  assert (TB : rtrace p (rmul p Bi T) = rtrace p (rmul p WB T)) by (apply rtrace_ext, rmul_ext; [apply (inverse_unique p B); auto|apply meq_refl]).
  assert (V : - (1 / 2) * (ln (rdet p A) + rtrace p (rmul p WA T)) - - (1 / 2) * (ln (rdet p B) + rtrace p (rmul p WB T)) = kl_of p Bi B T - kl_of p Ai A T) by (unfold kl_of; rewrite TA, TB; lra).
  rewrite V. split; [reflexivity|]. split.
  - intros H. assert (H2 : 0 < (kl_of p Bi B T - kl_of p Ai A T) / spread p WA WB T * spread p WA WB T) by now apply Rmult_lt_0_compat.
    unfold Rdiv in H2. rewrite Rmult_assoc, Rinv_l in H2 by lra. lra.
  - intros H. apply Rdiv_lt_0_compat; lra.
Qed.

(** the hypotheses are met: the truth I, the candidates I and 2 I, two blocks *)
Example C91_witness : exists L log W, lawful L /\ is_log log /\
  schur_operator L (fm 2 2 rI) [1; 1]%nat (Fin 1) = Ok (fm 2 2 W, Fin (ln (rdet 2 rI))) /\ inverse 2 rI W /\
  expected_schur_loglik L log (fm 2 2 rI) (fm 2 2 rI) [1; 1]%nat (Fin 1) = Ok (Fin (best_value 2 rI)) /\
  exists r, snr L (fm 2 2 rI) (fm 2 2 (fun i j => 2 * rI i j)) (fm 2 2 rI) [1; 1]%nat (Fin 1) = Ok (Fin r) /\ 0 < r.
Proof.
  destruct lawful_satisfiable as [L HL]. destruct is_log_exists as [log Hlog].
  assert (HS : sizes_ok [1; 1]%nat 2) by (split; [repeat constructor|reflexivity]).
  assert (QI : forall c v, qf 2 (fun i j => c * rI i j) v = c * (v 0%nat * v 0%nat + v 1%nat * v 1%nat)) by (intros; unfold qf, rI; cbn; ring).
  assert (PC : forall c, 0 < c -> pd 2 (fun i j => c * rI i j)).
  { intros c Hc. split; [intros i j _ _; f_equal; apply rI_sym|]. intros v (i & Hi & Hv). rewrite QI. apply Rmult_lt_0_compat; [exact Hc|].
    assert (0 <= v 0%nat * v 0%nat) by apply Rle_0_sqr. assert (0 <= v 1%nat * v 1%nat) by apply Rle_0_sqr. assert (0 < v i * v i) by (apply Rdichotomy in Hv; nra).
    destruct i as [|[|i]]; [lra|lra|lia]. }
  assert (PI1 : pd 2 rI) by (apply (pd_ext 2 (fun i j => 1 * rI i j)); [intros i j _ _; ring|apply PC; lra]).
  destruct (C91_full_trust L rI [1; 1]%nat 2 HL HS PI1) as (W & E1 & E2). exists L, log, W. split; [exact HL|]. split; [exact Hlog|]. split; [exact E1|]. split; [exact E2|].
  split; [apply (C88_full_trust L log rI [1; 1]%nat 2 HL Hlog HS PI1)|].
  destruct (C91_full_trust_ranks_by_divergence L rI rI (fun i j => 2 * rI i j) [1; 1]%nat 2 HL ltac:(lia) HS PI1 PI1 (PC 2 ltac:(lra))) as [_ Q].
  destruct Q as (ka & kb & s & r & K1 & K2 & K3 & K4 & K5 & K6). { intros M. pose proof (M 0%nat 0%nat ltac:(lia) ltac:(lia)) as Z. unfold rI in Z. cbn in Z. lra. }
  exists r. split; [exact K3|]. apply K6.
  destruct (C91_divergence L rI rI 2 HL ltac:(lia) PI1 PI1) as (J & _ & D1 & _ & D2). destruct (C91_divergence L (fun i j => 2 * rI i j) rI 2 HL ltac:(lia) (PC 2 ltac:(lra)) PI1) as (J2 & _ & D3 & D4 & D5).
  rewrite K1 in D1. injection D1 as ->. rewrite K2 in D3. injection D3 as ->. assert (Z : kl_of 2 J rI rI = 0) by (apply D2, meq_refl). rewrite Z. destruct D4 as [D4|D4]; [exact D4|].
  exfalso. pose proof (proj1 D5 (eq_sym D4) 0%nat 0%nat ltac:(lia) ltac:(lia)) as Y. unfold rI in Y. cbn in Y. lra.
Qed.

(** * C98: the spiked-model script (research/schur_spiked.py) and the candidates of research/schur_godambe.py *)
From Coq Require Import Reals ZArith List Lia Lra Arith Bool Psatz Classical.
From Verif Require Import Num Numpy ListLemmas RMat LinSpec Fin RealSpec EwaReal EmpFacts ShrinkReal Spectral MatAlg Det Contracts LinalgReal GaussSpec GaussReal Props_Improper
  ResearchSpec ResearchReal ResearchModel Props_Research ResearchRun ResearchTwo Props_Canonical Props_ResearchBlocks ResearchOp Props_Godambe MetricReal SpikedModel.
Import ListNotations.
Local Open Scope R_scope.

(** ** Trace of a product of semidefinite matrices *)
Lemma psd_trace_nonneg p A : psd p A -> 0 <= rtrace p A.
Proof. intros H. unfold rtrace. apply rsum_nonneg. intros. now apply (psd_diag_nonneg p). Qed.
Lemma trace_pd_psd p X Y : pd p X -> psd p Y -> 0 <= rtrace p (rmul p X Y).
Proof.
  intros HX HY. destruct (pd_sqrt p X HX) as (R & Ri & SR & _ & ER & _).
  assert (E : rtrace p (rmul p X Y) = rtrace p (rmul p (rT R) (rmul p Y R))).
  { rewrite (rtrace_ext p _ (rmul p R (rmul p R Y))).
    2:{ eapply meq_trans; [apply rmul_ext; [apply meq_sym, ER|apply meq_refl]|apply mul_assoc]. }
    rewrite rtrace_comm. apply rtrace_ext. eapply meq_trans; [apply mul_assoc|]. apply rmul_ext; [|apply meq_refl]. apply meq_sym. now apply sym_T. }
  rewrite E. apply psd_trace_nonneg. now apply psd_congr.
Qed.

Lemma rtrace_scal' p c X : rtrace p (fun i j => c * X i j) = c * rtrace p X.
Proof. unfold rtrace. now rewrite rsum_scal. Qed.
Lemma rtrace_minus' p X Y : rtrace p (fun i j => X i j - Y i j) = rtrace p X - rtrace p Y.
Proof. unfold rtrace. now rewrite rsum_minus. Qed.

(** ** Divergence from the truth grows along every line through the truth *)
Definition along (T P : rmat) (e : R) : rmat := fun i j => T i j + e * P i j.
Lemma along_grows p T P a b Ai Bi : pd p T -> sym p P -> pd p (along T P a) -> pd p (along T P b) -> inverse p (along T P a) Ai -> inverse p (along T P b) Bi ->
  0 <= a <= b -> kl_of p Ai (along T P a) T <= kl_of p Bi (along T P b) T /\
  (a < b -> (exists i j, (i < p)%nat /\ (j < p)%nat /\ P i j <> 0) -> kl_of p Ai (along T P a) T < kl_of p Bi (along T P b) T).
Proof.
  intros HT HP HA HB IA IB Hab. set (A := along T P a) in *. set (B := along T P b) in *.
  pose proof (inverse_pd p A Ai HA IA) as PA. pose proof (inverse_pd p B Bi HB IB) as PB.
  destruct (stein_pair p B Bi A HB HA IB) as [S1 S2].
  assert (TI : rtrace p (rmul p Ai A) = INR p) by apply (inverse_trace p A Ai IA).
  (* tr(Bi (T - A)) = - a tr(Bi P), tr(Ai (A - T)) = a tr(Ai P) *)
  assert (LA : forall X, rtrace p (rmul p X A) = rtrace p (rmul p X T) + a * rtrace p (rmul p X P)).
  { intros X. unfold rtrace. rewrite <- rsum_scal, <- rsum_plus. apply rsum_ext. intros i _. unfold rmul. rewrite <- rsum_scal, <- rsum_plus. apply rsum_ext. intros k _. unfold A, along. ring. }
  assert (LB : forall X, rtrace p (rmul p X B) = rtrace p (rmul p X A) + (b - a) * rtrace p (rmul p X P)).
  { intros X. unfold rtrace. rewrite <- rsum_scal, <- rsum_plus. apply rsum_ext. intros i _. unfold rmul. rewrite <- rsum_scal, <- rsum_plus. apply rsum_ext. intros k _. unfold B, A, along. ring. }
  (* tr(Ai P) - tr(Bi P) = (b - a) tr(Ai P Bi P) *)
  assert (D : rtrace p (rmul p Ai P) - rtrace p (rmul p Bi P) = (b - a) * rtrace p (rmul p Ai (rmul p P (rmul p Bi P)))).
  { assert (E1 : rtrace p (rmul p Ai P) = rtrace p (rmul p Ai (rmul p B (rmul p Bi P)))).
    { apply rtrace_ext, rmul_ext; [apply meq_refl|]. apply meq_sym. eapply meq_trans; [apply meq_sym, mul_assoc|]. eapply meq_trans; [apply rmul_ext; [apply IB|apply meq_refl]|apply mul_I_l]. }
    assert (E2 : rtrace p (rmul p Bi P) = rtrace p (rmul p Ai (rmul p A (rmul p Bi P)))).
    { apply rtrace_ext. apply meq_sym. eapply meq_trans; [apply meq_sym, mul_assoc|]. eapply meq_trans; [apply rmul_ext; [apply IA|apply meq_refl]|apply mul_I_l]. }
    rewrite E1, E2. rewrite <- (rtrace_scal' p (b - a)). rewrite <- rtrace_minus'. apply rtrace_ext. intros i j Hi Hj. unfold rmul. rewrite <- rsum_minus, <- rsum_scal. apply rsum_ext. intros k Hk.
    rewrite <- Rmult_minus_distr_l. rewrite <- rsum_minus. rewrite <- (Rmult_assoc (b - a)), (Rmult_comm (b - a)), Rmult_assoc. f_equal. rewrite <- rsum_scal. apply rsum_ext. intros l Hl. unfold B, A, along. ring. }
  assert (Q : 0 <= rtrace p (rmul p Ai (rmul p P (rmul p Bi P)))).
  { apply trace_pd_psd; auto. apply (psd_ext p (rmul p (rT P) (rmul p Bi P))); [|apply psd_congr; apply pd_psd; exact PB]. apply rmul_ext; [now apply sym_T|apply meq_refl]. }
  assert (KEY : 2 * (kl_of p Bi B T - kl_of p Ai A T) = (rtrace p (rmul p Bi A) - INR p + ln (rdet p B) - ln (rdet p A)) + a * (b - a) * rtrace p (rmul p Ai (rmul p P (rmul p Bi P)))).
  { unfold kl_of. rewrite (LA Bi). rewrite (LA Ai) in TI. replace (a * (b - a) * _) with (a * (rtrace p (rmul p Ai P) - rtrace p (rmul p Bi P))) by (rewrite D; ring). lra. }
  assert (0 <= a * (b - a) * rtrace p (rmul p Ai (rmul p P (rmul p Bi P)))) by (apply Rmult_le_pos; [apply Rmult_le_pos; lra|exact Q]).
  split; [lra|]. intros Hlt (i & j & Hi & Hj & NZ).
  assert (rtrace p (rmul p Bi A) - INR p + ln (rdet p B) - ln (rdet p A) <> 0).
  { intros Z. assert (M : meq p p B A) by (apply S2; lra). specialize (M i j Hi Hj). unfold B, A, along in M. assert ((b - a) * P i j = 0) by lra. apply Rmult_integral in H0 as [H0|H0]; [lra|contradiction]. }
  lra.
Qed.
(** [_kl(T + e P, T)] does not decrease as e moves away from 0, and increases unless P = 0: of two candidates on the same ray from the
    truth, the nearer one always has the smaller divergence (the claim of [_noise_subspace_pair]). *)
Theorem C98_divergence_along_a_line (L : LinAlg NumX) p T P a b : lawful L -> (1 <= p)%nat -> pd p T -> sym p P -> pd p (along T P a) -> pd p (along T P b) -> 0 <= a <= b ->
  exists ka kb, kl L (fm p p (along T P a)) (fm p p T) = Ok (Fin ka) /\ kl L (fm p p (along T P b)) (fm p p T) = Ok (Fin kb) /\ 0 <= ka <= kb /\
    (a < b -> (exists i j, (i < p)%nat /\ (j < p)%nat /\ P i j <> 0) -> ka < kb).
Proof.
  intros HL Hp HT HP HA HB Hab. destruct (C91_divergence L _ T p HL Hp HA HT) as (Ai & IA & EA & NA & _). destruct (C91_divergence L _ T p HL Hp HB HT) as (Bi & IB & EB & _).
  destruct (along_grows p T P a b Ai Bi HT HP HA HB IA IB Hab) as [G1 G2]. eexists _, _. split; [exact EA|]. split; [exact EB|]. split; [lra|exact G2].
Qed.

Lemma qf_I p v : qf p rI v = rdot p v v.
Proof. unfold qf, rdot. apply rsum_ext. intros i Hi. unfold rI. rewrite (rsum_ext p _ (fun j => if Nat.eqb i j then v i * v j else 0)) by (intros; destruct Nat.eqb; ring). now rewrite rsum_delta' by auto. Qed.
Lemma qf_comb p (A B : rmat) a b v : qf p (fun i j => a * A i j + b * B i j) v = a * qf p A v + b * qf p B v.
Proof. unfold qf. rewrite <- !rsum_scal, <- rsum_plus. apply rsum_ext. intros i _. rewrite <- !rsum_scal, <- rsum_plus. apply rsum_ext. intros j _. ring. Qed.
(** ** The two estimates *)
(** (1 - alpha) S + alpha (tr S / p) I *)
Definition shrunk (p : nat) (S : rmat) (alpha : R) : rmat := fun i j => (1 - alpha) * S i j + alpha * (rtrace p S / INR p * rI i j).
Lemma shrunk_sym p S alpha : sym p S -> sym p (shrunk p S alpha).
Proof. intros H i j Hi Hj. unfold shrunk. now rewrite (H i j Hi Hj), (rI_sym i j). Qed.
Lemma estimate_fin p S alpha : (1 <= p)%nat -> shrink_estimate (N := NumX) (fm p p S) (Fin alpha) = Ok (fm p p (symm (shrunk p S alpha))).
Proof.
  intros Hp. unfold shrink_estimate. rewrite fm_nrows, meye_fin, mtrace_fin.
  rewrite nofn_fin. assert (Hn : 0 < INR p) by (apply lt_0_INR; lia). rewrite div_fin by lra. rewrite mscale_fin.
  change (@nsub NumX n1 (Fin alpha)) with (Fin (1 - alpha)). rewrite !mscale_fin, madd_fin. cbn [bind]. rewrite half_sym_fin. f_equal. apply fm_ext. intros i j _ _. unfold symm, shrunk. lra.
Qed.
Theorem C98_estimates p S alpha_a alpha_b : (1 <= p)%nat -> sym p S ->
  estimates (N := NumX) (fm p p S) (Fin alpha_a) (Fin alpha_b) = Ok (fm p p (shrunk p S alpha_a), fm p p (shrunk p S alpha_b)) /\
  forall alpha, sym p (shrunk p S alpha) /\ rtrace p (shrunk p S alpha) = rtrace p S /\
    (0 <= alpha <= 1 -> forall lo, bounded_below p lo S -> bounded_below p lo (shrunk p S alpha)) /\
    (0 < alpha <= 1 -> psd p S -> 0 < rtrace p S -> pd p (shrunk p S alpha)).
Proof.
  intros Hp HS. assert (H0 : 0 < INR p) by (apply lt_0_INR; lia). split.
  { unfold estimates. rewrite !estimate_fin by auto. cbn [bind]. do 2 f_equal; apply fm_ext; apply symm_id; now apply shrunk_sym. }
  intros alpha. split; [now apply shrunk_sym|].
  assert (QF : forall v, qf p (shrunk p S alpha) v = (1 - alpha) * qf p S v + alpha * (rtrace p S / INR p) * rdot p v v).
  { intros v. rewrite (qf_meq p _ (fun i j => (1 - alpha) * S i j + alpha * (rtrace p S / INR p) * rI i j)) by (intros i j _ _; unfold shrunk; ring). now rewrite qf_comb, qf_I. }
  split.
  { unfold rtrace, shrunk. rewrite rsum_plus, !rsum_scal. fold (rtrace p S). rewrite (rsum_ext p (fun i => rI i i) (fun _ => 1)) by (intros; unfold rI; now rewrite Nat.eqb_refl). rewrite rsum_const. field. lra. }
  split.
  - intros Ha lo [_ HB]. split; [now apply shrunk_sym|]. intros v. rewrite QF. specialize (HB v) as HBv.
    assert (lo <= rtrace p S / INR p).
    { assert (INR p * lo <= rtrace p S). { rewrite <- rsum_const. unfold rtrace. apply rsum_le. intros i Hi. specialize (HB (fun j => if Nat.eqb j i then 1 else 0)). rewrite rdot_e, Nat.eqb_refl, qf_unit in HB by auto. lra. }
      apply (Rmult_le_reg_r (INR p)); [lra|]. unfold Rdiv. rewrite Rmult_assoc, Rinv_l by lra. lra. }
    pose proof (rdot_nonneg p v). assert (alpha * lo * rdot p v v <= alpha * (rtrace p S / INR p) * rdot p v v) by (apply Rmult_le_compat_r; [auto|]; apply Rmult_le_compat_l; lra).
    assert ((1 - alpha) * (lo * rdot p v v) <= (1 - alpha) * qf p S v) by (apply Rmult_le_compat_l; lra). lra.
  - intros Ha [_ HPS] HT. split; [now apply shrunk_sym|]. intros v Hv. rewrite QF. specialize (HPS v). pose proof (rdot_pos p v Hv).
    assert (0 < rtrace p S / INR p) by (apply Rdiv_lt_0_compat; lra).
    assert (0 < alpha * (rtrace p S / INR p) * rdot p v v) by (apply Rmult_lt_0_compat; [apply Rmult_lt_0_compat; lra|auto]).
    assert (0 <= (1 - alpha) * qf p S v) by (apply Rmult_le_pos; lra). lra.
Qed.

(** ** The score gap *)
(** least eigenvalue above 1e-9 *)
Definition clear_of_zero (p : nat) (A : rmat) : Prop := forall v, not_zero p v -> 1 / 1000000000 * rdot p v v < qf p A v.
Lemma lit9 : @nlit NumX 1 9 = Fin (1 / 1000000000).
Proof. rewrite nlit_fin. f_equal. Qed.
Lemma clear_pd p A : sym p A -> clear_of_zero p A -> pd p A.
Proof. intros HS H. split; auto. intros v Hv. specialize (H v Hv). pose proof (rdot_pos p v Hv). lra. Qed.
(** the gap, once both estimates pass the test *)
Lemma gap_core L p S T sizes g a b : lawful L -> (1 <= p)%nat -> sym p S -> clear_of_zero p (shrunk p S a) -> clear_of_zero p (shrunk p S b) ->
  score_gap L (fm p p S) sizes g (fm p p T) (Fin a) (Fin b) =
    ('(WA, LdA) <- schur_operator L (fm p p (shrunk p S a)) sizes g ;;
     '(WB, LdB) <- schur_operator L (fm p p (shrunk p S b)) sizes g ;;
     D <- msub WA WB ;; M <- matmul D (fm p p T) ;; Ok (nmul mhalf (nadd (nsub LdA LdB) (mtrace M)))).
Proof.
  intros HL Hp HS HA HB. unfold score_gap. destruct (C98_estimates p S a b Hp HS) as [-> _]. cbn [bind]. rewrite lit9.
  destruct (C90_is_spd L p (shrunk p S a) (1 / 1000000000) HL Hp (shrunk_sym p S a HS)) as (oa & -> & Ia). destruct (C90_is_spd L p (shrunk p S b) (1 / 1000000000) HL Hp (shrunk_sym p S b HS)) as (ob & Eb & Ib).
  cbn [bind]. rewrite (proj2 Ia HA). cbn iota. rewrite Eb, (proj2 Ib HB). reflexivity.
Qed.
(** If one of the estimates is not positive definite (with that tolerance) the gap is NaN. *)
Theorem C98_gap_undefined (L : LinAlg NumX) p S T sizes g a b : lawful L -> (1 <= p)%nat -> sym p S ->
  ~ (clear_of_zero p (shrunk p S a) /\ clear_of_zero p (shrunk p S b)) ->
  score_gap L (fm p p S) sizes g (fm p p T) (Fin a) (Fin b) = Ok NaN.
Proof.
  intros HL Hp HS HN. unfold score_gap. destruct (C98_estimates p S a b Hp HS) as [-> _]. cbn [bind]. rewrite lit9.
  destruct (C90_is_spd L p (shrunk p S a) (1 / 1000000000) HL Hp (shrunk_sym p S a HS)) as (oa & -> & Ia). destruct (C90_is_spd L p (shrunk p S b) (1 / 1000000000) HL Hp (shrunk_sym p S b HS)) as (ob & Eb & Ib).
  cbn [bind]. destruct oa; [|reflexivity]. rewrite Eb. cbn [bind]. destruct ob; [|reflexivity]. exfalso. apply HN. split; [exact (proj1 Ia eq_refl)|exact (proj1 Ib eq_refl)].
Qed.
(** Otherwise it is the difference of the expected scores of the two estimates. *)
Theorem C98_gap_is_score_difference (L : LinAlg NumX) (log : NumX -> NumX) p S T sizes g a b va vb : lawful L -> is_log log -> (1 <= p)%nat -> sizes_ok sizes p -> sym p S -> sym p T ->
  clear_of_zero p (shrunk p S a) -> clear_of_zero p (shrunk p S b) ->
  expected_schur_loglik L log (fm p p T) (fm p p (shrunk p S a)) sizes (Fin g) = Ok (Fin va) ->
  expected_schur_loglik L log (fm p p T) (fm p p (shrunk p S b)) sizes (Fin g) = Ok (Fin vb) ->
  score_gap L (fm p p S) sizes (Fin g) (fm p p T) (Fin a) (Fin b) = Ok (Fin (va - vb)) /\
  score_gap L (fm p p S) sizes (Fin g) (fm p p T) (Fin b) (Fin a) = Ok (Fin (vb - va)).
Proof.
  intros HL Hlog Hp Hs HS HT HA HB EA EB.
  destruct (C91_score_is_quadratic L log T _ g sizes p va HL Hlog Hs HT (shrunk_sym p S a HS) EA) as (WA & LA & E1 & _ & V1).
  destruct (C91_score_is_quadratic L log T _ g sizes p vb HL Hlog Hs HT (shrunk_sym p S b HS) EB) as (WB & LB & E2 & _ & V2).
  assert (TR : forall X Y : rmat, rtrace p (rmul p (fun i j => X i j - Y i j) T) = rtrace p (rmul p X T) - rtrace p (rmul p Y T)).
  { intros X Y. rewrite <- rtrace_minus'. apply rtrace_ext. intros i j _ _. unfold rmul. rewrite <- rsum_minus. apply rsum_ext. intros; ring. }
  split; rewrite gap_core by auto; rewrite E1, E2; cbn [bind]; rewrite msub_fin; cbn [bind]; rewrite matmul_fin by auto; cbn [bind]; rewrite mtrace_fin, TR, mhalf_fin;
    match goal with |- Ok ?x = Ok (Fin ?y) => change (Ok x = Ok (Fin y)) end; cbn [nmul nadd nsub NumX xmul xadd xsub]; do 2 f_equal; lra.
Qed.
(** At gamma = 1 it is how much nearer the truth (in Kullback-Leibler divergence) the first estimate is. *)
Theorem C98_full_trust_gap (L : LinAlg NumX) p S T sizes a b : lawful L -> (1 <= p)%nat -> sizes_ok sizes p -> sym p S -> pd p T ->
  clear_of_zero p (shrunk p S a) -> clear_of_zero p (shrunk p S b) ->
  exists ka kb, kl L (fm p p (shrunk p S a)) (fm p p T) = Ok (Fin ka) /\ kl L (fm p p (shrunk p S b)) (fm p p T) = Ok (Fin kb) /\
    score_gap L (fm p p S) sizes (Fin 1) (fm p p T) (Fin a) (Fin b) = Ok (Fin (kb - ka)).
Proof.
  intros HL Hp Hs HS HT HA HB. pose proof (clear_pd p _ (shrunk_sym p S a HS) HA) as PA. pose proof (clear_pd p _ (shrunk_sym p S b HS) HB) as PB.
  destruct (C91_divergence L _ T p HL Hp PA HT) as (Ai & IA & EA & _). destruct (C91_divergence L _ T p HL Hp PB HT) as (Bi & IB & EB & _).
  eexists _, _. split; [exact EA|]. split; [exact EB|].
  destruct (C91_full_trust L _ sizes p HL Hs PA) as (WA & E1 & IA'). destruct (C91_full_trust L _ sizes p HL Hs PB) as (WB & E2 & IB').
  rewrite gap_core by auto. change (@n1 NumX) with (Fin 1) in *. rewrite E1, E2. cbn [bind]. rewrite msub_fin. cbn [bind]. rewrite matmul_fin by auto. cbn [bind]. rewrite mtrace_fin, mhalf_fin.
  cbn [nmul nadd nsub NumX xmul xadd xsub]. do 2 f_equal. unfold kl_of.
  assert (TA : rtrace p (rmul p Ai T) = rtrace p (rmul p WA T)) by (apply rtrace_ext, rmul_ext; [apply (inverse_unique p (shrunk p S a)); auto|apply meq_refl]).
  assert (TB : rtrace p (rmul p Bi T) = rtrace p (rmul p WB T)) by (apply rtrace_ext, rmul_ext; [apply (inverse_unique p (shrunk p S b)); auto|apply meq_refl]).
  assert (TR : rtrace p (rmul p (fun i j => WA i j - WB i j) T) = rtrace p (rmul p WA T) - rtrace p (rmul p WB T)).
  { rewrite <- rtrace_minus'. apply rtrace_ext. intros i j _ _. unfold rmul. rewrite <- rsum_minus. apply rsum_ext. intros; ring. }
  rewrite TR, TA, TB. lra.
Qed.
(** The first-order mean of [snr_delta] (the gap at S = truth) never favours shrinkage at gamma = 1: it is at most 0 whenever the first
    estimate is the more shrunk one, and negative unless the truth is a multiple of the identity. *)
Theorem C98_population_gap (L : LinAlg NumX) p T sizes a b : lawful L -> (1 <= p)%nat -> sizes_ok sizes p -> pd p T -> clear_of_zero p T -> 0 <= b <= a -> a <= 1 ->
  exists d, score_gap L (fm p p T) sizes (Fin 1) (fm p p T) (Fin a) (Fin b) = Ok (Fin d) /\ d <= 0 /\
    (b < a -> ~ meq p p T (fun i j => rtrace p T / INR p * rI i j) -> d < 0).
Proof.
  intros HL Hp Hs HT HC Hba Ha1. assert (H0 : 0 < INR p) by (apply lt_0_INR; lia).
  assert (HTr : 1 / 1000000000 < rtrace p T / INR p).
  { assert (1 / 1000000000 * INR p < rtrace p T).
    { rewrite Rmult_comm, <- rsum_const. unfold rtrace. replace p with (S (p - 1)) by lia.
      assert (X : forall i, (i < p)%nat -> 1 / 1000000000 < T i i).
      { intros i Hi. specialize (HC (fun j => if Nat.eqb j i then 1 else 0)). rewrite rdot_e, Nat.eqb_refl, qf_unit in HC by auto. rewrite Rmult_1_r in HC. apply HC. exists i. rewrite Nat.eqb_refl. split; [auto|lra]. }
      cbn [rsum]. apply Rplus_le_lt_compat; [apply rsum_le; intros; left; apply X; lia|apply X; lia]. }
    apply (Rmult_lt_reg_r (INR p)); [lra|]. unfold Rdiv at 2. rewrite Rmult_assoc, Rinv_l by lra. lra. }
  assert (CL : forall al, 0 <= al <= 1 -> clear_of_zero p (shrunk p T al)).
  { intros al Hal v Hv. specialize (HC v Hv). pose proof (rdot_pos p v Hv).
    assert (QF : qf p (shrunk p T al) v = (1 - al) * qf p T v + al * (rtrace p T / INR p) * rdot p v v).
    { rewrite (qf_meq p _ (fun i j => (1 - al) * T i j + al * (rtrace p T / INR p) * rI i j)) by (intros i j _ _; unfold shrunk; ring). now rewrite qf_comb, qf_I. }
    rewrite QF. set (m := rtrace p T / INR p) in *. assert (1 / 1000000000 * rdot p v v < m * rdot p v v) by (apply Rmult_lt_compat_r; auto).
    destruct (Req_dec al 0) as [->|]; [lra|]. assert (al * (1 / 1000000000 * rdot p v v) < al * (m * rdot p v v)) by (apply Rmult_lt_compat_l; lra).
    assert ((1 - al) * (1 / 1000000000 * rdot p v v) <= (1 - al) * qf p T v) by (apply Rmult_le_compat_l; lra). lra. }
  destruct (C98_full_trust_gap L p T T sizes a b HL Hp Hs (proj1 HT) HT (CL a ltac:(lra)) (CL b ltac:(lra))) as (ka & kb & Ka & Kb & E).
  set (P := fun i j => rtrace p T / INR p * rI i j - T i j).
  assert (EQ : forall al, meq p p (shrunk p T al) (along T P al)) by (intros al i j _ _; unfold shrunk, along, P; ring).
  assert (SP : sym p P) by (intros i j Hi Hj; unfold P; now rewrite (proj1 HT i j Hi Hj), (rI_sym i j)).
  assert (PD : forall al, 0 <= al <= 1 -> pd p (along T P al)) by (intros al Hal; apply (pd_ext p (shrunk p T al)); [apply EQ|apply clear_pd; [apply shrunk_sym, HT|now apply CL]]).
  destruct (C98_divergence_along_a_line L p T P b a HL Hp HT SP (PD b ltac:(lra)) (PD a ltac:(lra)) Hba) as (kb' & ka' & Kb' & Ka' & M1 & M2).
  rewrite (fm_ext _ _ _ _ (EQ a)) in Ka. rewrite (fm_ext _ _ _ _ (EQ b)) in Kb. rewrite Ka in Ka'. rewrite Kb in Kb'. injection Ka' as <-. injection Kb' as <-.
  exists (kb - ka). split; [exact E|]. split; [lra|]. intros Hlt HN. assert (ka > kb); [|lra]. apply M2; auto.
  apply NNPP. intros HX. apply HN. intros i j Hi Hj. destruct (Req_dec (P i j) 0) as [Z|NZ]; [unfold P in Z; lra|]. exfalso. apply HX. eauto.
Qed.

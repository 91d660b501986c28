(** * C103: which noise level acts where in the noisy-tail contests of research/metric_power.py

    Stated through the level zero: an eigenvalue is perturbed with the level of its own kind, and the
    estimate with an exact bulk, if there is one, is the one called better. *)
From Coq Require Import Reals ZArith Bool String List Lia Lra Arith Permutation.
From Verif Require Import Num Numpy PyVal ListLemmas LinalgModel BaseModel Estimators AssessModel ResearchModel MetricModel SpikedModel TrainModel PowerModel
  RMat LinSpec Fin RealSpec EwaReal EmpFacts ShrinkReal Spectral MatAlg Det Contracts LinalgReal AssessReal MetricReal GaussReal ResearchSpec ResearchReal
  Props_Assess Props_Godambe Props_Metric Props_Judges Props_Spiked Props_SpikedTruth Props_Train Props_TrainRun Props_Families SymSpec SymReal SymPerm Props_Power Props_PowerReal Props_PowerRun.
Import ListNotations.
Local Open Scope string_scope.
Local Open Scope list_scope.
Local Open Scope R_scope.

Section Noise.
Context (P : PowerRand NumX) (HP : fair_power P).
Notation G := (pr_rand P).
(** normal draws of standard deviation zero are zero, and e^0 = 1 *)
Context (HZ : forall n s, fst (pr_gauss P (Fin 0) n s) = fv n (fun _ => 0)).
Context (exp : NumX -> NumX) (HX : finite_exp exp) (HE : exp (Fin 0) = Fin 1).

Lemma noisy_estimate_quiet p Q bulk lam tl sig sigt : (1 <= p)%nat -> (bulk <= p)%nat ->
  total (fun r => exists l, r = (fm p p (spec p Q l), Fin (bulk_error bulk lam l)) /\
      (sigt = 0 -> forall i, (bulk <= i < p)%nat -> l i = Rmax tl (1 / 10000)) /\
      (sig = 0 -> forall i, (i < bulk)%nat -> l i = Rmax (lam i) (1 / 20)))
    (noisy_estimate exp P (fm p p Q) (fv bulk lam) (p - bulk) (Fin tl) (Fin sig) (Fin sigt)).
Proof.
  intros Hp Hb. unfold noisy_estimate. rewrite fv_length.
  assert (HG : forall n sd, total (fun v => exists z, v = fv n z /\ (sd = 0 -> forall i, z i = 0)) (ddraw G (pr_gauss P (Fin sd) n))).
  { intros n sd. apply total_draw. intros g. destruct (Req_dec sd 0) as [->|H].
    - exists (fun _ => 0). split; [apply HZ|auto].
    - destruct (fp_gauss P HP sd n g) as (z & E). exists z. split; [exact E|]. intros. contradiction. }
  refine (total_bind _ _ _ _ (HG bulk sig) _). intros z0 (z & -> & Hz).
  assert (E5 : @nlit NumX 5 2 = Fin (1 / 20)) by (rewrite nlit_fin; apply (f_equal Fin); cbn; lra). assert (E4 : @nlit NumX 1 4 = Fin (1 / 10000)) by (rewrite nlit_fin; apply (f_equal Fin); cbn; lra).
  set (b := fun i => Rmax (lam i * (1 + z i)) (1 / 20)).
  assert (EB : noisy_bulk (N := NumX) (fv bulk lam) (fv bulk z) = Ok (fv bulk b)).
  { unfold noisy_bulk. rewrite (map_fin bulk (nadd n1) (fun i => 1 + z i)) by (intros; reflexivity). rewrite vmul_fin. cbn [bind]. f_equal. apply map_fin. intros i Hi. rewrite E5. apply np_clip_lo_fin. }
  rewrite EB. apply (total_bind (fun v => v = fv bulk b)); [apply total_lift; eauto|]. intros ? ->.
  refine (total_bind _ _ _ _ (HG (p - bulk)%nat sigt) _). intros zt0 (zt & -> & Hzt).
  set (t := fun i => Rmax (tl * (match exp (Fin (zt i)) with Fin y => y | _ => 0 end)) (1 / 10000)).
  assert (ET : noisy_tail (N := NumX) exp (Fin tl) (fv (p - bulk) zt) = fv (p - bulk) t).
  { unfold noisy_tail. apply map_fin. intros i Hi. unfold t. destruct (HX (zt i)) as (y & ->). rewrite E4, mul_fin. apply np_max_fin. }
  rewrite ET. set (l := glue bulk b t). rewrite fv_glue. replace (bulk + (p - bulk))%nat with p by lia. fold l. rewrite from_spectrum_fin by auto.
  apply (total_bind (fun v => v = fm p p (spec p Q l))); [apply total_lift; eauto|]. intros ? ->. rewrite vsub_fin. apply (total_bind (fun v => v = fv bulk (fun i => b i - lam i))); [apply total_lift; eauto|]. intros ? ->.
  assert (LB : forall i, (i < bulk)%nat -> l i = b i) by (intros i Hi; unfold l, glue; destruct (Nat.ltb_spec i bulk); [reflexivity|lia]).
  apply total_ret. exists l. split; [|split].
  - f_equal. rewrite vnorm_fin. apply (f_equal Fin). unfold bulk_error, rdot. f_equal. apply rsum_ext. intros i Hi. now rewrite LB.
  - intros H0 i Hi. unfold l, glue. destruct (Nat.ltb_spec i bulk); [lia|]. unfold t. rewrite (Hzt H0), HE. f_equal. lra.
  - intros H0 i Hi. rewrite LB by auto. unfold b. rewrite (Hz H0). f_equal. lra.
Qed.
Lemma bulk_error_exact bulk lam l : (forall i, (i < bulk)%nat -> l i = lam i) <-> bulk_error bulk lam l = 0.
Proof.
  unfold bulk_error. split.
  - intros H. rewrite rsum_zero; [apply sqrt_0|]. intros i Hi. rewrite H by auto. ring.
  - intros H. assert (Hn : 0 <= rsum bulk (fun i => (l i - lam i) * (l i - lam i))) by (apply rsum_nonneg; intros; apply Rle_0_sqr).
    apply sqrt_eq_0 in H; auto. clear Hn. revert H. induction bulk as [|n IH]; intros H i Hi; [lia|].
    cbn [rsum] in H.
    assert (A1 : 0 <= rsum n (fun i => (l i - lam i) * (l i - lam i))) by (apply rsum_nonneg; intros; apply Rle_0_sqr).
    assert (A2 : 0 <= (l n - lam n) * (l n - lam n)) by apply Rle_0_sqr.
    destruct (Nat.eq_dec i n) as [->|Hn]; [nra|]. apply IH; [lra|lia].
Qed.
Theorem C103_noise_levels np_qr p bulk lam tl sg sb st : qr_lawful np_qr -> (1 <= p)%nat -> (bulk <= p)%nat ->
  total (fun c => exists Q la lb, orth p Q /\
      c = mkContest (fm p p (spec p Q (glue bulk lam (fun _ => tl)))) (fm p p (spec p Q la)) (fm p p (spec p Q lb)) (Fin (bulk_error bulk lam lb - bulk_error bulk lam la)) /\
      (st = 0 -> forall i, (bulk <= i < p)%nat -> la i = Rmax tl (1 / 10000) /\ lb i = Rmax tl (1 / 10000)) /\
      ((forall i, (i < bulk)%nat -> 1 / 20 <= lam i) -> sg = 0 \/ sb = 0 -> forall i, (i < bulk)%nat -> la i = lam i))
    (tail_contest exp np_qr P p (fv bulk lam) (p - bulk) (Fin tl) (Fin sg) (Fin sb) (Fin st)).
Proof.
  intros HQ Hp Hb. unfold tail_contest. apply (total_bind (fun M => exists A, M = fm p p A)); [apply total_draw; intros g; apply (fair_normal G (fp_fair P HP))|]. intros A0 (A & ->).
  apply (total_bind (fun M => exists Q, M = fm p p Q /\ orth p Q)); [apply total_lift; destruct (HQ p A Hp) as (Q & E & HO); eauto|]. intros Q0 (Q & -> & HO).
  refine (total_bind _ _ _ _ (noisy_estimate_quiet p Q bulk lam tl sg st Hp Hb) _). intros ra (la & -> & A1 & A2). cbv beta iota.
  refine (total_bind _ _ _ _ (noisy_estimate_quiet p Q bulk lam tl sb st Hp Hb) _). intros rb (lb & -> & B1 & B2). cbv beta iota.
  replace (repeat (Fin tl : NumX) (p - bulk)) with (fv (p - bulk) (fun _ => tl)) by (symmetry; apply repeat_tab). rewrite fv_glue. replace (bulk + (p - bulk))%nat with p by lia. rewrite from_spectrum_fin by auto.
  eapply total_bind; [apply total_lift; eexists; split; [reflexivity|exact (eq_refl _)]|]. intros ? <-. apply total_ret. rewrite leb_fin, sub_fin, abs_fin. unfold Rleb.
  assert (P0 : forall l, 0 <= bulk_error bulk lam l) by (intros; apply sqrt_pos).
  assert (EX : forall l, (forall i, (i < bulk)%nat -> 1 / 20 <= lam i) -> (forall i, (i < bulk)%nat -> l i = Rmax (lam i) (1 / 20)) -> bulk_error bulk lam l = 0).
  { intros l HL H. apply bulk_error_exact. intros i Hi. rewrite H by auto. apply Rmax_left. now apply HL. }
  destruct (Rle_dec (bulk_error bulk lam la) (bulk_error bulk lam lb)) as [Hle|Hle].
  - exists Q, la, lb. split; [exact HO|]. split; [do 2 f_equal; rewrite Rabs_left1; lra|]. split; [intros H i Hi; split; auto|].
    intros HL [H|H]; apply bulk_error_exact; [now apply EX; auto|]. pose proof (EX lb HL (B2 H)). specialize (P0 la). lra.
  - exists Q, lb, la. split; [exact HO|]. split; [do 2 f_equal; rewrite Rabs_right; lra|]. split; [intros H i Hi; split; auto|].
    intros HL [H|H]; apply bulk_error_exact; [|now apply EX; auto]. pose proof (EX la HL (A2 H)). specialize (P0 lb). lra.
Qed.
End Noise.
(** The generator of the witness of C103 meets the hypotheses. *)
Example C103_noise_met : fair_power still /\ (forall n s, fst (pr_gauss still (Fin 0) n s) = fv n (fun _ => 0)) /\
  finite_exp still_exp /\ still_exp (Fin 0) = Fin 1 /\ qr_lawful plain_qr.
Proof.
  split; [apply still_fair|]. split; [reflexivity|]. split; [intros x; eexists; reflexivity|]. split; [unfold still_exp; now rewrite exp_0|].
  exact (thin_square plain_qr plain_thin).
Qed.

(** * C104: [structured_power_over_draws] (research/schur_godambe.py:178-218) and concrete cases of the sampling experiments *)
From Coq Require Import Reals ZArith String List Lia Lra Arith Bool.
From Verif Require Import Num Numpy LinalgModel ListLemmas RMat LinSpec Fin RealSpec Spectral MatAlg Det Contracts LinalgReal GaussSpec GaussReal Props_Assess ScoreReal ShrinkReal EmpFacts
  AssessModel AssessReal AssessSpec AssessBlock MetricModel MetricReal Props_Metric Props_Judges Props_SpikedTruth Props_Families BaseModel Estimators PyVal SymSpec ResearchModel ResearchSpec ResearchReal ResearchTwo Props_Research ResearchRun ResearchOp Props_ResearchBlocks Props_Improper Props_Corr Props_Canonical Props_Godambe SpikedModel
  Props_Spiked TrainModel Props_Train Props_TrainRun PowerModel Props_Power Props_PowerReal Props_PowerRun Props_GodambeRun.
Import ListNotations.
Local Open Scope R_scope.

(** ** Equality of keys *)
Definition key_eqb (a b : NumX) : bool :=
  match a, b with Fin x, Fin y => Reqb x y | NaN, NaN => true | PInf, PInf => true | NInf, NInf => true | _, _ => false end.
Lemma key_eqb_eq a b : key_eqb a b = true <-> a = b.
Proof.
  destruct a as [x| | |], b as [y| | |]; cbn; try (split; [discriminate|discriminate]); try (split; reflexivity). unfold Reqb. destruct (Req_EM_T x y); split; intros H; try discriminate; try congruence; try reflexivity.
Qed.
Lemma neqb_fin x y : neqb (N := NumX) (Fin x) (Fin y) = key_eqb (Fin x) (Fin y).
Proof. unfold neqb, key_eqb, Reqb. rewrite !leb_fin. destruct (Rleb_spec x y), (Rleb_spec y x), (Req_EM_T x y); try lra; reflexivity. Qed.
Definition fin_key {A} (e : NumX * A) : Prop := exists x, fst e = Fin x.
Lemma powers_keys (gammas : list R) (vs : list (NumX * bool)) n : Forall fin_key vs ->
  powers (N := NumX) neqb (map (fun x => Fin x : NumX) gammas) vs n = powers key_eqb (map (fun x => Fin x : NumX) gammas) vs n.
Proof.
  intros HF. unfold powers. induction gammas as [|g l IH]; [reflexivity|]. cbn [map mapM]. rewrite IH. assert (ET : tally neqb (Fin g : NumX) vs = tally key_eqb (Fin g : NumX) vs); [|now rewrite ET].
  unfold tally. f_equal. apply filter_ext_in. intros v Hv. rewrite Forall_forall in HF. destruct (HF v Hv) as (x & ->). now rewrite neqb_fin.
Qed.

(** ** The truth can be drawn from *)
Definition ind (b : bool) : R := if b then 1 else 0.
Lemma same_group g gs i j : (1 <= gs)%nat -> (i < g * gs)%nat -> (j < g * gs)%nat ->
  ind (Nat.eqb (i / gs) (j / gs)) = rsum g (fun k => ind (Nat.eqb (i / gs) k) * ind (Nat.eqb (j / gs) k)).
Proof.
  intros Hg Hi Hj. assert (HI : (i / gs < g)%nat) by (apply Nat.div_lt_upper_bound; lia).
  rewrite (rsum_ext g _ (fun k => if Nat.eqb (i / gs) k then ind (Nat.eqb (j / gs) k) else 0)) by (intros k _; unfold ind at 1; destruct (Nat.eqb (i / gs) k); ring).
  rewrite (rsum_delta' g (i / gs) (fun k => ind (Nat.eqb (j / gs) k)) HI). now rewrite Nat.eqb_sym.
Qed.
Lemma grouped_psd p g gs rho : p = (g * gs)%nat -> (1 <= p)%nat -> 0 <= rho <= 1 -> psd p (grouped gs rho 0 zero_noise).
Proof.
  intros Ep Hp Hr. assert (Hgs : (1 <= gs)%nat) by (destruct gs; lia). split.
  - intros i j _ _. unfold grouped, symm, zero_noise. rewrite (Nat.eqb_sym (j / gs)), (Nat.eqb_sym j i). destruct (Nat.eqb (i / gs) (j / gs)); [destruct (Nat.eqb i j); reflexivity|ring].
  - intros v. assert (E : qf p (grouped gs rho 0 zero_noise) v = (1 - rho) * rdot p v v + rho * rsum g (fun k => rsum p (fun i => ind (Nat.eqb (i / gs) k) * v i) * rsum p (fun j => ind (Nat.eqb (j / gs) k) * v j))).
    { rewrite (qf_meq p _ (fun i j => (1 - rho) * rI i j + rho * ind (Nat.eqb (i / gs) (j / gs)))).
      - rewrite (qf_comb p rI (fun i j => ind (Nat.eqb (i / gs) (j / gs))) (1 - rho) rho v), qf_I. f_equal. f_equal.
        unfold qf. rewrite (rsum_ext p _ (fun i => rsum g (fun k => rsum p (fun j => ind (Nat.eqb (i / gs) k) * v i * (ind (Nat.eqb (j / gs) k) * v j))))).
        + rewrite rsum_swap. apply rsum_ext. intros k _. rewrite <- rsum_scal_r. apply rsum_ext. intros i _. rewrite rsum_scal. reflexivity.
        + intros i Hi. rewrite rsum_swap. apply rsum_ext. intros j Hj. rewrite (same_group g gs i j Hgs) by lia.
          rewrite <- rsum_scal, <- rsum_scal_r. apply rsum_ext. intros k _. ring.
      - intros i j _ _. unfold grouped, symm, zero_noise, ind, rI. destruct (Nat.eqb_spec i j) as [->|H]; [rewrite Nat.eqb_refl; ring|]. destruct (Nat.eqb (i / gs) (j / gs)); ring. }
    rewrite E. assert (0 <= rdot p v v) by (apply rsum_nonneg; intros; apply Rle_0_sqr).
    assert (0 <= rsum g (fun k => rsum p (fun i => ind (Nat.eqb (i / gs) k) * v i) * rsum p (fun j => ind (Nat.eqb (j / gs) k) * v j))) by (apply rsum_nonneg; intros; apply Rle_0_sqr).
    apply Rplus_le_le_0_compat; apply Rmult_le_pos; lra.
Qed.

(** ** The score *)
Lemma operator_score_fin L p A sizes g W Ld (xs : list (nat -> R)) : (1 <= p)%nat -> xs <> [] -> schur_operator L (fm p p A) sizes (Fin g) = Ok (fm p p W, Fin Ld) ->
  operator_score L (map (fv p) xs) sizes (Fin g) (fm p p A) = Ok (Fin (- (1 / 2) * (Ld + lmean (map (qf p W) xs)))).
Proof.
  intros Hp Hx E. unfold operator_score. rewrite E. cbn [bind]. rewrite (mapM_map_ok _ (fv p) (fun x => Fin (qf p W x))) by (intros; now apply einsum_quad_fin). cbn [bind]. rewrite vmean_map by exact Hx. rewrite mhalf_fin. reflexivity.
Qed.
(** the score of a sample exists for every trust in [0, 1]; with full trust it is the likelihood *)
Lemma operator_score_ok L p A sizes g xs : lawful L -> (1 <= p)%nat -> xs <> [] -> sizes_ok sizes p -> pd p A -> 0 <= g <= 1 -> exists x, operator_score L (map (fv p) xs) sizes (Fin g) (fm p p A) = Ok (Fin x).
Proof. intros HL Hp Hx Hs HA Hg. destruct (operator_ok L p A g sizes HL Hs HA Hg) as (W & Ld & E & _). eexists. now apply (operator_score_fin L p A sizes g W Ld). Qed.
Lemma operator_score_one L p A sizes xs : lawful L -> (1 <= p)%nat -> xs <> [] -> sizes_ok sizes p -> pd p A ->
  operator_score L (map (fv p) xs) sizes (Fin 1) (fm p p A) = mp_loglik L (fm p p A) (map (fv p) xs).
Proof.
  intros HL Hp Hx Hs HA. destruct (C91_full_trust L A sizes p HL Hs HA) as (W & E & HI). rewrite (operator_score_fin L p A sizes 1 W _ xs Hp Hx E). rewrite (mp_loglik_fin L HL p A W xs Hp HA HI Hx). do 2 f_equal.
  unfold mean_loglik. rewrite (lmean_ext (gauss_logpdf p A W zero_mean) (fun x => - (1 / 2) * (INR p * ln (2 * PI) + ln (rdet p A)) + - (1 / 2) * qf p W x)).
  - rewrite lmean_plus, lmean_const, lmean_scal by auto. lra.
  - intros x _. unfold gauss_logpdf, zero_mean. rewrite (qf_ext p W W (fun i => x i - 0) x) by (first [apply meq_refl|intros; ring]). lra.
Qed.

(** ** The experiment *)
Section Structured.
Context (L : LinAlg NumX) (HL : lawful L) (P : PowerRand NumX).
Notation G := (pr_rand P).
Lemma sizes_equal p g : (1 <= p)%nat -> p = (g * (p / g))%nat -> sizes_ok (repeat (p / g)%nat g) p.
Proof.
  intros Hp Ep. set (gs := (p / g)%nat) in *. split.
  - apply Forall_forall. intros m Hm. apply repeat_spec in Hm. destruct gs; lia.
  - transitivity (g * gs)%nat; [|lia]. clearbody gs. clear. induction g as [|g IH]; [reflexivity|]. cbn [repeat list_sum fold_right]. change (fold_right Nat.add 0%nat (repeat gs g)) with (list_sum (repeat gs g)). lia.
Qed.
(** One trial: two noisy estimates, the first with the error [eg] in the group correlation and the second with [eb], in this order whichever error is larger, and test rows of the truth. *)
Definition structured_drawn (p g : nat) (rho eg eb sig : NumX) (n_test : nat) (o : outcome) : Prop :=
  exists s0 ea s1 eb' s2 s3, noisy_groups L P p g (p / g) rho eg sig s0 = Ok (c_good (o_c o), ea, s1) /\ noisy_groups L P p g (p / g) rho eb sig s1 = Ok (c_bad (o_c o), eb', s2) /\
    c_truth (o_c o) = within p g (p / g) rho /\ r_mvn G (c_truth (o_c o)) n_test s2 = Ok (o_X o, s3).
(** Each number returned is the share of the trials in which the judge of that gamma scored the first estimate strictly higher. *)
Theorem C104_structured_power p g rho eg eb sig (gammas : list R) n_test trials s pw s' :
  structured_power L P p g rho eg eb sig (map (fun x => Fin x : NumX) gammas) n_test trials s = Ok (pw, s') -> NoDup gammas ->
  exists os, length os = trials /\ Forall (structured_drawn p g rho eg eb sig n_test) os /\
    pw = map (fun x => (Fin x : NumX, share (fun o => wins (operator_score L (o_X o) (repeat (p / g)%nat g) (Fin x)) (o_c o)) os)) gammas.
Proof.
  intros E HN. unfold structured_power in E. apply dbind_ok in E as (gs & s1 & E0 & E). apply dlift_ok in E0 as [E0 ->]. unfold group_size in E0. destruct (Nat.eqb g 0); [discriminate|]. injection E0 as <-.
  apply dbind_ok in E as (ts & s1 & E1 & E). apply dlift_ok in E as [E _]. apply dtimes_ok in E1 as [Hl Ht]. rewrite <- Hl in E.
  assert (TR : forall t, In t ts -> exists o, structured_drawn p g rho eg eb sig n_test o /\ t = map (fun x => (Fin x : NumX, wins (operator_score L (o_X o) (repeat (p / g)%nat g) (Fin x)) (o_c o))) gammas).
  { intros t Hi. destruct (Ht t Hi) as (g0 & g1 & T). unfold structured_trial in T. apply dbind_ok in T as ([a ea] & h1 & T1 & T). apply dbind_ok in T as ([b eb'] & h2 & T2 & T). cbv zeta in T.
    apply dbind_ok in T as (X & h3 & T3 & T). apply dlift_ok in T as [T _].
    set (c := mkContest (N := NumX) (within p g (p / g) rho) a b n0) in *. apply (mapM_keyed (fun gm : NumX => gm) (fun gm => operator_score L X (repeat (p / g)%nat g) gm) c) in T as [-> _].
    exists (mkOutcome c X [] (fun _ => [])). split; [exists g0, ea, h1, eb', h2, h3; cbn [o_c o_X c c_good c_bad c_truth]; auto|]. rewrite map_map. reflexivity. }
  rewrite powers_keys in E.
  2:{ apply Forall_forall. intros v Hv. apply in_concat in Hv as (t & Hi & Hv). destruct (TR t Hi) as (o & _ & ->). apply in_map_iff in Hv as (x & <- & _). exists x. reflexivity. }
  destruct (experiment key_eqb key_eqb_eq (fun x : R => Fin x : NumX) (fun o x => wins (operator_score L (o_X o) (repeat (p / g)%nat g) (Fin x)) (o_c o)) gammas
    (structured_drawn p g rho eg eb sig n_test) ts pw TR) as (os & H1 & H2 & H3).
  - apply nodup_map; [|exact HN]. intros x y H. now injection H.
  - exact E.
  - exists os. split; [now rewrite H1|]. split; [exact H2|exact H3].
Qed.
Context (HP : fair_power P).
(** The estimates are positive definite, and the truth can be drawn from. *)
Lemma structured_trial_total p g rho eg eb sig (gammas : list R) n_test : (1 <= g)%nat -> (1 <= p)%nat -> p = (g * (p / g))%nat -> 0 <= rho <= 1 -> Forall (fun x => 0 <= x <= 1) gammas -> (1 <= n_test)%nat ->
  Props_TrainRun.total (fun _ => True) (structured_trial L P p g (p / g) (Fin rho) (Fin eg) (Fin eb) (Fin sig) (map (fun x => Fin x : NumX) gammas) n_test).
Proof.
  intros Hg Hp Ep Hr HF Hn. unfold structured_trial.
  refine (total_bind _ _ _ _ (noisy_groups_total L HL P HP p g (p / g) rho eg sig Ep Hp) _). intros a0 (ra & na & A & ta & -> & EA & WA & XA). cbv beta iota.
  refine (total_bind _ _ _ _ (noisy_groups_total L HL P HP p g (p / g) rho eb sig Ep Hp) _). intros b0 (rb & nb & B & tb & -> & EB & WB & XB). cbv beta iota zeta.
  rewrite within_fin by exact Ep. refine (total_bind _ _ _ _ (mvn_total P HP p _ n_test Hp Hn (grouped_psd p g (p / g) rho Ep Hp Hr)) _). intros X (xs & -> & Hx & _).
  apply total_lift, mapM_total. intros x Hi. apply in_map_iff in Hi as (y & <- & Hy). rewrite Forall_forall in HF. pose proof (sizes_equal p g Hp Ep) as HS.
  apply keyed_total; cbn [c_good c_bad].
  - destruct (operator_score_ok L p A (repeat (p / g)%nat g) y xs HL Hp Hx HS (wc_pd p A ta WA) (HF y Hy)) as (z & Ez). eauto.
  - destruct (operator_score_ok L p B (repeat (p / g)%nat g) y xs HL Hp Hx HS (wc_pd p B tb WB) (HF y Hy)) as (z & Ez). eauto.
Qed.
Theorem C104_structured_completes p g rho eg eb sig (gammas : list R) n_test trials s : (1 <= g)%nat -> (1 <= p)%nat -> p = (g * (p / g))%nat -> 0 <= rho <= 1 -> Forall (fun x => 0 <= x <= 1) gammas ->
  (1 <= n_test)%nat -> (1 <= trials)%nat ->
  exists pw s', structured_power L P p g (Fin rho) (Fin eg) (Fin eb) (Fin sig) (map (fun x => Fin x : NumX) gammas) n_test trials s = Ok (pw, s') /\ map fst pw = map (fun x => Fin x : NumX) gammas /\
    (NoDup gammas -> Forall (fun e => a_power (snd e)) pw).
Proof.
  intros Hg Hp Ep Hr HF Hn Ht.
  assert (T : Props_TrainRun.total (fun pw => map fst pw = map (fun x => Fin x : NumX) gammas) (structured_power L P p g (Fin rho) (Fin eg) (Fin eb) (Fin sig) (map (fun x => Fin x : NumX) gammas) n_test trials)).
  { unfold structured_power, group_size. destruct (Nat.eqb_spec g 0); [lia|]. eapply total_bind; [apply total_lift; eexists; split; [reflexivity|exact (eq_refl _)]|]. intros ? <-.
    apply (total_bind (fun _ => True)).
    - refine (total_weak _ _ _ _ (total_times (fun _ => True) trials _ _)); [auto|]. now apply structured_trial_total.
    - intros ts _. apply total_lift. destruct (powers_total neqb (map (fun x => Fin x : NumX) gammas) (concat ts) trials Ht) as (pw & E & F). eauto. }
  destruct (T s) as (pw & s' & E & F). exists pw, s'. split; [exact E|]. split; [exact F|]. intros HN. destruct (C104_structured_power _ _ _ _ _ _ _ _ _ _ _ _ E HN) as (os & Hl & _ & ->).
  apply Forall_map, Forall_forall. intros x _. apply share_power. intros ->. cbn in Hl. lia.
Qed.
(** The groups must have equal sizes: otherwise the mask does not fit (IndexError); no group at all is a division by zero. *)
Theorem C104_groups_must_divide p g rho eg eb sig gammas n_test trials s : p <> (g * (p / g))%nat -> (1 <= trials)%nat ->
  structured_power L P p g (Fin rho) (Fin eg) (Fin eb) (Fin sig) gammas n_test trials s = Err (if Nat.eqb g 0 then ZeroDivisionError else IndexError).
Proof.
  intros Ep Ht. unfold structured_power, group_size. destruct (Nat.eqb_spec g 0) as [->|Hg]; [reflexivity|]. unfold dbind at 1, dlift at 1.
  destruct trials as [|n]; [lia|]. cbn [dtimes]. assert (E : structured_trial L P p g (p / g) (Fin rho) (Fin eg) (Fin eb) (Fin sig) gammas n_test s = Err IndexError); [|unfold dbind; now rewrite E].
  unfold structured_trial. assert (EN : forall s, noisy_groups L P p g (p / g) (Fin rho) (Fin eg) (Fin sig) s = Err IndexError).
  { clear s. intros s. unfold noisy_groups, choose, dbind, ddraw, dlift, dret. cbn [length]. destruct (r_choice G 2 s) as [i s1] eqn:EC. pose proof (fp_choice P HP 2 s ltac:(lia)) as Hc. rewrite EC in Hc. cbn [fst] in Hc.
    assert (EN : exists z, nth_error [(-1)%Z; 1%Z] i = Some z) by (destruct i as [|[|i]]; [| |lia]; cbn; eauto). destruct EN as (z & ->).
    destruct (r_normal G p p s1) as [A0 s2] eqn:EA. destruct (fair_normal G (fp_fair P HP) p p s1) as (A & HA). rewrite EA in HA. cbn [fst] in HA. subst A0. rewrite to_symmetric_fin.
    unfold check_shape, within, tab2. unfold nrows, tab. rewrite map_length, seq_length. destruct (Nat.eqb_spec p (g * (p / g))); [contradiction|]. reflexivity. }
  unfold dbind. now rewrite EN.
Qed.
(** With full trust the judge is the Gaussian likelihood. *)
Theorem C104_structured_full_trust p g rho eg eb sig (gammas : list R) n_test trials s pw s' : (1 <= g)%nat -> (1 <= p)%nat -> p = (g * (p / g))%nat -> 0 <= rho <= 1 -> (1 <= n_test)%nat -> NoDup gammas -> In 1 gammas ->
  structured_power L P p g (Fin rho) (Fin eg) (Fin eb) (Fin sig) (map (fun x => Fin x : NumX) gammas) n_test trials s = Ok (pw, s') ->
  exists os, length os = trials /\ Forall (structured_drawn p g (Fin rho) (Fin eg) (Fin eb) (Fin sig) n_test) os /\
    In (Fin 1 : NumX, share (fun o => wins (fun cov => mp_loglik L cov (o_X o)) (o_c o)) os) pw.
Proof.
  intros Hg Hp Ep Hr Hn HN Hi E. destruct (C104_structured_power _ _ _ _ _ _ _ _ _ _ _ _ E HN) as (os & Hl & HF & ->). exists os. split; [exact Hl|]. split; [exact HF|]. apply in_map_iff. exists 1. split; [|exact Hi].
  f_equal. apply share_ext. intros o Ho. rewrite Forall_forall in HF. destruct (HF o Ho) as (s0 & ea & s1 & eb' & s2 & s3 & E1 & E2 & E3 & E4).
  pose proof (total_inv _ _ _ _ _ (noisy_groups_total L HL P HP p g (p / g) rho eg sig Ep Hp) E1) as (ra & na & A & ta & X1 & _ & WA & _). injection X1 as X1 _.
  pose proof (total_inv _ _ _ _ _ (noisy_groups_total L HL P HP p g (p / g) rho eb sig Ep Hp) E2) as (rb & nb & B & tb & X2 & _ & WB & _). injection X2 as X2 _.
  rewrite E3, within_fin in E4 by exact Ep. destruct (total_inv _ _ _ _ _ (mvn_total P HP p _ n_test Hp Hn (grouped_psd p g (p / g) rho Ep Hp Hr)) E4) as (xs & X3 & Hx & _).
  pose proof (sizes_equal p g Hp Ep) as HS. apply wins_ext.
  - rewrite X1, X3. apply operator_score_one; auto. exact (wc_pd p A ta WA).
  - rewrite X2, X3. apply operator_score_one; auto. exact (wc_pd p B tb WB).
Qed.
End Structured.

(** ** The hypotheses can be met *)
Definition cross_sample : list (nat -> R) := [(fun i => if Nat.eqb i 0 then 2 else 0); (fun i => if Nat.eqb i 0 then -2 else 0); (fun i => if Nat.eqb i 0 then 0 else 1); (fun i => if Nat.eqb i 0 then 0 else -1)].
Definition cross_truth : rmat := fun i j => if Nat.eqb i j then (if Nat.eqb i 0 then 2 else 1 / 2) else 0.
Lemma cross_pcov : meq 2 2 (pcov_of cross_sample) cross_truth.
Proof.
  intros i j Hi Hj. assert (M : forall k, (k < 2)%nat -> mean_of cross_sample k = 0) by (intros k Hk; unfold mean_of, cross_sample; destruct k as [|[|k]]; [| |lia]; cbn; field).
  unfold pcov_of. rewrite (M i Hi), (M j Hj). unfold cross_sample, cross_truth. destruct i as [|[|i]], j as [|[|j]]; try lia; cbn; field.
Qed.
Lemma cross_qf v : qf 2 cross_truth v = 2 * (v 0%nat * v 0%nat) + 1 / 2 * (v 1%nat * v 1%nat).
Proof. unfold qf, cross_truth. cbn. ring. Qed.
Example C104_witness : exists L, lawful L /\ fair_power still /\
  (exists pw s', structured_power L still 8 2 (Fin (3 / 5)) (Fin (1 / 20)) (Fin (1 / 5)) (Fin (9 / 50)) [Fin 1; Fin (1 / 2); Fin 0] 9 5 tt = Ok (pw, s') /\ map fst pw = [Fin 1 : NumX; Fin (1 / 2); Fin 0]) /\
  (exists A B ka kb, sample_pair (N := NumX) (map (fv 2) cross_sample) 2 = Ok (fm 2 2 A, fm 2 2 B) /\ kl L (fm 2 2 A) (fm 2 2 cross_truth) = Ok (Fin ka) /\ kl L (fm 2 2 B) (fm 2 2 cross_truth) = Ok (Fin kb) /\ kb < ka).
Proof.
  destruct lawful_satisfiable as [L HL]. exists L. split; [exact HL|]. split; [exact still_fair|]. split.
  - destruct (C104_structured_completes L HL still still_fair 8 2 (3/5) (1/20) (1/5) (9/50) [1; 1/2; 0] 9 5 tt) as (pw & s' & E & F & _); [lia|lia|reflexivity|lra|repeat constructor; lra|lia|lia|]. eauto.
  - assert (HT : pd 2 cross_truth).
    { split; [intros i j _ _; unfold cross_truth; rewrite (Nat.eqb_sym j i); destruct (Nat.eqb_spec i j) as [->|]; reflexivity|]. intros v (i & Hi & Hv). rewrite cross_qf.
      pose proof (Rle_0_sqr (v 0%nat)) as H0. pose proof (Rle_0_sqr (v 1%nat)) as H1. unfold Rsqr in *. destruct i as [|[|i]]; [| |lia].
      - assert (0 < v 0%nat * v 0%nat) by (apply Rsqr_pos_lt in Hv; exact Hv). lra.
      - assert (0 < v 1%nat * v 1%nat) by (apply Rsqr_pos_lt in Hv; exact Hv). lra. }
    destruct (C104_sample_pair L 2 cross_truth cross_sample HL ltac:(lia) ltac:(discriminate) HT) as (A & B & E & _ & _ & _ & K). destruct (K cross_pcov) as (ka & kb & E1 & E2 & E3).
    + intros v (i & Hi & Hv). rewrite cross_qf. unfold rdot. cbn [rsum]. pose proof (Rle_0_sqr (v 0%nat)) as H0. pose proof (Rle_0_sqr (v 1%nat)) as H1. unfold Rsqr in *. destruct i as [|[|i]]; [| |lia].
      * assert (0 < v 0%nat * v 0%nat) by (apply Rsqr_pos_lt in Hv; exact Hv). lra.
      * assert (0 < v 1%nat * v 1%nat) by (apply Rsqr_pos_lt in Hv; exact Hv). lra.
    + intros H. pose proof (H 0%nat 0%nat ltac:(lia) ltac:(lia)) as A0. unfold cross_truth, rtrace, rI in A0. cbn in A0. lra.
    + exists A, B, ka, kb. auto.
Qed.

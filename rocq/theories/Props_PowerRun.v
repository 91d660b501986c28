(** * C103: the power experiments complete, and powers that must coincide *)
From Coq Require Import Reals ZArith Bool String List Lia Lra Arith Permutation Classical_Prop.
From Verif Require Import Num Numpy PyVal ListLemmas LinalgModel BaseModel Estimators AssessModel ResearchModel MetricModel SpikedModel TrainModel PowerModel
  RMat LinSpec Fin RealSpec EwaReal EmpFacts ShrinkReal Spectral MatAlg Det Contracts LinalgReal AssessReal BlockGeom AssessSpec MetricReal GaussReal ScoreReal Props_Research ResearchSpec ResearchReal
  Props_Assess Props_Godambe Props_Metric Props_Judges Props_Spiked Props_SpikedTruth Props_Train Props_TrainRun Props_Families SymSpec Props_Power Props_PowerReal.
Import ListNotations.
Local Open Scope string_scope.
Local Open Scope list_scope.
Local Open Scope R_scope.

(** a number between 0 and 1 *)
Definition a_power (q : NumX) : Prop := exists r, q = Fin r /\ 0 <= r <= 1.
Lemma share_power {A} (f : A -> bool) l : l <> [] -> a_power (share (N := NumX) f l).
Proof.
  intros H. assert (0 < INR (length l)) by (apply lt_0_INR; destruct l; [congruence|cbn; lia]). unfold share. rewrite !nofn_fin, div_fin by lra. eexists. split; [reflexivity|].
  assert (HI : INR (length (filter f l)) <= INR (length l)) by (apply le_INR; clear; induction l as [|a l IH]; [cbn; lia|]; cbn [filter]; destruct (f a); cbn [length]; lia).
  pose proof (pos_INR (length (filter f l))). split; [apply Rmult_le_pos; [lra|]; left; now apply Rinv_0_lt_compat|]. apply (Rmult_le_reg_r (INR (length l))); [lra|]. unfold Rdiv. rewrite Rmult_assoc, Rinv_l by lra. lra.
Qed.
Lemma share_ext {N : Num} {A} (f g : A -> bool) l : (forall a, In a l -> f a = g a) -> share (N := N) f l = share g l.
Proof. intros H. unfold share. do 3 f_equal. induction l as [|a l IH]; [reflexivity|]. cbn [filter]. rewrite (H a) by now left. rewrite IH by (intros; apply H; now right). reflexivity. Qed.
Lemma wins_ext {N : Num} (j j' : mat N -> res N) c : j (c_good c) = j' (c_good c) -> j (c_bad c) = j' (c_bad c) -> wins j c = wins j' c.
Proof. unfold wins. now intros -> ->. Qed.
Lemma total_inv {G : Rand NumX} {A} (Q : A -> Prop) (m : D G A) s a s' : total Q m -> m s = Ok (a, s') -> Q a.
Proof. intros H E. destruct (H s) as (b & s1 & E1 & HQ). rewrite E in E1. injection E1 as -> ->. exact HQ. Qed.
Lemma powers_total {K} (eqb : K -> K -> bool) (keys : list K) vs n : (1 <= n)%nat -> exists pw, powers (N := NumX) eqb keys vs n = Ok pw /\ map fst pw = keys.
Proof.
  intros Hn. assert (0 < INR n) by (apply lt_0_INR; lia). unfold powers. induction keys as [|k l IH]; [exists []; auto|]. destruct IH as (pw & E & F). cbn [mapM]. rewrite !nofn_fin, py_div_fin by lra. cbn [bind]. rewrite nofn_fin in E. rewrite E. cbn [bind].
  eexists. split; [reflexivity|]. cbn [map fst]. now rewrite F.
Qed.
Lemma agrees_total (f : mat NumX -> res NumX) a b : (exists x, f a = Ok x) -> (exists x, f b = Ok x) -> exists v, agrees f a b = Ok v.
Proof. intros (x & E) (y & F). unfold agrees. rewrite E. cbn [bind]. rewrite F. cbn [bind]. eauto. Qed.

(** ** The judges answer *)
Section Judges.
Context (L : LinAlg NumX) (HL : lawful L).
Lemma loglik_ok p A xs : (1 <= p)%nat -> xs <> [] -> pd p A -> exists x, mp_loglik L (fm p p A) (map (fv p) xs) = Ok x.
Proof. intros Hp Hx HA. destruct (pd_invertible p A HA) as (Ai & HI). rewrite (mp_loglik_fin L HL p A Ai xs Hp HA HI Hx). eauto. Qed.
Lemma frobenius_ok p A xs : (1 <= p)%nat -> xs <> [] -> exists x, @mp_frobenius NumX (fm p p A) (map (fv p) xs) = Ok x.
Proof. intros Hp Hx. destruct (C95_frobenius p A xs Hp Hx) as (s & E & _). eauto. Qed.
Lemma stein_ok p A xs : (2 <= p)%nat -> xs <> [] -> pd p A -> exists x, mp_stein L (fm p p A) (map (fv p) xs) = Ok x.
Proof.
  intros Hp Hx HA. destruct (inv_ok L HL p A ltac:(lia) HA) as (Q & EQ & _). rewrite (C95_stein_is_the_assessor NumX L _ _ (fm p p Q) None EQ).
  - destruct (C70_stein L p A xs None HL ltac:(lia) Hx HA) as [H1 H2]. destruct (classic (pd p (pcov_of xs))) as [Y|Nx]; [destruct (H1 Y) as (s & E & _); eauto|eauto].
  - replace (ncols (map (fv p) xs)) with p; [lia|]. destruct xs; [congruence|]. symmetry. apply fv_length.
Qed.
Lemma schur_ok p lbl g A xs : (1 <= p)%nat -> xs <> [] -> length lbl = p -> pd p A -> exists x, mp_schur_loglik L (fm p p A) (map (fv p) xs) lbl (Fin g) = Ok x.
Proof.
  intros Hp Hx Hl HA. rewrite (C95_schur L p lbl g A _ Hl). destruct (project_pos L p (damped_by lbl g A) HL Hp) as (t & M & E & W).
  - exists (fun i => if Nat.eqb i 0 then 1 else 0). rewrite qf_unit by lia. unfold damped_by. rewrite Nat.eqb_refl. apply (pd_diag p A 0 HA). lia.
  - rewrite E. cbn [bind]. apply loglik_ok; auto. exact (wc_pd p M t W).
Qed.
Lemma accum_total (f : nat -> res NumX) l : (forall s, In s l -> exists x, f s = Ok x) -> forall t0, exists x, accum (N := NumX) f l t0 = Ok x.
Proof. induction l as [|s l IH]; intros H t0; [cbn; eauto|]. cbn [accum]. destruct (H s (or_introl eq_refl)) as (x & ->). cbn [bind]. apply IH. intros; apply H; now right. Qed.
Lemma block_ok p A xs b : (1 <= p)%nat -> xs <> [] -> pd p A -> b <> 0%Z -> exists x, mp_block_pseudo_loglik L (fm p p A) (map (fv p) xs) b = Ok x.
Proof.
  intros Hp Hx HA Hb. unfold mp_block_pseudo_loglik. rewrite fm_nrows. destruct (Z.eqb_spec b 0); [contradiction|]. destruct (Z.ltb_spec b 0); [eauto|]. set (bs := Z.to_nat b). assert (Hbs : (1 <= bs)%nat) by (unfold bs; lia).
  apply accum_total. intros s Hs. destruct (nblocks_spec p bs Hp Hbs) as [N1 N2]. unfold starts in Hs. fold (nblocks p bs) in Hs. apply in_map_iff in Hs. destruct Hs as (k & <- & Hk). apply in_seq in Hk. set (nn := nblocks p bs) in *.
  assert (K1 : (k * bs <= (nn - 1) * bs)%nat) by (apply Nat.mul_le_mono_r; lia). set (e := Nat.min (k * bs + bs) p). assert (S1 : (k * bs < e <= p)%nat) by (unfold e; lia).
  cbv zeta. rewrite mslice_fin by lia. fold (block_at (k * bs) A). set (m := (e - k * bs)%nat). assert (Hm : (1 <= m)%nat) by (unfold m; lia).
  destruct (project_pos L m (block_at (k * bs) A) HL Hm) as (t & M & E & W).
  { exists (fun i => if Nat.eqb i 0 then 1 else 0). rewrite qf_unit by lia. unfold block_at. apply (pd_diag p A (k * bs + 0) HA). lia. }
  assert (EX : map (slice (k * bs) e) (map (fv p) xs) = map (fv m) (map (coords_from (k * bs)) xs)) by (rewrite !map_map; apply map_ext; intros x; rewrite slice_fin by lia; reflexivity).
  replace (map (slice (k * bs) e) (map (fv p) xs)) with (map (fv m) (map (coords_from (k * bs)) xs)) by (symmetry; exact EX). pose proof (wc_pd m M t W) as PM.
  rewrite E. cbn [bind]. rewrite slogdet_pd by auto. cbn [bind]. destruct (inv_ok L HL m M Hm PM) as (B & -> & HB). cbn [bind].
  rewrite (mapM_map_ok _ (fv m) (fun x => Fin (qf m B x))) by (intros; now apply einsum_quad_fin). cbn [bind]. eauto.
Qed.
(** one block: the likelihood plus a constant of the data, for condition numbers of at most 1000 *)
Lemma block_full p A t xs b : (1 <= p)%nat -> xs <> [] -> well_conditioned p A t -> (Z.of_nat p <= b)%Z ->
  exists s, mp_loglik L (fm p p A) (map (fv p) xs) = Ok (Fin (s + INR p / 2 * ln (2 * PI))) /\ mp_block_pseudo_loglik L (fm p p A) (map (fv p) xs) b = Ok (Fin s).
Proof.
  intros Hp Hx HA Hb. destruct (C95_loglik_is_the_assessor L p A xs None HL Hp Hx (wc_pd p A t HA)) as (s & E1 & E2). exists s. split; [exact E2|].
  replace b with (Z.of_nat (Z.to_nat b)) by lia. rewrite (C95_block_pseudo_is_the_assessor L p (Z.to_nat b) A t xs None HL Hp) by (auto; lia).
  rewrite (C64_one_block L p (Z.to_nat b) A xs None HL Hp) by (first [exact (wc_pd p A t HA)|assumption|lia]). exact E1.
Qed.
(** *** Projections *)
Lemma ortho_good p m Q A : (1 <= p)%nat -> (1 <= m)%nat -> orthonormal p m Q -> pd p A -> good_subspace p A (m, rT Q).
Proof.
  intros Hp Hm HQ [SA HA]. split; [exact Hm|]. cbn [fst snd]. split.
  - intros i j Hi Hj. unfold congr. rewrite rsum_swap. apply rsum_ext. intros k Hk. apply rsum_ext. intros l Hl. rewrite (SA k l) by auto. ring.
  - intros v (i & Hi & Hv). unfold congr. rewrite qf_congr. apply HA.
    set (w := fun k => rsum m (fun i => v i * rT Q i k)).
    destruct (classic (exists k, (k < p)%nat /\ w k <> 0)) as [Y|Nx]; [exact Y|exfalso]. apply Hv.
    assert (Z : forall k, (k < p)%nat -> w k = 0) by (intros k Hk; destruct (Req_dec (w k) 0); [auto|exfalso; apply Nx; eauto]).
    assert (E : rsum p (fun k => rT Q i k * w k) = v i).
    { unfold w. rewrite (rsum_ext p _ (fun k => rsum m (fun j => rT Q i k * Q k j * v j))) by (intros k Hk; rewrite <- rsum_scal; apply rsum_ext; intros; unfold rT; ring). rewrite rsum_swap.
      rewrite (rsum_ext m _ (fun j => if Nat.eqb i j then v j else 0)); [now apply rsum_delta'|]. intros j Hj. rewrite rsum_scal_r. change (rsum p (fun k => rT Q i k * Q k j)) with (rmul p (rT Q) Q i j). rewrite (HQ i j Hi Hj). unfold rI. destruct (Nat.eqb i j); ring. }
    rewrite <- E. apply rsum_zero. intros k Hk. rewrite Z by auto. ring.
Qed.
Lemma orth_T p Q : orth p Q -> orth p (rT Q).
Proof. intros [H1 H2]. split; [exact H2|exact H1]. Qed.
(** what _random_subspaces returns *)
Definition subspaces_ok (p k : nat) (subs : list (mat NumX)) : Prop := subs <> [] /\ exists Qs, subs = map (fun Q => fm (Nat.min p k) p (rT Q)) Qs /\
  Forall (fun Q => orthonormal p (Nat.min p k) Q /\ ((p <= k)%nat -> orth p Q)) Qs.
Context (P : PowerRand NumX) (HP : fair_power P) (np_qr : mat NumX -> res (mat NumX)) (HQ : qr_thin np_qr).
Notation G := (pr_rand P).
Lemma subspaces_total p k n : (1 <= p)%nat -> (1 <= k)%nat -> (1 <= n)%nat -> total (subspaces_ok p k) (random_subspaces np_qr P p k n).
Proof.
  intros Hp Hk Hn. unfold random_subspaces.
  refine (total_weak _ _ _ _ (total_times (fun W => exists Q, W = fm (Nat.min p k) p (rT Q) /\ orthonormal p (Nat.min p k) Q /\ ((p <= k)%nat -> orth p Q)) n _ _)).
  - intros l [Hl HF]. split; [destruct l; [cbn in Hl; lia|discriminate]|]. clear Hl. induction HF as [|W l (Q & -> & H) HF (Qs & -> & IH)]; [exists []; split; [reflexivity|constructor]|]. exists (Q :: Qs). split; [reflexivity|]. constructor; auto.
  - apply (total_bind (fun M => exists A, M = fm p k A)); [apply total_draw; intros g; apply (fair_normal G (fp_fair P HP))|]. intros A0 (A & ->). destruct (HQ p k A Hp Hk) as (Q & E & H). rewrite E.
    eapply total_bind; [apply total_lift; eexists; split; [reflexivity|exact (eq_refl _)]|]. intros ? <-. apply total_ret. exists Q. split; [|exact H].
    assert (EF : map (firstn k) (fm p (Nat.min p k) Q) = fm p (Nat.min p k) Q).
    { rewrite <- (map_id (fm p (Nat.min p k) Q)) at 2. apply map_ext_in. intros r Hr. apply firstn_all2. unfold fm, tab2, tab in Hr. apply in_map_iff in Hr as (i & <- & _). rewrite map_length, seq_length. lia. }
    replace (map (firstn k) (fm p (Nat.min p k) Q)) with (fm p (Nat.min p k) Q) by (symmetry; exact EF). rewrite transpose_fin by lia. reflexivity.
Qed.
Lemma kproj_ok p k A xs subs : (1 <= p)%nat -> (1 <= k)%nat -> xs <> [] -> pd p A -> subspaces_ok p k subs -> exists x, mp_kproj_loglik L (fm p p A) (map (fv p) xs) subs = Ok x.
Proof.
  intros Hp Hk Hx HA (Hs & Qs & -> & HF). destruct (C95_projections L p A (map (fun Q => (Nat.min p k, rT Q)) Qs) xs HL Hp Hx) as (s & E & _).
  - destruct Qs; [contradiction|discriminate].
  - apply Forall_map. eapply Forall_impl; [|exact HF]. intros Q [H _]. apply ortho_good; auto; lia.
  - rewrite map_map in E. unfold arr in E. cbn [fst snd] in E. eauto.
Qed.
Lemma kproj_full p k A xs subs : (1 <= p)%nat -> (p <= k)%nat -> xs <> [] -> pd p A -> subspaces_ok p k subs -> mp_kproj_loglik L (fm p p A) (map (fv p) xs) subs = mp_loglik L (fm p p A) (map (fv p) xs).
Proof.
  intros Hp Hk Hx HA (Hs & Qs & -> & HF). replace (Nat.min p k) with p in * by lia. rewrite <- (map_map rT (fm p p)). apply C95_full_projections; auto.
  - destruct Qs; [contradiction|discriminate].
  - apply Forall_map. eapply Forall_impl; [|exact HF]. intros Q [_ H]. now apply orth_T, H.
Qed.
Lemma projection_total p tot k A B xs : (1 <= p)%nat -> (1 <= k)%nat -> xs <> [] -> pd p A -> pd p B ->
  total (fun _ => True) (projection_verdict L np_qr P p tot k (fm p p A) (fm p p B) (map (fv p) xs)).
Proof.
  intros Hp Hk Hx HA HB. unfold projection_verdict, n_subspaces. destruct (Nat.eqb_spec k 0); [lia|]. eapply total_bind; [apply total_lift; eexists; split; [reflexivity|exact (eq_refl _)]|]. intros ? <-.
  refine (total_bind _ _ _ _ (subspaces_total p k _ Hp Hk _) _); [lia|]. intros subs Hs. apply total_lift.
  destruct (agrees_total (fun cov => mp_kproj_loglik L cov (map (fv p) xs) subs) (fm p p A) (fm p p B)) as (v & E); [now apply (kproj_ok p k)|now apply (kproj_ok p k)|]. eauto.
Qed.
End Judges.

(** ** schur_power *)
Section Experiments.
Context (L : LinAlg NumX) (HL : lawful L) (P : PowerRand NumX) (HP : fair_power P) (np_qr : mat NumX -> res (mat NumX)) (HQ : qr_thin np_qr)
  (log exp : NumX -> NumX) (repr : NumX -> string).
Notation G := (pr_rand P).
Lemma mvn_total p T n : (1 <= p)%nat -> (1 <= n)%nat -> psd p T -> total (fun X => exists xs, X = map (fv p) xs /\ xs <> [] /\ length xs = n) (r_mvn G (fm p p T) n).
Proof. intros Hp Hn HT s. destruct (fp_mvn P HP p T n s Hp HT) as (xs & s' & E & Hl). exists (map (fv p) xs), s'. split; [exact E|]. exists xs. split; [reflexivity|]. split; [intros ->; cbn in Hl; lia|exact Hl]. Qed.
Lemma keyed_total {K} (k : K) (f : mat NumX -> res NumX) (c : contest (N := NumX)) : (exists x, f (c_good c) = Ok x) -> (exists x, f (c_bad c) = Ok x) -> exists v, keyed_verdict k f c = Ok v /\ True.
Proof. intros H1 H2. destruct (agrees_total f _ _ H1 H2) as (v & E). unfold keyed_verdict. rewrite E. cbn [bind]. eauto. Qed.
Lemma mapM_total {A B} (f : A -> res B) l : (forall a, In a l -> exists b, f a = Ok b /\ True) -> exists bs, mapM f l = Ok bs /\ True.
Proof. induction l as [|a l IH]; intros H; [exists []; auto|]. cbn [mapM]. destruct (H a (or_introl eq_refl)) as (b & -> & _). cbn [bind]. destruct IH as (bs & -> & _); [intros; apply H; now right|]. cbn [bind]. eauto. Qed.
Theorem C103_schur_completes p g rho eg eb sig (gammas : list R) n_test trials s : (1 <= g)%nat -> (1 <= p)%nat -> p = (g * (p / g))%nat -> (1 <= n_test)%nat -> (1 <= trials)%nat ->
  exists pw s', schur_power L repr P p g (Fin rho) (Fin eg) (Fin eb) (Fin sig) (map (fun x => Fin x : NumX) gammas) n_test trials s = Ok (pw, s') /\
    map fst pw = "full" :: map (fun x => gamma_key repr (Fin x)) gammas.
Proof.
  intros Hg Hp Ep Hn Ht. assert (T : total (fun pw => map fst pw = "full" :: map (fun x => gamma_key repr (Fin x)) gammas) (schur_power L repr P p g (Fin rho) (Fin eg) (Fin eb) (Fin sig) (map (fun x => Fin x : NumX) gammas) n_test trials)).
  { unfold schur_power, group_size. destruct (Nat.eqb_spec g 0); [lia|]. eapply total_bind; [apply total_lift; eexists; split; [reflexivity|exact (eq_refl _)]|]. intros ? <-.
    apply (total_bind (fun _ => True)).
    - refine (total_weak _ _ _ _ (total_times (fun _ => True) trials _ _)); [auto|]. unfold schur_trial.
      refine (total_bind _ _ _ _ (C103_group_contest L HL P HP p g (p / g) rho eg eb sig Ep Hp) _). intros c (sg & T & A & B & tt & ta & tb & ra & rb & HS & -> & WT & WA & WB & _). cbn [c_truth].
      pose proof (wc_pd p A ta WA) as PA. pose proof (wc_pd p B tb WB) as PB.
      refine (total_bind _ _ _ _ (mvn_total p T n_test Hp Hn (pd_psd p T (wc_pd p T tt WT))) _). intros X (xs & -> & Hx & _).
      apply (total_bind (fun _ => True)); [apply total_lift, keyed_total; cbn [c_good c_bad]; apply loglik_ok; auto|]. intros v _.
      apply (total_bind (fun _ => True)); [|intros; now apply total_ret]. apply total_lift, mapM_total. intros x Hi. apply in_map_iff in Hi as (y & <- & _). apply keyed_total; cbn [c_good c_bad]; apply schur_ok; auto; rewrite groups_length; lia.
    - intros ts _. apply total_lift. destruct (powers_total String.eqb ("full" :: map (gamma_key repr) (map (fun x => Fin x : NumX) gammas)) (concat ts) trials Ht) as (pw & E & F). exists pw. split; [exact E|]. rewrite F, map_map. reflexivity. }
  destruct (T s) as (pw & s' & E & F). eauto.
Qed.
(** it must divide *)
Theorem C103_groups_must_divide p g rho eg eb sig gammas n_test trials s : p <> (g * (p / g))%nat -> (1 <= trials)%nat ->
  schur_power L repr P p g (Fin rho) (Fin eg) (Fin eb) (Fin sig) gammas n_test trials s = Err (if Nat.eqb g 0 then ZeroDivisionError else IndexError).
Proof.
  intros Ep Ht. unfold schur_power, group_size. destruct (Nat.eqb_spec g 0) as [->|Hg]; [reflexivity|]. unfold dbind at 1, dlift at 1.
  destruct trials as [|n]; [lia|]. cbn [dtimes]. assert (E : schur_trial L repr P p g (p / g) (Fin rho) (Fin eg) (Fin eb) (Fin sig) gammas n_test s = Err IndexError); [|unfold dbind; now rewrite E].
  unfold schur_trial, group_contest. assert (EN : forall s, noisy_groups L P p g (p / g) (Fin rho) (Fin eg) (Fin sig) s = Err IndexError).
  { clear s. intros s. unfold noisy_groups, choose, dbind, ddraw, dlift, dret. cbn [length]. destruct (r_choice G 2 s) as [i s1] eqn:EC. pose proof (fp_choice P HP 2 s ltac:(lia)) as Hc. rewrite EC in Hc. cbn [fst] in Hc.
    assert (EN : exists z, nth_error [(-1)%Z; 1%Z] i = Some z) by (destruct i as [|[|i]]; [| |lia]; cbn; eauto). destruct EN as (z & ->).
    destruct (r_normal G p p s1) as [A0 s2] eqn:EA. destruct (fair_normal G (fp_fair P HP) p p s1) as (A & HA). rewrite EA in HA. cbn [fst] in HA. subst A0. rewrite to_symmetric_fin.
    unfold check_shape, within, tab2. unfold nrows, tab. rewrite map_length, seq_length. destruct (Nat.eqb_spec p (g * (p / g))); [contradiction|]. reflexivity. }
  unfold dbind, ddraw. destruct (pr_permutation P p s) as [q s1]. now rewrite EN.
Qed.
(** Full trust is the full likelihood: gamma = 1 has the power of "full". *)
Theorem C103_schur_full_trust p g rho eg eb sig (gammas : list NumX) n_test trials s pw s' : (1 <= g)%nat -> (1 <= p)%nat -> p = (g * (p / g))%nat -> NoDup (map repr gammas) -> In (Fin 1) gammas ->
  schur_power L repr P p g (Fin rho) (Fin eg) (Fin eb) (Fin sig) gammas n_test trials s = Ok (pw, s') ->
  exists q, In ("full", q) pw /\ In (gamma_key repr (Fin 1), q) pw.
Proof.
  intros Hg Hp Ep HN Hi E. destruct (C103_schur_power L repr P _ _ _ _ _ _ _ _ _ _ _ _ E HN) as (os & Hl & HF & ->). eexists. split; [left; reflexivity|]. right. apply in_map_iff. exists (Fin 1). split; [|exact Hi].
  f_equal. apply share_ext. intros o Ho. rewrite Forall_forall in HF. destruct (HF o Ho) as (s0 & s1 & s2 & E1 & _).
  pose proof (total_inv _ _ _ _ _ (C103_group_contest L HL P HP p g (p / g) rho eg eb sig Ep Hp) E1) as (sg & T & A & B & tt & ta & tb & ra & rb & _ & -> & _ & WA & WB & _).
  apply wins_ext; cbn [c_good c_bad]; [apply (C95_schur_gamma_one L p (groups g (p / g)) A ta)|apply (C95_schur_gamma_one L p (groups g (p / g)) B tb)]; auto; rewrite groups_length; lia.
Qed.

(** ** pseudo_likelihood_power *)
Lemma thin_square : qr_lawful np_qr.
Proof. intros p A Hp. destruct (HQ p p A Hp Hp) as (Q & E & _ & HO). rewrite Nat.min_id in E. exists Q. split; [exact E|]. now apply HO. Qed.
Lemma draw_bulk_total p bulk : (bulk <= p)%nat -> total (fun v => exists lam, v = fv bulk lam /\ forall i, (i < bulk)%nat -> 2 <= lam i <= 6) (draw_bulk P p bulk).
Proof.
  intros Hb. unfold draw_bulk. refine (total_bind _ _ _ _ (uniform_total G (fp_fair P HP) 2 6 bulk _ _ _ _ _) _); [reflexivity|reflexivity|lra|]. intros v H. destruct (Nat.ltb_spec p bulk); [lia|]. now apply total_ret.
Qed.
(** what the judges need: positive definite estimates and a truth that can be drawn from *)
Definition judgeable (p : nat) (c : contest (N := NumX)) : Prop := exists T A B x, c = mkContest (fm p p T) (fm p p A) (fm p p B) x /\ psd p T /\ pd p A /\ pd p B.
Lemma tail_judgeable p bulk lam tl c : (bulk <= p)%nat -> (forall i, (i < bulk)%nat -> 2 <= lam i <= 6) -> 0 <= tl -> fair_tail p bulk lam tl c -> judgeable p c.
Proof.
  intros Hb Hlam Htl (Q & la & lb & HO & -> & H1 & _). do 4 eexists. split; [reflexivity|]. split; [|split].
  - assert (BB : bounded_below p 0 (spec p Q (glue bulk lam (fun _ => tl)))). { apply spec_bb; [exact HO|]. intros i Hi. unfold glue. destruct (Nat.ltb_spec i bulk); [specialize (Hlam i H); lra|exact Htl]. }
    split; [apply BB|]. intros v. pose proof (proj2 BB v). lra.
  - apply (bb_pd p (1 / 10000)); [lra|]. apply spec_bb; [exact HO|]. intros i Hi. apply (H1 i Hi).
  - apply (bb_pd p (1 / 10000)); [lra|]. apply spec_bb; [exact HO|]. intros i Hi. apply (H1 i Hi).
Qed.
Lemma contest_judgeable p c : fair_contest p c -> judgeable p c.
Proof.
  intros (T & A & B & Ai & Bi & ta & tb & -> & HT & WA & WB & _). do 4 eexists. split; [reflexivity|]. split; [apply pd_psd, (bb_pd p (3/10)); [lra|exact HT]|]. split; [exact (wc_pd p A ta WA)|exact (wc_pd p B tb WB)].
Qed.
Theorem C103_pseudo_completes regime p0 bulk block_sizes sg sb st tl eg eb n_test trials s : let p := pll_dim regime p0 in
  finite_exp exp -> (1 <= p)%nat -> (bulk <= p)%nat -> 0 <= tl -> Rabs eg < 1 -> Rabs eb < 1 -> (1 <= n_test)%nat -> (1 <= trials)%nat -> Forall (fun b => b <> Some 0%Z) block_sizes ->
  exists pw s', pseudo_likelihood_power L exp np_qr P regime block_sizes p0 bulk (Fin sg) (Fin sb) (Fin st) (Fin tl) (Fin eg) (Fin eb) n_test trials s = Ok (pw, s') /\
    map fst pw = "frobenius" :: "full_loglik" :: map pll_key (pll_sizes p block_sizes).
Proof.
  intros p HX Hp Hb Htl Heg Heb Hn Ht HF.
  assert (T : total (fun pw => map fst pw = "frobenius" :: "full_loglik" :: map pll_key (pll_sizes p block_sizes))
    (pseudo_likelihood_power L exp np_qr P regime block_sizes p0 bulk (Fin sg) (Fin sb) (Fin st) (Fin tl) (Fin eg) (Fin eb) n_test trials)).
  { unfold pseudo_likelihood_power. fold p. cbv zeta. refine (total_bind _ _ _ _ (draw_bulk_total p bulk Hb) _). intros lam0 (lam & -> & Hlam).
    apply (total_bind (fun _ => True)).
    - refine (total_weak _ _ _ _ (total_times (fun _ => True) trials _ _)); [auto|]. unfold pll_trial.
      apply (total_bind (judgeable p)).
      { destruct (String.eqb regime "noisy_tail").
        - rewrite fv_length. refine (total_weak _ _ _ _ (C103_tail_contest P HP exp np_qr p bulk lam tl sg sb st HX thin_square Hp Hb)). intros c. now apply tail_judgeable.
        - refine (total_weak _ _ _ _ (C103_perturbed_contest L HL P HP p eg eb Hp Heg Heb)). intros c. apply contest_judgeable. }
      intros c (T & A & B & x & -> & PT & PA & PB). cbn [c_truth].
      refine (total_bind _ _ _ _ (mvn_total p T n_test Hp Hn PT) _). intros X (xs & -> & Hx & _).
      apply (total_bind (fun _ => True)); [apply total_lift, keyed_total; cbn [c_good c_bad]; now apply frobenius_ok|]. intros v _.
      apply (total_bind (fun _ => True)); [apply total_lift, keyed_total; cbn [c_good c_bad]; now apply loglik_ok|]. intros v2 _.
      apply (total_bind (fun _ => True)); [|intros; now apply total_ret]. apply total_lift, mapM_total. intros b Hi.
      assert (b <> 0%Z). { unfold pll_sizes in Hi. apply in_map_iff in Hi as (ob & <- & Hi). rewrite Forall_forall in HF. specialize (HF ob Hi). destruct ob; [congruence|lia]. }
      apply keyed_total; cbn [c_good c_bad]; now apply block_ok.
    - intros ts _. apply total_lift. destruct (powers_total String.eqb ("frobenius" :: "full_loglik" :: map pll_key (pll_sizes p block_sizes)) (concat ts) trials Ht) as (pw & E & F). eauto. }
  destruct (T s) as (pw & s' & E & F). eauto.
Qed.
(** In every regime but the noisy one, a single block (block_size None, or anything at least p) has the power of the full likelihood. *)
Theorem C103_single_block regime p0 bulk block_sizes sg sb st tl eg eb n_test trials s pw s' b : let p := pll_dim regime p0 in let bs := pll_sizes p block_sizes in
  regime <> "noisy_tail" -> (1 <= p)%nat -> Rabs eg < 1 -> Rabs eb < 1 -> (1 <= n_test)%nat -> NoDup bs -> In b bs -> (Z.of_nat p <= b)%Z ->
  pseudo_likelihood_power L exp np_qr P regime block_sizes p0 bulk (Fin sg) (Fin sb) (Fin st) (Fin tl) (Fin eg) (Fin eb) n_test trials s = Ok (pw, s') ->
  exists q, In ("full_loglik", q) pw /\ In (pll_key b, q) pw.
Proof.
  intros p bs Hr Hp Heg Heb Hn HN Hi Hb E. destruct (C103_pseudo_likelihood_power L exp np_qr P _ _ _ _ _ _ _ _ _ _ _ _ _ _ _ E HN) as (_ & lam & os & _ & Hl & HF & ->).
  eexists. split; [right; left; reflexivity|]. right. right. apply in_map_iff. exists b. split; [|exact Hi]. f_equal. apply share_ext. intros o Ho. rewrite Forall_forall in HF. destruct (HF o Ho) as (s0 & s1 & s2 & E1 & E2).
  unfold pll_contest in E1. destruct (String.eqb_spec regime "noisy_tail"); [contradiction|].
  pose proof (total_inv _ _ _ _ _ (C103_perturbed_contest L HL P HP p eg eb Hp Heg Heb) E1) as (T & A & B & Ai & Bi & ta & tb & EC & HT & WA & WB & _). rewrite EC in *. cbn [c_truth] in E2.
  pose proof (total_inv _ _ _ _ _ (mvn_total p T n_test Hp Hn (pd_psd p T (bb_pd p (3/10) T ltac:(lra) HT))) E2) as (xs & -> & Hx & _).
  unfold wins. cbn [c_good c_bad]. destruct (block_full L HL p A ta xs b Hp Hx WA Hb) as (x & -> & ->). destruct (block_full L HL p B tb xs b Hp Hx WB Hb) as (y & -> & ->). rewrite !ltb_fin.
  destruct (Rltb_spec y x), (Rltb_spec (y + INR p / 2 * ln (2 * PI)) (x + INR p / 2 * ln (2 * PI))); auto; lra.
Qed.
(** The clean regime cuts p to 20 but not the number of leading eigenvalues, which it does not use: more than min(p, 20) of them raise. *)
Theorem C103_clean_regime_bulk block_sizes p bulk a1 a2 a3 a4 a5 a6 n_test trials s : (Nat.min p 20 < bulk)%nat ->
  pseudo_likelihood_power L exp np_qr P "clean" block_sizes p bulk a1 a2 a3 a4 a5 a6 n_test trials s = Err ValueError.
Proof.
  intros H. unfold pseudo_likelihood_power. change (pll_dim "clean" p) with (Nat.min p 20). cbv zeta. unfold draw_bulk, dbind at 1 2, ddraw. destruct (r_uniform _ _ _ _ _) as [l s1]. destruct (Nat.ltb_spec (Nat.min p 20) bulk); [reflexivity|lia].
Qed.

(** ** proof_high_dim *)
Theorem C103_high_dim_completes p bulk sg sb st tl k_list n_test trials s :
  finite_exp exp -> (2 <= p)%nat -> (bulk <= p)%nat -> 0 <= tl -> (1 <= n_test)%nat -> (1 <= trials)%nat -> Forall (fun k => k <> Some 0%nat) k_list ->
  exists pw s', proof_high_dim L exp np_qr P p bulk (Fin sg) (Fin sb) (Fin st) (Fin tl) k_list n_test trials s = Ok (pw, s') /\
    map fst pw = "loglik" :: "stein" :: "frobenius" :: map (fun k => proj_key (or_full p k)) k_list.
Proof.
  intros HX Hp Hb Htl Hn Ht HF. assert (Hp1 : (1 <= p)%nat) by lia.
  assert (T : total (fun pw => map fst pw = "loglik" :: "stein" :: "frobenius" :: map (fun k => proj_key (or_full p k)) k_list)
    (proof_high_dim L exp np_qr P p bulk (Fin sg) (Fin sb) (Fin st) (Fin tl) k_list n_test trials)).
  { unfold proof_high_dim. refine (total_bind _ _ _ _ (draw_bulk_total p bulk Hb) _). intros lam0 (lam & -> & Hlam).
    apply (total_bind (fun _ => True)).
    - refine (total_weak _ _ _ _ (total_times (fun _ => True) trials _ _)); [auto|]. unfold high_dim_trial. rewrite fv_length.
      apply (total_bind (judgeable p)). { refine (total_weak _ _ _ _ (C103_tail_contest P HP exp np_qr p bulk lam tl sg sb st HX thin_square Hp1 Hb)). intros c. now apply tail_judgeable. }
      intros c (T & A & B & x & -> & PT & PA & PB). cbn [c_truth].
      refine (total_bind _ _ _ _ (mvn_total p T n_test Hp1 Hn PT) _). intros X (xs & -> & Hx & _).
      apply (total_bind (fun _ => True)); [apply total_lift, keyed_total; cbn [c_good c_bad]; now apply loglik_ok|]. intros v _.
      apply (total_bind (fun _ => True)); [apply total_lift, keyed_total; cbn [c_good c_bad]; now apply stein_ok|]. intros v2 _.
      apply (total_bind (fun _ => True)); [apply total_lift, keyed_total; cbn [c_good c_bad]; now apply frobenius_ok|]. intros v3 _.
      apply (total_bind (fun _ => True)); [|intros; now apply total_ret]. apply (total_map (fun _ => True)). intros k Hk. cbn [c_good c_bad].
      apply (total_bind (fun _ => True)); [|intros; now apply total_ret]. apply projection_total; auto. rewrite Forall_forall in HF. specialize (HF k Hk). destruct k as [[|k]|]; cbn [or_full]; [congruence|lia|lia].
    - intros ts _. apply total_lift. destruct (powers_total String.eqb ("loglik" :: "stein" :: "frobenius" :: map (fun k => proj_key (or_full p k)) k_list) (concat ts) trials Ht) as (pw & E & F). eauto. }
  destruct (T s) as (pw & s' & E & F). eauto.
Qed.
(** Projections on as many dimensions as there are variables (k None, or anything at least p) have the power of the log-likelihood. *)
Theorem C103_full_projection p bulk sg sb st tl k_list n_test trials s pw s' k :
  finite_exp exp -> (1 <= p)%nat -> 0 <= tl -> (1 <= n_test)%nat -> NoDup (map (or_full p) k_list) -> In k k_list -> (p <= or_full p k)%nat ->
  proof_high_dim L exp np_qr P p bulk (Fin sg) (Fin sb) (Fin st) (Fin tl) k_list n_test trials s = Ok (pw, s') ->
  exists q, In ("loglik", q) pw /\ In (proj_key (or_full p k), q) pw.
Proof.
  intros HX Hp Htl Hn HN Hi Hk E. destruct (C103_proof_high_dim L exp np_qr P _ _ _ _ _ _ _ _ _ _ _ _ E HN) as (Hb & lam0 & os & El & Hl & HF & ->).
  destruct (fair_uniform G (fp_fair P HP) 2 6 bulk s ltac:(lra)) as (lam & EU & Hlam). change (Fin 2) with (@nofZ NumX 2) in EU. change (Fin 6) with (@nofZ NumX 6) in EU. rewrite EU in El. subst lam0.
  eexists. split; [left; reflexivity|]. right. right. right. apply in_map_iff. exists k. split; [|exact Hi]. f_equal. apply share_ext. intros o Ho. rewrite Forall_forall in HF. destruct (HF o Ho) as ((s0 & s1 & s2 & E1 & E2) & HS).
  rewrite fv_length in E1. pose proof (total_inv _ _ _ _ _ (C103_tail_contest P HP exp np_qr p bulk lam tl sg sb st HX thin_square Hp Hb) E1) as HC. apply tail_judgeable in HC as (T & A & B & x & EC & PT & PA & PB); auto. rewrite EC in *. cbn [c_truth] in E2.
  pose proof (total_inv _ _ _ _ _ (mvn_total p T n_test Hp Hn PT) E2) as (xs & -> & Hx & _).
  destruct (HS k Hi) as (K0 & h0 & h1 & ES). pose proof (total_inv _ _ _ _ _ (subspaces_total P HP np_qr HQ p (or_full p k) (Nat.max 1 (60 / or_full p k)) Hp ltac:(lia) ltac:(lia)) ES) as HO.
  apply wins_ext; cbn [c_good c_bad]; apply (kproj_full L HL p (or_full p k)); auto.
Qed.

(** ** projection_power and run *)
Theorem C103_projection_completes p k_list tot eg eb n_test trials mg s : (1 <= p)%nat -> Rabs eg < 1 -> Rabs eb < 1 -> (1 <= n_test)%nat -> (1 <= trials)%nat -> Forall (fun k => k <> Some 0%nat) k_list -> mg <= 0 ->
  exists pw gap s', projection_power L np_qr P p k_list tot (Fin eg) (Fin eb) n_test trials (Fin mg) s = Ok (pw, gap, s') /\ map fst pw = k_list.
Proof.
  intros Hp Heg Heb Hn Ht HF Hmg.
  assert (T : total (fun r => map fst (fst r) = k_list) (projection_power L np_qr P p k_list tot (Fin eg) (Fin eb) n_test trials (Fin mg))).
  { unfold projection_power. apply (total_bind (fun l => (1 <= length (counted l))%nat)).
    - refine (total_weak _ _ _ _ (total_times (fun o => exists a, o = Some a) trials _ _)).
      { intros l [Hl HS]. destruct l as [|o l]; [cbn in Hl; lia|]. inversion HS as [|? ? (a & ->) _]; subst. cbn. lia. }
      unfold projection_trial. refine (total_bind _ _ _ _ (C103_perturbed_contest L HL P HP p eg eb Hp Heg Heb) _). intros c (T & A & B & Ai & Bi & ta & tb & -> & HT & WA & WB & _ & _ & HG). cbn [c_gap c_truth c_good c_bad].
      rewrite ltb_fin. destruct (Rltb_spec (kl_of p Bi B T - kl_of p Ai A T) mg) as [Hlt|Hge]; [lra|].
      refine (total_bind _ _ _ _ (mvn_total p T n_test Hp Hn (pd_psd p T (bb_pd p (3/10) T ltac:(lra) HT))) _). intros X (xs & -> & Hx & _).
      apply (total_bind (fun _ => True)); [|intros; apply total_ret; eauto]. apply (total_map (fun _ => True)). intros k Hk. apply (total_bind (fun _ => True)); [|intros; now apply total_ret].
      apply projection_total; auto; [|exact (wc_pd p A ta WA)|exact (wc_pd p B tb WB)]. rewrite Forall_forall in HF. specialize (HF k Hk). destruct k as [[|k]|]; cbn [or_full]; [congruence|lia|lia].
    - intros ts Hts. destruct (powers_total optnat_eqb k_list (concat (map snd (counted ts))) (length (counted ts)) Hts) as (pw & E & F). apply (total_bind (fun x => x = pw)); [apply total_lift; eauto|]. intros ? ->. now apply total_ret. }
  destruct (T s) as ([pw gap] & s' & E & F). eauto.
Qed.
Lemma div_by_none (x : NumX) : py_div x (nofn 0) = Err ZeroDivisionError.
Proof. unfold py_div. rewrite nofn_fin. cbn [INR]. rewrite n0_fin, !leb_fin. unfold Rleb. destruct (Rle_dec 0 0); [reflexivity|lra]. Qed.
(** No trial counted, because none was run or because every gap is under the threshold: a division by zero. *)
Theorem C103_nothing_counted p k k_list tot eg eb n_test trials mg s : (trials = 0%nat \/ (1 <= p)%nat /\ Rabs eg < 1 /\ Rabs eb < 1 /\ mg = PInf) ->
  projection_power L np_qr P p (k :: k_list) tot (Fin eg) (Fin eb) n_test trials mg s = Err ZeroDivisionError.
Proof.
  intros H. assert (E : exists ts s1, dtimes G trials (projection_trial L np_qr P p (k :: k_list) tot (Fin eg) (Fin eb) n_test mg) s = Ok (ts, s1) /\ counted ts = []).
  { destruct H as [-> | (Hp & Heg & Heb & ->)]; [exists [], s; auto|].
    assert (T : total (fun l : list (option (NumX * list (option nat * bool))) => counted l = []) (dtimes G trials (projection_trial L np_qr P p (k :: k_list) tot (Fin eg) (Fin eb) n_test PInf))).
    { refine (total_weak _ _ _ _ (total_times (fun o => o = None) trials _ _)); [intros l [_ HS]; induction HS as [|o l -> HS IH]; [reflexivity|exact IH]|].
      unfold projection_trial. refine (total_bind _ _ _ _ (C103_perturbed_contest L HL P HP p eg eb Hp Heg Heb) _). intros c (T & A & B & Ai & Bi & ta & tb & -> & _). cbn [c_gap]. cbn. now apply total_ret. }
    destruct (T s) as (ts & s1 & E & F). eauto. }
  destruct E as (ts & s1 & E & F). unfold projection_power, dbind at 1. rewrite E. cbv zeta. rewrite F. unfold dbind, dlift, powers. cbn [mapM map concat length]. rewrite div_by_none. reflexivity.
Qed.
Lemma random_projection_ok p A ds xs : is_log log -> (1 <= p)%nat -> xs <> [] -> ds <> [] -> pd p A -> Forall (fun d => exists j, (j < p)%nat /\ d j <> 0) ds -> exists x, mp_random_projection log (fm p p A) (map (fv p) xs) (map (fv p) ds) = Ok x.
Proof. intros Hlog Hp Hx Hd HA HF. rewrite (C95_random_projection L log p A ds xs Hlog Hp Hx Hd); [eauto|]. eapply Forall_impl; [|exact HF]. intros d H. now apply (proj2 HA). Qed.
Lemma metrics_ok p A ds xs m : is_log log -> (2 <= p)%nat -> xs <> [] -> ds <> [] -> pd p A -> Forall (fun d => exists j, (j < p)%nat /\ d j <> 0) ds -> In m (METRICS L log) -> exists x, snd m (fm p p A) (map (fv p) xs) (map (fv p) ds) = Ok x.
Proof.
  intros Hlog Hp Hx Hd HA HF Hm. assert (Hp1 : (1 <= p)%nat) by lia. unfold METRICS in Hm. cbn [In] in Hm. destruct Hm as [<-|[<-|[<-|[<-|[<-|[<-|[]]]]]]]; cbn [snd].
  - now apply loglik_ok. - now apply frobenius_ok. - now apply stein_ok. - now apply random_projection_ok.
  - rewrite (C95_min_variance_is_the_assessor L p A xs None HL Hp1 Hx HA). destruct (C63_gmv_is_portfolio_second_moment L p A xs None HL Hp1 Hx HA) as (B & _ & _ & -> & _). eauto.
  - destruct (pd_invertible p A HA) as (Ai & HI). rewrite (C95_calibration L p A Ai xs HL Hp1 Hx HA HI). eauto.
Qed.
Lemma unit_rows_fin n p B : (1 <= p)%nat -> (forall i, (i < n)%nat -> exists j, (j < p)%nat /\ B i j <> 0) ->
  exists ds, unit_rows (N := NumX) (fm n p B) = map (fv p) ds /\ length ds = n /\ Forall (fun d => rdot p d d = 1) ds.
Proof.
  intros Hp H. set (nr := fun i => sqrt (rdot p (B i) (B i))).
  assert (HN : forall i, (i < n)%nat -> 0 < rdot p (B i) (B i)).
  { intros i Hi. destruct (H i Hi) as (j & Hj & Hb). assert (0 <= rdot p (B i) (B i)) by (unfold rdot; apply rsum_nonneg; intros; apply Rle_0_sqr). destruct (Req_dec (rdot p (B i) (B i)) 0) as [Z|]; [|lra].
    exfalso. apply Hb. assert (B i j * B i j = 0) by (apply (rsum_pos_zero p (fun j => B i j * B i j)); auto; intros; apply Rle_0_sqr). nra. }
  exists (map (fun i j => B i j / nr i) (seq 0 n)). split; [|split; [now rewrite map_length, seq_length|]].
  - unfold unit_rows, fm, tab2, tab. rewrite !map_map. apply map_ext_in. intros i Hi. apply in_seq in Hi. change (map (fun j => Fin (B i j)) (seq 0 p)) with (fv p (B i)). rewrite vnorm_fin. fold (nr i). rewrite vdivs_fin; [reflexivity|].
    unfold nr. pose proof (sqrt_lt_R0 _ (HN i ltac:(lia))). lra.
  - apply Forall_map, Forall_forall. intros i Hi. apply in_seq in Hi. assert (NZ : nr i <> 0) by (unfold nr; pose proof (sqrt_lt_R0 _ (HN i ltac:(lia))); lra).
    assert (SQ : nr i * nr i = rdot p (B i) (B i)) by (apply sqrt_sqrt; left; apply HN; lia).
    unfold rdot. rewrite (rsum_ext p _ (fun j => / (nr i * nr i) * (B i j * B i j))) by (intros; field; exact NZ). rewrite rsum_scal. change (rsum p (fun j => B i j * B i j)) with (rdot p (B i) (B i)). rewrite <- SQ. field. exact NZ.
Qed.
Theorem C103_run_completes p eg eb n_grid trials n_dirs mg s : is_log log -> (2 <= p)%nat -> Rabs eg < 1 -> Rabs eb < 1 -> n_grid <> [] -> Forall (fun n => (1 <= n)%nat) n_grid -> (1 <= trials)%nat -> (1 <= n_dirs)%nat -> mg <= 0 ->
  exists pw gap s', run L log P p (Fin eg) (Fin eb) n_grid trials n_dirs (Fin mg) s = Ok (pw, gap, s') /\
    map fst pw = ["loglik"; "frobenius"; "stein"; "random_proj"; "min_variance"; "maha_calib"] /\ Forall (fun row => map fst (snd row) = n_grid) pw.
Proof.
  intros Hlog Hp Heg Heb Hne HF Ht Hd Hmg. assert (Hp1 : (1 <= p)%nat) by lia.
  assert (T : total (fun r => map fst (fst r) = ["loglik"; "frobenius"; "stein"; "random_proj"; "min_variance"; "maha_calib"] /\ Forall (fun row => map fst (snd row) = n_grid) (fst r)) (run L log P p (Fin eg) (Fin eb) n_grid trials n_dirs (Fin mg))).
  { unfold run. apply (total_bind (fun l => counted l <> [] /\ Forall (fun t => map fst (snd t) = n_grid) (counted l))).
    - refine (total_weak _ _ _ _ (total_times (fun o => exists a, o = Some a /\ map fst (snd a) = n_grid) trials _ _)).
      { intros l [Hl HS]. split; [destruct l as [|o l]; [cbn in Hl; lia|]; inversion HS as [|? ? (a & -> & _) _]; subst; discriminate|]. clear Hl. induction HS as [|o l (a & -> & Ha) HS IH]; [constructor|]. cbn. constructor; auto. }
      unfold run_trial. refine (total_bind _ _ _ _ (C103_perturbed_contest L HL P HP p eg eb Hp1 Heg Heb) _). intros c (T & A & B & Ai & Bi & ta & tb & -> & HT & WA & WB & _ & _ & HG). cbn [c_gap c_truth c_good c_bad].
      rewrite ltb_fin. destruct (Rltb_spec (kl_of p Bi B T - kl_of p Ai A T) mg) as [Hlt|Hge]; [lra|].
      apply (total_bind (fun M => exists B, M = fm n_dirs p B /\ forall i, (i < n_dirs)%nat -> exists j, (j < p)%nat /\ B i j <> 0)); [apply total_draw; intros g; now apply (fp_rows P HP)|]. intros D0 (Dm & -> & HD).
      destruct (unit_rows_fin n_dirs p Dm Hp1 HD) as (ds & EU & Hds & HU). rewrite EU.
      assert (HM : (1 <= list_max n_grid)%nat). { destruct n_grid as [|n l]; [contradiction|]. inversion HF; subst. change (list_max (n :: l)) with (Nat.max n (list_max l)). lia. }
      apply (total_bind (fun n => n = list_max n_grid)); [apply total_lift; unfold biggest; destruct n_grid; [contradiction|eauto]|]. intros ? ->.
      refine (total_bind _ _ _ _ (mvn_total p T _ Hp1 HM (pd_psd p T (bb_pd p (3/10) T ltac:(lra) HT))) _). intros X (xs & -> & Hx & Hxl).
      apply (total_bind (fun vs => map fst vs = n_grid)); [|intros vs Hvs; apply total_ret; eauto]. apply total_lift. unfold run_verdicts. clear Hne HM Hxl.
      induction n_grid as [|n l IH]; [exists []; auto|]. inversion HF as [|? ? Hn1 HF']; subst. cbn [mapM].
      match goal with |- context [mapM ?f (METRICS L log)] => assert (EM : exists vs, mapM f (METRICS L log) = Ok vs) end.
      { assert (G0 : forall ms, incl ms (METRICS L log) -> exists vs, mapM (fun m => bind (agrees (fun cov => snd m cov (firstn n (map (fv p) xs)) (map (fv p) ds)) (fm p p A) (fm p p B)) (fun b => Ok (fst m, b))) ms = Ok vs).
        { induction ms as [|m ms IHm]; intros HI; [exists []; reflexivity|]. cbn [mapM].
          destruct (agrees_total (fun cov => snd m cov (map (fv p) (firstn n xs)) (map (fv p) ds)) (fm p p A) (fm p p B)) as (v & EV).
          - apply metrics_ok; auto; [destruct xs, n; cbn; congruence || lia|intros ->; cbn in Hd; lia|exact (wc_pd p A ta WA)| |apply HI; now left].
            eapply Forall_impl; [|exact HU]. intros d Hd1. destruct (classic (exists j, (j < p)%nat /\ d j <> 0)) as [Y|Nx]; [exact Y|exfalso]. cbv beta in Hd1. unfold rdot in Hd1. rewrite rsum_zero in Hd1; [lra|]. intros j Hj. destruct (Req_dec (d j) 0) as [->|C]; [ring|exfalso; apply Nx; eauto].
          - apply metrics_ok; auto; [destruct xs, n; cbn; congruence || lia|intros ->; cbn in Hd; lia|exact (wc_pd p B tb WB)| |apply HI; now left].
            eapply Forall_impl; [|exact HU]. intros d Hd1. destruct (classic (exists j, (j < p)%nat /\ d j <> 0)) as [Y|Nx]; [exact Y|exfalso]. cbv beta in Hd1. unfold rdot in Hd1. rewrite rsum_zero in Hd1; [lra|]. intros j Hj. destruct (Req_dec (d j) 0) as [->|C]; [ring|exfalso; apply Nx; eauto].
          - assert (EV' : agrees (fun cov => snd m cov (firstn n (map (fv p) xs)) (map (fv p) ds)) (fm p p A) (fm p p B) = Ok v) by (rewrite <- EV; unfold agrees; rewrite firstn_map; reflexivity).
            match goal with |- context [agrees ?f ?a ?b] => replace (agrees f a b) with (Ok v : res bool) by (symmetry; exact EV') end. cbn [bind]. destruct IHm as (vs & EI); [intros x Hxi; apply HI; now right|].
            match goal with |- context [mapM ?f ms] => replace (mapM f ms) with (Ok vs : res (list (string * bool))) by (symmetry; exact EI) end. cbn [bind]. eauto. }
        apply G0. intros x Hxi; exact Hxi. }
      destruct EM as (vs & EM). cbn [c_good c_bad]. cbn [c_good c_bad] in EM. rewrite EM. cbn [bind]. destruct (IH HF') as (rest & ER & FR). cbn [c_good c_bad] in ER. rewrite ER. cbn [bind]. eexists. split; [reflexivity|]. cbn [map fst]. now rewrite FR.
    - intros ts [Hts HG]. apply total_lift. unfold run_table. set (cs := counted ts) in *.
      assert (NZ : forall n, In n n_grid -> (1 <= length (at_size n (map snd cs)))%nat).
      { intros n Hn. destruct cs as [|t cs]; [contradiction|]. pose proof (Forall_inv HG) as H1. cbv beta in H1. cbn [map]. unfold at_size. cbn [concat]. rewrite filter_app, map_app, app_length.
        rewrite <- H1 in Hn. apply in_map_iff in Hn as (e & <- & He). assert (In e (filter (fun e0 => Nat.eqb (fst e) (fst e0)) (snd t))) by (apply filter_In; split; [exact He|apply Nat.eqb_refl]). rewrite map_length.
        destruct (filter (fun e0 => Nat.eqb (fst e) (fst e0)) (snd t)); [contradiction|cbn; lia]. }
      assert (ROW : forall (m : string), exists row : list (nat * NumX), mapM (fun n => let vs := at_size n (map snd cs) in bind (py_div (N := NumX) (nofn (tally String.eqb m (concat vs))) (nofn (length vs))) (fun q => Ok (n, q))) n_grid = Ok row /\ map fst row = n_grid).
      { intros m. clear -NZ. induction n_grid as [|n l IH]; [exists []; auto|]. destruct IH as (row & E & F); [intros; apply NZ; now right|]. cbn [mapM]. cbv zeta. rewrite !nofn_fin, py_div_fin.
        - cbn [bind]. cbv zeta in E. rewrite E. cbn [bind]. eexists. split; [reflexivity|]. cbn [map fst]. now rewrite F.
        - assert (0 < INR (length (at_size n (map snd cs)))) by (apply lt_0_INR; specialize (NZ n (or_introl eq_refl)); lia). lra. }
      assert (TAB : forall ms : list string, exists pw : list (string * list (nat * NumX)), mapM (fun m => bind (mapM (fun n => let vs := at_size n (map snd cs) in bind (py_div (N := NumX) (nofn (tally String.eqb m (concat vs))) (nofn (length vs))) (fun q => Ok (n, q))) n_grid) (fun row => Ok (m, row))) ms = Ok pw /\ map fst pw = ms /\ Forall (fun row => map fst (snd row) = n_grid) pw).
      { induction ms as [|m ms IHm]; [exists []; auto|]. destruct IHm as (pw & E & F1 & F2). destruct (ROW m) as (row & R1 & R2). cbn [mapM]. cbv zeta in R1, E |- *. rewrite R1. cbn [bind]. rewrite E. cbn [bind]. eexists. split; [reflexivity|]. cbn [map fst]. split; [now rewrite F1|]. constructor; auto. }
      destruct (TAB (map fst (METRICS L log))) as (pw & E & F1 & F2).
      match goal with |- context [bind ?m _] => replace m with (Ok pw : res (list (string * list (nat * NumX)))) by (symmetry; exact E) end. cbn [bind]. eexists. split; [reflexivity|]. cbn [fst]. split; [rewrite F1; reflexivity|exact F2]. }
  destruct (T s) as ([pw gap] & s' & E & F1 & F2). exists pw, gap, s'. split; [exact E|]. split; [exact F1|exact F2].
Qed.
End Experiments.

(** ** The hypotheses can be met *)
Definition still : PowerRand NumX := mkPowerRand NumX
  (mkRand NumX unit (fun _ g => (0%nat, g)) (fun _ g => (0%nat, g)) (fun lo _ n g => (repeat lo n, g)) (fun n g => (repeat n1 n, g))
    (fun n m g => (fm n m (fun _ _ => 1), g)) (fun cov n g => Ok (repeat (fv (nrows cov) (fun _ => 1)) n, g)) (fun _ n g => (repeat n1 n, g)))
  (fun _ n g => (fv n (fun _ => 0), g)) (fun p g => (seq 0 p, g)).
Definition plain_qr (m : mat NumX) : res (mat NumX) := Ok (fm (nrows m) (Nat.min (nrows m) (ncols m)) rI).
Lemma still_fair : fair_power still.
Proof.
  constructor.
  - constructor.
    + intros lo hi n g H. exists (fun _ => lo). split; [apply repeat_tab|]. intros; lra.
    + intros n m g. exists (fun _ _ => 1). reflexivity.
  - intros p s Hp. exists (fun _ _ => 1), 0%nat, 0%nat. split; [reflexivity|]. split; [lia|]. split; [lia|]. unfold symm. lra.
  - intros n p s Hp. exists (fun _ _ => 1). split; [reflexivity|]. intros i _. exists 0%nat. split; [lia|lra].
  - intros p T n s Hp HT. exists (repeat (fun _ => 1) n), s. cbn [r_mvn pr_rand still]. rewrite fm_nrows. split; [|apply repeat_length]. apply (f_equal (fun z => Ok (z, s))).
    induction n as [|n IH]; [reflexivity|]. cbn [repeat map]. f_equal. exact IH.
  - intros sd n s. exists (fun _ => 0). reflexivity.
  - intros p s. apply Permutation_refl.
  - intros n s H. exact H.
Qed.
Lemma plain_thin : qr_thin plain_qr.
Proof.
  assert (I1 : forall p m, (m <= p)%nat -> meq m m (rmul p (rT rI) rI) rI).
  { intros p m Hm i j Hi Hj. unfold rmul, rT, rI at 2. rewrite (rsum_ext p _ (fun k => if Nat.eqb k j then rI k i else 0)) by (intros k Hk; destruct (Nat.eqb k j); ring). rewrite (rsum_delta p j (fun k => rI k i)) by lia. unfold rI. now rewrite Nat.eqb_sym. }
  intros p k A Hp Hk. exists rI. unfold plain_qr. rewrite fm_nrows, fm_ncols by auto. split; [reflexivity|]. split; [apply I1; lia|]. intros _. split; [apply I1; lia|].
  intros i j Hi Hj. unfold rmul, rT. rewrite (rsum_ext p _ (fun k => if Nat.eqb i k then rI j k else 0)) by (intros m Hm; unfold rI at 1; destruct (Nat.eqb i m); ring). rewrite (rsum_delta' p i (fun k => rI j k)) by lia. unfold rI. now rewrite Nat.eqb_sym.
Qed.
Definition still_exp (x : NumX) : NumX := match x with Fin r => Fin (exp r) | _ => NaN end.
(** Eight variables in two groups, five trials: every experiment returns its table. *)
Example C103_witness : exists L log, lawful L /\ is_log log /\ fair_power still /\ qr_thin plain_qr /\ finite_exp still_exp /\
  (exists pw s', schur_power L (fun _ => "1.0") still 8 2 (Fin (3 / 5)) (Fin (1 / 20)) (Fin (1 / 5)) (Fin (1 / 10)) [Fin 1] 9 5 tt = Ok (pw, s') /\
     map fst pw = ["full"; "gamma_1.0"] /\ exists q, In ("full", q) pw /\ In ("gamma_1.0", q) pw) /\
  (exists pw s', pseudo_likelihood_power L still_exp plain_qr still "clean" [Some 3%Z; None] 8 2 (Fin (1 / 10)) (Fin (1 / 5)) (Fin 1) (Fin (1 / 20)) (Fin (1 / 25)) (Fin (1 / 20)) 9 5 tt = Ok (pw, s') /\
     map fst pw = ["frobenius"; "full_loglik"; "pll_b3"; "pll_b8"] /\ exists q, In ("full_loglik", q) pw /\ In ("pll_b8", q) pw) /\
  (exists pw s', proof_high_dim L still_exp plain_qr still 8 2 (Fin (1 / 10)) (Fin (1 / 5)) (Fin 1) (Fin (1 / 20)) [Some 3%nat; None] 9 5 tt = Ok (pw, s') /\
     map fst pw = ["loglik"; "stein"; "frobenius"; "proj_k3"; "proj_k8"] /\ exists q, In ("loglik", q) pw /\ In ("proj_k8", q) pw) /\
  (exists pw gap s', projection_power L plain_qr still 8 [Some 3%nat; None] 60 (Fin (1 / 25)) (Fin (1 / 20)) 9 5 (Fin 0) tt = Ok (pw, gap, s') /\ map fst pw = [Some 3%nat; None]) /\
  (exists pw gap s', run L log still 8 (Fin (3 / 20)) (Fin (8 / 25)) [25; 50]%nat 5 7 (Fin 0) tt = Ok (pw, gap, s') /\ map fst pw = ["loglik"; "frobenius"; "stein"; "random_proj"; "min_variance"; "maha_calib"]).
Proof.
  destruct lawful_satisfiable as [L HL]. destruct is_log_exists as [log Hlog]. exists L, log. pose proof still_fair as HF. pose proof plain_thin as HQ.
  assert (HX : finite_exp still_exp) by (intros x; exists (exp x); reflexivity). assert (AB : forall x, 0 <= x < 1 -> Rabs x < 1) by (intros x H; rewrite Rabs_right; lra).
  split; [exact HL|]. split; [exact Hlog|]. split; [exact HF|]. split; [exact HQ|]. split; [exact HX|]. split; [|split; [|split; [|split]]].
  - destruct (C103_schur_completes L HL still HF (fun _ => "1.0") 8 2 (3/5) (1/20) (1/5) (1/10) [1] 9 5 tt) as (pw & s' & E & K); [lia|lia|reflexivity|lia|lia|]. exists pw, s'. split; [exact E|]. split; [exact K|].
    refine (C103_schur_full_trust L HL still HF (fun _ => "1.0") 8 2 (3/5) (1/20) (1/5) (1/10) [Fin 1] 9 5 tt pw s' _ _ _ _ _ E); [lia|lia|reflexivity|constructor; [intros []|constructor]|now left].
  - destruct (C103_pseudo_completes L HL still HF plain_qr HQ still_exp "clean" 8 2 [Some 3%Z; None] (1/10) (1/5) 1 (1/20) (1/25) (1/20) 9 5 tt HX) as (pw & s' & E & K);
      [cbn; lia|cbn; lia|lra|apply AB; lra|apply AB; lra|lia|lia|repeat constructor; discriminate|]. exists pw, s'. split; [exact E|]. split; [exact K|].
    refine (C103_single_block L HL still HF plain_qr still_exp "clean" 8 2 [Some 3%Z; None] (1/10) (1/5) 1 (1/20) (1/25) (1/20) 9 5 tt pw s' 8%Z _ _ _ _ _ _ _ _ E); [discriminate|cbn; lia|apply AB; lra|apply AB; lra|lia| |right; now left|cbn; lia].
    constructor; [intros [X|[]]; discriminate|]. constructor; [intros []|constructor].
  - destruct (C103_high_dim_completes L HL still HF plain_qr HQ still_exp 8 2 (1/10) (1/5) 1 (1/20) [Some 3%nat; None] 9 5 tt HX) as (pw & s' & E & K);
      [lia|lia|lra|lia|lia|repeat constructor; discriminate|]. exists pw, s'. split; [exact E|]. split; [exact K|].
    refine (C103_full_projection L HL still HF plain_qr HQ still_exp 8 2 (1/10) (1/5) 1 (1/20) [Some 3%nat; None] 9 5 tt pw s' None HX _ _ _ _ _ _ E); [lia|lra|lia| |right; now left|cbn; lia].
    constructor; [intros [X|[]]; discriminate|]. constructor; [intros []|constructor].
  - apply (C103_projection_completes L HL still HF plain_qr HQ); [lia|apply AB; lra|apply AB; lra|lia|lia|repeat constructor; discriminate|lra].
  - destruct (C103_run_completes L HL still HF log 8 (3/20) (8/25) [25; 50]%nat 5 7 0 tt Hlog) as (pw & gap & s' & E & K & _); [lia|apply AB; lra|apply AB; lra|discriminate|repeat constructor|lia|lia|lra|]. eauto.
Qed.

Lemma py_div_finite a b q : py_div (N := NumX) (nofn a) (nofn b) = Ok q -> exists r, q = Fin r.
Proof.
  rewrite !nofn_fin. intros H. destruct b as [|b]; [unfold py_div in H; cbn [INR] in H; change (@n0 NumX) with (Fin 0) in H; rewrite leb_fin in H; destruct (Rleb_spec 0 0); [discriminate|lra]|].
  rewrite py_div_fin in H; [injection H as <-; eauto|]. assert (0 < INR (S b)) by (apply lt_0_INR; lia). lra.
Qed.
Lemma share_none {A} (f : A -> bool) r : share (N := NumX) f [] <> Fin r.
Proof.
  unfold share. rewrite !nofn_fin. cbn [filter length INR]. change (@ndiv NumX (Fin 0) (Fin 0)) with (if Reqb 0 0 then xinf (xsgn (Fin 0)) else Fin (0 / 0)). unfold Reqb. destruct (Req_EM_T 0 0); [|lra].
  unfold xsgn, Rltb. repeat (match goal with |- context [Rlt_dec ?a ?b] => destruct (Rlt_dec a b); [lra|] end). cbn. discriminate.
Qed.
Lemma finite_powers {K} (eqb : K -> K -> bool) keys vs n (pw : list (K * NumX)) : powers eqb keys vs n = Ok pw -> Forall (fun e => exists r, snd e = Fin r) pw.
Proof.
  unfold powers. revert pw. induction keys as [|k ks IH]; intros pw H; cbn [mapM] in H; [injection H as <-; constructor|].
  apply bind_ok in H as (e & H1 & H). apply bind_ok in H as (rest & H2 & H). injection H as <-. apply bind_ok in H1 as (q & H1 & H3). injection H3 as <-. constructor; [eapply py_div_finite, H1|now apply IH].
Qed.

(** Every reported power is a proportion: between 0 and 1. *)
Theorem C103_powers (L : LinAlg NumX) (log exp : NumX -> NumX) np_qr repr P : 
  (forall p g a1 a2 a3 a4 gammas n_test trials s pw s', schur_power L repr P p g a1 a2 a3 a4 gammas n_test trials s = Ok (pw, s') -> NoDup (map repr gammas) -> (1 <= trials)%nat -> Forall (fun e => a_power (snd e)) pw) /\
  (forall regime bs p bulk a1 a2 a3 a4 a5 a6 n_test trials s pw s', pseudo_likelihood_power L exp np_qr P regime bs p bulk a1 a2 a3 a4 a5 a6 n_test trials s = Ok (pw, s') -> NoDup (pll_sizes (pll_dim regime p) bs) -> (1 <= trials)%nat -> Forall (fun e => a_power (snd e)) pw) /\
  (forall p bulk a1 a2 a3 a4 ks n_test trials s pw s', proof_high_dim L exp np_qr P p bulk a1 a2 a3 a4 ks n_test trials s = Ok (pw, s') -> NoDup (map (or_full p) ks) -> (1 <= trials)%nat -> Forall (fun e => a_power (snd e)) pw) /\
  (forall p ks tot a1 a2 n_test trials mg s pw gap s', projection_power L np_qr P p ks tot a1 a2 n_test trials mg s = Ok (pw, gap, s') -> NoDup ks -> Forall (fun e => a_power (snd e)) pw) /\
  (forall p a1 a2 n_grid trials n_dirs mg s pw gap s', run L log P p a1 a2 n_grid trials n_dirs mg s = Ok (pw, gap, s') -> NoDup n_grid -> Forall (fun row => Forall (fun e => a_power (snd e)) (snd row)) pw).
Proof.
  assert (NE : forall (A : Type) (l : list A), (1 <= length l)%nat -> l <> []) by (intros A l H ->; cbn in H; lia).
  assert (SH : forall (A B : Type) (K : B -> A -> bool) (os : list A) (ks : list B) (key : B -> string), os <> [] -> Forall (fun e : string * NumX => a_power (snd e)) (map (fun k => (key k, share (K k) os)) ks)).
  { intros A B K os ks key H. apply Forall_map, Forall_forall. intros k _. now apply share_power. }
  split; [|split; [|split; [|split]]].
  - intros * E HN Ht. destruct (C103_schur_power L repr P _ _ _ _ _ _ _ _ _ _ _ _ E HN) as (os & Hl & _ & ->). assert (HO : os <> []) by (apply NE; lia).
    constructor; [now apply share_power|]. now apply (SH _ _ (fun x o => wins (fun cov => mp_schur_loglik L cov (o_X o) (groups g (p / g)) x) (o_c o))).
  - intros * E HN Ht. destruct (C103_pseudo_likelihood_power L exp np_qr P _ _ _ _ _ _ _ _ _ _ _ _ _ _ _ E HN) as (_ & lam & os & _ & Hl & _ & ->). assert (HO : os <> []) by (apply NE; lia).
    constructor; [now apply share_power|]. constructor; [now apply share_power|]. now apply (SH _ _ (fun x o => wins (fun cov => mp_block_pseudo_loglik L cov (o_X o) x) (o_c o))).
  - intros * E HN Ht. destruct (C103_proof_high_dim L exp np_qr P _ _ _ _ _ _ _ _ _ _ _ _ E HN) as (_ & lam & os & _ & Hl & _ & ->). assert (HO : os <> []) by (apply NE; lia).
    constructor; [now apply share_power|]. constructor; [now apply share_power|]. constructor; [now apply share_power|]. apply Forall_map, Forall_forall. intros k _. now apply share_power.
  - intros * E HN. destruct (C103_projection_power L np_qr P _ _ _ _ _ _ _ _ _ _ _ _ E HN) as (os & _ & _ & _ & Epw).
    assert (FF : Forall (fun e => exists r, snd e = Fin r) pw).
    { unfold projection_power in E. apply dbind_ok in E as (ts & s1 & _ & E). cbv zeta in E. apply dbind_ok in E as (pw' & s2 & E2 & E). apply dlift_ok in E2 as [E2 _]. apply dret_ok in E as [E _]. injection E as -> _. now apply finite_powers in E2. }
    subst pw. destruct os as [|o os]; [destruct ks as [|k ks]; [constructor|]; cbn [map] in FF; apply Forall_inv in FF as (r & X); now apply share_none in X|].
    apply Forall_map, Forall_forall. intros k _. now apply share_power.
  - intros * E HN. destruct (C103_run L log exp repr P _ _ _ _ _ _ _ _ _ _ _ E HN) as (os & _ & _ & _ & Epw).
    assert (FF : Forall (fun row => Forall (fun e => exists r, snd e = Fin r) (snd row)) pw).
    { unfold run in E. apply dbind_ok in E as (ts & s1 & _ & E). apply dlift_ok in E as [E _]. unfold run_table in E. apply bind_ok in E as (pw' & E & X). injection X as -> _. clear -E.
      revert pw E. generalize (map fst (METRICS L log)). intros ms. induction ms as [|m ms IH]; intros pw E; cbn [mapM] in E; [injection E as <-; constructor|].
      apply bind_ok in E as (e & E1 & E). apply bind_ok in E as (rest & E2 & E). injection E as <-. apply bind_ok in E1 as (row & E1 & X). injection X as <-. constructor; [|now apply IH]. cbn [snd]. clear -E1.
      revert row E1. generalize (map snd (counted ts)). intros tt. induction n_grid as [|n ns IH]; intros row E; cbn [mapM] in E; [injection E as <-; constructor|].
      apply bind_ok in E as (e & E1 & E). apply bind_ok in E as (rest & E2 & E). injection E as <-. cbv zeta in E1. apply bind_ok in E1 as (q & E1 & X). injection X as <-. constructor; [eapply py_div_finite, E1|now apply IH]. }
    subst pw. destruct os as [|o os].
    + destruct n_grid as [|n ns]; [repeat constructor|]. exfalso. cbn [map METRICS] in FF. apply Forall_inv in FF. cbn [snd] in FF. apply Forall_inv in FF as (r & X). now apply share_none in X.
    + apply Forall_map, Forall_forall. intros m _. cbn [snd]. apply Forall_map, Forall_forall. intros n _. now apply share_power.
Qed.

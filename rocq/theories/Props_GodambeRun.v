(** * C104: the sampling experiments of research/schur_godambe.py

    [snr_montecarlo], [_finite_sample_pair], [discrimination_power_over_draws]; the structured experiment is in Props_Structured.v. *)
From Coq Require Import Reals ZArith String List Lia Lra Arith Bool.
From Verif Require Import Num Numpy LinalgModel ListLemmas RMat LinSpec Fin RealSpec Spectral MatAlg Det Contracts LinalgReal GaussSpec GaussReal Props_Assess ScoreReal ShrinkReal EmpFacts
  AssessModel AssessReal AssessSpec AssessBlock ResearchModel ResearchSpec ResearchReal ResearchTwo Props_Research ResearchRun ResearchOp Props_ResearchBlocks Props_Improper Props_Corr Props_Canonical Props_Godambe SpikedModel
  Props_Spiked TrainModel Props_Train Props_TrainRun PowerModel Props_Power Props_PowerReal.
Import ListNotations.
Local Open Scope R_scope.

(** ** The operator exists for every trust in [0, 1] *)
Lemma good_blocks p A g sizes : sizes_ok sizes p -> pd p A -> 0 <= g <= 1 -> Forall (good_block A g) (offsets 0 sizes).
Proof.
  intros [Hf Hs] HA Hg. assert (Ht : ResearchRun.total 0 sizes = p) by now rewrite total_sum.
  apply Forall_forall. intros [s m] Hb. assert (Hge : (s + m <= p)%nat).
  { rewrite <- Ht. clear - Hb. assert (Q : forall l o, In (s, m) (offsets o l) -> (s + m <= ResearchRun.total o l)%nat).
    { induction l as [|x l IH]; intros o H; [destruct H|]. cbn [offsets In] in H. destruct H as [H|H].
      - injection H as <- <-. unfold ResearchRun.total. cbn [fold_left]. apply (total_ge l).
      - apply (IH (o + x)%nat) in H. exact H. }
    now apply Q. }
  assert (HAs : pd s A) by (apply (lead_pd A p); auto; lia). assert (HAsm : pd (s + m) A) by (apply (lead_pd A p); auto).
  split; [now apply pd_invertible|]. cbn [fst snd]. destruct (law_exists A 1 s m) as (B & S & H); [now apply pd_invertible|]. pose proof (schur_pd A s m B S (proj1 HAsm) H HAsm) as HS.
  exists (fun i j => g * B i j), (fun i l => (1 - g) * A (s + i)%nat (s + l)%nat + g * S i l). destruct H as [H1 H2]. split; [split|].
  - intros i j Hi Hj. rewrite <- (Rmult_1_l (A (s + i)%nat j)), <- (H1 i j Hi Hj). unfold rmul. rewrite <- rsum_scal. apply rsum_ext. intros; ring.
  - intros i l Hi Hl. rewrite (H2 i l Hi Hl). rewrite (rsum_ext s (fun k => g * B i k * A k (s + l)%nat) (fun k => g * (B i k * A k (s + l)%nat))) by (intros; ring). rewrite rsum_scal. ring.
  - assert (HK : pd m (fun i l => A (s + i)%nat (s + l)%nat)). { split; [intros i j Hi Hj; apply (proj1 HAsm); lia|]. intros v (i & Hi & Hv).
      assert (E : qf m (fun i l => A (s + i)%nat (s + l)%nat) v = qf (s + m) A (fun i => if Nat.ltb i s then 0 else v (i - s)%nat)).
      { unfold qf. rewrite rsum_split. rewrite (rsum_zero s) by (intros k Hk; apply rsum_zero; intros l Hl; destruct (Nat.ltb_spec k s); [ring|lia]). rewrite Rplus_0_l. apply rsum_ext. intros k Hk.
        rewrite rsum_split. rewrite (rsum_zero s) by (intros l Hl; destruct (Nat.ltb_spec l s); [ring|lia]). rewrite Rplus_0_l. apply rsum_ext. intros l Hl.
        destruct (Nat.ltb_spec (s + k) s); [lia|]. destruct (Nat.ltb_spec (s + l) s); [lia|]. now replace (s + k - s)%nat with k by lia; replace (s + l - s)%nat with l by lia. }
      rewrite E. apply (proj2 HAsm). exists (s + i)%nat. split; [lia|]. destruct (Nat.ltb_spec (s + i) s); [lia|]. now replace (s + i - s)%nat with i by lia. }
    split; [intros i j Hi Hj; rewrite (proj1 HK i j Hi Hj), (proj1 HS i j Hi Hj); reflexivity|]. intros v Hv. rewrite (qf_comb m (fun i l => A (s + i)%nat (s + l)%nat) S (1 - g) g v).
    pose proof (proj2 HK v Hv). pose proof (proj2 HS v Hv). destruct (Req_dec g 0) as [->|Z]; [lra|]. assert (0 < g * qf m S v) by (apply Rmult_lt_0_compat; lra).
    assert (0 <= (1 - g) * qf m (fun i l => A (s + i)%nat (s + l)%nat) v) by (apply Rmult_le_pos; lra). lra.
Qed.
Lemma rI_sym' p : sym p rI.
Proof. intros i j _ _. apply rI_sym. Qed.
Lemma operator_ok L p A g sizes : lawful L -> sizes_ok sizes p -> pd p A -> 0 <= g <= 1 -> exists W Ld, schur_operator L (fm p p A) sizes (Fin g) = Ok (fm p p W, Fin Ld) /\ psd p W.
Proof.
  intros HL HS HA Hg. destruct is_log_exists as [log Hlog]. destruct (proj1 (C88_outcome L log rI A g sizes p HL Hlog HS (rI_sym' p) (proj1 HA)) (good_blocks p A g sizes HS HA Hg)) as (v & E).
  destruct (C91_score_is_quadratic L log rI A g sizes p v HL Hlog HS (rI_sym' p) (proj1 HA) E) as (W & Ld & E1 & E2 & _). eauto.
Qed.

(** ** The expected score gap *)
Lemma gap_fin L p A B T sizes g WA WB LA LB : (1 <= p)%nat ->
  schur_operator L (fm p p A) sizes (Fin g) = Ok (fm p p WA, Fin LA) -> schur_operator L (fm p p B) sizes (Fin g) = Ok (fm p p WB, Fin LB) ->
  expected_gap L (fm p p A) (fm p p B) (fm p p T) sizes (Fin g) = Ok (Fin (- (1 / 2) * (LA + rtrace p (rmul p WA T)) - - (1 / 2) * (LB + rtrace p (rmul p WB T)))).
Proof.
  intros Hp E1 E2. unfold expected_gap. rewrite E1, E2. cbn [bind]. rewrite msub_fin. cbn [bind]. rewrite matmul_fin by auto. cbn [bind]. rewrite mtrace_fin, mhalf_fin.
  assert (TR : rtrace p (rmul p (fun i j => WA i j - WB i j) T) = rtrace p (rmul p WA T) - rtrace p (rmul p WB T)).
  { rewrite <- rtrace_minus'. apply rtrace_ext. intros i j _ _. unfold rmul. rewrite <- rsum_minus. apply rsum_ext. intros; ring. }
  rewrite TR. cbn [nmul nadd nsub NumX xmul xadd xsub]. do 2 f_equal. lra.
Qed.
(** It is the difference of the expected scores of the two candidates, so it is antisymmetric. *)
Theorem C104_gap_is_score_difference (L : LinAlg NumX) (log : NumX -> NumX) p A B T sizes g a b : lawful L -> is_log log -> (1 <= p)%nat -> sizes_ok sizes p -> sym p A -> sym p B -> sym p T ->
  expected_schur_loglik L log (fm p p T) (fm p p A) sizes (Fin g) = Ok (Fin a) -> expected_schur_loglik L log (fm p p T) (fm p p B) sizes (Fin g) = Ok (Fin b) ->
  expected_gap L (fm p p A) (fm p p B) (fm p p T) sizes (Fin g) = Ok (Fin (a - b)) /\ expected_gap L (fm p p B) (fm p p A) (fm p p T) sizes (Fin g) = Ok (Fin (b - a)).
Proof.
  intros HL Hlog Hp Hs SA SB ST EA EB. destruct (C91_score_is_quadratic L log T A g sizes p a HL Hlog Hs ST SA EA) as (WA & LA & E1 & _ & ->).
  destruct (C91_score_is_quadratic L log T B g sizes p b HL Hlog Hs ST SB EB) as (WB & LB & E2 & _ & ->). split; apply gap_fin; auto.
Qed.
(** It exists for all positive definite candidates and trust in [0, 1]; at gamma = 1 it is how much nearer the truth the first one is. *)
Theorem C104_expected_gap (L : LinAlg NumX) p A B T sizes g : lawful L -> (1 <= p)%nat -> sizes_ok sizes p -> pd p A -> pd p B -> pd p T -> 0 <= g <= 1 ->
  exists d ka kb, expected_gap L (fm p p A) (fm p p B) (fm p p T) sizes (Fin g) = Ok (Fin d) /\ kl L (fm p p A) (fm p p T) = Ok (Fin ka) /\ kl L (fm p p B) (fm p p T) = Ok (Fin kb) /\
    (g = 1 -> d = kb - ka).
Proof.
  intros HL Hp Hs HA HB HT Hg. destruct (C91_divergence L A T p HL Hp HA HT) as (Ai & IA & EA & _). destruct (C91_divergence L B T p HL Hp HB HT) as (Bi & IB & EB & _).
  destruct (operator_ok L p A g sizes HL Hs HA Hg) as (WA & LA & E1 & _). destruct (operator_ok L p B g sizes HL Hs HB Hg) as (WB & LB & E2 & _).
  eexists _, _, _. split; [now apply (gap_fin L p A B T sizes g WA WB LA LB)|]. split; [exact EA|]. split; [exact EB|]. intros ->.
  destruct (C91_full_trust L A sizes p HL Hs HA) as (WA' & E1' & IA'). destruct (C91_full_trust L B sizes p HL Hs HB) as (WB' & E2' & IB').
  rewrite E1 in E1'. rewrite E2 in E2'. injection E1' as F1 ->. injection E2' as F2 ->. assert (M1 : meq p p WA WA') by (intros i j Hi Hj; exact (fm_inj p p WA WA' i j F1 Hi Hj)). assert (M2 : meq p p WB WB') by (intros i j Hi Hj; exact (fm_inj p p WB WB' i j F2 Hi Hj)). unfold kl_of.
  assert (TA : rtrace p (rmul p Ai T) = rtrace p (rmul p WA T)) by (apply rtrace_ext, rmul_ext; [eapply meq_trans; [apply (inverse_unique p A Ai WA'); auto|apply meq_sym, M1]|apply meq_refl]).
  assert (TB : rtrace p (rmul p Bi T) = rtrace p (rmul p WB T)) by (apply rtrace_ext, rmul_ext; [eapply meq_trans; [apply (inverse_unique p B Bi WB'); auto|apply meq_sym, M2]|apply meq_refl]).
  rewrite TA, TB. lra.
Qed.

(** ** The Monte-Carlo check of the discrimination ratio *)
Lemma row_gaps_fin L p A B sizes g WA WB LA LB (xs : list (nat -> R)) : (1 <= p)%nat ->
  schur_operator L (fm p p A) sizes (Fin g) = Ok (fm p p WA, Fin LA) -> schur_operator L (fm p p B) sizes (Fin g) = Ok (fm p p WB, Fin LB) ->
  row_gaps L (map (fv p) xs) (fm p p A) (fm p p B) sizes (Fin g) = Ok (map (fun x => Fin (- (1 / 2) * (LA - LB + (qf p WA x - qf p WB x))) : NumX) xs).
Proof.
  intros Hp E1 E2. unfold row_gaps. rewrite E1, E2. cbn [bind].
  assert (Q : forall W, mapM (fun x => einsum_quad x (fm p p W)) (map (fv p) xs) = Ok (map (fun x => Fin (qf p W x) : NumX) xs)).
  { intros W. induction xs as [|x l IH]; [reflexivity|]. cbn [map mapM]. rewrite einsum_quad_fin by auto. cbn [bind]. rewrite IH. reflexivity. }
  rewrite !Q. cbn [bind]. assert (V : vsub (map (fun x => Fin (qf p WA x) : NumX) xs) (map (fun x => Fin (qf p WB x) : NumX) xs) = Ok (map (fun x => Fin (qf p WA x - qf p WB x) : NumX) xs)).
  { unfold vsub, bc. rewrite !map_length, Nat.eqb_refl. f_equal. clear. induction xs as [|x l IH]; [reflexivity|]. cbn [map zipw]. f_equal. exact IH. }
  rewrite V. cbn [bind]. rewrite mhalf_fin, map_map. reflexivity.
Qed.

(** the standard deviation of a list of reals *)
Definition sd_of (l : list R) : R := sqrt (lmean (map (fun x => (x - lmean l) * (x - lmean l)) l)).
Lemma vstd_fin (l : list R) : l <> [] -> vstd (N := NumX) (map (fun x => Fin x : NumX) l) = Fin (sd_of l).
Proof.
  intros H. unfold vstd. assert (M : vmean (N := NumX) (map (fun x => Fin x : NumX) l) = Fin (lmean l)) by (rewrite <- (map_id l) at 2; exact (vmean_map (fun x => x) l H)). rewrite M, map_map. assert (E : map (fun x => nsq (N := NumX) (@nsub NumX (Fin x) (Fin (lmean l)))) l = map (fun x => Fin ((x - lmean l) * (x - lmean l)) : NumX) l) by reflexivity.
  match goal with |- context [vmean ?v] => replace (vmean v) with (Fin (lmean (map (fun x => (x - lmean l) * (x - lmean l)) l)) : NumX) by (symmetry; rewrite <- (vmean_map _ l H); apply (f_equal (vmean (N := NumX))); exact E) end.
  rewrite sqrt_fin; [reflexivity|]. apply (lmean_nonneg (fun x => (x - lmean l) * (x - lmean l)) l). intros x _. apply Rle_0_sqr.
Qed.
Lemma sd_nonneg l : 0 <= sd_of l.
Proof. apply sqrt_pos. Qed.
Lemma lmean_opp l : lmean (map Ropp l) = - lmean l.
Proof. rewrite (map_ext Ropp (fun x => -1 * x)) by (intros; ring). rewrite (lmean_scal (-1) (fun x => x) l), map_id. ring. Qed.
Lemma sd_opp l : sd_of (map Ropp l) = sd_of l.
Proof. unfold sd_of. rewrite map_map, lmean_opp. f_equal. apply lmean_ext. intros; ring. Qed.
Lemma sd_const c l : l <> [] -> (forall x, In x l -> x = c) -> sd_of l = 0.
Proof.
  intros H HC. assert (M : lmean l = c) by (rewrite <- (map_id l), (lmean_ext (fun x => x) (fun _ => c) l HC); now apply lmean_const).
  unfold sd_of. rewrite M, (lmean_ext _ (fun _ => 0) l), lmean_const, sqrt_0; auto. intros x Hx. rewrite (HC x Hx). ring.
Qed.
(** what is reported for a list of gaps: the mean divided by the standard deviation, as floating-point division has it *)
Definition ratio (l : list R) : NumX := @ndiv NumX (Fin (lmean l)) (Fin (sd_of l)).
Lemma ratio_zero l : l <> [] -> (forall x, In x l -> x = 0) -> ratio l = NaN.
Proof.
  intros H HC. unfold ratio. rewrite (sd_const 0 l H HC). assert (M : lmean l = 0) by (rewrite <- (map_id l), (lmean_ext (fun x => x) (fun _ => 0) l HC); now apply lmean_const). rewrite M.
  cbn. unfold Reqb, Rltb. destruct (Req_EM_T 0 0); [|lra]. destruct (Rlt_dec 0 0); [lra|]. reflexivity.
Qed.
Lemma ratio_opp l : l <> [] -> ratio (map Ropp l) = @nopp NumX (ratio l).
Proof.
  intros H. unfold ratio. rewrite lmean_opp, sd_opp. cbn. unfold Reqb, Rltb. destruct (Req_EM_T (sd_of l) 0); [|cbn; f_equal; unfold Rdiv; ring].
  destruct (Rlt_dec 0 (lmean l)), (Rlt_dec (lmean l) 0), (Rlt_dec 0 (- lmean l)), (Rlt_dec (- lmean l) 0); try lra; reflexivity.
Qed.
(** Given the generator's state, the estimate is the ratio of the gaps of the rows drawn; their mean is the expected gap at the second moment of
    the rows; exchanging the candidates flips the sign; equal candidates give NaN (the closed form gives +inf, C91). *)
Theorem C104_montecarlo (L : LinAlg NumX) (P : PowerRand NumX) p A B T sizes g n s : lawful L -> fair_power P -> (1 <= p)%nat -> sizes_ok sizes p -> pd p A -> pd p B -> psd p T -> 0 <= g <= 1 -> (1 <= n)%nat ->
  exists xs gaps s', r_mvn (pr_rand P) (fm p p T) n s = Ok (map (fv p) xs, s') /\ length xs = n /\ length gaps = n /\
    expected_gap L (fm p p A) (fm p p B) (fm p p (second_moment (fun _ => 0) xs)) sizes (Fin g) = Ok (Fin (lmean gaps)) /\
    snr_montecarlo L P (fm p p A) (fm p p B) (fm p p T) sizes (Fin g) n s = Ok (ratio gaps, s') /\
    snr_montecarlo L P (fm p p B) (fm p p A) (fm p p T) sizes (Fin g) n s = Ok (@nopp NumX (ratio gaps), s') /\
    snr_montecarlo L P (fm p p A) (fm p p A) (fm p p T) sizes (Fin g) n s = Ok (NaN, s').
Proof.
  intros HL HP Hp Hs HA HB HT Hg Hn. destruct (fp_mvn P HP p T n s Hp HT) as (xs & s' & E & Hl). assert (Hx : xs <> []) by (intros ->; cbn in Hl; lia).
  destruct (operator_ok L p A g sizes HL Hs HA Hg) as (WA & LA & E1 & _). destruct (operator_ok L p B g sizes HL Hs HB Hg) as (WB & LB & E2 & _).
  set (gaps := map (fun x => - (1 / 2) * (LA - LB + (qf p WA x - qf p WB x))) xs).
  assert (RUN : forall C D WC WD LC LD, schur_operator L (fm p p C) sizes (Fin g) = Ok (fm p p WC, Fin LC) -> schur_operator L (fm p p D) sizes (Fin g) = Ok (fm p p WD, Fin LD) ->
    snr_montecarlo L P (fm p p C) (fm p p D) (fm p p T) sizes (Fin g) n s = Ok (ratio (map (fun x => - (1 / 2) * (LC - LD + (qf p WC x - qf p WD x))) xs), s')).
  { intros C D WC WD LC LD EC ED. unfold snr_montecarlo, dbind, dlift, dret. rewrite E. rewrite (row_gaps_fin L p C D sizes g WC WD LC LD xs Hp EC ED). unfold ratio. do 2 f_equal.
    assert (NE : map (fun x => - (1 / 2) * (LC - LD + (qf p WC x - qf p WD x))) xs <> []) by (destruct xs; [contradiction|discriminate]).
    rewrite <- (vstd_fin _ NE), map_map. rewrite <- (vmean_map (fun x => - (1 / 2) * (LC - LD + (qf p WC x - qf p WD x))) xs Hx). reflexivity. }
  exists xs, gaps, s'. split; [exact E|]. split; [exact Hl|]. split; [unfold gaps; now rewrite map_length|]. split; [|split; [|split]].
  - rewrite (gap_fin L p A B (second_moment (fun _ => 0) xs) sizes g WA WB LA LB Hp E1 E2). do 2 f_equal. unfold gaps.
    assert (QM : forall W, rtrace p (rmul p W (second_moment (fun _ => 0) xs)) = lmean (map (qf p W) xs)).
    { intros W. rewrite <- lmean_qf'. apply lmean_ext. intros x _. unfold qf. apply rsum_ext. intros i Hi. apply rsum_ext. intros. now rewrite !Rminus_0_r. }
    rewrite !QM. rewrite lmean_scal. rewrite (lmean_plus (fun _ => LA - LB) (fun x => qf p WA x - qf p WB x)), lmean_const by auto.
    rewrite (lmean_ext (fun x => qf p WA x - qf p WB x) (fun x => qf p WA x + -1 * qf p WB x)) by (intros; ring). rewrite lmean_plus, lmean_scal. lra.
  - apply (RUN A B WA WB LA LB E1 E2).
  - rewrite (RUN B A WB WA LB LA E2 E1). do 2 f_equal. rewrite <- ratio_opp by (unfold gaps; destruct xs; [contradiction|discriminate]). f_equal. unfold gaps. rewrite map_map. apply map_ext. intros x. ring.
  - rewrite (RUN A A WA WA LA LA E1 E1). do 2 f_equal. apply ratio_zero; [destruct xs; [contradiction|discriminate]|]. intros y Hy. apply in_map_iff in Hy as (x & <- & _). ring.
Qed.

(** ** The power over training draws *)
(** the mean of a list as numpy has it: NaN of an empty one *)
Definition mean_or_nan (l : list R) : NumX := match l with [] => NaN | _ => Fin (lmean l) end.
(** what the experiment should report for a list of gaps: their mean, standard deviation, ratio and the share of positive ones *)
Definition summary_of (l : list R) : draws_summary (N := NumX) :=
  match l with
  | [] => mkSummary (N := NumX) NaN NaN PInf NaN
  | _ => mkSummary (N := NumX) (Fin (lmean l)) (Fin (sd_of l)) (if Rltb 0 (sd_of l) then Fin (lmean l / sd_of l) else PInf) (Fin (INR (length (filter (fun x => Rltb 0 x) l)) / INR (length l)))
  end.
Lemma inf_fin : @plus_inf NumX = PInf.
Proof. unfold plus_inf. cbn. unfold Reqb, Rltb. destruct (Req_EM_T 0 0); [|lra]. destruct (Rlt_dec 0 1); [reflexivity|lra]. Qed.
Lemma zero_zero : @ndiv NumX (Fin 0) (Fin 0) = NaN.
Proof. cbn. unfold Reqb, Rltb. destruct (Req_EM_T 0 0); [|lra]. destruct (Rlt_dec 0 0); [lra|reflexivity]. Qed.
Lemma vmean_nil : vmean (N := NumX) [] = NaN.
Proof. unfold vmean. cbn [length]. rewrite nofn_fin. exact zero_zero. Qed.
Lemma vmean_list (l : list R) : vmean (N := NumX) (map (fun x => Fin x : NumX) l) = mean_or_nan l.
Proof. destruct l as [|x l]; [exact vmean_nil|]. unfold mean_or_nan. rewrite <- (map_id (x :: l)) at 2. exact (vmean_map (fun x => x) (x :: l) ltac:(discriminate)). Qed.
Lemma summarise_fin (l : list R) : summarise (N := NumX) (map (fun x => Fin x : NumX) l) = summary_of l.
Proof.
  assert (FL : forall l : list R, filter (fun x => @nltb NumX n0 x) (map (fun x => Fin x : NumX) l) = map (fun x => Fin x : NumX) (filter (fun x => Rltb 0 x) l)).
  { clear. induction l as [|x l IH]; [reflexivity|]. cbn [map filter]. rewrite n0_fin, ltb_fin. rewrite n0_fin in IH. destruct (Rltb 0 x); cbn [map]; rewrite IH; reflexivity. }
  unfold summarise. rewrite vmean_list. destruct l as [|x l].
  - cbn [summary_of mean_or_nan map length filter]. assert (SD : vstd (N := NumX) [] = NaN) by (unfold vstd; cbn [map]; rewrite vmean_nil; reflexivity). rewrite SD, inf_fin, !nofn_fin. cbn [INR]. rewrite zero_zero. reflexivity.
  - rewrite (vstd_fin (x :: l)) by discriminate. cbn [mean_or_nan summary_of]. rewrite (FL (x :: l)). rewrite !map_length, inf_fin, n0_fin, ltb_fin, !nofn_fin. f_equal.
    + unfold Rltb. destruct (Rlt_dec 0 (sd_of (x :: l))); [|reflexivity]. rewrite div_fin by lra. reflexivity.
    + apply div_fin. pose proof (lt_0_INR (length (x :: l)) ltac:(cbn; lia)). lra.
Qed.

(** the lightly ridged sample covariance *)
Definition ridged (p : nat) (T S : rmat) : rmat := fun i j => S i j + rtrace p T / (50 * INR p) * rI i j.
(** both estimates have a least eigenvalue above 1e-9 *)
Definition usable (p : nat) (T S : rmat) : Prop := clear_of_zero p (shrunk p S (1 / 2)) /\ clear_of_zero p (ridged p T S).
(** the two divergences of a draw and the expected gap for every gamma *)
Record drawn := mkDrawn { d_a : R; d_b : R; d_gaps : list R }.
Definition drawn_ok L (p : nat) (T : rmat) (sizes : list nat) (gammas : list R) (S : rmat) (d : drawn) : Prop :=
  kl L (fm p p (shrunk p S (1 / 2))) (fm p p T) = Ok (Fin (d_a d)) /\ kl L (fm p p (ridged p T S)) (fm p p T) = Ok (Fin (d_b d)) /\
  Forall2 (fun g x => expected_gap L (fm p p (shrunk p S (1 / 2))) (fm p p (ridged p T S)) (fm p p T) sizes (Fin g) = Ok (Fin x) /\ (g = 1 -> x = d_b d - d_a d)) gammas (d_gaps d).
Lemma ridged_sym p T S : sym p S -> sym p (ridged p T S).
Proof. intros H i j Hi Hj. unfold ridged. now rewrite (H i j Hi Hj), (rI_sym i j). Qed.
Lemma ridge_pair_fin p xs r : (1 <= p)%nat -> xs <> [] ->
  ridge_pair (N := NumX) (map (fv p) xs) p (Fin r) = Ok (fm p p (shrunk p (pcov_of xs) (1 / 2)), fm p p (fun i j => pcov_of xs i j + r * rI i j)).
Proof.
  intros Hp Hx. unfold ridge_pair. rewrite np_cov_fin by auto. cbn [bind]. set (S := pcov_of xs). pose proof (proj1 (psd_pcov p xs)) as HS. fold S in HS.
  rewrite meye_fin, mtrace_fin, nofn_fin. assert (Hn : 0 < INR p) by (apply lt_0_INR; lia). rewrite div_fin by lra. rewrite mscale_fin, phalf_fin, !mscale_fin, madd_fin. cbn [bind]. rewrite madd_fin. cbn [bind].
  rewrite half_sym_fin. cbn [bind]. rewrite half_sym_fin. cbn [bind]. do 2 f_equal; apply fm_ext; intros i j Hi Hj.
  - rewrite (rI_sym j i), (HS j i) by auto. unfold shrunk. lra.
  - rewrite (rI_sym j i), (HS j i) by auto. lra.
Qed.
Lemma training_draw_fin L p xs T sizes (gammas : list R) : lawful L -> (1 <= p)%nat -> xs <> [] -> sizes_ok sizes p -> pd p T -> Forall (fun g => 0 <= g <= 1) gammas ->
  (~ usable p T (pcov_of xs) /\ training_draw L (map (fv p) xs) p (Fin (rtrace p T / (50 * INR p))) (fm p p T) sizes (map (fun g => Fin g : NumX) gammas) = Ok None) \/
  (usable p T (pcov_of xs) /\ exists d, drawn_ok L p T sizes gammas (pcov_of xs) d /\
     training_draw L (map (fv p) xs) p (Fin (rtrace p T / (50 * INR p))) (fm p p T) sizes (map (fun g => Fin g : NumX) gammas) = Ok (Some (Fin (d_a d), Fin (d_b d), map (fun x => Fin x : NumX) (d_gaps d)))).
Proof.
  intros HL Hp Hx Hs HT HG. unfold training_draw. rewrite ridge_pair_fin by auto. cbn [bind]. set (S := pcov_of xs). pose proof (proj1 (psd_pcov p xs)) as HS. fold S in HS.
  change (fun i j => S i j + rtrace p T / (50 * INR p) * rI i j) with (ridged p T S). set (A := shrunk p S (1 / 2)). set (B := ridged p T S). rewrite lit9.
  assert (SA : sym p A) by now apply shrunk_sym. assert (SB : sym p B) by now apply ridged_sym.
  destruct (C90_is_spd L p A (1 / 1000000000) HL Hp SA) as (oa & -> & Ia). destruct (C90_is_spd L p B (1 / 1000000000) HL Hp SB) as (ob & Eb & Ib). cbn [bind].
  destruct oa; [|left; split; [intros [X _]; apply (proj2 Ia) in X; discriminate|reflexivity]]. rewrite Eb. cbn [bind].
  destruct ob; [|left; split; [intros [_ X]; apply (proj2 Ib) in X; discriminate|reflexivity]]. cbn [negb]. right.
  assert (CA : clear_of_zero p A) by exact (proj1 Ia eq_refl). assert (CB : clear_of_zero p B) by exact (proj1 Ib eq_refl). split; [split; assumption|].
  pose proof (clear_pd p A SA CA) as PA. pose proof (clear_pd p B SB CB) as PB.
  destruct (C91_divergence L A T p HL Hp PA HT) as (Ai & IA & EA & _). destruct (C91_divergence L B T p HL Hp PB HT) as (Bi & IB & EB & _). rewrite EA, EB. cbn [bind].
  assert (M : exists ds, Forall2 (fun g x => expected_gap L (fm p p A) (fm p p B) (fm p p T) sizes (Fin g) = Ok (Fin x) /\ (g = 1 -> x = kl_of p Bi B T - kl_of p Ai A T)) gammas ds /\
    mapM (fun g => expected_gap L (fm p p A) (fm p p B) (fm p p T) sizes g) (map (fun g => Fin g : NumX) gammas) = Ok (map (fun x => Fin x : NumX) ds)).
  { induction HG as [|g gs Hg HG IH]; [exists []; split; [constructor|reflexivity]|]. destruct IH as (ds & F & E). destruct (C104_expected_gap L p A B T sizes g HL Hp Hs PA PB HT Hg) as (d & ka & kb & E1 & E2 & E3 & E4).
    rewrite EA in E2. rewrite EB in E3. injection E2 as <-. injection E3 as <-. exists (d :: ds). split; [constructor; auto|]. cbn [map mapM]. rewrite E1. cbn [bind]. rewrite E. reflexivity. }
  destruct M as (ds & F & E). exists (mkDrawn (kl_of p Ai A T) (kl_of p Bi B T) ds). split; [split; [exact EA|split; [exact EB|exact F]]|]. rewrite E. reflexivity.
Qed.

Section Draws.
Context (L : LinAlg NumX) (HL : lawful L) (P : PowerRand NumX) (HP : fair_power P).
Notation G := (pr_rand P).
(** The whole experiment: [draws] lists the training samples with, for the usable ones, the two divergences and the gaps.  The table has one line per gamma, the
    summary of that gamma's gaps over the usable draws, and the two means are over the same draws. *)
Definition reported (p n_train : nat) (T : rmat) (gammas : list R) (draws : list (list (nat -> R) * option drawn)) : Prop :=
  Forall (fun e => (exists s0 s1, r_mvn G (fm p p T) n_train s0 = Ok (map (fv p) (fst e), s1)) /\ length (fst e) = n_train /\
    match snd e with None => ~ usable p T (pcov_of (fst e)) | Some d => usable p T (pcov_of (fst e)) /\ drawn_ok L p T (repeat 4%nat (p / 4)) gammas (pcov_of (fst e)) d end) draws.
Theorem C104_discrimination p n_train T (gammas : list R) n_draws s : (1 <= p)%nat -> (p mod 4 = 0)%nat -> pd p T -> (1 <= n_train)%nat -> Forall (fun g => 0 <= g <= 1) gammas ->
  exists draws s', length draws = n_draws /\ reported p n_train T gammas draws /\ let ds := counted (map snd draws) in
    discrimination_power L P p n_train (fm p p T) (map (fun g => Fin g : NumX) gammas) n_draws s =
      Ok (map (fun i => (Fin (nth i gammas 0) : NumX, summary_of (map (fun d => nth i (d_gaps d) 0) ds))) (seq 0 (length gammas)), mean_or_nan (map d_a ds), mean_or_nan (map d_b ds), s').
Proof.
  intros Hp H4 HT Hn HG. assert (Hs : sizes_ok (repeat 4%nat (p / 4)) p).
  { split; [apply Forall_forall; intros m Hm; apply repeat_spec in Hm; lia|]. assert (E : forall k, list_sum (repeat 4%nat k) = (4 * k)%nat) by (induction k as [|k IH]; [reflexivity|]; cbn [repeat list_sum fold_right]; change (fold_right Nat.add 0%nat (repeat 4%nat k)) with (list_sum (repeat 4%nat k)); lia).
    rewrite E. pose proof (Nat.div_mod p 4 ltac:(lia)). lia. }
  assert (ER : @ndiv NumX (nmul (nlit 2 2) (mtrace (fm p p T))) (nofn p) = Fin (rtrace p T / (50 * INR p))).
  { assert (0 < INR p) by (apply lt_0_INR; lia). rewrite mtrace_fin, nofn_fin. assert (E2 : @nlit NumX 2 2 = Fin (1 / 50)) by (rewrite nlit_fin; apply (f_equal Fin); cbn; lra). rewrite E2, mul_fin, div_fin by lra. apply (f_equal Fin). field. lra. }
  set (step := (fun s0 => dbind G (r_mvn G (fm p p T) n_train) (fun X => dlift G (training_draw L X p (Fin (rtrace p T / (50 * INR p))) (fm p p T) (repeat 4%nat (p / 4)) (map (fun g => Fin g : NumX) gammas))) s0)).
  set (out := fun o : option drawn => match o with None => None | Some d => Some (Fin (d_a d) : NumX, Fin (d_b d) : NumX, map (fun x => Fin x : NumX) (d_gaps d)) end).
  assert (TI : forall n s0, exists draws s1, dtimes G n step s0 = Ok (map (fun e => out (snd e)) draws, s1) /\ length draws = n /\ reported p n_train T gammas draws).
  { induction n as [|n IH]; intros s0; [exists [], s0; split; [reflexivity|]; split; [reflexivity|constructor]|]. destruct (fp_mvn P HP p T n_train s0 Hp (pd_psd p T HT)) as (xs & s1 & EX & Hl).
    assert (Hx : xs <> []) by (intros ->; cbn in Hl; lia).
    assert (D : exists o, training_draw L (map (fv p) xs) p (Fin (rtrace p T / (50 * INR p))) (fm p p T) (repeat 4%nat (p / 4)) (map (fun g => Fin g : NumX) gammas) = Ok (out o) /\
      match o with None => ~ usable p T (pcov_of xs) | Some d => usable p T (pcov_of xs) /\ drawn_ok L p T (repeat 4%nat (p / 4)) gammas (pcov_of xs) d end).
    { destruct (training_draw_fin L p xs T _ gammas HL Hp Hx Hs HT HG) as [[U E]|(U & d & D & E)]; [exists None; auto|exists (Some d); auto]. }
    destruct D as (o & ED & HO). destruct (IH s1) as (draws & s2 & E2 & L2 & R2). exists ((xs, o) :: draws), s2. split; [|split; [cbn; lia|constructor; [|exact R2]]].
    - cbn [dtimes]. unfold dbind at 1. assert (ES : step s0 = Ok (out o, s1)) by (unfold step, dbind; rewrite EX; unfold dlift; rewrite ED; reflexivity). rewrite ES. unfold dbind. rewrite E2. reflexivity.
    - cbn [fst snd]. split; [eauto|]. split; [exact Hl|exact HO]. }
  destruct (TI n_draws s) as (draws & s' & ET & Hl & HR). exists draws, s'. split; [exact Hl|]. split; [exact HR|]. cbv zeta.
  unfold discrimination_power. cbv zeta. rewrite ER. change (fun s0 => dbind G (r_mvn G (fm p p T) n_train) (fun X => dlift G (training_draw L X p (Fin (rtrace p T / (50 * INR p))) (fm p p T) (repeat 4%nat (p / 4)) (map (fun g => Fin g : NumX) gammas))) s0) with step.
  unfold dbind at 1. change (dbind G (r_mvn G (fm p p T) n_train) (fun X => dlift G (training_draw L X p (Fin (rtrace p T / (50 * INR p))) (fm p p T) (repeat 4%nat (p / 4)) (map (fun g => Fin g : NumX) gammas)))) with step. rewrite ET. unfold dret.
  assert (EC : counted (map (fun e => out (snd e)) draws) = map (fun d => (Fin (d_a d) : NumX, Fin (d_b d) : NumX, map (fun x => Fin x : NumX) (d_gaps d))) (counted (map snd draws))).
  { clear. induction draws as [|[xs [d|]] l IH]; [reflexivity| |]; cbn; [f_equal|]; exact IH. }
  match goal with |- context [@counted ?B (map ?f draws)] => replace (@counted B (map f draws)) with (map (fun d => (Fin (d_a d) : NumX, Fin (d_b d) : NumX, map (fun x => Fin x : NumX) (d_gaps d))) (counted (map snd draws))) by (symmetry; exact EC) end.
  rewrite map_length. set (ds := counted (map snd draws)). do 2 f_equal. rewrite !map_map. cbn [fst snd]. f_equal; [f_equal|].
  - apply map_ext_in. intros i Hi. apply in_seq in Hi. f_equal; [rewrite (nth_indep _ (n0 : NumX) (Fin 0)) by (rewrite map_length; lia); exact (map_nth (fun g => Fin g : NumX) gammas 0 i)|].
    rewrite <- summarise_fin. rewrite !map_map. f_equal. apply map_ext. intros d. cbn [snd]. unfold vget. change (@n0 NumX) with (Fin 0). exact (map_nth (fun x => Fin x : NumX) (d_gaps d) 0 i).
  - rewrite <- vmean_list, map_map. reflexivity.
  - rewrite <- vmean_list, map_map. reflexivity.
Qed.
(** At gamma = 1 the mean gap is the difference of the two mean divergences, and the power is the share of the usable draws in which the first estimate is strictly
    nearer the truth. *)
Theorem C104_full_trust_power p n_train T (gammas : list R) draws i : reported p n_train T gammas draws -> nth_error gammas i = Some 1 -> let ds := counted (map snd draws) in ds <> [] ->
  let gaps := map (fun d => nth i (d_gaps d) 0) ds in
  lmean gaps = lmean (map d_b ds) - lmean (map d_a ds) /\
  length (filter (fun x => Rltb 0 x) gaps) = length (filter (fun d => Rltb (d_a d) (d_b d)) ds).
Proof.
  intros HR Hi ds Hd gaps. assert (E : forall d, In d ds -> nth i (d_gaps d) 0 = d_b d - d_a d).
  { intros d Hin. unfold ds in Hin. apply (proj1 (counted_in (map snd draws) d)) in Hin. apply in_map_iff in Hin as (e & E & He). unfold reported in HR. rewrite Forall_forall in HR. destruct (HR e He) as (_ & _ & H). rewrite E in H.
    destruct H as (_ & _ & _ & F). clear -F Hi. revert i Hi. induction F as [|g x gs xs [_ H] F IH]; intros i Hi; [destruct i; discriminate|]. destruct i as [|i]; cbn [nth_error nth] in *; [injection Hi as ->; now apply H|now apply IH]. }
  split.
  - unfold gaps. rewrite (lmean_ext _ (fun d => d_b d + -1 * d_a d) ds) by (intros d Hin; rewrite (E d Hin); ring). rewrite lmean_plus, lmean_scal. ring.
  - unfold gaps. clear Hd gaps. induction ds as [|d l IH]; [reflexivity|]. cbn [map filter]. rewrite (E d (or_introl eq_refl)). assert (EQ : Rltb 0 (d_b d - d_a d) = Rltb (d_a d) (d_b d)).
    { unfold Rltb. destruct (Rlt_dec 0 (d_b d - d_a d)), (Rlt_dec (d_a d) (d_b d)); lra || reflexivity. }
    rewrite EQ. destruct (Rltb (d_a d) (d_b d)); cbn [length]; rewrite IH; auto; intros; apply E; now right.
Qed.
(** With a single usable draw the reported ratio is +inf whatever the sign of the gap (also when the power is 0); with none it is +inf beside a NaN mean and a NaN power. *)
Theorem C104_degenerate x : s_snr (summary_of [x]) = PInf /\ (x <= 0 -> s_power (summary_of [x]) = Fin 0) /\
  summary_of [] = mkSummary (N := NumX) NaN NaN PInf NaN /\
  forall p n_train T gammas s, discrimination_power L P p n_train T gammas 0 s = Ok (map (fun g => (g, summary_of [])) gammas, NaN, NaN, s).
Proof.
  split; [|split; [|split; [reflexivity|]]].
  - cbn [summary_of s_snr]. rewrite (sd_const x [x]); [|discriminate|intros y [<-|[]]; reflexivity]. unfold Rltb. destruct (Rlt_dec 0 0); [lra|reflexivity].
  - intros Hx. cbn [summary_of s_power filter length]. unfold Rltb. destruct (Rlt_dec 0 x); [lra|]. cbn [length INR]. apply (f_equal Fin). lra.
  - intros p n_train T gammas s. unfold discrimination_power, dbind, dret. cbn [dtimes]. unfold dret. cbn [counted flat_map map]. rewrite vmean_nil. do 4 f_equal.
    rewrite <- (summarise_fin []). cbn [map]. assert (Q : forall (l : list NumX), map (fun i => (nth i l n0, summarise (N := NumX) [])) (seq 0 (length l)) = map (fun g => (g, summarise (N := NumX) [])) l).
    { clear. intros l. transitivity (map (fun g => (g, summarise (N := NumX) [])) (tab (length l) (fun i => nth i l n0))); [unfold tab; rewrite map_map; reflexivity|]. f_equal. symmetry. apply tab_nth'. reflexivity. }
    apply Q.
Qed.
(** The power is a proportion, the standard deviation is not negative. *)
Theorem C104_summary_range l : l <> [] -> exists m sd q, s_mean (summary_of l) = Fin m /\ s_sd (summary_of l) = Fin sd /\ 0 <= sd /\ s_power (summary_of l) = Fin q /\ 0 <= q <= 1 /\
  (q = 1 -> 0 < m) /\ (q = 0 -> m <= 0).
Proof.
  intros H. destruct l as [|x l]; [contradiction|]. set (l' := x :: l) in *. exists (lmean l'), (sd_of l'), (INR (length (filter (fun x => Rltb 0 x) l')) / INR (length l')).
  assert (HL0 : 0 < INR (length l')) by (apply lt_0_INR; cbn; lia). assert (HF : (length (filter (fun x => Rltb 0 x) l') <= length l')%nat) by (clear; induction l' as [|y m IH]; [cbn; lia|]; cbn [filter]; destruct (Rltb 0 y); cbn [length]; lia).
  pose proof (le_INR _ _ HF) as HI. pose proof (pos_INR (length (filter (fun x => Rltb 0 x) l'))) as H0.
  assert (QE : forall c, INR (length (filter (fun x => Rltb 0 x) l')) / INR (length l') = c -> INR (length (filter (fun x => Rltb 0 x) l')) = c * INR (length l')) by (intros c <-; field; lra).
  split; [reflexivity|]. split; [reflexivity|]. split; [apply sd_nonneg|]. split; [reflexivity|]. split; [|split].
  - split; [apply Rmult_le_pos; [lra|]; left; now apply Rinv_0_lt_compat|]. apply (Rmult_le_reg_r (INR (length l'))); [lra|]. unfold Rdiv. rewrite Rmult_assoc, Rinv_l by lra. lra.
  - intros E. apply QE in E. rewrite Rmult_1_l in E. apply INR_eq in E. assert (PO : forall y, In y l' -> 0 < y).
    { clear -E. induction l' as [|y m IH]; intros z Hz; [contradiction|]. cbn [filter] in E. destruct (Rltb_spec 0 y) as [Hy|Hy].
      - cbn [length] in E. destruct Hz as [<-|Hz]; [exact Hy|]. apply IH; [lia|exact Hz].
      - exfalso. cbn [length] in E. assert (length (filter (fun x => Rltb 0 x) m) <= length m)%nat by (clear; induction m as [|w m IH]; [cbn; lia|]; cbn [filter]; destruct (Rltb 0 w); cbn [length]; lia). lia. }
    assert (PS : forall m, (forall y, In y m -> 0 < y) -> m <> [] -> 0 < lsum m).
    { clear. induction m as [|y m IH]; intros HP NE; [contradiction|]. pose proof (HP y (or_introl eq_refl)). destruct m as [|z m]; [cbn; lra|]. assert (0 < lsum (z :: m)) by (apply IH; [intros; apply HP; now right|discriminate]). cbn in *. lra. }
    unfold lmean. apply Rdiv_lt_0_compat; [now apply PS|lra].
  - intros E. apply QE in E. rewrite Rmult_0_l in E. assert (E0 : length (filter (fun x => Rltb 0 x) l') = 0%nat) by (apply INR_eq; exact E). clear E. rename E0 into E. assert (PO : forall y, In y l' -> y <= 0).
    { clear -E. induction l' as [|y m IH]; intros z Hz; [contradiction|]. cbn [filter] in E. destruct (Rltb_spec 0 y) as [Hy|Hy]; [cbn [length] in E; lia|]. destruct Hz as [<-|Hz]; [lra|]. now apply IH. }
    rewrite <- (map_id l'). rewrite <- (lmean_const 0 l' ltac:(discriminate)). apply (lmean_le (fun x => x) (fun _ => 0)). exact PO.
Qed.
End Draws.

(** ** The pair of estimates of one sample *)
Lemma sample_pair_fin p xs : (1 <= p)%nat -> xs <> [] ->
  sample_pair (N := NumX) (map (fv p) xs) p = Ok (fm p p (shrunk p (pcov_of xs) (1 / 2)), fm p p (shrunk p (pcov_of xs) (7 / 100))).
Proof.
  intros Hp Hx. unfold sample_pair. rewrite np_cov_fin by auto. cbn [bind]. set (S := pcov_of xs). pose proof (proj1 (psd_pcov p xs)) as HS. fold S in HS.
  assert (E93 : @nlit NumX 93 2 = Fin (93 / 100)) by (rewrite nlit_fin; apply (f_equal Fin); cbn; lra). assert (E7 : @nlit NumX 7 2 = Fin (7 / 100)) by (rewrite nlit_fin; apply (f_equal Fin); cbn; lra).
  rewrite meye_fin, mtrace_fin, nofn_fin, E93, E7. assert (Hn : 0 < INR p) by (apply lt_0_INR; lia). rewrite div_fin by lra. rewrite mscale_fin, phalf_fin, !mscale_fin, madd_fin. cbn [bind]. rewrite madd_fin. cbn [bind].
  rewrite half_sym_fin. cbn [bind]. rewrite half_sym_fin. cbn [bind]. do 2 f_equal; apply fm_ext; intros i j Hi Hj; rewrite (rI_sym j i), (HS j i) by auto; unfold shrunk; lra.
Qed.
(** Both estimates are shrinkages of the sample covariance towards the same multiple of the identity, with the trace of the sample covariance, positive definite unless
    that is zero; the intended order KL(A) < KL(B) is not guaranteed: it is reversed whenever the sample covariance happens to be the truth (unless that is a multiple of
    the identity). *)
Theorem C104_sample_pair (L : LinAlg NumX) p T xs : lawful L -> (1 <= p)%nat -> xs <> [] -> pd p T ->
  exists A B, sample_pair (map (fv p) xs) p = Ok (fm p p A, fm p p B) /\ rtrace p A = rtrace p (pcov_of xs) /\ rtrace p B = rtrace p (pcov_of xs) /\
    (0 < rtrace p (pcov_of xs) -> pd p A /\ pd p B) /\
    (meq p p (pcov_of xs) T -> clear_of_zero p T -> ~ meq p p T (fun i j => rtrace p T / INR p * rI i j) ->
       exists ka kb, kl L (fm p p A) (fm p p T) = Ok (Fin ka) /\ kl L (fm p p B) (fm p p T) = Ok (Fin kb) /\ kb < ka).
Proof.
  intros HL Hp Hx HT. set (S := pcov_of xs). pose proof (psd_pcov p xs) as PS. fold S in PS. exists (shrunk p S (1 / 2)), (shrunk p S (7 / 100)). split; [now apply sample_pair_fin|].
  pose proof (proj2 (C98_estimates p S (1 / 2) (7 / 100) Hp (proj1 PS))) as Q. destruct (Q (1 / 2)) as (_ & T1 & _ & P1). destruct (Q (7 / 100)) as (_ & T2 & _ & P2).
  split; [exact T1|]. split; [exact T2|]. split; [intros Ht; split; [apply P1|apply P2]; auto; lra|]. intros ES HC HN.
  assert (ESH : forall a, fm p p (shrunk p S a) = fm p p (shrunk p T a)).
  { intros a. apply fm_ext. intros i j Hi Hj. unfold shrunk. rewrite (ES i j Hi Hj), (rtrace_ext p S T ES). reflexivity. }
  rewrite !ESH. assert (Hs : sizes_ok [p] p) by (split; [repeat constructor; exact Hp|cbn; lia]).
  assert (CL : forall a, 0 <= a < 1 -> clear_of_zero p (shrunk p T a)).
  { intros a Ha v Hv. pose proof (HC v Hv) as H1. pose proof (rdot_pos p v Hv) as H2. unfold shrunk. rewrite (qf_comb p T (fun i j => rtrace p T / INR p * rI i j) (1 - a) a v).
    assert (QI : qf p (fun i j => rtrace p T / INR p * rI i j) v = rtrace p T / INR p * rdot p v v) by (rewrite (qf_scal p), qf_I; reflexivity). rewrite QI.
    assert (TR : 1 / 1000000000 * INR p <= rtrace p T).
    { unfold rtrace. rewrite <- (Rmult_1_r (INR p)). replace (1 / 1000000000 * (INR p * 1)) with (rsum p (fun _ => 1 / 1000000000)) by (rewrite rsum_const; ring). apply rsum_le. intros i Hi.
      assert (NZ : not_zero p (fun k => if Nat.eqb k i then 1 else 0)) by (exists i; split; [exact Hi|rewrite Nat.eqb_refl; lra]). specialize (HC _ NZ). rewrite qf_unit in HC by exact Hi.
      unfold rdot in HC. rewrite (rsum_ext p _ (fun k => if Nat.eqb k i then 1 else 0)) in HC by (intros k _; destruct (Nat.eqb k i); ring). rewrite (rsum_delta p i (fun _ => 1) Hi) in HC. lra. }
    assert (Hn : 0 < INR p) by (apply lt_0_INR; lia). assert (TP : 1 / 1000000000 <= rtrace p T / INR p) by (apply (Rmult_le_reg_r (INR p)); [lra|]; unfold Rdiv at 2; rewrite Rmult_assoc, Rinv_l by lra; lra).
    assert (X1 : 0 < (1 - a) * (qf p T v - 1 / 1000000000 * rdot p v v)) by (apply Rmult_lt_0_compat; lra).
    assert (X2 : 0 <= a * ((rtrace p T / INR p - 1 / 1000000000) * rdot p v v)) by (apply Rmult_le_pos; [lra|]; apply Rmult_le_pos; lra).
    lra. }
  destruct (C98_full_trust_gap L p T T [p] (1 / 2) (7 / 100) HL Hp Hs (proj1 HT) HT (CL (1 / 2) ltac:(lra)) (CL (7 / 100) ltac:(lra))) as (ka & kb & E1 & E2 & E3).
  destruct (C98_population_gap L p T [p] (1 / 2) (7 / 100) HL Hp Hs HT HC ltac:(lra) ltac:(lra)) as (d & E4 & _ & D). rewrite E3 in E4. injection E4 as E4. exists ka, kb. split; [exact E1|]. split; [exact E2|]. specialize (D ltac:(lra) HN). lra.
Qed.

(** ** Blocks of four that do not cover the variables *)
Lemma sub_lead p q A a m b k : (a + m <= q)%nat -> (b + k <= q)%nat -> (q <= p)%nat -> (1 <= q)%nat -> sub (N := NumX) (fm p p A) (seq a m) (seq b k) = sub (fm q q A) (seq a m) (seq b k).
Proof. intros H1 H2 H3 H4. rewrite !sub_fin_seq by lia. reflexivity. Qed.
Lemma operator_lead L p A g sizes : Forall (fun m => (1 <= m)%nat) sizes -> (list_sum sizes <= p)%nat -> (1 <= list_sum sizes)%nat ->
  schur_operator L (fm p p A) sizes g = schur_operator L (fm (list_sum sizes) (list_sum sizes) A) sizes g.
Proof.
  intros Hf Hp H1. set (q := list_sum sizes) in *. unfold schur_operator. change (fold_left Nat.add sizes 0%nat) with (ResearchRun.total 0 sizes). assert (Ht : ResearchRun.total 0 sizes = q) by now rewrite total_sum.
  rewrite Ht. assert (Q : forall s, ResearchRun.total s sizes = q -> forall W Ld, operator_loop L (fm p p A) g q (blocks_from s sizes) W Ld (seq 0 s) = operator_loop L (fm q q A) g q (blocks_from s sizes) W Ld (seq 0 s)).
  { clear Ht. clearbody q. induction sizes as [|m sizes IH]; intros s Ht W Ld; [reflexivity|]. inversion Hf as [|? ? Hm Hf']; subst x l. pose proof (total_ge sizes (s + m)) as Hge. change (ResearchRun.total s (m :: sizes)) with (ResearchRun.total (s + m) sizes) in Ht.
    cbn [blocks_from operator_loop]. assert (ET : operator_terms L (fm p p A) g q (seq 0 s) (seq s m) = operator_terms L (fm q q A) g q (seq 0 s) (seq s m)).
    { unfold operator_terms. rewrite !(sub_lead p q) by lia. reflexivity. }
    rewrite ET. destruct (operator_terms L (fm q q A) g q (seq 0 s) (seq s m)) as [[dW ld]|e]; [|reflexivity]. cbn [bind]. destruct (madd W dW) as [W'|e]; [|reflexivity]. cbn [bind].
    rewrite seq_grow. apply IH; auto. }
  change (blocks_of sizes) with (blocks_from 0 sizes). change (@nil nat) with (seq 0 0). rewrite (Q 0%nat Ht). reflexivity.
Qed.
Theorem C104_blocks_of_four (L : LinAlg NumX) p xs T g (gammas : list R) : lawful L -> (4 <= p)%nat -> (p mod 4 <> 0)%nat -> xs <> [] -> pd p T -> 0 <= g <= 1 -> usable p T (pcov_of xs) ->
  training_draw L (map (fv p) xs) p (Fin (rtrace p T / (50 * INR p))) (fm p p T) (repeat 4%nat (p / 4)) (map (fun g => Fin g : NumX) (g :: gammas)) = Err ValueError.
Proof.
  intros HL Hp4 Hm Hx HT Hg [CA CB]. assert (Hp : (1 <= p)%nat) by lia. unfold training_draw. rewrite ridge_pair_fin by auto. cbn [bind]. set (S := pcov_of xs) in *. pose proof (proj1 (psd_pcov p xs)) as HS. fold S in HS.
  change (fun i j => S i j + rtrace p T / (50 * INR p) * rI i j) with (ridged p T S). set (A := shrunk p S (1 / 2)) in *. set (B := ridged p T S) in *. rewrite lit9.
  assert (SA : sym p A) by now apply shrunk_sym. assert (SB : sym p B) by now apply ridged_sym.
  destruct (C90_is_spd L p A (1 / 1000000000) HL Hp SA) as (oa & -> & Ia). destruct (C90_is_spd L p B (1 / 1000000000) HL Hp SB) as (ob & Eb & Ib). cbn [bind]. rewrite (proj2 Ia CA). cbn iota. rewrite Eb. cbn [bind]. rewrite (proj2 Ib CB). cbn [negb].
  pose proof (clear_pd p A SA CA) as PA. pose proof (clear_pd p B SB CB) as PB.
  destruct (C91_divergence L A T p HL Hp PA HT) as (Ai & IA & EA & _). destruct (C91_divergence L B T p HL Hp PB HT) as (Bi & IB & EB & _). rewrite EA, EB. cbn [bind map mapM].
  set (sizes := repeat 4%nat (p / 4)). assert (LS : list_sum sizes = (4 * (p / 4))%nat).
  { unfold sizes. generalize (p / 4)%nat. induction n as [|k IH]; [reflexivity|]. cbn [repeat list_sum fold_right]. change (fold_right Nat.add 0%nat (repeat 4%nat k)) with (list_sum (repeat 4%nat k)). lia. }
  pose proof (Nat.div_mod p 4 ltac:(lia)) as DM. pose proof (Nat.div_le_mono 4 p 4 ltac:(lia) Hp4) as DL. change (4 / 4)%nat with 1%nat in DL. set (q := list_sum sizes) in *. assert (Hq : (1 <= q /\ q < p)%nat) by lia.
  assert (Hf : Forall (fun m => (1 <= m)%nat) sizes) by (apply Forall_forall; intros m Hi; apply repeat_spec in Hi; lia). assert (Hs : sizes_ok sizes q) by (split; [exact Hf|reflexivity]).
  unfold expected_gap. rewrite (operator_lead L p A (Fin g) sizes Hf) by (fold q; lia). rewrite (operator_lead L p B (Fin g) sizes Hf) by (fold q; lia). fold q.
  destruct (operator_ok L q A g sizes HL Hs (lead_pd A p q PA ltac:(lia)) Hg) as (WA & LA & -> & _). destruct (operator_ok L q B g sizes HL Hs (lead_pd B p q PB ltac:(lia)) Hg) as (WB & LB & -> & _). cbn [bind].
  rewrite msub_fin. cbn [bind]. assert (MM : matmul (N := NumX) (fm q q (fun i j => WA i j - WB i j)) (fm p p T) = Err ValueError).
  { unfold matmul. rewrite fm_ncols, fm_nrows by lia. destruct (Nat.eqb_spec q p); [lia|reflexivity]. }
  rewrite MM. reflexivity.
Qed.

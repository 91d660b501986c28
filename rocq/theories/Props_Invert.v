(** * C108: when the estimate is singular, and what shrinkage guarantees *)
From Coq Require Import Reals ZArith String List Lia Lra Psatz Arith Bool.
From Verif Require Import Num Numpy PyVal LinalgModel StateModel BaseModel Estimators RegistryModel Spec ListLemmas BaseProofs
  RMat LinSpec Fin RealSpec RunFin EwaReal RunAvg EmpFacts Props_Emp ShrinkReal Props_Shrink Spectral MatAlg Det Contracts LinalgReal Props_Linalg
  GaussReal ScoreReal Props_Score Props_Metric Props_Improper Props_Range.
Import ListNotations.
Local Open Scope string_scope.
Local Open Scope R_scope.

(** ** The specification *)
(** the combination [v] of the variables took the same value in every observation *)
Definition constant_along (p : nat) (v : nat -> R) (xs : list obs) : Prop :=
  forall x y, In x xs -> In y xs -> rdot p v x = rdot p v y.
(** not all the observations are equal *)
Definition varies (p : nat) (xs : list obs) : Prop := exists x y i, In x xs /\ In y xs /\ (i < p)%nat /\ x i <> y i.
(** every Rayleigh quotient v^T A v / v^T v lies in [lo, hi] (equivalently: every eigenvalue of a symmetric A) *)
Definition within (p : nat) (lo hi : R) (A : rmat) : Prop := forall v, lo * rdot p v v <= qf p A v <= hi * rdot p v v.
(** the condition number is at most [k] *)
Definition conditioned (p : nat) (k : R) (A : rmat) : Prop := exists lo, 0 < lo /\ within p lo (k * lo) A.
(** [precision_] is a true inverse of [covariance_] *)
Definition inverts (L : LinAlg NumX) {C : EstClass NumX} (p : nat) (o : inst C) (A : rmat) : Prop :=
  exists B, precision_ L o = Ok (fm p p B) /\ inverse p A B /\ pd p B.

(** ** One variable *)
Lemma var_zero_mean r nb xs i : 0 < r < 1 -> (1 <= nb)%nat -> ewa_cov r nb xs i i = 0 -> forall x, In x xs -> x i = ewa_mean r nb xs i.
Proof.
  intros Hr Hn. induction xs as [|z xs IH] using rev_ind; [intros _ x []|]. intros HC x Hx. rewrite ewa_cov_step in HC. cbv zeta in HC. rewrite ewa_step_eq.
  pose proof (psd_diag_nonneg (S i) _ i (psd_ewa_cov (S i) r nb xs ltac:(lra)) ltac:(lia)) as P. remember (ewa_cov r nb xs i i) as c eqn:Ec. remember (ewa_mean r nb xs i) as m eqn:Em.
  destruct (Nat.ltb_spec (length xs) nb) as [Hl|Hl].
  - destruct (Nat.eq_dec (length xs) 0) as [L0|L0].
    + apply length_zero_iff_nil in L0. subst xs. cbn [app] in Hx. destruct Hx as [<-|[]]. cbn [length INR]. field.
    + assert (L1 : (1 <= length xs)%nat) by lia. rewrite S_INR in *. assert (1 <= INR (length xs)) by (change 1 with (INR 1); now apply le_INR).
      set (n := INR (length xs)) in *.
      replace (c * n / (n + 1) + (z i - m) * ((z i - (m + (z i - m) / (n + 1))) / (n + 1))) with ((n * / (n + 1)) * (c + (z i - m) * (z i - m) * / (n + 1))) in HC by (field; lra).
      assert (I1 : 0 < / (n + 1)) by (apply Rinv_0_lt_compat; lra). assert (I2 : 0 < n * / (n + 1)) by (apply Rmult_lt_0_compat; lra).
      apply Rmult_integral in HC. destruct HC as [HC|HC]; [lra|]. pose proof (Rle_0_sqr (z i - m)) as Q. unfold Rsqr in Q.
      assert (0 <= (z i - m) * (z i - m) * / (n + 1)) by (apply Rmult_le_pos; lra). assert (C0 : c = 0) by lra. assert (D0 : (z i - m) * (z i - m) * / (n + 1) = 0) by lra.
      apply Rmult_integral in D0. assert (ZM : z i = m). { destruct D0 as [D0|D0]; [apply Rmult_integral in D0; lra|lra]. }
      rewrite ZM. replace (m + (m - m) / (n + 1)) with m by (field; lra). apply in_app_or in Hx. destruct Hx as [Hx|[<-|[]]]; [now apply IH|exact ZM].
  - pose proof (Rle_0_sqr (z i - m)) as Q. unfold Rsqr in Q. assert (0 <= (1 - r) * c) by (apply Rmult_le_pos; lra). assert (0 <= r * ((z i - m) * (z i - m))) by (apply Rmult_le_pos; lra).
    assert (C0 : (1 - r) * c = 0) by lra. assert (D0 : r * ((z i - m) * (z i - m)) = 0) by lra. apply Rmult_integral in C0. apply Rmult_integral in D0.
    assert (ZM : z i = m). { destruct D0 as [D0|D0]; [lra|apply Rmult_integral in D0; lra]. }
    rewrite ZM. replace ((1 - r) * m + r * m) with m by ring. apply in_app_or in Hx. destruct Hx as [Hx|[<-|[]]]; [apply IH; auto; lra|exact ZM].
Qed.
Lemma var_const r nb xs i c : 0 < r < 1 -> (1 <= nb)%nat -> (forall x, In x xs -> x i = c) -> ewa_cov r nb xs i i = 0.
Proof.
  intros Hr Hn. induction xs as [|z xs IH] using rev_ind.
  - intros _. unfold ewa_cov, burn, after. rewrite firstn_nil, skipn_nil, ewc_nil, pcov_nil. reflexivity.
  - intros H. assert (Hz : z i = c) by (apply H; apply in_or_app; right; now left). assert (HX : forall x, In x xs -> x i = c) by (intros x Hx; apply H; apply in_or_app; now left).
    rewrite ewa_cov_step. cbv zeta. rewrite (IH HX). destruct xs as [|w xs'].
    + destruct (Nat.ltb_spec (@length obs []) nb) as [Hl|Hl]; [|cbn in Hl; lia]. cbn [length INR]. field.
    + assert (EM : ewa_mean r nb (w :: xs') i = c). { pose proof (ewa_mean_range r nb (w :: xs') i c c ltac:(lra) Hn ltac:(discriminate)) as K. assert (c <= ewa_mean r nb (w :: xs') i <= c); [apply K; intros x Hx; rewrite (HX x Hx); lra|lra]. }
      rewrite EM, Hz. replace (c - c) with 0 by ring. destruct (Nat.ltb (length (w :: xs')) nb); [|ring]. unfold Rdiv. ring.
Qed.
Lemma qf_as_var p r nb xs v : (1 <= nb)%nat -> xs <> [] ->
  qf p (ewa_cov r nb xs) v = ewa_cov r nb (map (aff p (fun _ => v) (fun _ => 0)) xs) 0%nat 0%nat.
Proof. intros Hn Hx. rewrite ewa_cov_aff by auto. reflexivity. Qed.
Lemma null_iff p r nb xs v : 0 < r < 1 -> (1 <= nb)%nat -> xs <> [] -> (qf p (ewa_cov r nb xs) v = 0 <-> constant_along p v xs).
Proof.
  intros Hr Hn Hx. rewrite qf_as_var by auto. assert (A0 : forall x, aff p (fun _ => v) (fun _ => 0) x 0%nat = rdot p v x) by (intros x; unfold aff, rdot; ring). split.
  - intros H x y Ix Iy. pose proof (var_zero_mean r nb _ 0%nat Hr Hn H) as K. rewrite <- (A0 x), <- (A0 y). rewrite (K _ (in_map _ _ _ Ix)), (K _ (in_map _ _ _ Iy)). reflexivity.
  - intros H. destruct xs as [|x0 xs]; [congruence|]. apply (var_const r nb _ 0%nat (rdot p v x0)); auto. intros y Hy. apply in_map_iff in Hy. destruct Hy as (x & <- & Ix). rewrite A0. apply H; [exact Ix|now left].
Qed.
Lemma null_iff_pcov p xs v : xs <> [] -> (qf p (pcov_of xs) v = 0 <-> constant_along p v xs).
Proof.
  intros Hx. rewrite <- (null_iff p (/ 2) (S (length xs)) xs v) by (auto; try lra; lia).
  unfold ewa_cov, burn, after. rewrite firstn_all2, skipn_all2 by lia. unfold ewc. cbn [length]. split; intros H.
  - rewrite <- H. apply qf_meq. intros i j _ _. cbn. ring.
  - rewrite <- H. apply qf_meq. intros i j _ _. cbn. ring.
Qed.
(** ** C108 *)
(** A combination of the variables has zero estimated variance exactly when it has been constant over the whole history: EwaCovariance and
    EmpiricalCovariance are blind to nothing else, however long ago the combination last moved. *)
Theorem C108_ewa_null_directions p r diff rows xs : 0 < r < 1 -> observes p diff rows xs -> xs <> [] ->
  exists o S, fitted_on (C := Ewa) (EWA r diff) rows o /\ covariance_ o = Ok (fm p p S) /\
    (forall v, qf p S v = 0 <-> constant_along p v xs) /\
    (pd p S <-> forall v, constant_along p v xs -> forall i, (i < p)%nat -> v i = 0).
Proof.
  intros Hr Ho Hx. destruct (Ewa_run p r diff rows xs ltac:(lra) Ho Hx) as (o & E1 & _ & _ & E4 & _). exists o, (ewa_cov r (burn_len r) xs).
  split; [exact E1|]. split; [exact E4|]. pose proof (fun v => null_iff p r (burn_len r) xs v Hr ltac:(pose proof (burn_len_bounds r); lia) Hx) as K. split; [exact K|].
  pose proof (psd_ewa_cov p r (burn_len r) xs ltac:(lra)) as PS. split.
  - intros [_ HP] v Hv i Hi. destruct (Req_dec (v i) 0) as [E|E]; [exact E|]. specialize (HP v (ex_intro _ i (conj Hi E))). apply K in Hv. lra.
  - intros H. split; [apply sym_ewa_cov|]. intros v (i & Hi & Hv). destruct (Rle_lt_or_eq_dec _ _ (proj2 PS v)) as [Q|Q]; [exact Q|]. symmetry in Q. apply K in Q. now elim (Hv (H v Q i Hi)).
Qed.
Theorem C108_empirical_null_directions p diff rows xs : observes p diff rows xs -> xs <> [] ->
  exists o S, fitted_on (C := Empirical) (mkEmpP diff) rows o /\ covariance_ o = Ok (fm p p S) /\
    (forall v, qf p S v = 0 <-> constant_along p v xs) /\
    (pd p S <-> forall v, constant_along p v xs -> forall i, (i < p)%nat -> v i = 0).
Proof.
  intros Ho Hx. destruct (Empirical_run p diff rows xs Ho Hx) as (o & E1 & _ & _ & E4 & _). exists o, (pcov_of xs).
  split; [exact E1|]. split; [exact E4|]. pose proof (fun v => null_iff_pcov p xs v Hx) as K. split; [exact K|].
  pose proof (psd_pcov p xs) as PS. split.
  - intros [_ HP] v Hv i Hi. destruct (Req_dec (v i) 0) as [E|E]; [exact E|]. specialize (HP v (ex_intro _ i (conj Hi E))). apply K in Hv. lra.
  - intros H. split; [apply sym_pcov|]. intros v (i & Hi & Hv). destruct (Rle_lt_or_eq_dec _ _ (proj2 PS v)) as [Q|Q]; [exact Q|]. symmetry in Q. apply K in Q. now elim (Hv (H v Q i Hi)).
Qed.
Lemma few_rows_ewa p r nb xs : 0 < r < 1 -> (1 <= nb)%nat -> xs <> [] -> (length xs <= p)%nat -> ~ pd p (ewa_cov r nb xs).
Proof.
  intros Hr Hn Hx Hl [_ HP]. apply (few_rows_singular p xs Hx Hl). split; [apply sym_pcov|]. intros v Hv.
  destruct (Rle_lt_or_eq_dec _ _ (proj2 (psd_pcov p xs) v)) as [Q|Q]; [exact Q|]. symmetry in Q. apply (null_iff_pcov p xs v Hx) in Q. apply (null_iff p r nb xs v Hr Hn Hx) in Q.
  specialize (HP v Hv). lra.
Qed.
(** With no more observations than variables EmpiricalCovariance, EwaCovariance and (inside its burn-in) LedoitWolfCovariance are singular. *)
Theorem C108_few_rows p r diff rows xs : (1 <= p)%nat -> 0 < r < 1 -> observes p diff rows xs -> xs <> [] -> (length xs <= p)%nat ->
  (exists o S, fitted_on (C := Empirical) (mkEmpP diff) rows o /\ covariance_ o = Ok (fm p p S) /\ ~ pd p S) /\
  (exists o S, fitted_on (C := Ewa) (EWA r diff) rows o /\ covariance_ o = Ok (fm p p S) /\ ~ pd p S) /\
  ((length xs <= burn_len r)%nat -> exists o S, fitted_on (C := LedoitWolf) (EWA r diff) rows o /\ covariance_ o = Ok (fm p p S) /\ ~ pd p S).
Proof.
  intros Hp Hr Ho Hx Hl. pose proof (few_rows_ewa p r (burn_len r) xs Hr ltac:(pose proof (burn_len_bounds r); lia) Hx Hl) as NE. split; [|split].
  - destruct (Empirical_run p diff rows xs Ho Hx) as (o & E1 & _ & _ & E4 & _). exists o, (pcov_of xs). split; [exact E1|]. split; [exact E4|]. now apply few_rows_singular.
  - destruct (Ewa_run p r diff rows xs ltac:(lra) Ho Hx) as (o & E1 & _ & _ & E4 & _). exists o, (ewa_cov r (burn_len r) xs). auto.
  - intros Hb. destruct (C26_ledoit_wolf_convex_shrinkage p r diff rows xs Hp ltac:(lra) Ho Hx) as (o & e & S & a & F1 & F2 & F3 & _ & _ & _ & _ & _ & _ & F10).
    destruct (F10 Hb) as [_ F11]. destruct (Ewa_run p r diff rows xs ltac:(lra) Ho Hx) as (o' & E1 & _ & _ & E4 & _).
    exists o, (ewa_cov r (burn_len r) xs). split; [exact F1|]. split; [|exact NE]. rewrite F11. unfold fitted_on, EWA in F2. rewrite E1 in F2. injection F2 as <-. exact E4.
Qed.
(** ** Shrinkage towards a multiple of the identity *)
Lemma within_trace p lo hi S : (1 <= p)%nat -> within p lo hi S -> lo <= rtrace p S / INR p <= hi.
Proof.
  intros Hp H. assert (P1 : 1 <= INR p) by (change 1 with (INR 1); now apply le_INR).
  assert (U : forall i, (i < p)%nat -> lo <= S i i <= hi).
  { intros i Hi. specialize (H (fun k => if Nat.eqb k i then 1 else 0)). rewrite RMat.qf_unit in H by auto.
    assert (E : rdot p (fun k => if Nat.eqb k i then 1 else 0) (fun k => if Nat.eqb k i then 1 else 0) = 1).
    { rewrite <- (qf_rI p), RMat.qf_unit by auto. unfold rI. now rewrite Nat.eqb_refl. }
    rewrite E in H. lra. }
  assert (T : INR p * lo <= rtrace p S <= INR p * hi).
  { unfold rtrace. split; [replace (INR p * lo) with (rsum p (fun _ => lo)) by (rewrite rsum_const; ring)|replace (INR p * hi) with (rsum p (fun _ => hi)) by (rewrite rsum_const; ring)];
      apply rsum_le; intros i Hi; apply U; auto. }
  split; apply Rmult_le_reg_r with (INR p); try lra; unfold Rdiv; rewrite Rmult_assoc, Rinv_l, Rmult_1_r by lra; lra.
Qed.
Lemma rdot_nonneg p v : 0 <= rdot p v v.
Proof. apply rsum_nonneg. intros. apply Rle_0_sqr. Qed.
Lemma shrink_within p a lo hi S : (1 <= p)%nat -> 0 <= a <= 1 -> within p lo hi S -> within p lo hi (shrinkI p a S).
Proof.
  intros Hp Ha H v. rewrite shrinkI_qf. pose proof (within_trace p lo hi S Hp H) as T. set (q := rtrace p S / INR p) in *. specialize (H v). pose proof (rdot_nonneg p v) as D. set (d := rdot p v v) in *.
  assert (lo * d <= q * d <= hi * d) by (split; apply Rmult_le_compat_r; lra). nra.
Qed.
(** Neither LedoitWolf, nor OAS, nor Shrunk with identity target is ever worse conditioned than the EwaCovariance it shrinks: every interval that contains the
    eigenvalues of the latter contains those of the former. *)
Theorem C108_never_worse_conditioned p r delta diff rows xs : (1 <= p)%nat -> 0 < r <= 1 -> 0 <= delta <= 1 -> observes p diff rows xs -> xs <> [] ->
  exists e l q s E L Q S, fitted_on (C := Ewa) (EWA r diff) rows e /\ covariance_ e = Ok (fm p p E) /\
    fitted_on (C := LedoitWolf) (EWA r diff) rows l /\ covariance_ l = Ok (fm p p L) /\
    fitted_on (C := OAS) (EWA r diff) rows q /\ covariance_ q = Ok (fm p p Q) /\
    fitted_on (C := Shrunk) (SHR r delta "identity" diff) rows s /\ covariance_ s = Ok (fm p p S) /\
    forall lo hi, within p lo hi E -> within p lo hi L /\ within p lo hi Q /\ within p lo hi S.
Proof.
  intros Hp Hr Hd Ho Hx.
  destruct (Ewa_run p r diff rows xs ltac:(lra) Ho Hx) as (e & E1 & _ & _ & E4 & _).
  destruct (LedoitWolf_run p r diff rows xs Hp ltac:(lra) Ho Hx) as (l & L1 & _ & _ & L4 & _).
  destruct (OAS_run p r diff rows xs Hp ltac:(lra) Ho Hx) as (q & Q1 & _ & _ & Q4 & _).
  destruct (Shrunk_identity_run p r delta diff rows xs Hp ltac:(lra) Ho Hx) as (s & S1 & _ & _ & S4 & _).
  exists e, l, q, s. do 4 eexists. repeat (split; [eassumption|]). intros lo hi H. split; [|split]; apply shrink_within; auto.
  - apply lw_intensity_range; lra.
  - apply oas_rho_range.
Qed.
Lemma shrink_conditioned p a a0 S : (1 <= p)%nat -> 0 < a0 <= a -> a <= 1 -> psd p S -> 0 < rtrace p S ->
  conditioned p (1 + INR p * ((1 - a0) / a0)) (shrinkI p a S).
Proof.
  intros Hp Ha Ha1 HS HT. assert (P1 : 1 <= INR p) by (change 1 with (INR 1); now apply le_INR).
  assert (Q0 : 0 < rtrace p S / INR p) by (apply Rdiv_lt_0_compat; lra). set (q := rtrace p S / INR p) in *.
  assert (TQ : rtrace p S = INR p * q) by (unfold q; field; lra).
  exists (a * q). split; [apply Rmult_lt_0_compat; lra|]. intros v. rewrite shrinkI_qf. fold q. pose proof (rdot_nonneg p v) as D. pose proof (qf_le_trace p S v HS) as U. pose proof (proj2 HS v) as V.
  set (d := rdot p v v) in *. set (w := qf p S v) in *. rewrite TQ in U. split; [assert (0 <= (1 - a) * w) by (apply Rmult_le_pos; lra); lra|].
  assert (K : 1 - a <= a * ((1 - a0) / a0)).
  { replace (a * ((1 - a0) / a0)) with (a / a0 - a) by (field; lra). assert (1 <= a / a0); [|lra]. apply Rmult_le_reg_r with a0; [lra|]. unfold Rdiv. rewrite Rmult_assoc, Rinv_l by lra. lra. }
  apply Rle_trans with ((1 - a) * (INR p * q * d) + a * q * d); [assert ((1 - a) * w <= (1 - a) * (INR p * q * d)) by (apply Rmult_le_compat_l; lra); lra|].
  replace ((1 + INR p * ((1 - a0) / a0)) * (a * q) * d) with ((a * ((1 - a0) / a0)) * (INR p * q * d) + a * q * d) by ring.
  assert (0 <= INR p * q * d) by (apply Rmult_le_pos; [apply Rmult_le_pos; lra|exact D]). assert ((1 - a) * (INR p * q * d) <= (a * ((1 - a0) / a0)) * (INR p * q * d)) by (apply Rmult_le_compat_r; lra). lra.
Qed.
Lemma conditioned_pd p k A : sym p A -> conditioned p k A -> pd p A.
Proof.
  intros HS (lo & Hl & H). split; [exact HS|]. intros v (i & Hi & Hv). specialize (H v). assert (0 < rdot p v v).
  { apply Rlt_le_trans with (v i * v i); [assert (v i * v i <> 0) by (intros E; apply Rmult_integral in E; tauto); pose proof (Rle_0_sqr (v i)) as Q; unfold Rsqr in Q; lra|].
    apply (rsum_ge_term p (fun i => v i * v i) i); auto. intros. apply Rle_0_sqr. }
  assert (0 < lo * rdot p v v) by (apply Rmult_lt_0_compat; lra). lra.
Qed.
Lemma varies_trace p r nb xs : 0 < r < 1 -> (1 <= nb)%nat -> varies p xs -> 0 < rtrace p (ewa_cov r nb xs).
Proof.
  intros Hr Hn (x & y & i & Ix & Iy & Hi & Hv). pose proof (psd_ewa_cov p r nb xs ltac:(lra)) as PS.
  apply Rlt_le_trans with (ewa_cov r nb xs i i).
  - destruct (Rle_lt_or_eq_dec _ _ (psd_diag_nonneg p _ i PS Hi)) as [Q|Q]; [exact Q|]. symmetry in Q. pose proof (var_zero_mean r nb xs i Hr Hn Q) as K. elim Hv. rewrite (K x Ix), (K y Iy). reflexivity.
  - apply (rsum_ge_term p (fun i => ewa_cov r nb xs i i) i); auto. intros. now apply (psd_diag_nonneg p).
Qed.
Lemma inverts_pd L (C : EstClass NumX) p (o : inst C) A : lawful L -> (1 <= p)%nat -> c_prec C = None -> covariance_ o = Ok (fm p p A) -> pd p A -> inverts L p o A.
Proof.
  intros HL Hp Hc Ho HA. destruct (C66_precision_is_pseudo_inverse L C o p A HL Hp Hc Ho (proj1 HA)) as (B & E & _ & _ & HI & _).
  exists B. split; [exact E|]. specialize (HI (pd_invertible p A HA)). split; [exact HI|]. now apply (inverse_pd p A).
Qed.
(** ShrunkCovariance with identity target and intensity delta > 0: as soon as two observations differ the estimate is positive definite, with condition number at
    most 1 + p (1-delta)/delta whatever the data, and precision_ is its inverse. *)
Theorem C108_shrunk_conditioned L p r delta diff rows xs : lawful L -> (1 <= p)%nat -> 0 < r < 1 -> 0 < delta <= 1 -> observes p diff rows xs -> varies p xs ->
  exists o S, fitted_on (C := Shrunk) (SHR r delta "identity" diff) rows o /\ covariance_ o = Ok (fm p p S) /\
    pd p S /\ conditioned p (1 + INR p * ((1 - delta) / delta)) S /\ inverts L p o S.
Proof.
  intros HL Hp Hr Hd Ho HV. assert (Hx : xs <> []) by (destruct HV as (x & y & i & Ix & _); intros ->; destruct Ix).
  destruct (Shrunk_identity_run p r delta diff rows xs Hp ltac:(lra) Ho Hx) as (o & E1 & _ & _ & E4 & _).
  exists o. eexists. split; [exact E1|]. split; [exact E4|]. pose proof (burn_len_bounds r) as Hb.
  assert (HC : conditioned p (1 + INR p * ((1 - delta) / delta)) (shrinkI p delta (ewa_cov r (burn_len r) xs))).
  { apply shrink_conditioned; auto; try lra; [apply psd_ewa_cov; lra|apply varies_trace; auto; lia]. }
  assert (HP : pd p (shrinkI p delta (ewa_cov r (burn_len r) xs))) by (apply (conditioned_pd p _ _ (ltac:(apply shrinkI_sym, sym_ewa_cov)) HC)).
  split; [exact HP|]. split; [exact HC|]. now apply inverts_pd.
Qed.
Lemma tr2_le p S : psd p S -> rtrace p (rmul p S S) <= rtrace p S * rtrace p S.
Proof.
  intros HS. unfold rtrace, rmul. rewrite <- rsum_scal_r. apply rsum_le. intros i Hi. rewrite <- rsum_scal. apply rsum_le. intros j Hj. rewrite (proj1 HS j i Hj Hi). now apply (psd_cauchy p).
Qed.
Lemma oas_rho_low p r S : (1 <= p)%nat -> 0 < r -> psd p S -> 2 / (Rmax (1 / r) 2 + 1) <= oas_rho p r S.
Proof.
  intros Hp Hr HS. pose proof (Rmax_r (1 / r) 2) as M. unfold oas_rho, oas_num, oas_den. set (n := Rmax (1 / r) 2) in *.
  assert (L1 : 2 / (n + 1) <= 1) by (apply Rmult_le_reg_r with (n + 1); [lra|]; unfold Rdiv; rewrite Rmult_assoc, Rinv_l by lra; lra).
  pose proof (tr2_le p S HS) as T. set (x := rtrace p (rmul p S S)) in *. set (t := rtrace p S * rtrace p S) in *.
  assert (P1 : 1 <= INR p) by (change 1 with (INR 1); now apply le_INR). assert (I0 : 0 < / INR p) by (apply Rinv_0_lt_compat; lra). assert (I1 : / INR p <= 1) by (rewrite <- Rinv_1; apply Rinv_le_contravar; lra).
  set (k := / INR p) in *. change (2 / INR p) with (2 * k). change (t / INR p) with (t * k). destruct (Rleb_spec ((n + 1 - 2 * k) * (x - t * k)) 0) as [H|H]; [exact L1|].
  apply Rmin_glb; [|exact L1]. eapply Rle_trans; [|apply Rmax_l]. assert (N0 : 0 < n + 1 - 2 * k) by lra. assert (X0 : 0 < x - t * k) by nra.
  assert (Z : 2 * ((n + 1 - 2 * k) * (x - t * k)) <= ((1 - 2 * k) * x + t) * (n + 1)).
  { apply Rle_trans with (2 * ((n + 1) * (x - t * k))); [assert (0 <= 2 * k * (x - t * k)) by (repeat apply Rmult_le_pos; lra); lra|].
    replace (2 * ((n + 1) * (x - t * k))) with ((2 * (x - t * k)) * (n + 1)) by ring. apply Rmult_le_compat_r; [lra|].
    assert (x * (1 + 2 * k) <= t * (1 + 2 * k)) by (apply Rmult_le_compat_r; lra). lra. }
  apply Rmult_le_reg_r with (((n + 1 - 2 * k) * (x - t * k)) * (n + 1)); [apply Rmult_lt_0_compat; lra|].
  replace (2 / (n + 1) * ((n + 1 - 2 * k) * (x - t * k) * (n + 1))) with (2 * ((n + 1 - 2 * k) * (x - t * k))) by (field; lra).
  replace (((1 - 2 * k) * x + t) / ((n + 1 - 2 * k) * (x - t * k)) * ((n + 1 - 2 * k) * (x - t * k) * (n + 1))) with (((1 - 2 * k) * x + t) * (n + 1)) by (field; lra).
  exact Z.
Qed.
(** OASCovariance needs no tuning for that: as soon as two observations differ it is positive definite, with condition number at most 1 + p (n-1)/2 where
    n = max(1/r, 2) is the effective sample size (for the default rate 1/20: at most 1 + 9.5 p), and precision_ is its inverse. *)
Theorem C108_oas_conditioned L p r diff rows xs : lawful L -> (1 <= p)%nat -> 0 < r < 1 -> observes p diff rows xs -> varies p xs ->
  exists o S, fitted_on (C := OAS) (EWA r diff) rows o /\ covariance_ o = Ok (fm p p S) /\
    pd p S /\ conditioned p (1 + INR p * ((Rmax (1 / r) 2 - 1) / 2)) S /\ inverts L p o S.
Proof.
  intros HL Hp Hr Ho HV. assert (Hx : xs <> []) by (destruct HV as (x & y & i & Ix & _); intros ->; destruct Ix).
  destruct (OAS_run p r diff rows xs Hp ltac:(lra) Ho Hx) as (o & E1 & _ & _ & E4 & _).
  exists o. eexists. split; [exact E1|]. split; [exact E4|]. pose proof (burn_len_bounds r) as Hb. set (S := ewa_cov r (burn_len r) xs) in *.
  assert (PS : psd p S) by (apply psd_ewa_cov; lra). pose proof (oas_rho_low p r S Hp ltac:(lra) PS) as LO. pose proof (oas_rho_range p r S) as RG. pose proof (Rmax_r (1 / r) 2) as M.
  assert (HC : conditioned p (1 + INR p * ((Rmax (1 / r) 2 - 1) / 2)) (shrinkI p (oas_rho p r S) S)).
  { replace ((Rmax (1 / r) 2 - 1) / 2) with ((1 - 2 / (Rmax (1 / r) 2 + 1)) / (2 / (Rmax (1 / r) 2 + 1))) by (field; lra).
    apply shrink_conditioned; auto; [|lra|apply varies_trace; auto; lia]. split; [apply Rdiv_lt_0_compat; lra|exact LO]. }
  assert (HP : pd p (shrinkI p (oas_rho p r S) S)) by (apply (conditioned_pd p _ _ (ltac:(apply shrinkI_sym, sym_ewa_cov)) HC)).
  split; [exact HP|]. split; [exact HC|]. now apply inverts_pd.
Qed.
(** the hypotheses are met: two different observations of any dimension; fewer than p of them, so that Ewa is singular on them while OAS and Shrunk are not *)
Example C108_witness p : (2 <= p)%nat -> let xs := [(fun _ => 0); (fun _ => 1)] in
  observes p false (map (fv p) xs) xs /\ varies p xs /\ (length xs <= p)%nat /\ (length xs <= burn_len (1 / 2))%nat /\
  constant_along p (fun i => if Nat.eqb i 0 then 1 else if Nat.eqb i 1 then -1 else 0) xs.
Proof.
  intros Hp xs. split; [apply observes_plain|]. split; [exists (fun _ => 0), (fun _ => 1), 0%nat; repeat split; [now left|right; now left|lia|lra]|].
  split; [exact Hp|]. split; [pose proof (burn_len_bounds (1 / 2)); cbn; lia|].
  assert (E : forall c, rdot p (fun i => if Nat.eqb i 0 then 1 else if Nat.eqb i 1 then -1 else 0) (fun _ => c) = 0).
  { intros c. unfold rdot. destruct p as [|[|p]]; [lia|lia|]. rewrite !rsum_S_first. cbn [Nat.eqb]. rewrite rsum_zero by (intros; ring). ring. }
  intros x y [<-|[<-|[]]] [<-|[<-|[]]]; rewrite !E; reflexivity.
Qed.

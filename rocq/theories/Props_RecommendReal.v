(** * C59, C73: the recommender on finite samples *)
From Coq Require Import Reals ZArith Bool String List Lia Lra Psatz Arith Permutation.
From Verif Require Import Num Numpy PyVal LinalgModel StateModel BaseModel Estimators RegistryModel AssessModel RecommendModel
  ListLemmas RMat LinSpec RealSpec GaussSpec RecommendSpec Fin RunFin RunAvg EmpFacts Spectral MatAlg Contracts RecommendReal Props_Recommend.
Import ListNotations.
Local Open Scope R_scope.

(** A sample: the 2-d array with rows [xs], restricted to p variables. *)
Definition sample (p : nat) (xs : list obs) : input NumX := In2 (map (fv p) xs).

(** ** C73: the features are what their names say, and lie in their ranges *)
Theorem C73_features L p xs : lawful L -> (1 <= p)%nat -> xs <> [] ->
  exists f U lam cn,
    covariance_features L (sample p xs) = Ok f /\ eig_of p (pcov_of xs) U lam /\
    let c i := floor12 (lam i) in
    f_n f = length xs /\ f_p f = p /\ f_p_over_n f = Fin (INR p / INR (length xs)) /\
    f_effective_rank f = Fin (participation p c) /\ f_sphericity f = Fin (participation p c / INR p) /\
    f_condition_number f = Fin cn /\ max_over_min p c cn /\
    f_mean_abs_offdiag_corr f = Fin (mean_abs_offdiag p xs) /\ f_avg_excess_kurtosis f = Fin (excess_kurtosis p xs).
Proof.
  intros HL Hp Hx. destruct (features_fin L HL p xs Hp Hx) as (U & lam & a & b & _ & HE & Ha & Hb & HM & HF).
  eexists; exists U, lam; eexists. split; [exact HF|]. split; [exact HE|]. cbn. repeat (split; [reflexivity|]). split; [|split; reflexivity].
  exists a, b. auto.
Qed.

Lemma spread p c : 2 * INR p * rsum p (fun i => c i * c i) - 2 * (rsum p c * rsum p c) = rsum p (fun i => rsum p (fun j => (c i - c j) * (c i - c j))).
Proof.
  rewrite (rsum_ext p (fun i => rsum p (fun j => (c i - c j) * (c i - c j))) (fun i => INR p * (c i * c i) + (rsum p (fun j => c j * c j) - 2 * rsum p c * c i))).
  - rewrite rsum_plus, rsum_minus, rsum_const, !rsum_scal. ring.
  - intros i _. rewrite (rsum_ext p _ (fun j => c i * c i + (c j * c j - 2 * c i * c j))) by (intros; ring).
    rewrite rsum_plus, rsum_minus, rsum_const, rsum_scal. ring.
Qed.
Section Part.
  Context (p : nat) (c : nat -> R) (Hp : (1 <= p)%nat) (Hc : forall i, (i < p)%nat -> 0 < c i).
  Lemma S2_pos : 0 < rsum p (fun i => c i * c i).
  Proof. apply (rsum_pos p _ O); [intros i Hi; left; apply Rmult_lt_0_compat; auto|lia|apply Rmult_lt_0_compat; apply Hc; lia]. Qed.
  Lemma p_pos : 0 < INR p. Proof. apply lt_0_INR. lia. Qed.
  Lemma participation_le : participation p c <= INR p.
  Proof.
    pose proof S2_pos as HS. unfold participation. apply (Rmult_le_reg_r (rsum p (fun i => c i * c i))); [auto|]. unfold Rdiv. rewrite Rmult_assoc, Rinv_l, Rmult_1_r by lra.
    pose proof (spread p c) as K. pose proof (rsum_nonneg p (fun i => rsum p (fun j => (c i - c j) * (c i - c j))) ltac:(intros; apply rsum_nonneg; intros; apply Rle_0_sqr)). lra.
  Qed.
  Lemma participation_ge : 1 <= participation p c.
  Proof.
    pose proof S2_pos as HS. unfold participation. apply (Rmult_le_reg_r (rsum p (fun i => c i * c i))); [auto|]. unfold Rdiv. rewrite Rmult_assoc, Rinv_l, Rmult_1_r, Rmult_1_l by lra.
    rewrite <- rsum_scal. apply rsum_le. intros i Hi. pose proof (rsum_ge_term p c i (fun j Hj => Rlt_le _ _ (Hc j Hj)) Hi). pose proof (Hc i Hi). nra.
  Qed.
  Lemma participation_top : participation p c = INR p <-> forall i j, (i < p)%nat -> (j < p)%nat -> c i = c j.
  Proof.
    pose proof S2_pos as HS. pose proof (spread p c) as K. unfold participation. split.
    - intros E i j Hi Hj. assert (Z : rsum p (fun i => rsum p (fun j => (c i - c j) * (c i - c j))) = 0).
      { rewrite <- K. assert (rsum p c * rsum p c = INR p * rsum p (fun i => c i * c i)); [|lra]. rewrite <- E. field. lra. }
      pose proof (rsum_pos_zero p _ ltac:(intros; apply rsum_nonneg; intros; apply Rle_0_sqr) Z i Hi) as Z1. cbv beta in Z1.
      pose proof (rsum_pos_zero p _ ltac:(intros; apply Rle_0_sqr) Z1 j Hj) as Z2. cbv beta in Z2. apply Rmult_integral in Z2. lra.
    - intros E. assert (Z : rsum p (fun i => rsum p (fun j => (c i - c j) * (c i - c j))) = 0).
      { apply rsum_zero. intros i Hi. apply rsum_zero. intros j Hj. rewrite (E i j) by auto. ring. }
      rewrite Z in K. apply (Rmult_eq_reg_r (rsum p (fun i => c i * c i))); [|lra]. unfold Rdiv. rewrite Rmult_assoc, Rinv_l; lra.
  Qed.
End Part.

Lemma ratio_bound x d : 0 < d -> x * x <= d * d -> Rabs (x / d) <= 1.
Proof.
  intros Hd H. unfold Rdiv. rewrite Rabs_mult, (Rabs_right (/ d)) by (left; now apply Rinv_0_lt_compat).
  apply (Rmult_le_reg_r d); [auto|]. rewrite Rmult_assoc, Rinv_l, Rmult_1_r, Rmult_1_l by lra. apply Rsqr_le_abs_0 in H. rewrite (Rabs_right d) in H by lra. exact H.
Qed.
Lemma floored_corr_le p xs i j : (i < p)%nat -> (j < p)%nat -> Rabs (floored_corr xs i j) <= 1.
Proof.
  intros Hi Hj. unfold floored_corr. pose proof (floor12_pos (pcov_of xs i i)) as P1. pose proof (floor12_pos (pcov_of xs j j)) as P2.
  apply ratio_bound; [apply sqrt_lt_R0; now apply Rmult_lt_0_compat|]. rewrite sqrt_sqrt by (left; now apply Rmult_lt_0_compat).
  pose proof (psd_cauchy p _ i j (psd_pcov p xs) Hi Hj). pose proof (floor12_ge (pcov_of xs i i)). pose proof (floor12_ge (pcov_of xs j j)).
  pose proof (psd_diag_nonneg p _ i (psd_pcov p xs) Hi). pose proof (psd_diag_nonneg p _ j (psd_pcov p xs) Hj). nra.
Qed.
Lemma offdiag_range p xs : 0 <= mean_abs_offdiag p xs <= 1.
Proof.
  unfold mean_abs_offdiag. destruct (Nat.leb_spec p 1); [lra|]. assert (P : 1 < INR p) by (apply lt_1_INR; lia).
  assert (D : 0 < INR p * (INR p - 1)) by nra. split.
  - apply Rmult_le_pos; [|left; now apply Rinv_0_lt_compat]. apply rsum_nonneg. intros i Hi. apply rsum_nonneg. intros j Hj. destruct (Nat.eqb i j); [lra|apply Rabs_pos].
  - apply (Rmult_le_reg_r (INR p * (INR p - 1))); [auto|]. unfold Rdiv. rewrite Rmult_assoc, Rinv_l, Rmult_1_r, Rmult_1_l by lra.
    rewrite <- rsum_const. apply rsum_le. intros i Hi.
    apply Rle_trans with (rsum p (fun j => 1 - if Nat.eqb i j then 1 else 0)).
    + apply rsum_le. intros j Hj. pose proof (floored_corr_le p xs i j Hi Hj). destruct (Nat.eqb i j); lra.
    + rewrite rsum_minus, rsum_const, (rsum_delta' p i (fun _ => 1)) by auto. lra.
Qed.
Lemma lsum_sq_le {A} (g : A -> R) l : (forall a, In a l -> 0 <= g a) -> lsum (map (fun a => g a * g a) l) <= lsum (map g l) * lsum (map g l).
Proof.
  induction l as [|x l IH]; intros H; [cbn; lra|]. cbn [map lsum]. assert (H1 := H x (or_introl eq_refl)). assert (H2 := IH (fun a Ha => H a (or_intror Ha))).
  assert (H3 : 0 <= lsum (map g l)) by (apply lsum_nonneg, Forall_forall; intros y Hy; apply in_map_iff in Hy; destruct Hy as (a & <- & Ha); apply H; now right). nra.
Qed.
Lemma jensen2 {A} (g : A -> R) l : lsum (map g l) * lsum (map g l) <= INR (length l) * lsum (map (fun a => g a * g a) l).
Proof.
  set (n := INR (length l)). set (s := lsum (map g l)). destruct l as [|x l]; [cbn; lra|]. set (xs := (x :: l)%list) in *.
  assert (Hn : 0 < n) by (apply lt_0_INR; cbn; lia).
  assert (K : 0 <= lsum (map (fun a => (g a - s / n) * (g a - s / n)) xs)).
  { apply lsum_nonneg, Forall_forall. intros y Hy. apply in_map_iff in Hy. destruct Hy as (a & <- & _). apply Rle_0_sqr. }
  rewrite (lsum_map_ext _ (fun a => g a * g a + (- (2 * (s / n)) * g a + s / n * (s / n)))) in K by (intros; ring).
  rewrite !lsum_map_plus, lsum_map_scal, lsum_const in K. fold s n in K.
  replace (lsum (map (fun a => g a * g a) xs) + (- (2 * (s / n)) * s + n * (s / n * (s / n)))) with ((n * lsum (map (fun a => g a * g a) xs) - s * s) / n) in K by (field; lra).
  apply (Rmult_le_compat_r n) in K; [|lra]. unfold Rdiv in K. rewrite Rmult_assoc, Rinv_l in K by lra. lra.
Qed.
Lemma moment4_bounds xs j : xs <> [] -> pcov_of xs j j * pcov_of xs j j <= moment4 xs j <= INR (length xs) * (pcov_of xs j j * pcov_of xs j j) /\ 0 <= pcov_of xs j j.
Proof.
  intros Hx. assert (Hn : 0 < INR (length xs)) by (apply lt_0_INR; destruct xs; cbn; [congruence|lia]).
  set (g := fun x : obs => (x j - mean_of xs j) * (x j - mean_of xs j)).
  assert (E1 : pcov_of xs j j = lsum (map g xs) / INR (length xs)) by reflexivity.
  assert (E2 : moment4 xs j = lsum (map (fun x => g x * g x) xs) / INR (length xs)).
  { unfold moment4, lmean. rewrite map_length. f_equal. apply lsum_map_ext. intros x _. unfold g. ring. }
  assert (G0 : forall x, In x xs -> 0 <= g x) by (intros; apply Rle_0_sqr).
  pose proof (lsum_sq_le g xs G0) as K1. pose proof (jensen2 g xs) as K2. rewrite E1, E2. set (n := INR (length xs)) in *. set (s := lsum (map g xs)) in *. set (q := lsum (map (fun x => g x * g x) xs)) in *.
  assert (S0 : 0 <= s) by (apply lsum_nonneg, Forall_forall; intros y Hy; apply in_map_iff in Hy; destruct Hy as (a & <- & Ha); now apply G0).
  split; [split|].
  - replace (s / n * (s / n)) with (s * s / (n * n)) by (field; lra). replace (q / n) with (n * q / (n * n)) by (field; lra).
    apply Rmult_le_compat_r; [left; apply Rinv_0_lt_compat; nra|exact K2].
  - replace (n * (s / n * (s / n))) with (s * s / n) by (field; lra). apply Rmult_le_compat_r; [left; now apply Rinv_0_lt_compat|exact K1].
  - apply Rmult_le_pos; [auto|left; now apply Rinv_0_lt_compat].
Qed.
Lemma rmean_range p (f : nat -> R) lo hi : (1 <= p)%nat -> (forall j, (j < p)%nat -> lo <= f j <= hi) -> lo <= rsum p f / INR p <= hi.
Proof.
  intros Hp H. assert (P : 0 < INR p) by (apply lt_0_INR; lia). split; apply (Rmult_le_reg_r (INR p)); auto; unfold Rdiv; rewrite Rmult_assoc, Rinv_l, Rmult_1_r, Rmult_comm by lra;
    rewrite <- rsum_const; apply rsum_le; intros; now apply H.
Qed.
Lemma kurt_range p xs : (1 <= p)%nat -> xs <> [] -> - (3) <= excess_kurtosis p xs <= INR (length xs) - 3.
Proof.
  intros Hp Hx. unfold excess_kurtosis. apply rmean_range; [auto|]. intros j Hj.
  destruct (moment4_bounds xs j Hx) as [[B1 B2] B3]. pose proof (floor12_pos (pcov_of xs j j)) as F1. pose proof (floor12_ge (pcov_of xs j j)) as F2.
  set (v := floor12 (pcov_of xs j j)) in *. set (v0 := pcov_of xs j j) in *. assert (V2 : 0 < v ^ 2) by nra.
  assert (Hn : 0 < INR (length xs)) by (apply lt_0_INR; destruct xs; cbn; [congruence|lia]). split.
  - assert (0 <= moment4 xs j / v ^ 2); [|lra]. apply Rmult_le_pos; [nra|left; now apply Rinv_0_lt_compat].
  - assert (moment4 xs j / v ^ 2 <= INR (length xs)); [|lra]. apply (Rmult_le_reg_r (v ^ 2)); [auto|]. unfold Rdiv. rewrite Rmult_assoc, Rinv_l, Rmult_1_r by lra.
    apply Rle_trans with (1 := B2). apply Rmult_le_compat_l; [lra|]. nra.
Qed.
Lemma kurt_low p xs : (1 <= p)%nat -> xs <> [] -> (forall j, (j < p)%nat -> 1 / 10 ^ 12 <= pcov_of xs j j) -> - (2) <= excess_kurtosis p xs.
Proof.
  intros Hp Hx HV. unfold excess_kurtosis. apply (rmean_range p _ _ (INR (length xs) - 3)); [auto|]. intros j Hj.
  destruct (moment4_bounds xs j Hx) as [[B1 B2] B3]. pose proof (floor12_pos (pcov_of xs j j)) as F1.
  assert (EF : floor12 (pcov_of xs j j) = pcov_of xs j j) by (unfold floor12; apply Rmax_left; now apply HV). rewrite EF in *.
  set (v := pcov_of xs j j) in *. assert (V2 : 0 < v ^ 2) by nra. split.
  - assert (1 <= moment4 xs j / v ^ 2); [|lra]. apply (Rmult_le_reg_r (v ^ 2)); [auto|]. unfold Rdiv. rewrite Rmult_assoc, Rinv_l, Rmult_1_r, Rmult_1_l by lra. nra.
  - assert (moment4 xs j / v ^ 2 <= INR (length xs)); [|lra]. apply (Rmult_le_reg_r (v ^ 2)); [auto|]. unfold Rdiv. rewrite Rmult_assoc, Rinv_l, Rmult_1_r by lra.
    apply Rle_trans with (1 := B2). lra.
Qed.

Theorem C73_ranges L p xs : lawful L -> (1 <= p)%nat -> xs <> [] ->
  exists f er sph cn off ku, covariance_features L (sample p xs) = Ok f /\
    f_effective_rank f = Fin er /\ 1 <= er <= INR p /\
    f_sphericity f = Fin sph /\ 0 < sph <= 1 /\
    f_condition_number f = Fin cn /\ 1 <= cn /\
    (sph = 1 <-> cn = 1) /\
    f_mean_abs_offdiag_corr f = Fin off /\ 0 <= off <= 1 /\
    f_avg_excess_kurtosis f = Fin ku /\ - (3) <= ku <= INR (length xs) - 3 /\
    ((forall j, (j < p)%nat -> 1 / 10 ^ 12 <= pcov_of xs j j) -> - (2) <= ku).
Proof.
  intros HL Hp Hx. destruct (C73_features L p xs HL Hp Hx) as (f & U & lam & cn & HF & HE & H). cbv zeta in H.
  destruct H as (_ & _ & _ & H1 & H2 & H3 & HM & H4 & H5). set (c := fun i => floor12 (lam i)) in *.
  assert (C0 : forall i, (i < p)%nat -> 0 < c i) by (intros; apply floor12_pos). pose proof (p_pos p Hp) as P0.
  pose proof (participation_le p c Hp C0) as PL. pose proof (participation_ge p c Hp C0) as PG. pose proof (participation_top p c Hp C0) as PT.
  destruct HM as (a & b & Ha & Hb & Hab & Ecn). pose proof (C0 b Hb) as Cb.
  exists f, (participation p c), (participation p c / INR p), cn, (mean_abs_offdiag p xs), (excess_kurtosis p xs).
  split; [exact HF|]. split; [exact H1|]. split; [lra|]. split; [exact H2|]. split.
  { split; [apply Rmult_lt_0_compat; [lra|now apply Rinv_0_lt_compat]|]. apply (Rmult_le_reg_r (INR p)); [auto|]. unfold Rdiv. rewrite Rmult_assoc, Rinv_l; lra. }
  split; [exact H3|]. split.
  { rewrite Ecn. apply (Rmult_le_reg_r (c b)); [auto|]. unfold Rdiv. rewrite Rmult_assoc, Rinv_l by lra. pose proof (Hab b Hb). lra. }
  split.
  { split.
    - intros E. assert (E' : participation p c = INR p) by (replace (participation p c) with (participation p c / INR p * INR p) by (field; lra); rewrite E; ring).
      rewrite Ecn, (proj1 PT E' a b Ha Hb). field. lra.
    - intros E. rewrite E in Ecn. assert (Eab : c a = c b) by (apply (Rmult_eq_reg_r (/ c b)); [|apply Rinv_neq_0_compat; lra]; rewrite Rinv_r by lra; symmetry; exact Ecn).
      assert (E' : participation p c = INR p) by (apply PT; intros i j Hi Hj; pose proof (Hab i Hi); pose proof (Hab j Hj); lra). rewrite E'. field. lra. }
  split; [exact H4|]. split; [apply offdiag_range|]. split; [exact H5|]. split; [now apply kurt_range|]. intros HV. now apply kurt_low.
Qed.

(** The order of the rows and a constant added to every row do not matter. *)
Lemma mean_shift xs (b : obs) j : xs <> [] -> mean_of (map (fun x j => x j + b j) xs) j = mean_of xs j + b j.
Proof.
  intros Hx. assert (Hn : 0 < INR (length xs)) by (apply lt_0_INR; destruct xs; cbn; [congruence|lia]).
  unfold mean_of. rewrite map_map, map_length, lsum_map_plus, lsum_const. field. lra.
Qed.
Lemma features_ext L p xs ys : (1 <= p)%nat -> lawful L -> xs <> [] -> length xs = length ys -> (forall i j, pcov_of xs i j = pcov_of ys i j) -> (forall j, moment4 xs j = moment4 ys j) ->
  covariance_features L (sample p xs) = covariance_features L (sample p ys).
Proof.
  intros Hp HL Hx HN HC HM. assert (Hy : ys <> []) by (destruct xs, ys; cbn in HN; congruence).
  destruct (features_fin L HL p xs Hp Hx) as (U & lam & a & b & E1 & _ & Ha & Hb & M1 & F1).
  destruct (features_fin L HL p ys Hp Hy) as (U' & lam' & a' & b' & E2 & _ & Ha' & Hb' & M2 & F2).
  rewrite (fm_ext p p (pcov_of xs) (pcov_of ys)) in E1 by auto. rewrite E1 in E2. injection E2 as EL _.
  assert (LE : forall i, (i < p)%nat -> lam i = lam' i) by (intros; now apply (fv_inj p)).
  unfold sample. rewrite F1, F2, HN.
  assert (P : participation p (fun i => floor12 (lam i)) = participation p (fun i => floor12 (lam' i))).
  { unfold participation. rewrite (rsum_ext p (fun i => floor12 (lam i)) (fun i => floor12 (lam' i))) by (intros; now rewrite LE).
    rewrite (rsum_ext p (fun i => floor12 (lam i) * floor12 (lam i)) (fun i => floor12 (lam' i) * floor12 (lam' i))) by (intros; now rewrite LE). reflexivity. }
  assert (Ka : floor12 (lam a) = floor12 (lam' a')).
  { pose proof (M1 a' Ha') as Q1. pose proof (M2 a Ha) as Q2. rewrite <- (LE a Ha) in Q2. rewrite (LE a' Ha') in Q1. lra. }
  assert (Kb : floor12 (lam b) = floor12 (lam' b')).
  { pose proof (M1 b' Hb') as Q1. pose proof (M2 b Hb) as Q2. rewrite <- (LE b Hb) in Q2. rewrite (LE b' Hb') in Q1. lra. }
  rewrite P, Ka, Kb. assert (O1 : mean_abs_offdiag p xs = mean_abs_offdiag p ys).
  { unfold mean_abs_offdiag. destruct (Nat.leb p 1); [reflexivity|]. f_equal. apply rsum_ext. intros i _. apply rsum_ext. intros j _. unfold floored_corr. now rewrite !HC. }
  assert (O2 : excess_kurtosis p xs = excess_kurtosis p ys).
  { unfold excess_kurtosis. f_equal. apply rsum_ext. intros j _. now rewrite HC, HM. }
  now rewrite O1, O2.
Qed.
Theorem C73_shift_invariant L p xs (b : obs) : lawful L -> (1 <= p)%nat -> xs <> [] ->
  covariance_features L (sample p (map (fun x j => x j + b j) xs)) = covariance_features L (sample p xs).
Proof.
  intros HL Hp Hx. symmetry. apply features_ext; auto; [now rewrite map_length| |].
  - intros i j. unfold pcov_of at 2. rewrite map_map, map_length, !mean_shift by auto. unfold pcov_of. f_equal. apply lsum_map_ext. intros; ring.
  - intros j. unfold moment4 at 2. rewrite map_map, mean_shift by auto. unfold moment4. f_equal. apply map_ext. intros; f_equal; ring.
Qed.
Theorem C73_order_invariant L p xs ys : lawful L -> (1 <= p)%nat -> xs <> [] -> Permutation xs ys ->
  covariance_features L (sample p xs) = covariance_features L (sample p ys).
Proof.
  intros HL Hp Hx P. assert (HN := Permutation_length P).
  assert (HM : forall j, mean_of xs j = mean_of ys j) by (intros; unfold mean_of; rewrite HN; f_equal; apply lsum_permutation, Permutation_map, P).
  apply features_ext; auto.
  - intros i j. unfold pcov_of. rewrite HN, !HM. f_equal. apply lsum_permutation, Permutation_map, P.
  - intros j. unfold moment4, lmean. rewrite !map_length, HN, HM. f_equal. apply lsum_permutation, Permutation_map, P.
Qed.
(** Hence so is the whole recommendation. *)
Theorem C73_suggest_invariant L p xs ys (b : obs) model fuel top : lawful L -> (1 <= p)%nat -> xs <> [] -> Permutation xs ys ->
  suggest L model fuel (sample p (map (fun x j => x j + b j) ys)) top = suggest L model fuel (sample p xs) top.
Proof.
  intros HL Hp Hx P. unfold suggest. rewrite C73_shift_invariant; auto.
  - now rewrite (C73_order_invariant L p xs ys).
  - intros ->. apply Permutation_sym, Permutation_nil in P. contradiction.
Qed.

(** ** C59 on finite samples: when the first answer is the empirical estimator *)
(** The three conditions of the heuristics and of the only voting leaf, in plain numbers. *)
Lemma conditions_real L p xs : lawful L -> (1 <= p)%nat -> xs <> [] ->
  exists f sph cn ku, covariance_features L (sample p xs) = Ok f /\
    f_sphericity f = Fin sph /\ f_condition_number f = Fin cn /\ f_avg_excess_kurtosis f = Fin ku /\
    hard f = orb (orb (Rltb (1 / 4) (INR p / INR (length xs))) (Rltb sph (6 / 10))) (Rltb 50 cn) /\
    spiky f = andb (negb (Rleb sph 0.156988692912)) (andb (negb (Rleb ku 1.206795465658)) (negb (Rleb sph 0.280558007768))) /\
    heavy_tailed f = Rltb 1 ku.
Proof.
  intros HL Hp Hx. destruct (C73_features L p xs HL Hp Hx) as (f & U & lam & cn & HF & HE & H). cbv zeta in H.
  destruct H as (_ & _ & H0 & _ & H2 & H3 & _ & _ & H5). set (sph := _ / INR p) in *. set (ku := excess_kurtosis p xs) in *. set (pn := INR p / INR (length xs)) in *.
  exists f, sph, cn, ku. split; [exact HF|]. split; [auto|]. split; [auto|]. split; [auto|].
  split; [|split].
  { unfold hard, high_dim, ill_conditioned. rewrite H0, H2, H3, !nlit_fin, !ltb_fin. f_equal; [f_equal|]; f_equal; cbn; lra. }
  { assert (DV : forall x m s t : R, 0 < s -> Rleb ((x - m) / s) t = Rleb x (m + s * t)).
    { intros x m s t Hs. destruct (Rleb_spec ((x - m) / s) t) as [K|K], (Rleb_spec x (m + s * t)) as [K'|K']; auto; exfalso.
      - apply K'. apply (Rmult_le_compat_r s) in K; [|lra]. unfold Rdiv in K. rewrite Rmult_assoc, Rinv_l in K by lra. lra.
      - apply K. apply (Rmult_le_reg_r s); auto. unfold Rdiv. rewrite Rmult_assoc, Rinv_l by lra. lra. }
    unfold spiky, standardised. 
    assert (ST : exists xs', vsub (N := NumX) (FEATURES f) MEAN = Ok xs' /\ exists ys, vdiv (N := NumX) xs' STD = Ok ys /\ vget ys 2 = Fin ((sph - 0.192256) / 0.141076) /\ vget ys 5 = Fin ((ku - 0.180726) / 1.276679)).
    { eexists. split; [reflexivity|]. eexists. split; [reflexivity|]. unfold vget. cbn [nth bc zipw length FEATURES MEAN STD map]. rewrite H2, H5, !nlit_fin, !sub_fin, !div_fin by (cbn; lra). split; f_equal; cbn; lra. }
    destruct ST as (xs' & -> & ys & Ey & G2 & G5). cbn [bind]. rewrite Ey. unfold reaches46, above. rewrite G2, G5, !nlit_fin, !leb_fin, !DV by lra.
    f_equal; [|f_equal]; do 2 f_equal; cbn; lra. }
  { unfold heavy_tailed. rewrite H5, nlit_fin, ltb_fin. f_equal. cbn. lra. }
Qed.
Theorem C59_first_real L fuel p xs : lawful L -> (1 <= p)%nat -> xs <> [] ->
  exists f sph cn ku c, covariance_features L (sample p xs) = Ok f /\
    f_sphericity f = Fin sph /\ f_condition_number f = Fin cn /\ f_avg_excess_kurtosis f = Fin ku /\
    suggest L true fuel (sample p xs) 1 = Ok [c] /\
    ((INR p / INR (length xs) <= 1 / 4 /\ 6 / 10 <= sph /\ cn <= 50 /\ ku <= 1.206795465658 /\ name_of c = "EmpiricalCovariance"%string) \/
     (~ (INR p / INR (length xs) <= 1 / 4 /\ 6 / 10 <= sph /\ cn <= 50 /\ ku <= 1.206795465658) /\ name_of c = "LedoitWolfCovariance"%string)).
Proof.
  intros HL Hp Hx. destruct (conditions_real L p xs HL Hp Hx) as (f & sph & cn & ku & HF & H1 & H2 & H3 & E1 & E2 & _). set (pn := INR p / INR (length xs)) in *.
  destruct (C59_first L fuel (sample p xs) f HF) as (c & Hc & Hn). exists f, sph, cn, ku, c. split; [exact HF|]. split; [auto|]. split; [auto|]. split; [auto|]. split; [exact Hc|].
  rewrite E1, E2 in Hn.
  destruct (Rltb_spec (1 / 4) pn), (Rltb_spec sph (6 / 10)), (Rltb_spec 50 cn), (Rleb_spec ku 1.206795465658), (Rleb_spec sph 0.280558007768), (Rleb_spec sph 0.156988692912); cbn [orb andb negb] in Hn; try lra;
    first [left; split; [lra|]; split; [lra|]; split; [lra|]; split; [lra|]; exact Hn | right; split; [intros (? & ? & ? & ?); lra|exact Hn]].
Qed.
(** The complete ranking: [leaders], then the other registered names in registry order.  Hard: p/n > 1/4, sphericity
    < 0.6 or condition number > 50; heavy-tailed: average excess kurtosis > 1; leaf: kurtosis > 1.2068, sphericity > 0.2806. *)
Theorem C59_ranking_real L fuel model p xs : lawful L -> (1 <= p)%nat -> xs <> [] ->
  exists f sph cn ku s hard leaf heavy, covariance_features L (sample p xs) = Ok f /\
    f_sphericity f = Fin sph /\ f_condition_number f = Fin cn /\ f_avg_excess_kurtosis f = Fin ku /\
    suggest L model fuel (sample p xs) 17 = Ok s /\ map name_of s = then_the_others L fuel (leaders hard (model && leaf) heavy) /\
    (hard = true <-> (1 / 4 < INR p / INR (length xs) \/ sph < 6 / 10 \/ 50 < cn)) /\
    (heavy = true <-> 1 < ku) /\
    (leaf = true <-> (1.206795465658 < ku /\ 0.280558007768 < sph)).
Proof.
  intros HL Hp Hx. destruct (conditions_real L p xs HL Hp Hx) as (f & sph & cn & ku & HF & H1 & H2 & H3 & E1 & E2 & E3). set (pn := INR p / INR (length xs)) in *.
  destruct (C59_ranking L fuel model (sample p xs) f HF) as (s & Hs & Hn). exists f, sph, cn, ku, s, (hard f), (spiky f), (heavy_tailed f).
  split; [exact HF|]. split; [auto|]. split; [auto|]. split; [auto|]. split; [exact Hs|]. split; [exact Hn|]. rewrite E1, E2, E3. clear.
  split; [|split].
  - destruct (Rltb_spec (1 / 4) pn), (Rltb_spec sph (6 / 10)), (Rltb_spec 50 cn); cbn [orb]; split; intros K; try discriminate; auto; tauto.
  - destruct (Rltb_spec 1 ku); split; intros K; try discriminate; auto; tauto.
  - destruct (Rleb_spec ku 1.206795465658), (Rleb_spec sph 0.280558007768), (Rleb_spec sph 0.156988692912); cbn [andb negb]; split; intros K; try discriminate; auto; lra.
Qed.

(** Both answers occur: a two-point sample gives the empirical estimator, one outlier among eight gives Ledoit-Wolf. *)
Lemma one_variable L xs : lawful L -> xs <> [] -> exists f, covariance_features L (sample 1 xs) = Ok f /\
  f_sphericity f = Fin 1 /\ f_condition_number f = Fin 1 /\ f_avg_excess_kurtosis f = Fin (moment4 xs 0 / (floor12 (pcov_of xs 0 0) ^ 2) - 3).
Proof.
  intros HL Hx. destruct (C73_features L 1 xs HL (le_n _) Hx) as (f & U & lam & cn & HF & HE & H). cbv zeta in H.
  destruct H as (_ & _ & H0 & _ & H2 & H3 & HM & _ & H5). exists f. split; [exact HF|].
  destruct HM as (a & b & Ha & Hb & _ & E). assert (a = O) by lia. assert (b = O) by lia. subst a b.
  pose proof (floor12_pos (lam O)) as P. split; [|split].
  - rewrite H2. f_equal. unfold participation. cbn. field. lra.
  - rewrite H3, E. f_equal. field. lra.
  - rewrite H5. f_equal. unfold excess_kurtosis. cbn. field. pose proof (floor12_pos (pcov_of xs 0 0)). lra.
Qed.
Example two_point : list obs := [fun _ => 1; fun _ => - (1); fun _ => 1; fun _ => - (1)].
Example outlier : list obs := [fun _ => 8; fun _ => 0; fun _ => 0; fun _ => 0; fun _ => 0; fun _ => 0; fun _ => 0; fun _ => 0].
Theorem C59_both_occur : exists L, lawful L /\
  (exists c, suggest L true 0 (sample 1 two_point) 1 = Ok [c] /\ name_of c = "EmpiricalCovariance"%string) /\
  (exists c, suggest L true 0 (sample 1 outlier) 1 = Ok [c] /\ name_of c = "LedoitWolfCovariance"%string).
Proof.
  destruct lawful_satisfiable as (L & HL). exists L. split; [exact HL|].
  assert (G : forall xs, xs <> [] -> exists c, suggest L true 0 (sample 1 xs) 1 = Ok [c] /\
    (1 / INR (length xs) <= 1 / 4 -> moment4 xs 0 / (floor12 (pcov_of xs 0 0) ^ 2) - 3 <= 1.2 -> name_of c = "EmpiricalCovariance"%string) /\
    (1.3 <= moment4 xs 0 / (floor12 (pcov_of xs 0 0) ^ 2) - 3 -> name_of c = "LedoitWolfCovariance"%string)).
  { intros xs Hx. destruct (C59_first_real L 0 1 xs HL (le_n _) Hx) as (f & sph & cn & ku & c & HF & H1 & H2 & H3 & HS & H).
    destruct (one_variable L xs HL Hx) as (f' & HF' & K1 & K2 & K3). rewrite HF in HF'. injection HF' as <-. rewrite H1 in K1. rewrite H2 in K2. rewrite H3 in K3.
    set (kk := moment4 xs 0 / _ - 3) in *. clearbody kk. injection K1 as ->. injection K2 as ->. injection K3 as ->. exists c. split; [exact HS|]. cbn [INR] in H. split.
    - intros Q1 Q2. destruct H as [H|[H _]]; [tauto|]. exfalso. apply H. split; [exact Q1|]. split; [lra|]. split; lra.
    - intros Q. destruct H as [H|H]; [exfalso; lra|tauto]. }
  assert (FL : forall x, 1 <= x -> floor12 x = x) by (intros; unfold floor12; apply Rmax_left; lra). split.
  - destruct (G two_point ltac:(discriminate)) as (c & Hc & H & _). exists c. split; [exact Hc|].
    assert (M : mean_of two_point 0 = 0) by (unfold mean_of; cbn; lra). assert (V : pcov_of two_point 0 0 = 1) by (unfold pcov_of; cbn [map two_point lsum]; rewrite M; cbn; lra).
    assert (K : moment4 two_point 0 = 1) by (unfold moment4, lmean; cbn [map two_point lsum]; rewrite M; cbn; lra). apply H; [cbn; lra|]. rewrite V, FL, K; lra.
  - destruct (G outlier ltac:(discriminate)) as (c & Hc & _ & H). exists c. split; [exact Hc|].
    assert (M : mean_of outlier 0 = 1) by (unfold mean_of; cbn; lra). assert (V : pcov_of outlier 0 0 = 7) by (unfold pcov_of; cbn [map outlier lsum]; rewrite M; cbn; lra).
    assert (K : moment4 outlier 0 = 301) by (unfold moment4, lmean; cbn [map outlier lsum]; rewrite M; cbn; lra). apply H. rewrite V, FL, K; lra.
Qed.

(** * C34, C35, C36, C37: Huber, AdaptiveEwa, Tyler; C38 for GeodesicEwa; their share of C18, C23

    Exact arithmetic, for every lawful LAPACK ([lawful], Contracts.v), dimension p >= 1. *)
From Coq Require Import Reals ZArith String List Lia Lra Arith Bool.
From Verif Require Import Num Numpy PyVal LinalgModel StateModel BaseModel Estimators
  Spec ListLemmas BaseProofs RMat LinSpec Fin RealSpec RunFin EwaReal RunAvg EmpFacts Spectral MatAlg Contracts LinalgReal
  Props_Emp ShrinkReal RobustReal TylerReal.
Import ListNotations.
Local Open Scope string_scope.
Local Open Scope R_scope.

(** ** C34 *)
(** Every observation after the burn-in has squared Mahalanobis distance at most c^2 p from the
    recency-weighted mean, in the metric of the (pseudo-)inverse of the recency-weighted covariance of
    the observations before it. *)
Definition all_inliers (p : nat) (r c : R) (xs : list obs) : Prop :=
  let nb := burn_len r in
  forall k B, (nb <= k < length xs)%nat ->
    penrose p (ewa_cov r nb (firstn k xs)) B ->
    qf p B (dev r nb (firstn k xs) (nthobs xs k)) <= c * c * INR p.
Lemma inliers_prefix p r c xs x : all_inliers p r c (xs ++ [x]) -> all_inliers p r c xs.
Proof.
  intros H k B Hk HB. specialize (H k B). rewrite app_length, firstn_snoc, nthobs_snoc_lt in H by lia. cbn [length] in H.
  apply H; auto. lia.
Qed.
Lemma hub_is_ewa L (HL : lawful L) p r c xs : (1 <= p)%nat -> all_inliers p r c xs ->
  let a := hub_st L p r c xs in
  (forall i, am a i = ewa_mean r (burn_len r) xs i) /\ (forall i j, aC a i j = ewa_cov r (burn_len r) xs i j).
Proof.
  intros Hp. induction xs as [|x xs IH] using rev_ind; intros HI.
  - cbn. unfold ewa_mean, ewa_cov, burn, after. rewrite firstn_nil, skipn_nil. split; intros; [now rewrite ewm_nil, mean_nil|now rewrite ewc_nil, pcov_nil].
  - destruct (IH (inliers_prefix _ _ _ _ _ HI)) as [I1 I2]. clear IH. cbv zeta.
    unfold hub_st. rewrite fold_left_app. cbn [fold_left]. fold (hub_st L p r c xs).
    set (a := hub_st L p r c xs) in *. set (nb := burn_len r) in *.
    assert (N : an a = length xs) by apply an_hub.
    unfold hub_step. rewrite N. destruct (Nat.ltb_spec (length xs) nb) as [Hb|Hb].
    + unfold emp_step. cbn [am aC]. rewrite N. split; intros.
      * rewrite ewa_step_eq. destruct (Nat.ltb_spec (length xs) nb); [|lia]. now rewrite I1.
      * rewrite ewa_cov_step. cbv zeta. destruct (Nat.ltb_spec (length xs) nb); [|lia]. now rewrite !I1, I2.
    + assert (W : hub_w L p c a x = 1).
      { unfold hub_w. destruct (Rle_dec (maha2 L p a x) (c * c * INR p)) as [|Hn]; [reflexivity|]. exfalso. apply Hn.
        specialize (HI (length xs) (tinv L p (aC a))). cbv zeta in HI. fold nb in HI. rewrite firstn_app, Nat.sub_diag, firstn_all, app_nil_r, nthobs_snoc_eq, app_length in HI.
        cbn [length] in HI. unfold maha2. rewrite (qf_ext p (tinv L p (aC a)) (tinv L p (aC a)) (dv a x) (dev r nb xs x)); [|reflexivity|].
        - apply HI; [lia|]. rewrite (tinv_ext L p (aC a) (ewa_cov r nb xs)) by (intros i j _ _; apply I2).
          apply tinv_ok; auto. apply sym_ewa_cov.
        - intros i _. unfold dv, dev. now rewrite I1. }
      rewrite W. unfold dv. cbn [am aC]. split; intros.
      * rewrite ewa_step_eq. destruct (Nat.ltb_spec (length xs) nb); [lia|]. rewrite I1. ring.
      * rewrite ewa_cov_step. cbv zeta. destruct (Nat.ltb_spec (length xs) nb); [lia|]. rewrite !I1, I2. ring.
Qed.
Theorem C34_huber_equals_ewa_on_inliers L p r c diff rows xs : lawful L -> (1 <= p)%nat -> 0 < r <= 1 ->
  observes p diff rows xs -> xs <> [] -> all_inliers p r c xs ->
  exists o e, fitted_on (C := Huber L) (HUB r c diff) rows o /\ fitted_on (C := Ewa) (EWA r diff) rows e /\
    location_ o = location_ e /\ covariance_ o = covariance_ e /\ correlation_ o = correlation_ e.
Proof.
  intros HL Hp Hr Ho Hx HI.
  destruct (Huber_run L HL p r c diff rows xs) as (o & E1 & _ & E3 & E4 & E5 & _); auto.
  destruct (Ewa_run p r diff rows xs) as (e & F1 & _ & F3 & F4 & F5 & _); auto; [lra|].
  destruct (hub_is_ewa L HL p r c xs Hp HI) as [H1 H2].
  exists o, e. split; [exact E1|]. split; [exact F1|]. rewrite E3, F3, E4, F4, E5, F5.
  rewrite (fm_ext p p _ (ewa_cov r (burn_len r) xs)) by (intros; apply H2). split; auto. f_equal. apply fv_ext. intros. apply H1.
Qed.

(** An observation moves the estimate by a bounded amount: in every direction v the mean moves by at
    most r c sqrt(p v'Sv), and the variance v'Sv is multiplied by a factor between 1-r and 1-r+r c^2 p. *)
Lemma weighted_bound L (HL : lawful L) p c a x : (1 <= p)%nat -> psd p (aC a) -> invertible p (aC a) ->
  forall v, (hub_w L p c a x * rdot p v (dv a x)) ^ 2 <= c * c * INR p * qf p (aC a) v.
Proof.
  intros Hp HP HI v. set (B := tinv L p (aC a)). set (S := aC a) in *. set (w := hub_w L p c a x).
  assert (HB : inverse p S B) by (apply tinv_inverse; auto; apply HP).
  assert (PB : psd p B) by (apply tinv_psd; auto).
  assert (K : rdot p v (dv a x) ^ 2 <= qf p S v * maha2 L p a x).
  { pose proof (bil_cauchy p B (rapp p S v) (dv a x) PB) as H.
    assert (E1 : bil p B (rapp p S v) (dv a x) = rdot p v (dv a x)).
    { unfold bil. rewrite rdot_comm, rdot_app_T, rdot_comm.
      apply rdot_ext; [intros i Hi; reflexivity|]. intros i Hi.
      rewrite (rapp_ext p (rT S) S (rapp p B (dv a x)) (rapp p B (dv a x)) (proj1 (sym_T p S) (proj1 HP))) by (auto; intros ? ?; reflexivity).
      rewrite <- rapp_mul. rewrite (rapp_ext p (rmul p S B) rI (dv a x) (dv a x)); [|apply HB|intros ? ?; reflexivity|auto].
      now apply rapp_I. }
    assert (E2 : qf p B (rapp p S v) = qf p S v).
    { rewrite <- qf_congr_sq. apply qf_meq. rewrite (proj1 (sym_T p S) (proj1 HP)). rewrite (proj2 HB). apply mul_I_r. }
    rewrite E1, E2 in H. unfold maha2. fold B. simpl. rewrite Rmult_1_r. exact H. }
  assert (Q : 0 <= qf p S v) by apply HP.
  assert (M : 0 <= maha2 L p a x) by apply PB.
  assert (W : w ^ 2 * maha2 L p a x <= c * c * INR p).
  { unfold w, hub_w. pose proof (thr_nonneg p c). destruct (Rle_dec (maha2 L p a x) (c * c * INR p)); [rewrite pow1; lra|].
    rewrite pow2_sqrt by (apply Rmult_le_pos; auto; left; apply Rinv_0_lt_compat; lra). right. field. lra. }
  rewrite Rpow_mult_distr. apply Rle_trans with (w ^ 2 * (qf p S v * maha2 L p a x)); [apply Rmult_le_compat_l; auto; apply pow2_ge_0|].
  replace (w ^ 2 * (qf p S v * maha2 L p a x)) with (w ^ 2 * maha2 L p a x * qf p S v) by ring.
  now apply Rmult_le_compat_r.
Qed.
Theorem C34_huber_bounded_influence L p r c diff rows rows' xs x : lawful L -> (1 <= p)%nat -> 0 < r <= 1 ->
  observes p diff rows xs -> observes p diff rows' (xs ++ [x]) -> (burn_len r <= length xs)%nat ->
  exists o o' m m' S S', fitted_on (C := Huber L) (HUB r c diff) rows o /\
    fitted_on (C := Huber L) (HUB r c diff) rows' o' /\
    location_ o = Ok (fv p m) /\ covariance_ o = Ok (fm p p S) /\
    location_ o' = Ok (fv p m') /\ covariance_ o' = Ok (fm p p S') /\
    (invertible p S -> forall v,
       (rdot p v (fun i => m' i - m i)) ^ 2 <= r ^ 2 * (c * c * INR p) * qf p S v /\
       (1 - r) * qf p S v <= qf p S' v <= (1 - r + r * (c * c * INR p)) * qf p S v).
Proof.
  intros HL Hp Hr Ho Ho' Hn. pose proof (burn_len_bounds r) as Hb.
  assert (Hx : xs <> []) by (destruct xs; [cbn in Hn; lia|discriminate]).
  destruct (Huber_run L HL p r c diff rows xs) as (o & E1 & _ & E3 & E4 & _); auto.
  destruct (Huber_run L HL p r c diff rows' (xs ++ [x])) as (o' & F1 & _ & F3 & F4 & _); auto; [destruct xs; discriminate|].
  exists o, o'. do 4 eexists. split; [exact E1|]. split; [exact F1|]. split; [exact E3|]. split; [exact E4|].
  split; [exact F3|]. split; [exact F4|]. intros HI v.
  unfold hub_st in *. rewrite !fold_left_app. cbn [fold_left].
  fold (hub_st L p r c xs) in *. set (a := hub_st L p r c xs) in *.
  assert (HP : psd p (aC a)) by (apply psd_hub; lra).
  pose proof (weighted_bound L HL p c a x Hp HP HI v) as W. set (w := hub_w L p c a x) in *.
  unfold hub_step. replace (an a) with (length xs) by (symmetry; apply an_hub). destruct (Nat.ltb_spec (length xs) (burn_len r)); [lia|].
  cbv zeta. cbn [am aC]. fold w.
  assert (Q : 0 <= qf p (aC a) v) by apply HP. split.
  - rewrite (rdot_ext p v v _ (fun i => r * w * dv a x i)); [|intros i _; reflexivity|intros i _; ring].
    assert (E : rdot p v (fun i => r * w * dv a x i) = r * (w * rdot p v (dv a x))).
    { unfold rdot. rewrite <- !rsum_scal. apply rsum_ext. intros. ring. }
    rewrite E, Rpow_mult_distr. rewrite Rmult_assoc. apply Rmult_le_compat_l; [apply pow2_ge_0|exact W].
  - rewrite qf_plus, !qf_scal, (qf_outer p (fun i => w * dv a x i)).
    assert (E : rdot p (fun i => w * dv a x i) v = w * rdot p v (dv a x)).
    { unfold rdot. rewrite <- rsum_scal. apply rsum_ext. intros. ring. }
    rewrite E. assert (0 <= r * (w * rdot p v (dv a x)) ^ 2) by (apply Rmult_le_pos; [lra|apply pow2_ge_0]).
    assert (r * (w * rdot p v (dv a x)) ^ 2 <= r * (c * c * INR p * qf p (aC a) v)) by (apply Rmult_le_compat_l; lra). nra.
Qed.
(** Invertibility cannot be dropped: after a burn-in of zeros the covariance is singular and one
    observation of size M makes it r M^2, whatever the cutoff. *)
Lemma hub_zeros L p r c n : let a := hub_st L p r c (repeat (fun _ => 0) n) in
  (n <= burn_len r)%nat -> an a = n /\ (forall i, am a i = 0) /\ (forall i j, aC a i j = 0).
Proof.
  cbv zeta. induction n as [|n IH]; intros Hn; [repeat split; reflexivity|].
  replace (repeat (fun _ : nat => 0) (S n)) with ((repeat (fun _ : nat => 0) n ++ [fun _ => 0])%list) by (symmetry; apply repeat_cons).
  unfold hub_st. rewrite fold_left_app. cbn [fold_left]. fold (hub_st L p r c (repeat (fun _ => 0) n)).
  destruct (IH ltac:(lia)) as (I1 & I2 & I3). set (a := hub_st L p r c (repeat (fun _ => 0) n)) in *. clearbody a.
  unfold hub_step. rewrite I1. destruct (Nat.ltb_spec n (burn_len r)); [|lia]. unfold emp_step. cbn [an am aC]. rewrite I1.
  split; [reflexivity|]. split; intros; rewrite ?I2, ?I3; field; auto.
Qed.
Theorem C34_huber_unbounded_when_singular L r c M : lawful L -> 0 < r <= 1 ->
  let zeros := repeat (fun _ => 0) (burn_len r) in
  exists o o', fitted_on (C := Huber L) (HUB r c false) (map (fv 1) zeros) o /\
    covariance_ o = Ok (fm 1 1 (fun _ _ => 0)) /\
    fitted_on (C := Huber L) (HUB r c false) (map (fv 1) (zeros ++ [fun _ => M])) o' /\
    covariance_ o' = Ok (fm 1 1 (fun _ _ => r * (M * M))).
Proof.
  intros HL Hr zeros. pose proof (burn_len_bounds r) as Hb.
  assert (Hz : zeros <> []) by (unfold zeros; destruct (burn_len r); [lia|discriminate]).
  destruct (Huber_run L HL 1 r c false (map (fv 1) zeros) zeros) as (o & E1 & _ & E3 & E4 & _); auto using observes_plain.
  destruct (Huber_run L HL 1 r c false (map (fv 1) (zeros ++ [fun _ => M])) (zeros ++ [fun _ => M])) as (o' & F1 & _ & F3 & F4 & _); auto using observes_plain.
  { destruct zeros; discriminate. }
  destruct (hub_zeros L 1 r c (burn_len r) (le_n _)) as (Z1 & Z2 & Z3). fold zeros in Z1, Z2, Z3.
  exists o, o'. split; [exact E1|]. split; [rewrite E4; f_equal; apply fm_ext; intros; apply Z3|].
  split; [exact F1|]. rewrite F4. f_equal. apply fm_ext. intros i j _ _.
  unfold hub_st. rewrite fold_left_app. cbn [fold_left]. fold (hub_st L 1 r c zeros). set (a := hub_st L 1 r c zeros) in *.
  unfold hub_step. rewrite Z1. destruct (Nat.ltb_spec (burn_len r) (burn_len r)); [lia|]. cbv zeta. cbn [aC].
  assert (W : hub_w L 1 c a (fun _ => M) = 1).
  { unfold hub_w. destruct (Rle_dec _ _) as [|Hn]; [reflexivity|]. exfalso. apply Hn. unfold maha2.
    assert (HP : penrose 1 (aC a) (tinv L 1 (aC a))) by (apply tinv_ok; auto; intros ? ? _ _; now rewrite !Z3).
    assert (T0 : meq 1 1 (tinv L 1 (aC a)) (fun _ _ => 0)).
    { destruct HP as (_ & P2 & _). intros k l Hk Hl. rewrite <- P2 by auto. unfold rmul. cbn [rsum]. rewrite Z3. ring. }
    rewrite (qf_meq 1 _ (fun _ _ => 0) _ T0). unfold qf. cbn [rsum]. pose proof (thr_nonneg 1 c). lra. }
  rewrite W, Z3. unfold dv. rewrite !Z2. ring.
Qed.

(** ** C35 *)
(** Every update after the burn-in is an exponentially weighted step with a rate in [r, max_r]; up to
    the end of the burn-in the estimator is EwaCovariance. *)
Theorem C35_rate_in_range L p r mx diff rows rows' xs x : lawful L -> (1 <= p)%nat -> 0 < r -> r <= mx ->
  observes p diff rows xs -> observes p diff rows' (xs ++ [x]) -> (burn_len r <= length xs)%nat ->
  exists o o' m C rho, fitted_on (C := Adaptive L) (ADA r mx diff) rows o /\
    fitted_on (C := Adaptive L) (ADA r mx diff) rows' o' /\
    location_ o = Ok (fv p m) /\ covariance_ o = Ok (fm p p C) /\
    r <= rho <= mx /\
    location_ o' = Ok (fv p (fun i => (1 - rho) * m i + rho * x i)) /\
    covariance_ o' = Ok (fm p p (fun i j => (1 - rho) * C i j + rho * ((x i - m i) * (x j - m j)))).
Proof.
  intros HL Hp Hr Hm Ho Ho' Hn. pose proof (burn_len_bounds r) as Hb.
  assert (Hx : xs <> []) by (destruct xs; [cbn in Hn; lia|discriminate]).
  destruct (Adaptive_run L HL p r mx diff rows xs) as (o & E1 & _ & E3 & E4 & _); auto; [lra|].
  destruct (Adaptive_run L HL p r mx diff rows' (xs ++ [x])) as (o' & F1 & _ & F3 & F4 & _); auto; [lra|destruct xs; discriminate|].
  set (s := ada_st L p r mx xs) in *. exists o, o', (am (ad s)), (aC (ad s)), (ada_rate r mx (ada_sbar L p s x)).
  split; [exact E1|]. split; [exact F1|]. split; [exact E3|]. split; [exact E4|]. split; [now apply ada_rate_range|].
  rewrite F3, F4. unfold ada_st. rewrite !fold_left_app. cbn [fold_left]. fold (ada_st L p r mx xs). fold s. unfold ada_step.
  replace (an (ad s)) with (length xs) by (symmetry; apply an_ada). destruct (Nat.ltb_spec (length xs) (burn_len r)); [lia|]. split; reflexivity.
Qed.
Lemma ada_is_ewa L p r mx xs : (length xs <= burn_len r)%nat \/ mx = r ->
  (forall i, am (ad (ada_st L p r mx xs)) i = ewa_mean r (burn_len r) xs i) /\
  (forall i j, aC (ad (ada_st L p r mx xs)) i j = ewa_cov r (burn_len r) xs i j).
Proof.
  set (nb := burn_len r). intros H.
  assert (E : ad (ada_st L p r mx xs) = fold_left (ewa_step r nb) xs a_init).
  { induction xs as [|x xs IH] using rev_ind; [reflexivity|]. unfold ada_st. rewrite !fold_left_app. cbn [fold_left].
    fold (ada_st L p r mx xs). rewrite <- IH by (destruct H as [H|H]; auto; rewrite app_length in H; left; lia).
    unfold ada_step, ewa_step. fold nb. replace (an (ad (ada_st L p r mx xs))) with (length xs) by (symmetry; apply an_ada).
    destruct (Nat.ltb_spec (length xs) nb); [reflexivity|]. cbn [ad]. f_equal.
    destruct H as [H|H]; [rewrite app_length in H; cbn in H; lia|]. unfold ada_rate. rewrite H. apply Rmin_right. apply Rmax_r. }
  rewrite E. pose proof (ewa_fold r nb xs) as F. cbv zeta in F. destruct F as (_ & F2 & F3). auto.
Qed.
Theorem C35_equal_rates_is_ewa L p r mx diff rows xs : lawful L -> (1 <= p)%nat -> r <> 0 ->
  observes p diff rows xs -> xs <> [] -> (length xs <= burn_len r)%nat \/ mx = r ->
  exists o e, fitted_on (C := Adaptive L) (ADA r mx diff) rows o /\ fitted_on (C := Ewa) (EWA r diff) rows e /\
    n_samples_ o = n_samples_ e /\ location_ o = location_ e /\ covariance_ o = covariance_ e /\
    correlation_ o = correlation_ e /\ forall L', precision_ L' o = precision_ L' e.
Proof.
  intros HL Hp Hr Ho Hx HC.
  destruct (Adaptive_run L HL p r mx diff rows xs) as (o & E1 & E2 & E3 & E4 & E5 & E6); auto.
  destruct (Ewa_run p r diff rows xs) as (e & F1 & F2 & F3 & F4 & F5 & F6); auto.
  destruct (ada_is_ewa L p r mx xs HC) as [H1 H2].
  exists o, e. split; [exact E1|]. split; [exact F1|].
  assert (HM : fm p p (aC (ad (ada_st L p r mx xs))) = fm p p (ewa_cov r (burn_len r) xs)) by (apply fm_ext; intros; apply H2).
  rewrite E2, F2, E3, F3, E4, F4, E5, F5, HM. split; auto. split; [f_equal; apply fv_ext; intros; apply H1|]. split; auto. split; auto.
  intros L'. now rewrite E6, F6, HM.
Qed.

(** ** C36 *)
(** [o] reports the shape matrix [C] in its state. *)
Definition reports_shape {L} (o : inst (Tyler L)) (p : nat) (C : rmat) : Prop :=
  exists d, get_state o = Ok (Some d) /\ dget "C" d = Some (tolist (A2 (fm p p C))).
(** After every update the shape has trace p and is positive semidefinite; location_ is the
    recency-weighted mean; covariance_ is the shape rescaled to (nearly) unit diagonal. *)
Theorem C36_tyler_shape L p r diff rows x xs : lawful L -> (1 <= p)%nat -> 0 < r < 1 ->
  observes p diff rows (x :: xs) -> (exists i, (i < p)%nat /\ x i <> 0) ->
  exists o C, fitted_on (C := Tyler L) (EWA r diff) rows o /\ reports_shape o p C /\
    psd p C /\ rtrace p C = INR p /\
    location_ o = Ok (fv p (ewa_mean r (burn_len r) (x :: xs))) /\
    covariance_ o = Ok (fm p p (fun i j => C i j / (sqrt (C i i * C j j) + e12))).
Proof.
  intros HL Hp Hr Ho Hx. destruct (Tyler_run L HL p r diff rows x xs) as (o & E1 & E2 & E3 & E4 & E5 & _); auto.
  destruct (good_tyl L HL p r x xs Hp Hr Hx) as [_ [T1 T2]].
  exists o, (aC (tyl_st L p r (x :: xs))). split; [exact E1|]. split.
  { eexists. split; [unfold get_state; rewrite E2; reflexivity|reflexivity]. }
  split; [exact T1|]. split; [exact T2|]. split; [|exact E5]. rewrite E4. f_equal. apply fv_ext. intros i _. apply am_tyl.
Qed.
(** Scaling the deviation of the next observation from the current location by s <> 0 leaves the updated
    shape and covariance_ unchanged, provided both quadratic forms reach the 1e-12 floor. *)
Theorem C36_tyler_scale_invariant L p r diff x xs y s rows rows1 rows2 : lawful L -> (1 <= p)%nat -> 0 < r < 1 ->
  (exists i, (i < p)%nat /\ x i <> 0) -> s <> 0 ->
  let m := ewa_mean r (burn_len r) (x :: xs) in
  let y' := fun i => m i + s * (y i - m i) in
  observes p diff rows (x :: xs) ->
  observes p diff rows1 (x :: xs ++ [y]) -> observes p diff rows2 (x :: xs ++ [y']) ->
  exists o o1 o2 C, fitted_on (C := Tyler L) (EWA r diff) rows o /\ reports_shape o p C /\
    fitted_on (C := Tyler L) (EWA r diff) rows1 o1 /\ fitted_on (C := Tyler L) (EWA r diff) rows2 o2 /\
    forall B, penrose p C B -> e12 <= qf p B (fun i => y i - m i) -> e12 <= s * s * qf p B (fun i => y i - m i) ->
      (exists C', reports_shape o1 p C' /\ reports_shape o2 p C') /\ covariance_ o1 = covariance_ o2.
Proof.
  intros HL Hp Hr Hx Hs m y' Ho H1 H2.
  destruct (Tyler_run L HL p r diff rows x xs) as (o & E1 & E2 & _ & E4 & _); auto.
  destruct (Tyler_run L HL p r diff rows1 x (xs ++ [y])) as (o1 & F1 & F2 & _ & F4 & F5 & _); auto.
  destruct (Tyler_run L HL p r diff rows2 x (xs ++ [y'])) as (o2 & G1 & G2 & _ & G4 & G5 & _); auto.
  destruct (good_tyl L HL p r x xs Hp Hr Hx) as [_ [T1 T2]].
  set (a := tyl_st L p r (x :: xs)) in *. exists o, o1, o2, (aC a).
  split; [exact E1|]. split; [eexists; split; [unfold get_state; rewrite E2; reflexivity|reflexivity]|].
  split; [exact F1|]. split; [exact G1|]. intros B HB Q1 Q2.
  assert (A1 : tyl_st L p r (x :: xs ++ [y]) = tyl_step L p r (burn_len r) a y).
  { unfold tyl_st. change (x :: xs ++ [y])%list with ((x :: xs) ++ [y])%list. now rewrite fold_left_app. }
  assert (A2 : tyl_st L p r (x :: xs ++ [y']) = tyl_step L p r (burn_len r) a y').
  { unfold tyl_st. change (x :: xs ++ [y'])%list with ((x :: xs) ++ [y'])%list. now rewrite fold_left_app. }
  assert (D : forall i, dv a y' i = s * dv a y i).
  { intros i. unfold dv, y'. replace (am a i) with (m i) by (symmetry; apply am_tyl). ring. }
  assert (TB : meq p p (tinv L p (aC a)) B) by (apply (penrose_unique p (aC a)); auto; apply tinv_ok; auto; apply T1).
  assert (M1 : maha2 L p a y = qf p B (fun i => y i - m i)).
  { unfold maha2. apply qf_ext; auto. intros i _. unfold dv. f_equal. f_equal. apply am_tyl. }
  assert (M2 : maha2 L p a y' = s * s * maha2 L p a y).
  { unfold maha2, qf. rewrite <- rsum_scal. apply rsum_ext. intros i _. rewrite <- rsum_scal. apply rsum_ext. intros j _. rewrite !D. ring. }
  assert (K1 : tyl_q L p a y = maha2 L p a y) by (apply Rmax_left; lra).
  assert (K2 : tyl_q L p a y' = s * s * maha2 L p a y) by (unfold tyl_q; rewrite M2; apply Rmax_left; rewrite M1; lra).
  pose proof e12_pos.
  set (lr := tyl_lr r (burn_len r) (an a)).
  assert (C1 : forall i j, tyl_C1 L p lr a y' i j = tyl_C1 L p lr a y i j).
  { intros i j. unfold tyl_C1. rewrite K1, K2, !D. field. split; auto. lra. }
  assert (CC : fm p p (aC (tyl_step L p r (burn_len r) a y')) = fm p p (aC (tyl_step L p r (burn_len r) a y))).
  { apply fm_ext. intros i j _ _. unfold tyl_step. cbn [aC]. fold lr.
    replace (rtrace p (tyl_C1 L p lr a y')) with (rtrace p (tyl_C1 L p lr a y)) by (apply rsum_ext; intros; symmetry; apply C1). now rewrite C1. }
  assert (CE := fm_meq_inv _ _ _ _ CC).
  split.
  - exists (aC (tyl_step L p r (burn_len r) a y)). split.
    + eexists. split; [unfold get_state; rewrite F2; reflexivity|]. rewrite A1. reflexivity.
    + eexists. split; [unfold get_state; rewrite G2; reflexivity|]. rewrite <- CC, A2. reflexivity.
  - rewrite F5, G5, A1, A2. f_equal. apply fm_ext. intros i j Hi Hj. unfold corr_of. now rewrite !CE by auto.
Qed.

(** ** C37 (refuted): a first observation equal to zero *)
Definition all_nan (p : nat) : mat NumX := tab2 p p (fun _ _ => NaN : NumX).
Lemma nan_scale p c : mscale (c : NumX) (all_nan p) = all_nan p.
Proof. unfold mscale, mmap, all_nan. rewrite map_tab2. apply tab2_ext. intros i j _ _. cbn. now destruct c. Qed.
Lemma nan_divs p c : mdivs (all_nan p) (c : NumX) = all_nan p.
Proof. unfold mdivs, mmap, all_nan. now rewrite map_tab2. Qed.
Lemma nan_add p M : is_mat p p M -> madd (all_nan p) (M : mat NumX) = Ok (all_nan p).
Proof.
  intros HM. rewrite (is_mat_tab p p M NaN HM). unfold madd, all_nan. now rewrite bc2_tab.
Qed.
Lemma nan_ncols p : ncols (all_nan p) = p.
Proof. destruct p; [reflexivity|]. unfold ncols, all_nan, tab2. unfold tab at 1. cbn [seq map hd]. apply tab_length. Qed.
Lemma nan_corr p : cov_to_corrcoef (all_nan p) = Ok (all_nan p).
Proof.
  unfold cov_to_corrcoef. set (v := diagonal (all_nan p)).
  assert (Lv : length v = p).
  { unfold v, diagonal. rewrite tab_length, nan_ncols. unfold nrows, all_nan. now rewrite tab2_length, Nat.min_id. }
  set (D := map _ v).
  assert (HD : is_mat p p D).
  { unfold D. split; [now rewrite map_length|]. apply Forall_map, Forall_forall. intros. now rewrite map_length. }
  rewrite (is_mat_tab p p D NaN HD). unfold mdiv, all_nan. now rewrite bc2_tab.
Qed.
Lemma nan_sym p : to_symmetric (all_nan p) = Ok (all_nan p).
Proof.
  unfold to_symmetric. rewrite nan_add; [cbn [bind]; f_equal; apply nan_divs|]. unfold transpose. rewrite nan_ncols. unfold nrows, all_nan. rewrite tab2_length.
  apply is_mat_tab2.
Qed.
Definition nan_st (p n : nat) (mean : vec NumX) (r : NumX) (nb : nat) : dict NumX :=
  [("n_dim", VInt p); ("n_samples", VInt n); ("mean", VArr (A1 mean)); ("C", VArr (A2 (all_nan p))); ("r", VNum r); ("n_burn", VInt nb)].
Lemma vsub_len (a b c : vec NumX) p : length a = p -> length b = p -> vsub a b = Ok c -> length c = p.
Proof. intros Ha Hb. rewrite (tab_nth' a (NaN : NumX) p Ha), (tab_nth' b (NaN : NumX) p Hb). unfold vsub. rewrite bc_tab. injection 1 as <-. apply tab_length. Qed.
Lemma vadd_len (a b c : vec NumX) p : length a = p -> length b = p -> vadd a b = Ok c -> length c = p.
Proof. intros Ha Hb. rewrite (tab_nth' a (NaN : NumX) p Ha), (tab_nth' b (NaN : NumX) p Hb). unfold vadd. rewrite bc_tab. injection 1 as <-. apply tab_length. Qed.
Lemma nan_update L p n mean r nb x s' : length mean = p -> length x = p ->
  tyl_update L (nan_st p n mean r nb) x = Ok s' -> exists mean', length mean' = p /\ s' = nan_st p (S n) mean' r nb.
Proof.
  intros Hm Hx. unfold tyl_update, nan_st. rd.
  destruct (vsub x mean) as [dm|] eqn:Ed; [|discriminate]. cbn [bind]. pose proof (vsub_len _ _ _ p Hx Hm Ed) as Hd.
  match goal with |- bind ?X _ = _ -> _ => destruct X as [[lr m']|] eqn:El; [|discriminate] end. cbn [bind].
  assert (Hm' : length m' = p).
  { revert El. destruct (Nat.leb (S n) nb).
    - destruct (vadd mean _) eqn:Ea; [|discriminate]. cbn [bind]. intros H. injection H as <- <-. refine (vadd_len _ _ _ p _ _ Ea); auto. unfold vdivs. now rewrite map_length.
    - destruct (vadd _ _) eqn:Ea; [|discriminate]. cbn [bind]. intros H. injection H as <- <-. refine (vadd_len _ _ _ p _ _ Ea); unfold vscale; now rewrite map_length. }
  destruct (try_invert L (all_nan p)) as [inv|]; [|discriminate]. cbn [bind].
  destruct (vecmat dm inv) as [dp|]; [|discriminate]. cbn [bind].
  destruct (vdot dp dm) as [q|]; [|discriminate]. cbn [bind].
  rewrite nan_scale, nan_add.
  - cbn [bind]. rewrite nan_scale, nan_divs. intros H. injection H as <-. exists m'. auto.
  - unfold mdivs, mscale, mmap, outer. split; [now rewrite !map_length|]. rewrite !Forall_map. apply Forall_forall. intros a _.
    now rewrite !map_length.
Qed.
Lemma nan_rows L p diff r nb rows : rows_of_length p rows -> forall n mean o nf pv,
  length mean = p -> fit_rows (mkInst (C := Tyler L) (mkEwaP (N := NumX) r diff) (Some (nan_st p n mean r nb)) nf pv) rows = (o, Ok tt) ->
  diff = false ->
  exists n' mean', length mean' = p /\ n' = (n + length rows)%nat /\ i_state o = Some (nan_st p n' mean' r nb).
Proof.
  intros Hr. induction Hr as [|x rows Hx Hr IH]; intros n mean o nf pv Hm E ->.
  - cbn in E. injection E as <-. exists n, mean. rewrite Nat.add_0_r. auto.
  - cbn [fit_rows] in E. unfold fit_row in E. cbn [c_diff Tyler dict_class i_params ewa_diff] in E. unfold absorb in E. cbn [i_state i_params i_nfeat i_prev c_update Tyler dict_class] in E.
    destruct (tyl_update L (nan_st p n mean r nb) x) as [s'|] eqn:Eu; [|discriminate].
    destruct (nan_update L p n mean r nb x s' Hm Hx Eu) as (mean' & Hm' & ->).
    destruct (IH (S n) mean' o _ _ Hm' E eq_refl) as (n' & mm & ? & ? & ?). exists n', mm. split; auto. split; auto. cbn [length]. lia.
Qed.
(** Whatever p >= 1 and r: after a first observation equal to zero covariance_ is all NaN, and it stays
    all NaN after any further observations the estimator accepts. *)
Theorem C37_tyler_zero_first_observation_refuted L p r : lawful L -> (1 <= p)%nat -> r <> 0 ->
  let zero := fv p (fun _ => 0) in
  exists o, fitted_on (C := Tyler L) (EWA r false) [zero] o /\ covariance_ o = Ok (all_nan p) /\
    forall rows o', rows_of_length p rows -> partial_fit o (In2 rows) = (o', Ok tt) ->
      covariance_ o' = Ok (all_nan p).
Proof.
  intros HL Hp Hr zero.
  assert (RD : forall (o : inst (Tyler L)) n mean nb, i_state o = Some (nan_st p (S n) mean (Fin r) nb) -> covariance_ o = Ok (all_nan p)).
  { intros o n mean nb E. unfold covariance_, fitted_state. rewrite E. cbn [c_nsamples Tyler dict_class]. unfold dict_nsamples, nan_st. rd. cbn [get_or bind].
    destruct (Nat.ltb_spec (S n) 1); [lia|]. cbn [bind c_cov Tyler dict_class]. unfold tyl_cov. rd. rewrite nan_corr. cbn [bind]. apply nan_sym. }
  assert (U : tyl_update L (tyl_d p r (burn_len r) t_init) zero = Ok (nan_st p 1 zero (Fin r) (burn_len r))).
  { unfold tyl_update, tyl_d. cbn [an am aC t_init]. rd. unfold zero. rewrite vsub_fin. cbn [bind].
    pose proof (burn_len_bounds r). destruct (Nat.leb_spec 1 (burn_len r)); [|lia].
    rewrite nofn_fin, vdivs_fin by auto. rewrite vadd_fin. cbn [bind]. rewrite n1_fin, div_fin by auto.
    destruct (tinv_ok L HL p rI Hp (proj1 (psd_I p))) as [-> _]. cbn [bind].
    pose proof (maha_fin p (tinv L p rI) (fun _ => 0 - 0) Hp) as M.
    destruct (vecmat (fv p (fun _ => 0 - 0)) (fm p p (tinv L p rI))) as [dp|]; [|discriminate M].
    cbn [bind] in *. rewrite M. cbn [bind]. rewrite qf_zero by (intros; lra). rewrite lit12, py_max_fin.
    rewrite (Rmax_right 0 e12) by (pose proof e12_pos; lra).
    rewrite nofn_fin, sub_fin, mul_fin, outer_fin, !mscale_fin, mdivs_fin by (pose proof e12_pos; lra). rewrite madd_fin. cbn [bind].
    set (C1 := fun i j : nat => (1 - 1 / INR 1) * rI i j + _).
    assert (C1z : forall i j, C1 i j = 0). { intros i j. unfold C1. change (INR 1) with 1. replace (1 / 1) with 1 by field. unfold Rdiv. ring. }
    rewrite mtrace_fin. replace (rtrace p C1) with 0 by (symmetry; apply rsum_zero; intros; apply C1z).
    rewrite mscale_fin. unfold nan_st. f_equal. f_equal. f_equal. f_equal. 
    - f_equal. f_equal. f_equal. apply fv_ext. intros. unfold Rdiv. ring.
    - f_equal. f_equal. f_equal. f_equal. unfold mdivs, mmap, fm, all_nan. rewrite map_tab2. apply tab2_ext. intros i j _ _. cbn.
      unfold Reqb. destruct (Req_EM_T 0 0); [|congruence]. rewrite C1z, Rmult_0_r.
      rewrite !Rltb_false by lra. reflexivity. }
  assert (E : partial_fit (new (C := Tyler L) (EWA r false)) (In2 [zero]) =
    (mkInst (C := Tyler L) (EWA r false) (Some (nan_st p 1 zero (Fin r) (burn_len r))) (Some p) None, Ok tt)).
  { unfold partial_fit. cbn [as_rows fit_rows]. unfold fit_row. cbn [c_diff Tyler dict_class i_params ewa_diff EWA new]. unfold absorb. cbn [i_state new i_params i_prev].
    replace (length zero) with p by (symmetry; apply fv_length). unfold EWA. rewrite (tyl_init_fin L p r false Hr). cbn [c_update Tyler dict_class]. rewrite U. reflexivity. }
  eexists. split; [exact E|]. split; [eapply RD; reflexivity|].
  intros rows o' Hrows Eo. unfold partial_fit in Eo. cbn [as_rows] in Eo.
  destruct (nan_rows L p false (Fin r) (burn_len r) rows Hrows 1 zero o' (Some p) None (fv_length _ _) Eo eq_refl) as (n' & mean' & _ & -> & E').
  eapply (RD o' (length rows)). exact E'.
Qed.

(** ** C38 for the estimator *)
(** Up to the end of the burn-in GeodesicEwa is EwaCovariance; afterwards covariance_ is positive definite
    and each update is the geodesic step of rate r towards the rank-one scatter of the new observation. *)
Theorem C38_geodesic_estimator L p r diff rows rows' xs x : lawful L -> (1 <= p)%nat -> r <> 0 ->
  observes p diff rows xs -> observes p diff rows' (xs ++ [x]) -> (burn_len r <= length xs)%nat ->
  exists o o' m C C', fitted_on (C := Geodesic L) (EWA r diff) rows o /\
    fitted_on (C := Geodesic L) (EWA r diff) rows' o' /\
    location_ o = Ok (fv p m) /\ covariance_ o = Ok (fm p p C) /\
    location_ o' = Ok (fv p (fun i => (1 - r) * m i + r * x i)) /\
    covariance_ o' = Ok (fm p p C') /\ pd p C' /\
    geodesic_step L (fm p p C) (fm p p (fun i j => (x i - m i) * (x j - m j))) (Fin r) = Ok (fm p p C').
Proof.
  intros HL Hp Hr Ho Ho' Hn. pose proof (burn_len_bounds r) as Hb.
  assert (Hx : xs <> []) by (destruct xs; [cbn in Hn; lia|discriminate]).
  destruct (Geodesic_run L HL p r diff rows xs) as (o & E1 & _ & E3 & E4 & _); auto.
  destruct (Geodesic_run L HL p r diff rows' (xs ++ [x])) as (o' & F1 & _ & F3 & F4 & _); auto; [destruct xs; discriminate|].
  assert (A : geo_st L p r (xs ++ [x]) = geo_step L p r (burn_len r) (geo_st L p r xs) x) by (unfold geo_st; now rewrite fold_left_app).
  rewrite A in F3, F4. set (a := geo_st L p r xs) in *. unfold geo_step in F3, F4.
  replace (an a) with (length xs) in F3, F4 by (symmetry; apply an_geo). destruct (Nat.ltb_spec (length xs) (burn_len r)); [lia|].
  cbn [am aC] in F3, F4. destruct (gstep_ok L HL p (aC a) (fun i j => dv a x i * dv a x j) r Hp) as [G1 G2].
  exists o, o', (am a), (aC a). eexists. split; [exact E1|]. split; [exact F1|]. split; [exact E3|]. split; [exact E4|].
  split; [exact F3|]. split; [exact F4|]. split; [exact G2|exact G1].
Qed.
Theorem C38_geodesic_burn_in_is_ewa L p r diff rows xs : lawful L -> (1 <= p)%nat -> r <> 0 ->
  observes p diff rows xs -> xs <> [] -> (length xs <= burn_len r)%nat ->
  exists o e, fitted_on (C := Geodesic L) (EWA r diff) rows o /\ fitted_on (C := Ewa) (EWA r diff) rows e /\
    location_ o = location_ e /\ covariance_ o = covariance_ e.
Proof.
  intros HL Hp Hr Ho Hx Hn.
  destruct (Geodesic_run L HL p r diff rows xs) as (o & E1 & _ & E3 & E4 & _); auto.
  destruct (Ewa_run p r diff rows xs) as (e & F1 & _ & F3 & F4 & _); auto.
  exists o, e. split; [exact E1|]. split; [exact F1|].
  assert (E : geo_st L p r xs = fold_left (ewa_step r (burn_len r)) xs a_init).
  { clear - Hn. induction xs as [|x xs IH] using rev_ind; [reflexivity|]. rewrite app_length in Hn. cbn in Hn.
    unfold geo_st. rewrite !fold_left_app. cbn [fold_left]. fold (geo_st L p r xs). rewrite <- IH by lia.
    unfold geo_step, ewa_step. rewrite an_geo. destruct (Nat.ltb_spec (length xs) (burn_len r)); [reflexivity|lia]. }
  pose proof (ewa_fold r (burn_len r) xs) as F. cbv zeta in F. destruct F as (_ & F5 & F6).
  rewrite E3, E4, F3, F4, E. split; f_equal; [apply fv_ext|apply fm_ext]; auto.
Qed.

(** ** C18, C23 *)
Theorem C18_huber_psd L p r c diff rows xs : lawful L -> (1 <= p)%nat -> 0 < r <= 1 -> observes p diff rows xs -> xs <> [] ->
  exists o, fitted_on (C := Huber L) (HUB r c diff) rows o /\ psd_cov p o.
Proof.
  intros HL Hp Hr Ho Hx. destruct (Huber_run L HL p r c diff rows xs) as (o & E1 & _ & _ & E4 & _); auto.
  exists o. split; [exact E1|]. eexists. split; [exact E4|]. apply psd_hub. lra.
Qed.
Theorem C18_adaptive_psd L p r mx diff rows xs : lawful L -> (1 <= p)%nat -> 0 < r -> r <= mx <= 1 -> observes p diff rows xs -> xs <> [] ->
  exists o, fitted_on (C := Adaptive L) (ADA r mx diff) rows o /\ psd_cov p o.
Proof.
  intros HL Hp Hr Hm Ho Hx. destruct (Adaptive_run L HL p r mx diff rows xs) as (o & E1 & _ & _ & E4 & _); auto; [lra|].
  exists o. split; [exact E1|]. eexists. split; [exact E4|]. apply psd_ada; lra.
Qed.
Theorem C18_geodesic_psd L p r diff rows xs : lawful L -> (1 <= p)%nat -> r <> 0 -> observes p diff rows xs -> xs <> [] ->
  exists o, fitted_on (C := Geodesic L) (EWA r diff) rows o /\ psd_cov p o.
Proof.
  intros HL Hp Hr Ho Hx. destruct (Geodesic_run L HL p r diff rows xs) as (o & E1 & _ & _ & E4 & _); auto.
  exists o. split; [exact E1|]. eexists. split; [exact E4|]. now apply psd_geo.
Qed.
Theorem C23_huber_finite L p r c diff rows xs : lawful L -> (1 <= p)%nat -> 0 < r <= 1 -> observes p diff rows xs -> xs <> [] ->
  exists o, fitted_on (C := Huber L) (HUB r c diff) rows o /\ finite_fitted p o.
Proof.
  intros HL Hp Hr Ho Hx. destruct (Huber_run L HL p r c diff rows xs) as (o & E1 & _ & E3 & E4 & _); auto.
  exists o. split; [exact E1|]. eapply finite_fitted_intro; eauto. intros i Hi. apply (psd_diag_nonneg p); auto. apply psd_hub. lra.
Qed.
Theorem C23_adaptive_finite L p r mx diff rows xs : lawful L -> (1 <= p)%nat -> 0 < r -> r <= mx <= 1 -> observes p diff rows xs -> xs <> [] ->
  exists o, fitted_on (C := Adaptive L) (ADA r mx diff) rows o /\ finite_fitted p o.
Proof.
  intros HL Hp Hr Hm Ho Hx. destruct (Adaptive_run L HL p r mx diff rows xs) as (o & E1 & _ & E3 & E4 & _); auto; [lra|].
  exists o. split; [exact E1|]. eapply finite_fitted_intro; eauto. intros i Hi. apply (psd_diag_nonneg p); auto. apply psd_ada; lra.
Qed.
Theorem C23_geodesic_finite L p r diff rows xs : lawful L -> (1 <= p)%nat -> r <> 0 -> observes p diff rows xs -> xs <> [] ->
  exists o, fitted_on (C := Geodesic L) (EWA r diff) rows o /\ finite_fitted p o.
Proof.
  intros HL Hp Hr Ho Hx. destruct (Geodesic_run L HL p r diff rows xs) as (o & E1 & _ & E3 & E4 & _); auto.
  exists o. split; [exact E1|]. eapply finite_fitted_intro; eauto. intros i Hi. apply (psd_diag_nonneg p); auto. now apply psd_geo.
Qed.
Theorem C23_tyler_finite L p r diff rows x xs : lawful L -> (1 <= p)%nat -> 0 < r < 1 ->
  observes p diff rows (x :: xs) -> (exists i, (i < p)%nat /\ x i <> 0) ->
  exists o, fitted_on (C := Tyler L) (EWA r diff) rows o /\ finite_fitted p o.
Proof.
  intros HL Hp Hr Ho Hx. destruct (Tyler_run L HL p r diff rows x xs) as (o & E1 & _ & _ & E3 & E4 & _); auto.
  exists o. split; [exact E1|]. eapply finite_fitted_intro; eauto. intros i Hi.
  destruct (good_tyl L HL p r x xs Hp Hr Hx) as [_ [T1 _]]. unfold corr_of.
  pose proof (psd_diag_nonneg p _ i T1 Hi). pose proof e12_pos. pose proof (sqrt_pos (aC (tyl_st L p r (x :: xs)) i i * aC (tyl_st L p r (x :: xs)) i i)).
  apply Rmult_le_pos; auto. left. apply Rinv_0_lt_compat. lra.
Qed.

Corollary C37_tyler_nonzero_first_observation L p r diff rows x xs : lawful L -> (1 <= p)%nat -> 0 < r < 1 ->
  observes p diff rows (x :: xs) -> (exists i, (i < p)%nat /\ x i <> 0) ->
  exists o, fitted_on (C := Tyler L) (EWA r diff) rows o /\ finite_fitted p o.
Proof. intros. eapply C23_tyler_finite; eauto. Qed.

(** ** The hypotheses are met *)
(** burn-in of five observations 1, 0, 1, 0, 1 (rate 1/4), then 2: an inlier for the cutoff c = 3. *)
Definition xs_demo : list obs := map (fun z => fun _ : nat => IZR z) [1; 0; 1; 0; 1; 2]%Z.
Lemma burn_len_quarter : burn_len (/ 4) = 5%nat.
Proof.
  unfold burn_len. replace (1 / / 4) with 4 by field. replace (up (Ropp 4)) with (-3)%Z; [reflexivity|].
  apply tech_up; simpl; lra.
Qed.
Example C34_inliers_met : all_inliers 1 (/ 4) 3 xs_demo /\ observes 1 false (map (fv 1) xs_demo) xs_demo.
Proof.
  split; [|apply observes_plain]. intros k B. rewrite burn_len_quarter. cbn [xs_demo map length]. intros Hk HB.
  assert (k = 5%nat) by lia. subst k. cbn [firstn] in HB |- *. unfold nthobs. cbn [nth].
  destruct HB as (HB & _). specialize (HB O O ltac:(lia) ltac:(lia)). unfold rmul in HB. cbn [rsum] in HB.
  assert (EC : ewa_cov (/ 4) 5 [fun _ => 1; fun _ => 0; fun _ => 1; fun _ => 0; fun _ => 1] 0%nat 0%nat = 6 / 25).
  { unfold ewa_cov, burn, after. cbn [firstn skipn]. rewrite ewc_nil. unfold pcov_of, mean_of. cbn [map lsum length INR]. field. }
  rewrite EC in HB.
  assert (B O O = 25 / 6) by nra. 
  unfold qf. cbn [rsum]. unfold dev, ewa_mean, burn, after. cbn [firstn skipn]. rewrite ewm_nil. unfold mean_of. cbn [map lsum length INR].
  rewrite H. nra.
Qed.

(** * C26-C30: the shrinkage estimators (LedoitWolf, OAS, Shrunk), and their share of C18, C23 *)
From Coq Require Import Reals ZArith String List Lia Lra Arith Bool.
From Verif Require Import Num Numpy PyVal LinalgModel StateModel BaseModel Estimators
  Spec ListLemmas BaseProofs RMat Fin RealSpec RunFin EwaReal RunAvg EmpFacts Props_Emp ShrinkReal.
Import ListNotations.
Local Open Scope string_scope.
Local Open Scope R_scope.

(** [S] below is the covariance EwaCovariance reports on the same stream (C16). *)

(** ** C26 *)
(** mean squared distance (divided by p) of S from (tr S/p) I, and of the outer products from S *)
Definition lw_d2 (p : nat) (S : rmat) : R := fro2 p (fun i j => S i j - rtrace p S / INR p * rI i j) / INR p.
Definition lw_pi (p : nat) (r : R) (xs : list obs) : R :=
  let nb := burn_len r in
  ewsum r nb (fun pre x =>
    fro2 p (fun i j => (x i - ewa_mean r nb pre i) * (x j - ewa_mean r nb pre j) - ewa_cov r nb pre i j) / INR p) xs.
Lemma rclip_id x lo hi : lo <= x <= hi -> rclip x lo hi = x.
Proof. intros H. unfold rclip. rewrite Rmax_left by lra. apply Rmin_left. lra. Qed.
Lemma ewsum_nonneg r nb g xs : 0 <= r <= 1 -> (forall pre x, 0 <= g pre x) -> 0 <= ewsum r nb g xs.
Proof.
  intros Hr H. unfold ewsum. apply rsum_nonneg. intros k _. apply Rmult_le_pos; [|apply H].
  apply Rmult_le_pos; [lra|apply pow_le; lra].
Qed.
Theorem C26_ledoit_wolf_convex_shrinkage p r diff rows xs : (1 <= p)%nat -> 0 < r <= 1 ->
  observes p diff rows xs -> xs <> [] ->
  exists o e S a, fitted_on (C := LedoitWolf) (EWA r diff) rows o /\
    fitted_on (C := Ewa) (EWA r diff) rows e /\ covariance_ e = Ok (fm p p S) /\
    location_ o = location_ e /\
    covariance_ o = Ok (fm p p (fun i j => (1 - a) * S i j + a * (rtrace p S / INR p) * rI i j)) /\
    0 <= a <= 1 /\
    (lw_d2 p S <= 0 -> a = 0) /\
    (0 < lw_d2 p S -> a = Rmin (lw_pi p r xs * r) (lw_d2 p S) / lw_d2 p S) /\
    rtrace p (fun i j => (1 - a) * S i j + a * (rtrace p S / INR p) * rI i j) = rtrace p S /\
    ((length xs <= burn_len r)%nat -> a = 0 /\ covariance_ o = covariance_ e).
Proof.
  intros Hp Hr Ho Hx. assert (Hr0 : r <> 0) by lra.
  destruct (LedoitWolf_run p r diff rows xs Hp Hr0 Ho Hx) as (o & E1 & _ & E3 & E4 & _).
  destruct (Ewa_run p r diff rows xs Hr0 Ho Hx) as (e & F1 & _ & F3 & F4 & _).
  set (S := ewa_cov r (burn_len r) xs) in *. set (a := lw_intensity p r _ S) in *.
  assert (Pi : 0 <= lw_pi p r xs).
  { apply ewsum_nonneg; [lra|]. intros. apply Rmult_le_pos; [apply fro2_nonneg|].
    left. apply Rinv_0_lt_compat, lt_0_INR. lia. }
  exists o, e, S, a. split; [exact E1|]. split; [exact F1|]. split; [exact F4|].
  split; [now rewrite E3, F3|]. split; [exact E4|]. split; [apply lw_intensity_range|].
  split; [|split; [|split]].
  - intros Hd. unfold a, lw_intensity. change (disp p S) with (lw_d2 p S). now rewrite Rleb_true by auto.
  - intros Hd. unfold a, lw_intensity. change (disp p S) with (lw_d2 p S).
    change (ewsum r (burn_len r) (lw_stat p r (burn_len r)) xs) with (lw_pi p r xs).
    rewrite (Rleb_false (lw_d2 p S)) by lra. cbn [orb]. destruct (Rleb_spec (lw_pi p r xs) 0).
    + replace (lw_pi p r xs) with 0 by lra. rewrite Rmult_0_l, Rmin_left by lra. unfold Rdiv. ring.
    + apply rclip_id.
      assert (0 < lw_pi p r xs * r) by (apply Rmult_lt_0_compat; lra).
      split.
      * apply Rmult_le_pos; [apply Rmin_glb; lra|left; apply Rinv_0_lt_compat; auto].
      * apply Rmult_le_reg_r with (lw_d2 p S); auto. unfold Rdiv. rewrite Rmult_assoc, Rinv_l, Rmult_1_r, Rmult_1_l by lra.
        apply Rmin_r.
  - apply shrinkI_trace; auto.
  - intros Hb. assert (A : a = 0).
    { unfold a, lw_intensity. rewrite ewsum_burn by auto. rewrite (Rleb_true 0 0) by lra. now rewrite orb_true_r. }
    split; [exact A|]. rewrite E4, F4, A. f_equal. apply fm_ext. intros. unfold shrinkI. ring.
Qed.
Theorem C18_ledoit_wolf_psd p r diff rows xs : (1 <= p)%nat -> 0 < r <= 1 -> observes p diff rows xs -> xs <> [] ->
  exists o, fitted_on (C := LedoitWolf) (EWA r diff) rows o /\ psd_cov p o.
Proof.
  intros Hp Hr Ho Hx. destruct (LedoitWolf_run p r diff rows xs) as (o & E1 & _ & _ & E4 & _); auto; [lra|].
  exists o. split; [exact E1|]. eexists. split; [exact E4|].
  apply shrinkI_psd; auto using lw_intensity_range. apply psd_ewa_cov. lra.
Qed.
Theorem C23_ledoit_wolf_finite p r diff rows xs : (1 <= p)%nat -> 0 < r <= 1 -> observes p diff rows xs -> xs <> [] ->
  exists o, fitted_on (C := LedoitWolf) (EWA r diff) rows o /\ finite_fitted p o.
Proof.
  intros Hp Hr Ho Hx. destruct (LedoitWolf_run p r diff rows xs) as (o & E1 & _ & E3 & E4 & _); auto; [lra|].
  exists o. split; [exact E1|]. eapply finite_fitted_intro; eauto. intros i Hi. apply (psd_diag_nonneg p); auto.
  apply shrinkI_psd; auto using lw_intensity_range. apply psd_ewa_cov. lra.
Qed.

(** ** C27 *)
Theorem C27_oas_convex_shrinkage p r diff rows xs : (1 <= p)%nat -> 0 < r <= 1 ->
  observes p diff rows xs -> xs <> [] ->
  exists o e S rho, fitted_on (C := OAS) (EWA r diff) rows o /\
    fitted_on (C := Ewa) (EWA r diff) rows e /\ covariance_ e = Ok (fm p p S) /\
    location_ o = location_ e /\
    covariance_ o = Ok (fm p p (fun i j => (1 - rho) * S i j + rho * (rtrace p S / INR p) * rI i j)) /\
    0 <= rho <= 1 /\
    (let n := Rmax (1 / r) 2 in
     let tr2 := rtrace p (rmul p S S) in let tr := rtrace p S in
     let num := (1 - 2 / INR p) * tr2 + tr * tr in
     let den := (n + 1 - 2 / INR p) * (tr2 - tr * tr / INR p) in
     (den <= 0 -> rho = 1) /\ (0 < den -> rho = Rmin (Rmax (num / den) 0) 1)) /\
    rtrace p (fun i j => (1 - rho) * S i j + rho * (rtrace p S / INR p) * rI i j) = rtrace p S /\
    (p = 1%nat -> covariance_ o = covariance_ e).
Proof.
  intros Hp Hr Ho Hx. assert (Hr0 : r <> 0) by lra.
  destruct (OAS_run p r diff rows xs Hp Hr0 Ho Hx) as (o & E1 & _ & E3 & E4 & _).
  destruct (Ewa_run p r diff rows xs Hr0 Ho Hx) as (e & F1 & _ & F3 & F4 & _).
  set (S := ewa_cov r (burn_len r) xs) in *.
  exists o, e, S, (oas_rho p r S). split; [exact E1|]. split; [exact F1|]. split; [exact F4|].
  split; [now rewrite E3, F3|]. split; [exact E4|]. split; [apply oas_rho_range|].
  split; [|split].
  - cbv zeta. fold (oas_num p S). fold (oas_den p r S). unfold oas_rho.
    destruct (Rleb_spec (oas_den p r S) 0); split; intros; auto; lra.
  - apply shrinkI_trace; auto.
  - intros ->. rewrite E4, F4. f_equal. apply fm_ext. intros i j Hi Hj. unfold shrinkI, rtrace. cbn [rsum].
    assert (i = 0%nat) by lia. assert (j = 0%nat) by lia. subst. unfold rI. simpl. field.
Qed.
Theorem C18_oas_psd p r diff rows xs : (1 <= p)%nat -> 0 < r <= 1 -> observes p diff rows xs -> xs <> [] ->
  exists o, fitted_on (C := OAS) (EWA r diff) rows o /\ psd_cov p o.
Proof.
  intros Hp Hr Ho Hx. destruct (OAS_run p r diff rows xs) as (o & E1 & _ & _ & E4 & _); auto; [lra|].
  exists o. split; [exact E1|]. eexists. split; [exact E4|].
  apply shrinkI_psd; auto using oas_rho_range. apply psd_ewa_cov. lra.
Qed.
Theorem C23_oas_finite p r diff rows xs : (1 <= p)%nat -> 0 < r <= 1 -> observes p diff rows xs -> xs <> [] ->
  exists o, fitted_on (C := OAS) (EWA r diff) rows o /\ finite_fitted p o.
Proof.
  intros Hp Hr Ho Hx. destruct (OAS_run p r diff rows xs) as (o & E1 & _ & E3 & E4 & _); auto; [lra|].
  exists o. split; [exact E1|]. eapply finite_fitted_intro; eauto. intros i Hi. apply (psd_diag_nonneg p); auto.
  apply shrinkI_psd; auto using oas_rho_range. apply psd_ewa_cov. lra.
Qed.

(** ** C28 *)
Theorem C28_shrunk_identity p r delta diff rows xs : (1 <= p)%nat -> r <> 0 ->
  observes p diff rows xs -> xs <> [] ->
  exists o e S, fitted_on (C := Shrunk) (SHR r delta "identity" diff) rows o /\
    fitted_on (C := Ewa) (EWA r diff) rows e /\ covariance_ e = Ok (fm p p S) /\
    location_ o = location_ e /\
    covariance_ o = Ok (fm p p (fun i j => (1 - delta) * S i j + delta * (rtrace p S / INR p) * rI i j)) /\
    rtrace p (fun i j => (1 - delta) * S i j + delta * (rtrace p S / INR p) * rI i j) = rtrace p S /\
    (delta = 0 -> covariance_ o = covariance_ e) /\
    (delta = 1 -> covariance_ o = Ok (fm p p (rdiag (fun _ => rtrace p S / INR p)))).
Proof.
  intros Hp Hr Ho Hx.
  destruct (Shrunk_identity_run p r delta diff rows xs Hp Hr Ho Hx) as (o & E1 & _ & E3 & E4 & _).
  destruct (Ewa_run p r diff rows xs Hr Ho Hx) as (e & F1 & _ & F3 & F4 & _).
  set (S := ewa_cov r (burn_len r) xs) in *.
  exists o, e, S. split; [exact E1|]. split; [exact F1|]. split; [exact F4|].
  split; [now rewrite E3, F3|]. split; [exact E4|]. split; [now apply shrinkI_trace|]. split.
  - intros ->. rewrite E4, F4. f_equal. apply fm_ext. intros. unfold shrinkI. ring.
  - intros ->. rewrite E4. f_equal. apply fm_ext. intros. unfold shrinkI, rdiag, rI. destruct (Nat.eqb i j); ring.
Qed.
Theorem C18_shrunk_identity_psd p r delta diff rows xs : (1 <= p)%nat -> 0 < r <= 1 -> 0 <= delta <= 1 ->
  observes p diff rows xs -> xs <> [] ->
  exists o, fitted_on (C := Shrunk) (SHR r delta "identity" diff) rows o /\ psd_cov p o.
Proof.
  intros Hp Hr Hd Ho Hx. destruct (Shrunk_identity_run p r delta diff rows xs) as (o & E1 & _ & _ & E4 & _); auto; [lra|].
  exists o. split; [exact E1|]. eexists. split; [exact E4|]. apply shrinkI_psd; auto. apply psd_ewa_cov. lra.
Qed.

(** ** C29 *)
(** Any target string other than "identity" selects the constant-correlation target. *)
Theorem C29_shrunk_constant_correlation p r delta target diff rows xs : (1 <= p)%nat -> r <> 0 ->
  target <> "identity" -> observes p diff rows xs -> xs <> [] ->
  exists o e S F, fitted_on (C := Shrunk) (SHR r delta target diff) rows o /\
    fitted_on (C := Ewa) (EWA r diff) rows e /\ covariance_ e = Ok (fm p p S) /\
    location_ o = location_ e /\
    covariance_ o = Ok (fm p p F) /\
    (forall i, (i < p)%nat -> F i i = S i i) /\
    (let d i := sqrt (Rmax (S i i) (1 / 10 ^ 12)) in
     let rb := rsum p (fun i => rsum p (fun j => if Nat.eqb i j then 0 else S i j / (d i * d j))) / (INR p * INR p - INR p) in
     forall i j, (i < p)%nat -> (j < p)%nat -> i <> j -> F i j = (1 - delta) * S i j + delta * (rb * (d i * d j))).
Proof.
  intros Hp Hr Ht Ho Hx.
  destruct (Shrunk_cc_run p r delta target diff rows xs Hp Hr Ht Ho Hx) as (o & E1 & _ & E3 & E4 & _).
  destruct (Ewa_run p r diff rows xs Hr Ho Hx) as (e & F1 & _ & F3 & F4 & _).
  set (S := ewa_cov r (burn_len r) xs) in *.
  eexists o, e, S, _. split; [exact E1|]. split; [exact F1|]. split; [exact F4|].
  split; [now rewrite E3, F3|]. split; [exact E4|]. split.
  - intros i Hi. cbv beta. unfold cc_target. rewrite Nat.eqb_refl. ring.
  - cbv zeta. intros i j Hi Hj Hij. unfold cc_target. destruct (Nat.eqb_spec i j); [contradiction|].
    fold e12. do 3 f_equal. unfold rbar. rewrite offdiag_count. f_equal. unfold msk. apply rsum_ext. intros k _.
    apply rsum_ext. intros l _. destruct (Nat.eqb k l); reflexivity.
Qed.

(** ** C30 *)
Theorem C30_constant_correlation_psd p r delta target diff rows xs : (1 <= p)%nat -> 0 < r <= 1 -> 0 <= delta <= 1 ->
  target <> "identity" -> observes p diff rows xs -> xs <> [] ->
  (exists e S, fitted_on (C := Ewa) (EWA r diff) rows e /\ covariance_ e = Ok (fm p p S) /\
     forall i, (i < p)%nat -> 1 / 10 ^ 12 <= S i i) ->
  exists o, fitted_on (C := Shrunk) (SHR r delta target diff) rows o /\ psd_cov p o.
Proof.
  intros Hp Hr Hd Ht Ho Hx (e & S & F1 & F4 & HS). assert (Hr0 : r <> 0) by lra.
  destruct (Shrunk_cc_run p r delta target diff rows xs Hp Hr0 Ht Ho Hx) as (o & E1 & _ & E3 & E4 & _).
  destruct (Ewa_run p r diff rows xs Hr0 Ho Hx) as (e' & F1' & _ & _ & F4' & _).
  rewrite (fitted_unique _ _ _ _ F1 F1') in F4. rewrite F4' in F4. injection F4 as F4.
  exists o. split; [exact E1|]. eexists. split; [exact E4|].
  apply psd_plus; apply psd_scal; try lra; [apply psd_ewa_cov; lra|].
  apply cc_target_psd; auto; [apply psd_ewa_cov; lra|].
  intros i Hi. rewrite (fm_inj p p _ _ i i F4) by auto. now apply HS.
Qed.
(** ... but not in general: with one constant variable the floored volatility makes it indefinite. *)
Definition cc_bad : list obs :=
  [fun i => if Nat.ltb i 2 then 1 else 0; fun i => if Nat.ltb i 2 then -1 else 0].
Theorem C30_constant_correlation_not_psd_in_general :
  exists o F, fitted_on (C := Shrunk) (SHR (1 / 10) (1 / 2) "constant_correlation" false) (map (fv 3) cc_bad) o /\
    covariance_ o = Ok (fm 3 3 F) /\ ~ psd 3 F.
Proof.
  destruct (Shrunk_cc_run 3 (1 / 10) (1 / 2) "constant_correlation" false (map (fv 3) cc_bad) cc_bad) as (o & E1 & _ & E3 & E4 & _);
    [lia|lra|discriminate|apply observes_plain|discriminate|].
  eexists o, _. split; [exact E1|]. split; [exact E4|]. intros HP.
  pose proof (burn_len_bounds (1 / 10)) as Hb.
  assert (ES : forall i j, ewa_cov (1 / 10) (burn_len (1 / 10)) cc_bad i j = if (Nat.ltb i 2 && Nat.ltb j 2)%bool then 1 else 0).
  { intros i j. unfold ewa_cov, burn, after. rewrite firstn_all2, skipn_all2 by (simpl; lia). rewrite ewc_nil.
    unfold pcov_of, mean_of, cc_bad. cbn [map lsum length]. destruct (Nat.ltb i 2), (Nat.ltb j 2); simpl; field. }
  set (S := ewa_cov (1 / 10) (burn_len (1 / 10)) cc_bad) in *.
  assert (V0 : vol S 0 = 1). { unfold vol. rewrite ES. simpl. rewrite Rmax_left by (unfold e12; lra). apply sqrt_1. }
  assert (V1 : vol S 1 = 1). { unfold vol. rewrite ES. simpl. rewrite Rmax_left by (unfold e12; lra). apply sqrt_1. }
  assert (V2 : 0 < vol S 2) by apply vol_pos.
  assert (RB : rbar 3 S = 1 / 3).
  { unfold rbar. rewrite offdiag_count. unfold msk. cbn [rsum Nat.eqb negb]. rewrite !ES, V0, V1. simpl. field. lra. }
  pose proof (psd_cauchy 3 _ 0 2 HP) as K. cbv beta in K. unfold cc_target in K. cbn [Nat.eqb] in K.
  rewrite !ES, RB, V0 in K. simpl in K. assert (0 < 1 / 2 * (1 / 3 * (1 * vol S 2))) by lra.
  specialize (K ltac:(lia) ltac:(lia)). nra.
Qed.
Theorem C23_shrunk_finite p r delta target diff rows xs : (1 <= p)%nat -> 0 < r <= 1 -> 0 <= delta <= 1 ->
  observes p diff rows xs -> xs <> [] ->
  exists o, fitted_on (C := Shrunk) (SHR r delta target diff) rows o /\ finite_fitted p o.
Proof.
  intros Hp Hr Hd Ho Hx.
  assert (HS : forall i, (i < p)%nat -> 0 <= ewa_cov r (burn_len r) xs i i).
  { intros i Hi. apply (psd_diag_nonneg p); auto. apply psd_ewa_cov. lra. }
  destruct (String.eqb_spec target "identity") as [->|Ht].
  - destruct (Shrunk_identity_run p r delta diff rows xs) as (o & E1 & _ & E3 & E4 & _); auto; [lra|].
    exists o. split; [exact E1|]. eapply finite_fitted_intro; eauto. intros i Hi. apply (psd_diag_nonneg p); auto.
    apply shrinkI_psd; auto. apply psd_ewa_cov. lra.
  - destruct (Shrunk_cc_run p r delta target diff rows xs) as (o & E1 & _ & E3 & E4 & _); auto; [lra|].
    exists o. split; [exact E1|]. eapply finite_fitted_intro; eauto. intros i Hi. cbv beta. unfold cc_target.
    rewrite Nat.eqb_refl. specialize (HS i Hi). nra.
Qed.

(** Concrete case: the stream of [observes_example] meets the hypotheses (p = 2, r = 1/10), its two
    variances are positive, and a delta of 1/2 shrinks strictly. *)
Example shrink_hypotheses_met :
  (1 <= 2)%nat /\ 0 < 1 / 10 <= 1 /\ observes 2 false (map (fv 2) cc_bad) cc_bad /\ cc_bad <> [] /\
  pcov_of cc_bad 0 0 = 1.
Proof.
  repeat split; try lra; try lia; try discriminate; try apply observes_plain.
  unfold pcov_of, mean_of, cc_bad. simpl. field.
Qed.

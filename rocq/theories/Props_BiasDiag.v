(** * C111 for DiagonalCovariance *)
From Coq Require Import Reals ZArith String List Lia Lra Psatz Arith Bool.
From Verif Require Import Num Numpy PyVal LinalgModel StateModel BaseModel Estimators RegistryModel Spec ListLemmas BaseProofs
  RMat LinSpec Fin RealSpec RunFin EwaReal RunAvg EmpFacts MomentReal Props_Emp Props_Moment ShrinkReal Props_Shrink FloatEwa Props_Bias Props_Consistency.
Import ListNotations.
Local Open Scope string_scope.
Local Open Scope R_scope.

(** 1 + 1/2 + ... + 1/n *)
Definition harmonic (n : nat) : R := rsum n (fun k => / INR (S k)).
(** expected variance after n rows, in units of the true one, of centred data *)
Definition diag_bias (r : R) (nb n : nat) : R :=
  if Nat.leb n nb then 1 + harmonic (n - 1) / INR n
  else let k := (n - nb)%nat in
    2 / (2 - r) + (1 - r) ^ k * (1 + harmonic (nb - 1) / INR nb - 2 / (2 - r)) + (/ INR nb - r / (2 - r)) * ((1 - r) ^ (k - 1) * (1 - (1 - r) ^ k)).
Lemma diag_bias_S r nb n : 0 < r <= 1 -> (1 <= nb)%nat -> (1 <= n)%nat -> diag_bias r nb (S n) = (1 - rate_at r nb n) * diag_bias r nb n + rate_at r nb n * (1 + noise r nb n).
Proof.
  intros Hr Hb Hn. unfold diag_bias, noise, rate_at. cbv zeta. assert (N0 : INR n <> 0) by (apply not_0_INR; lia). pose proof (INR_S_nz n) as N1. assert (B0 : INR nb <> 0) by (apply not_0_INR; lia).
  destruct (Nat.ltb_spec n nb) as [H|H].
  - rewrite !(proj2 (Nat.leb_le _ nb)) by lia. replace (S n - 1)%nat with (S (n - 1)) by lia. unfold harmonic at 1. cbn [rsum]. fold (harmonic (n - 1)). replace (S (n - 1)) with n by lia.
    rewrite S_INR in *. field. split; assumption.
  - rewrite (proj2 (Nat.leb_gt (S n) nb)) by lia. destruct (Nat.leb_spec n nb) as [H1|H1].
    + assert (n = nb) as -> by lia. replace (S nb - nb)%nat with 1%nat by lia. cbn [Nat.sub pow]. field. repeat split; solve [exact B0|lra].
    + destruct (n - nb)%nat as [|k] eqn:Ek; [lia|]. replace (S n - nb)%nat with (S (S k)) by lia. cbn [Nat.sub]. replace (2 * S k)%nat with (S k + S k)%nat by lia. rewrite pow_add. cbn [pow]. rewrite ?Nat.sub_0_r. set (q := (1 - r) ^ k). field. repeat split; solve [exact B0|lra].
Qed.
Section Diag.
  Context {Om : Type} (oms : list Om) (w : Om -> R) (p N : nat) (X : nat -> Om -> obs) (mu : obs) (Sig : rmat).
  Context (HP : probability oms w) (HW : white_noise p N oms w X mu Sig) (r : R) (nb : nat) (Hr : 0 < r <= 1) (Hb : (1 <= nb)%nat).
  Notation E := (expect oms w).
  Notation M n o := (ewa_mean r nb (draw X n o)).
  Notation V n o i := (innov_var r nb (draw X n o) i).
  Lemma innov_var_S n o i : V (S n) o i = (1 - rate_at r nb n) * V n o i + rate_at r nb n * ((X n o i - M n o i) * (X n o i - M n o i)).
  Proof. rewrite draw_S. unfold innov_var. rewrite rw_avg_snoc, draw_length. unfold rate_at, dev. destruct (Nat.ltb n nb); [unfold Rdiv; ring|ring]. Qed.
  Lemma diag_moments n i : (1 <= n <= N)%nat -> (i < p)%nat -> E (fun o => V n o i) = diag_bias r nb n * Sig i i + weight0 r nb n * (mu i * mu i).
  Proof.
    intros Hn Hi. induction n as [|n IH]; [lia|]. destruct HW as [W1 W2]. destruct (Nat.eq_dec n 0) as [->|Hn0].
    - unfold diag_bias. rewrite weight0_1 by exact Hb. rewrite (proj2 (Nat.leb_le 1 nb)) by lia. cbn [Nat.sub INR]. unfold harmonic. cbn [rsum].
      rewrite (E_ext oms w _ (fun o => (X 0%nat o i - mu i) * (X 0%nat o i - mu i) + (2 * mu i * X 0%nat o i + (- (mu i * mu i)) * 1))).
      + rewrite !E_plus, !E_scal, W2, W1 by (auto; lia). rewrite (proj2 HP), Nat.eqb_refl. field.
      + intros o. rewrite innov_var_S. unfold rate_at. rewrite (proj2 (Nat.ltb_lt 0 nb)) by lia. unfold draw, ewa_mean, burn, after. cbn [seq map INR]. rewrite firstn_nil, skipn_nil, ewm_nil, mean_nil. field.
    - destruct (moments oms w p N X mu Sig HW r nb Hr Hb n ltac:(lia)) as (A1 & A2 & A3 & _). rewrite diag_bias_S, weight0_S by (auto; lia). set (a := rate_at r nb n) in *.
      rewrite (E_ext oms w _ (fun o => (1 - a) * V n o i + (a * ((X n o i - mu i) * (X n o i - mu i)) + (a * ((M n o i - mu i) * (M n o i - mu i)) + (- 2 * a) * ((M n o i - mu i) * (X n o i - mu i)))))) by (intros; rewrite innov_var_S; fold a; ring).
      rewrite !E_plus, !E_scal, IH, W2, A3, A2 by (auto; lia). rewrite Nat.eqb_refl. unfold a, rate_at. destruct (Nat.ltb n nb); ring.
  Qed.
End Diag.
(** DiagonalCovariance of white noise: its first innovation is taken about 0, so the mean itself leaks into the variances with weight 1/n; centred data are overstated by the factor diag_bias >= 1 throughout. *)
Theorem C111_diagonal {Om} (oms : list Om) w p N X mu Sig r diff (rows : Om -> list (vec NumX)) n : 0 < r <= 1 ->
  probability oms w -> white_noise p N oms w X mu Sig -> (1 <= n <= N)%nat -> (forall o, observes p diff (rows o) (draw X n o)) ->
  exists (M : Om -> obs) (V : Om -> rmat),
    (forall o, exists e, fitted_on (C := Diagonal) (EWA r diff) (rows o) e /\ location_ e = Ok (fv p (M o)) /\ covariance_ e = Ok (fm p p (V o))) /\
    (forall i, (i < p)%nat -> expect oms w (fun o => M o i) = mu i) /\
    (forall i j, (i < p)%nat -> (j < p)%nat -> expect oms w (fun o => V o i j) =
       if Nat.eqb i j then diag_bias r (burn_len r) n * Sig i i + weight0 r (burn_len r) n * (mu i * mu i) else 0).
Proof.
  intros Hr HP HW Hn Ho. pose proof (burn_len_bounds r) as Hb. destruct (moments oms w p N X mu Sig HW r (burn_len r) Hr ltac:(lia) n Hn) as (A1 & _).
  exists (fun o => ewa_mean r (burn_len r) (draw X n o)), (fun o i j => if Nat.eqb i j then innov_var r (burn_len r) (draw X n o) i else 0). split; [|split; [exact A1|]].
  - intros o. assert (Hx : draw X n o <> []) by (intros E; pose proof (draw_length X n o) as L; rewrite E in L; cbn in L; lia).
    destruct (Diagonal_run p r diff (rows o) (draw X n o) ltac:(lra) (Ho o) Hx) as (e & E1 & _ & E3 & E4 & _). exists e. auto.
  - intros i j Hi Hj. destruct (Nat.eqb_spec i j) as [<-|D].
    + apply (diag_moments oms w p N X mu Sig HP HW r (burn_len r) Hr); auto; lia.
    + rewrite (E_ext oms w _ (fun _ => 0 * 0)) by (intros; ring). rewrite E_scal. ring.
Qed.
(** DCCCovariance: as long as neither of its floors (1e-12 on the variances and on the quasi-correlations) is active, its variances are those of DiagonalCovariance at the volatility rate. *)
Theorem C111_dcc_variances {Om} (oms : list Om) w p N X mu Sig r vol_r diff (rows : Om -> list (vec NumX)) n :
  let rv := match vol_r with Some v => v | None => r end in let nb := burn_len (Rmin r rv) in 0 < r <= 1 -> 0 < rv <= 1 ->
  probability oms w -> white_noise p N oms w X mu Sig -> (1 <= n <= N)%nat -> (forall o, observes p diff (rows o) (draw X n o)) ->
  (forall o i, In o oms -> (i < p)%nat -> e12 <= dcc_quasi r rv nb (draw X n o) i i /\ e12 <= dcc_variance rv nb (draw X n o) i) ->
  exists (V : Om -> rmat),
    (forall o, exists e, fitted_on (C := DCC) (DCCP r vol_r diff) (rows o) e /\ covariance_ e = Ok (fm p p (V o))) /\
    (forall i, (i < p)%nat -> expect oms w (fun o => V o i i) = diag_bias rv nb n * Sig i i + weight0 rv nb n * (mu i * mu i)).
Proof.
  intros rv nb Hr Hv HP HW Hn Ho Hf. pose proof (burn_len_bounds (Rmin r rv)) as Hb. fold nb in Hb.
  set (D o i := floored_vol (dcc_variance rv nb (draw X n o) i)). set (Q o := dcc_quasi r rv nb (draw X n o)).
  assert (Hx : forall o, draw X n o <> []) by (intros o E; pose proof (draw_length X n o) as L; rewrite E in L; cbn in L; lia).
  exists (fun o i j => Q o i j / (floored_vol (Q o i i) * floored_vol (Q o j j)) * (D o i * D o j)). split.
  - intros o. destruct (C39_dcc_composition p r vol_r diff (rows o) (draw X n o) Hr Hv (Ho o) (Hx o)) as (e & Rm & F1 & _ & F3 & F4 & _).
    exists e. split; [exact F1|]. cbv zeta in F3, F4. fold rv in F3, F4. fold nb in F3, F4. rewrite F3. f_equal. apply fm_ext. intros i j _ _. rewrite F4. reflexivity.
  - intros i Hi. rewrite (E_ext_in oms w _ (fun o => innov_var rv nb (draw X n o) i)).
    + apply (diag_moments oms w p N X mu Sig HP HW rv nb Hv); auto; lia.
    + intros o Io. destruct (Hf o i Io Hi) as [H1 H2]. destruct (C39_dcc_composition p r vol_r diff (rows o) (draw X n o) Hr Hv (Ho o) (Hx o)) as (e & Rm & _ & _ & _ & F4 & _ & _ & _ & F8).
      specialize (F8 i H1 H2). cbv zeta in F8, F4. rewrite F4 in F8. exact F8.
Qed.
Lemma harmonic_nonneg n : 0 <= harmonic n.
Proof. unfold harmonic. apply rsum_nonneg. intros. left. apply Rinv_0_lt_compat, lt_0_INR. lia. Qed.
(** never below the truth, and the same limit 2/(2-r) as EwaCovariance; the leak of the mean dies out *)
Theorem C111_diagonal_limits r nb : 0 < r <= 1 -> (1 <= nb)%nat ->
  (forall n, (1 <= n)%nat -> 1 <= diag_bias r nb n) /\ Un_cv (diag_bias r nb) (2 / (2 - r)) /\ Un_cv (weight0 r nb) 0.
Proof.
  intros Hr Hb. assert (B1 : 1 <= INR nb) by (replace 1 with (INR 1) by reflexivity; now apply le_INR).
  assert (B0 : 0 < / INR nb <= 1). { split; [apply Rinv_0_lt_compat; lra|]. rewrite <- Rinv_1. apply Rinv_le_contravar; lra. }
  assert (R0 : 0 < r / (2 - r) <= 1). { split; [apply Rdiv_lt_0_compat; lra|]. apply Rmult_le_reg_r with (2 - r); [lra|]. unfold Rdiv. rewrite Rmult_assoc, Rinv_l by lra. lra. }
  assert (R1 : 2 / (2 - r) = 1 + r / (2 - r)) by (field; lra). split; [|split].
  - induction n as [|n IH]; [lia|]. intros _. destruct (Nat.eq_dec n 0) as [->|Hn].
    + unfold diag_bias. rewrite (proj2 (Nat.leb_le 1 nb)) by lia. cbn [Nat.sub INR]. unfold harmonic. cbn [rsum]. lra.
    + specialize (IH ltac:(lia)). rewrite diag_bias_S by (auto; lia).
      assert (K : 0 <= rate_at r nb n <= 1). { unfold rate_at. destruct (Nat.ltb n nb); [|lra]. pose proof (inv_S_range n). lra. }
      assert (NN : 0 <= noise r nb n).
      { clear IH. destruct n as [|n]; [lia|]. clear Hn. induction n as [|n IHn].
        - unfold noise. rewrite (proj2 (Nat.leb_le 1 nb)) by lia. cbn [INR]. lra.
        - rewrite noise_S by (auto; lia). apply Rplus_le_le_0_compat; [apply Rmult_le_pos; [apply pow2_ge_0|]|apply pow2_ge_0]. apply IHn. unfold rate_at. destruct (Nat.ltb (S n) nb); [|lra]. pose proof (inv_S_range (S n)). lra. }
      set (a := rate_at r nb n) in *. apply Rle_trans with ((1 - a) * 1 + a * 1); [lra|]. apply Rplus_le_compat; apply Rmult_le_compat_l; lra.
  - set (h := harmonic (nb - 1) / INR nb). pose proof (harmonic_nonneg (nb - 1)) as HN. assert (H0 : 0 <= h) by (unfold h, Rdiv; apply Rmult_le_pos; lra).
    apply (pow_cv r nb _ _ (4 + h) Hr ltac:(lra)). intros n Hn. unfold diag_bias. rewrite (proj2 (Nat.leb_gt n nb)) by lia. cbv zeta. fold h. destruct (n - nb)%nat as [|k] eqn:Ek; [lia|]. replace (S k - 1)%nat with k by lia. rewrite R1.
    cbn [pow]. set (q := (1 - r) ^ k). assert (Q : 0 <= q) by (apply pow_le; lra). pose proof (pow_incr (1 - r) 1 k ltac:(lra)) as Q1. rewrite pow1 in Q1. fold q in Q1.
    set (a := r / (2 - r)) in *. set (b := / INR nb) in *. clearbody a b q h.
    replace (1 + a + (1 - r) * q * (1 + h - (1 + a)) + (b - a) * (q * (1 - (1 - r) * q)) - (1 + a)) with (((1 - r) * (h - a) + (b - a) * (1 - (1 - r) * q)) * q) by ring.
    rewrite Rabs_mult, (Rabs_right q) by lra. apply Rmult_le_compat_r; [exact Q|].
    assert (X2 : 0 <= (1 - r) * q <= 1) by (apply prod_le1; lra).
    assert (X3 : Rabs ((b - a) * (1 - (1 - r) * q)) <= 1). { rewrite Rabs_mult. apply prod_le1; (split; [apply Rabs_pos|apply Rabs_le; lra]). }
    assert (X4 : Rabs ((1 - r) * (h - a)) <= h + 1). { rewrite Rabs_mult, (Rabs_right (1 - r)) by lra. apply Rle_trans with (1 * Rabs (h - a)); [apply Rmult_le_compat_r; [apply Rabs_pos|lra]|]. rewrite Rmult_1_l. apply Rabs_le. lra. }
    eapply Rle_trans; [apply Rabs_triang|]. lra.
  - apply (pow_cv r nb _ _ 1 Hr ltac:(lra)). intros n Hn. unfold weight0. replace (Nat.min n nb) with nb by lia. rewrite Rminus_0_r. unfold Rdiv.
    replace (n - nb)%nat with ((n - nb - 1) + 1)%nat at 1 by lia. rewrite pow_add, pow_1, Rmult_assoc, Rmult_comm, Rabs_mult. pose proof (pow_le (1 - r) (n - nb - 1) ltac:(lra)) as P. rewrite (Rabs_right ((1 - r) ^ (n - nb - 1))) by lra.
    apply Rmult_le_compat_r; [exact P|]. pose proof (prod_le1 (1 - r) (/ INR nb) ltac:(lra) ltac:(lra)). rewrite Rabs_right; lra.
Qed.
Example C111_diagonal_witness : diag_bias (1 / 10) 20 2 = 3 / 2 /\ weight0 (1 / 10) 20 2 = 1 / 2 /\ bias (1 / 10) 20 2 = 1 / 2.
Proof. unfold diag_bias, weight0, bias, harmonic. cbn. repeat split; field. Qed.
(** the floors are inactive: one row of signs *)
Example C111_dcc_witness r rv nb : (1 <= nb)%nat ->
  forall o i, In o (signs 1) -> e12 <= dcc_quasi r rv nb (draw (fun t o _ => nth t o 0) 1 o) i i /\ e12 <= dcc_variance rv nb (draw (fun t o _ => nth t o 0) 1 o) i.
Proof.
  intros Hb o i Ho. assert (L : e12 <= 1) by (unfold e12; lra).
  assert (Sq : nth 0 o 0 * nth 0 o 0 = 1) by (destruct Ho as [<-|[<-|[]]]; cbn [nth]; ring).
  assert (V1 : dcc_variance rv nb (draw (fun t o _ => nth t o 0) 1 o) i = 1).
  { unfold dcc_variance. rewrite innov_var_S by exact Hb. unfold rate_at. rewrite (proj2 (Nat.ltb_lt 0 nb)) by lia. unfold draw, ewa_mean, burn, after. cbn [seq map INR]. rewrite firstn_nil, skipn_nil, ewm_nil, mean_nil. rewrite Rinv_1. transitivity (nth 0 o 0 * nth 0 o 0); [ring|exact Sq]. }
  split; [|now rewrite V1].
  unfold dcc_quasi. change (draw (fun t o _ => nth t o 0) 1 o) with (([] : list obs) ++ [fun _ => nth 0 o 0])%list. rewrite rw_avg_snoc. cbn [length]. rewrite (proj2 (Nat.ltb_lt 0 nb)) by lia.
  unfold dcc_residual. change (([] : list obs) ++ [fun _ => nth 0 o 0])%list with (draw (fun t o (_ : nat) => nth t o 0) 1 o). rewrite V1.
  assert (F1 : floored_vol 1 = 1) by (unfold floored_vol; rewrite Rmax_left by exact L; apply sqrt_1). rewrite F1.
  unfold dev, ewa_mean, burn, after. rewrite firstn_nil, skipn_nil, ewm_nil, mean_nil. unfold Rdiv. rewrite !Rminus_0_r, Rinv_1, !Rmult_1_r, Sq. cbn [INR]. lra.
Qed.
